(** Series of commutators return: the terms they start with, and their amplitudes, are accepted. *)
From Coq Require Import Ascii String ZArith QArith Qcanon Sorting.Sorted Lia.
From Verif Require BacktrackProofs SortProofs.
From Verif Require Import PyBase OrderSpec OrderProofs ParitySpec SpaceModel IndexModel IndicesModel IterProofs IndicesProofs SpaceProofs ElemModel ElemSpec CompatSpec MacroModel WickModel WickSpec WickProofs TermModel ValueSpec ValueProofs TermSpec SumProofs TermProofs RenameProofs
  DriverProofs ConnectedProofs CommProofs OperatorProofs SimplifyProofs SimplifyValue SymmetryModel SymmetrySpec SympyValue SympyShape CombineModel BchModel CombineSpec CombineProofs CombineValue PropSimplify PropWick PropCanon ScheduleProofs BchLoop ContractSpec ContractValue ClosureProofs LevelProofs
  PropOperator LevelProofs SeriesProofs ReturnSpec ReturnProofs SimplifyReturns ContractReturns ContractReturnSpec.
Local Close Scope Q_scope.
Local Close Scope Qc_scope.
Local Open Scope nat_scope.
Local Notation length := List.length.

(** ** Acceptable terms *)
Lemma contractible_regular t : contractible t -> regular t.
Proof.
  intros [[M P L O V AC B] D BD AL K C Q]. constructor; try assumption. constructor.
  - unfold op_indices. rewrite <- app_assoc. exact L.
  - exact D.
  - intros x Hx. split; [exact (K x Hx)|]. intros E i Hi. exact (C x i Hx E Hi).
Qed.
Lemma contractible_fit t : contractible t -> fit (tsq t) (ttensors t).
Proof.
  intros [[M P L O V AC B] D BD AL K C Q]. split; [|split].
  - intros i Hi. unfold content_indices in Hi. apply in_app_or in Hi as [Hi|Hi].
    + destruct O as [O1 O2]. rewrite Forall_forall in O1, O2. apply in_app_or in Hi as [Hi|Hi]; [exact (O1 i Hi)|exact (O2 i Hi)].
    + apply in_flat_map in Hi as (x & Hx & Hi). exact (AL x i Hx Hi).
  - apply Forall_forall. intros x Hx. destruct (BD x Hx) as [E N]. split; [exact E|]. destruct (tupper x); [contradiction|]. rewrite <- E. cbn. lia.
  - exact Q.
Qed.
Lemma regular_contractible t : regular t -> fit (tsq t) (ttensors t) -> contractible t.
Proof.
  intros R (F1 & F2 & F3). pose proof (regular_standard _ R) as ST. destruct R as [M [T1 T2 T3] O V B]. constructor; [exact ST|exact T2| | |intros x Hx; apply T3, Hx| |exact F3].
  - intros x Hx. rewrite Forall_forall in F2. destruct (F2 x Hx) as [E L]. split; [exact E|]. intros Q. rewrite Q in E. cbn in E. lia.
  - intros x i Hx Hi. apply F1. unfold content_indices. apply in_or_app. right. apply in_flat_map. exists x. auto.
  - intros x i Hx E Hi. exact (proj2 (T3 x Hx) E i Hi).
Qed.
Lemma contractible_clean t base : contractible t -> incl (ttensors t) base -> clean base t.
Proof.
  intros H I. pose proof (cb_standard _ H) as ST. split; [apply (standard_type _ ST)|]. intros y Hy. destruct (standard_fields _ ST) as (_ & F & _). split.
  - rewrite Forall_forall in F. apply F, Hy.
  - exists y. split; [|auto]. apply in_or_app. left. apply I, Hy.
Qed.
Lemma contractible_workable t base N : contractible t -> incl (ttensors t) base -> small N t -> workable base N t.
Proof. intros H I S. constructor; [apply contractible_regular, H|apply contractible_fit, H|exact S|apply contractible_clean; assumption]. Qed.
Lemma workable_contractible t base N : workable base N t -> contractible t.
Proof. intros [R F _ _]. apply regular_contractible; assumption. Qed.

(** ** The Hamiltonian of bch_cc_rsc *)
Definition fit_check (t : term) : bool :=
  forallb (fun i => negb (lbeta (fst i))) (content_indices (ttensors t) (tsq t)) &&
  forallb (fun x => (length (tupper x) =? length (tlower x)) && (1 <=? length (tlower x)) && match tcls x with TCluster => false | _ => true end) (ttensors t).
Lemma checked_fit t : fit_check t = true -> fit (tsq t) (ttensors t).
Proof.
  intros H. unfold fit_check in H. apply andb_true_iff in H as [H1 H2]. rewrite forallb_forall in H1, H2. split; [|split].
  - intros i Hi. apply negb_true_iff, H1, Hi.
  - apply Forall_forall. intros x Hx. specialize (H2 x Hx). rewrite !andb_true_iff in H2. destruct H2 as [[E L] _]. split; [apply Nat.eqb_eq, E|apply Nat.leb_le, L].
  - intros x i Hx E. specialize (H2 x Hx). rewrite E, andb_false_r in H2. discriminate.
Qed.
Lemma start_fit : exists l, bch_start = Ok l /\ forallb fit_check l = true.
Proof. eexists. split; [vm_compute; reflexivity|]. vm_compute. reflexivity. Qed.
Lemma start_workable : exists l, bch_start = Ok l /\ Forall (workable series_tensors 4) l.
Proof.
  destruct start_fit as (l & E & F). exists l. split; [exact E|]. pose proof (start_members l E) as M. rewrite forallb_forall in F. rewrite Forall_forall in *. intros t Ht. destruct (M t Ht) as [M1 M2 M3 _]. constructor; [exact M1|apply checked_fit, F, Ht|exact M2|exact M3].
Qed.

(** ** Amplitudes *)
Lemma cluster_fit k start ex name sc hl pl tm : 1 <= k -> lbeta hl = false -> lbeta pl = false -> lsp hl <> Sg -> lsp pl <> Sg ->
  cluster_operator k start ex name sc hl pl SpinOrbital = Ok tm -> fit (tsq tm) (ttensors tm).
Proof.
  intros K Bh Bp Gh Gp H. destruct (cluster_ok _ _ _ _ _ _ _ _ _ H) as (_ & _ & F3 & F4 & _). rewrite F3, F4. split; [|split].
  - intros i Hi. assert (Q : fst i = hl \/ fst i = pl).
    { unfold content_indices, op_indices, tensor_indices in Hi. cbn [flat_map tupper tlower] in Hi. rewrite app_nil_r in Hi. destruct ex; cbn [cre ann] in Hi; rewrite !in_app_iff in Hi; destruct Hi as [[Hi|Hi]|[Hi|Hi]]; apply is_range_in in Hi as [-> _]; auto. }
    destruct Q as [-> | ->]; assumption.
  - constructor; [|constructor]. unfold bodied. cbn [tupper tlower]. rewrite !length_range. lia.
  - intros x i [<-|[]] _ Hi. unfold tensor_indices in Hi. cbn [tupper tlower] in Hi. apply in_app_or in Hi as [Hi|Hi]; apply is_range_in in Hi as [-> _]; assumption.
Qed.
Lemma operators_return levels start unitary sr : Forall (fun k => 1 <= k) levels ->
  exists ts, cluster_operators levels start unitary sr = Ok ts /\ Forall (right_ok series_tensors start (start + list_max levels * 2)) ts.
Proof.
  intros K. rewrite Forall_forall in K. set (hl := Lab false (if sr then Sc else Sh)). set (pl := Lab false (if sr then Sv else Sp)).
  assert (G : forall ex (sg : Qc) l, incl l levels -> exists ts, pymap (fun k => cluster_operator k start ex "T" sg hl pl SpinOrbital) l = Ok ts /\ Forall (fun t => fit (tsq t) (ttensors t)) ts).
  { intros ex sg l. induction l as [|k l IH]; intros IL; [exists []; split; [reflexivity|constructor]|]. destruct IH as (ts & E & F); [intros x Hx; apply IL; right; exact Hx|].
    destruct (proj2 (cluster_success k start ex "T" sg hl pl SpinOrbital)) as [t Et]; [right; split; reflexivity|]. exists (t :: ts). cbn [pymap]. rewrite Et. cbn [pybind]. rewrite E. split; [reflexivity|]. constructor; [|exact F].
    apply (cluster_fit k start ex "T" sg hl pl); try reflexivity; [apply K, IL; left; reflexivity|destruct sr; discriminate|destruct sr; discriminate|exact Et]. }
  assert (exists ts, cluster_operators levels start unitary sr = Ok ts /\ Forall (fun t => fit (tsq t) (ttensors t)) ts) as (ts & E & F).
  { unfold cluster_operators. cbv zeta. destruct (G true (Q2Qc 1) levels (fun x Hx => Hx)) as (ts1 & E1 & F1). destruct (G false (Q2Qc (-1 # 1)) levels (fun x Hx => Hx)) as (ts2 & E2 & F2). unfold hl, pl in E1, E2. rewrite E1. cbn [pybind]. destruct unitary; [rewrite E2; cbn [pybind]; exists (ts1 ++ ts2); split; [reflexivity|apply Forall_app; auto]|exists ts1; auto]. }
  exists ts. split; [exact E|]. pose proof (operators_factors _ _ _ _ _ E) as O. rewrite Forall_forall in *. intros t Ht. destruct (O t Ht) as [O1 O2 _ O4 O5]. constructor; [|exact O4|exact O5]. constructor; [exact O1|apply F, Ht| |exact O2]. split; [intros i Hi; apply O4, Hi|lia].
Qed.
