(** Terms of commutators can be printed. *)
From Coq Require Import Ascii String ZArith QArith Qcanon Sorting.Sorted Lia Bool Ring_theory Ring.
From Verif Require BacktrackProofs SortProofs.
From Verif Require Import PyBase OrderSpec OrderProofs ParitySpec SpaceModel IndexModel IndicesModel IterProofs IndicesProofs SpaceProofs ElemModel ElemSpec CompatSpec MacroModel WickModel WickSpec WickProofs TermModel ValueSpec ValueProofs TermSpec SumProofs TermProofs RenameProofs
  DriverProofs ConnectedProofs CommProofs OperatorProofs SimplifyProofs SimplifyValue SymmetryModel SymmetrySpec SympyValue SympyShape CombineModel BchModel CombineSpec CombineProofs CombineValue PropSimplify PropWick PropCanon ScheduleProofs ContractSpec ContractValue PropContract LoopSpec BchLoop LevelSpec ClosureProofs LevelProofs.
Local Close Scope Q_scope.
Local Close Scope Qc_scope.
Local Open Scope nat_scope.
Local Notation length := List.length.

(** no hole densities, and at least one tensor *)
Definition hole_free (t : term) : Prop := Forall (fun x => tcls x <> THole) (ttensors t).
Definition filled (t : term) : Prop := ttensors t <> [].
Definition filled_or_zero (t : term) : Prop := ttensors t = [] -> tcoeff t = Q2Qc 0.
Definition usable (t : term) : Prop := hole_free t /\ filled t.

Lemma simplify_filled core ra t t' : simplify core ra t = Ok t' -> filled_or_zero t'.
Proof.
  intros H. unfold simplify in H.
  destruct (downgrade_loop core _ _) as [[xs1 [[rcu next1] rd1]]|]; [|discriminate]. cbn [pybind] in H.
  destruct (delta_loop xs1 _) as [[xs2 [[rde next2] rd2]]|]; [|discriminate]. cbn [pybind] in H.
  destruct (diagonal_loop _ _ _ _ _) as [[r next3]|]; [|discriminate]. cbn [pybind] in H.
  destruct (replace_op_indices _ _ _) as [o|]; [|discriminate]. cbn [pybind] in H.
  destruct (if ra then _ else _) as [active|]; [|discriminate]. cbn [pybind] in H. destruct active; [injection H as <-; intros _; reflexivity|].
  destruct (replace_tensors_indices xs2 r) as [xs3|] eqn:E3; [|discriminate]. cbn [pybind] in H.
  destruct (pymap _ (tdiag t)) as [d|]; [|discriminate]. cbn [pybind] in H. injection H as <-. unfold filled_or_zero. cbn [ttensors tcoeff]. intros ->. exfalso.
  unfold replace_tensors_indices in E3. destruct xs2 as [|x0 xs2']; [discriminate|]. apply pymap_forall2 in E3. inversion E3.
Qed.
Lemma read_tensors_length dummy xs : forall gc ys, read_tensors dummy xs gc = Ok ys -> length ys = length xs.
Proof.
  induction xs as [|x xs IH]; intros gc ys H; cbn [read_tensors] in H; [injection H as <-; reflexivity|].
  repeat (match type of H with pybind ?a _ = _ => destruct a as [?|] eqn:?E; cbn [pybind] in H; [|discriminate] end). injection H as <-. cbn [length]. f_equal. eapply IH. eassumption.
Qed.
Lemma scale_zero z : Qcmult z (Q2Qc 0) = Q2Qc 0.
Proof. ring. Qed.
Lemma canonicalize_filled sympy core ra h t tm : canonicalize_sympy sympy core ra h t = Ok tm -> filled_or_zero tm.
Proof.
  intros H. unfold canonicalize_sympy in H. destruct (simplify core ra t) as [t'|] eqn:E; [|discriminate]. cbn [pybind] in H. pose proof (simplify_filled _ _ _ _ E) as K.
  destruct (is_void t'); [injection H as <-; intros _; reflexivity|].
  cbv zeta in H. repeat (match type of H with pybind ?a _ = _ => destruct a as [?|] eqn:?E; cbn [pybind] in H; [|discriminate] | match ?a with Some _ => _ | None => _ end = _ => destruct a; [|discriminate] end).
  destruct (make_term_fields _ _ _ _ _ H) as (_ & F2 & _ & _ & F5 & _). intros N. rewrite F5, K; [apply scale_zero|]. rewrite N in F2. apply Permutation_nil in F2.
  match goal with E : read_tensors _ _ _ = Ok _ |- _ => apply read_tensors_length in E; rewrite F2 in E end. destruct (ttensors t'); [reflexivity|discriminate].
Qed.
Lemma canonicalize_holes sympy core ra h t tm : canonicalize_sympy sympy core ra h t = Ok tm -> hole_free t -> hole_free tm.
Proof.
  intros H F. destruct (canonicalize_kinds _ _ _ _ _ _ H) as (_ & K & _). unfold hole_free in *. rewrite Forall_forall in *. intros y Hy. destruct (K y Hy) as (x & Hx & E). unfold tkind in E. assert (Q : tcls y = tcls x) by congruence. rewrite Q. apply F, Hx.
Qed.

(** ** Sums of like terms *)
Lemma like_empty t l : ttensors t = [] -> Forall filled_or_zero l -> total t l = Q2Qc 0.
Proof.
  intros N F. unfold total, Qc_total. assert (G : forall x, In x (like t l) -> tcoeff x = Q2Qc 0).
  { intros x Hx. unfold like in Hx. apply filter_In in Hx as [Hx Q]. rewrite Forall_forall in F. apply (F x Hx). destruct (labels_dec (labels x) (labels t)) as [E|]; [|discriminate]. unfold labels in E. rewrite N in E. injection E as E _ _. destruct (ttensors x); [reflexivity|discriminate]. }
  induction (like t l) as [|x m IH]; [reflexivity|]. cbn [map fold_right]. rewrite (G x (or_introl eq_refl)), IH by (intros; apply G; right; assumption). ring.
Qed.
Lemma combine_filled l out : Forall plain l -> Forall filled_or_zero l -> combine_terms l = Ok out -> Forall filled out.
Proof.
  intros P F H. pose proof (combine_combined l out P H) as C. apply Forall_forall. intros t Ht N. destruct (cb_source _ _ C t Ht) as (l1 & t0 & l2 & _ & _ & E & V). rewrite E in N. cbn [ttensors set_coeff] in N. rewrite (like_empty t0 l N F) in V.
  apply (Qclt_not_le (Qc_abs (Q2Qc 0)) tiny); [reflexivity|exact V].
Qed.
Lemma filled_zero t : filled t -> filled_or_zero t.
Proof. intros F N. contradiction. Qed.

(** ** Loops over the batches *)
Section Loops.
  Context (P : term -> Prop) (HC : forall l out, Forall P l -> combine_terms l = Ok out -> Forall P out).
  Context (w : world) (UN : unordered w) (tensors : list tensor) (c : Qc) (h : bool).
  Local Notation can := (canonicalize_contraction w tensors c h).
  Lemma batch_each k n es s out : (forall e t, In e es -> can e = Ok t -> P t) -> canonicalize_contractions_batch w k n es tensors c s h = Ok out -> Forall P out.
  Proof.
    intros G H. unfold canonicalize_contractions_batch in H. destruct es as [|e es]; [injection H as <-; constructor|]. destruct (pymap can (e :: es)) as [rs|] eqn:R; [|discriminate]. cbn [pybind] in H. cbv zeta in H.
    assert (F : Forall P rs).
    { apply pymap_forall2 in R. clear -R G. revert G. induction R as [|e1 t l m E _ IH]; intros G; constructor; [apply (G e1); [left; reflexivity|exact E]|apply IH; intros; eapply G; [right|]; eassumption]. }
    assert (F' : Forall P (if n =? 1 then rs else w_sched w k rs)).
    { destruct (n =? 1); [exact F|]. rewrite Forall_forall in *. intros t Ht. apply F. exact (Permutation_in _ (UN k rs) Ht). }
    destruct s; [exact (HC _ _ F' H)|]. injection H as <-. exact F'.
  Qed.
  Lemma loop_each n bs batches : forall k count es out fin, (forall e t, In e (es ++ concat batches) -> can e = Ok t -> P t) -> Forall P out ->
    batch_loop w k n bs tensors c h batches count es out = Ok fin -> Forall P fin.
  Proof.
    induction batches as [|b batches IH]; intros k count es out fin G F H; cbn [batch_loop] in H.
    - destruct (canonicalize_contractions_batch _ _ _ _ _ _ _ _) as [r|] eqn:E; [|discriminate]. cbn [pybind] in H. injection H as <-. apply Forall_app. split; [exact F|]. eapply batch_each; [|exact E]. intros e t He. apply G. apply in_or_app. auto.
    - cbv zeta in H. cbn [concat] in G. destruct (_ <? _).
      + apply (IH k _ _ _ _) in H; [exact H| |exact F]. intros e t He. apply G. rewrite !in_app_iff in *. tauto.
      + destruct (canonicalize_contractions_batch _ _ _ _ _ _ _ _) as [r|] eqn:E; [|discriminate]. cbn [pybind] in H. apply (IH (S k) _ _ _ _) in H; [exact H| |].
        * intros e t He. apply G. cbn [app] in He. rewrite !in_app_iff. tauto.
        * apply Forall_app. split; [exact F|]. eapply batch_each; [|exact E]. intros e t He. apply G. rewrite !in_app_iff in *. tauto.
  Qed.
End Loops.

(** ** Contractions *)
Lemma expand_kinds ds z l : In (z, l) (expand_hole_densities ds) -> Forall (fun d => kind d <> KHole) l.
Proof.
  intros H. unfold expand_hole_densities in H.
  assert (G : forall bad e, In e (iproduct (map expand_hole_density bad)) -> Forall (fun d => kind d <> KHole) e).
  { clear. induction bad as [|d bad IH]; cbn [map iproduct]; intros e H; [destruct H as [<-|[]]; constructor|].
    apply in_flat_map in H as (y0 & Hy0 & H). apply in_map_iff in H as (e' & <- & H). constructor; [|apply IH, H]. unfold expand_hole_density in Hy0. destruct (_ || _)%bool; destruct Hy0 as [<-|Hy0]; try destruct Hy0 as [<-|[]]; try destruct Hy0; discriminate. }
  assert (K : Forall (fun d => kind d <> KHole) (filter (fun d => negb (is_hole d)) ds)) by (apply Forall_forall; intros d Hd; apply filter_In in Hd as [_ Hd]; unfold is_hole in Hd; destruct (kind d); discriminate).
  destruct (map expand_hole_density (filter is_hole ds)) as [|x xs] eqn:E.
  - destruct H as [[= <- <-]|[]]. destruct (filter is_hole ds) eqn:B; [|discriminate]. apply Forall_forall. intros d Hd Q. assert (I : In d (filter is_hole ds)) by (apply filter_In; unfold is_hole; rewrite Q; auto). rewrite B in I. destruct I.
  - rewrite <- E in *. apply in_map_iff in H as (e & [= _ <-] & H). apply Forall_app. split; [exact K|apply (G _ _ H)].
Qed.
Lemma entry_kinds ops (P : list econ -> Prop) r z ds sq : wick_sum ops true P r -> In (z, ds, sq) (concat r) -> Forall (fun d => kind d <> KHole) ds.
Proof.
  intros (sets & blocks & _ & F & E) H. rewrite E in H. apply in_concat in H as [b [Hb H]]. destruct (Forall2_in_r _ _ _ _ F Hb) as [s [Hs Es]]. destruct Es as (cons & sign & sq' & PC & _ & ->). apply in_map_iff in H as [[z' ds'] [[= _ <- _] H]]. exact (expand_kinds _ _ _ H).
Qed.
Theorem contract_usable w terms max_cu max_o min_o sc fc n hermitian out :
  unordered w -> (forall l, Permutation (w_iter w l) l) -> Forall standard terms -> ForallOrdPairs apart_terms terms -> consistent_names (flat_map ttensors terms) ->
  (let c := fold_left (fun c t => Qcmult c (tcoeff t)) terms sc in c = Q2Qc 0 \/ Qcle tiny (Qc_abs c)) -> Forall usable terms ->
  contract_terms w terms max_cu max_o min_o sc fc true n hermitian = Ok out -> Forall usable out.
Proof.
  cbv zeta. intros UN IT ST AP CN HC US H. unfold contract_terms in H. destruct terms as [|t0 ts]; [discriminate|]. assert (H0 : In t0 (t0 :: ts)) by (left; reflexivity). set (terms := t0 :: ts) in *. clearbody terms. cbv zeta in H.
  assert (HF : Forall (fun x => tcls x <> THole) (flat_map ttensors terms)).
  { apply Forall_forall. intros x Hx. apply in_flat_map in Hx as (t & Ht & Hx). rewrite Forall_forall in US. destruct (US t Ht) as [U _]. unfold hole_free in U. rewrite Forall_forall in U. exact (U x Hx). }
  assert (NE : flat_map ttensors terms <> []). { intros Q. rewrite Forall_forall in US. destruct (US t0 H0) as [_ U]. apply U. destruct (ttensors t0) as [|x xs] eqn:E; [reflexivity|]. exfalso. assert (I : In x (flat_map ttensors terms)) by (apply in_flat_map; exists t0; split; [exact H0|rewrite E; left; reflexivity]). rewrite Q in I. destruct I. }
  assert (SE : forall ty o c t, make_term ty (flat_map ttensors terms) o c = Ok t -> usable t).
  { intros ty o c t M. destruct (make_term_fields _ _ _ _ _ M) as (_ & F2 & _). split.
    - unfold hole_free. rewrite Forall_forall in *. intros x Hx. apply HF. exact (Permutation_in _ F2 Hx).
    - intros Q. rewrite Q in F2. apply Permutation_nil in F2. contradiction. }
  destruct (filter (fun t => negb (op_is_empty (tsq t))) terms) as [|t1 [|t2 tc]] eqn:F.
  - destruct (make_term _ _ _ _) as [t|] eqn:M; [|discriminate]. cbn [pybind] in H. injection H as <-. constructor; [exact (SE _ _ _ _ M)|constructor].
  - destruct (make_term _ _ _ _) as [t|] eqn:M; [|discriminate]. cbn [pybind] in H. injection H as <-. constructor; [exact (SE _ _ _ _ M)|constructor].
  - rewrite <- F in *. set (ops := map tsq (filter (fun t => negb (op_is_empty (tsq t))) terms)) in *.
    destruct (forallb _ (filter _ terms)) in H; [|discriminate]. pose proof (standard_alpha terms ST) as Hal. pose proof (standard_distinct terms ST AP) as D. fold ops in Hal, D, H.
    assert (G : exists result (P : list econ -> Prop), compute_operator_contractions (w_pick w) (w_pick_connected w) (w_iter w) fc ops max_cu max_o min_o true = Ok result /\ wick_sum ops true P result).
    { destruct fc.
      - destruct (connected_driver_ok (w_pick_connected w) ops max_cu max_o min_o true Hal D) as (r & P & E & W & _). exists r, P. split; [exact E|exact W].
      - destruct (C32_entry_point (w_pick w) (w_pick_connected w) (w_iter w) ops max_cu max_o min_o true Hal IT D) as (r & E & W). exists r, (wick_set ops (cumulant_level ops max_cu) min_o max_o). split; [exact E|exact W]. }
    destruct G as (r & P & E & W). rewrite E in H. cbn [pybind] in H. destruct (batch_loop w _ _ _ _ _ _ _ _ _ _) as [fin|] eqn:EL; [|discriminate]. cbn [pybind] in H.
    set (c := fold_left (fun c t => Qcmult c (tcoeff t)) terms sc) in *. set (tensors := flat_map ttensors terms) in *.
    set (Q := fun t => good tensors c t /\ hole_free t /\ filled_or_zero t).
    assert (HQ : forall l out, Forall Q l -> combine_terms l = Ok out -> Forall (fun t => good tensors c t /\ usable t) out).
    { intros l o FQ C. assert (GL : Forall (good tensors c) l) by (eapply Forall_impl; [|exact FQ]; intros t (Q1 & _); exact Q1). destruct (good_combine tensors CN c HC l GL) as (o' & EO & GO & _). rewrite C in EO. injection EO as <-.
      assert (HH : Forall hole_free o) by (apply (combine_all hole_free (fun t c' X => X) l o); [eapply Forall_impl; [|exact FQ]; intros t (_ & Q2 & _); exact Q2|exact C]).
      assert (HE : Forall filled o) by (apply (combine_filled l o); [exact (goods_plain tensors CN c l GL)|eapply Forall_impl; [|exact FQ]; intros t (_ & _ & Q3); exact Q3|exact C]).
      rewrite Forall_forall in *. intros t Ht. split; [auto|]. split; [apply HH, Ht|apply HE, Ht]. }
    assert (HQ' : forall l out, Forall Q l -> combine_terms l = Ok out -> Forall Q out) by (intros l o FQ C; eapply Forall_impl; [|exact (HQ l o FQ C)]; intros t (X1 & X2 & X3); split; [exact X1|split; [exact X2|apply filled_zero, X3]]).
    assert (FQ : Forall Q fin).
    { apply (loop_each Q HQ' w UN tensors c hermitian _ _ r 0 0 [] [] fin) with (3 := EL); [|constructor]. intros [[z ds] sq] t He Ht. cbn [app] in He. split; [exact (canonicalize_good w tensors c hermitian _ t Ht)|]. unfold canonicalize_contraction in Ht.
      destruct (make_term _ _ _ _) as [tt|] eqn:M; [|discriminate]. cbn [pybind] in Ht. split; [|exact (canonicalize_filled _ _ _ _ _ _ Ht)]. apply (canonicalize_holes _ _ _ _ _ _ Ht). destruct (make_term_fields _ _ _ _ _ M) as (_ & F2 & _).
      unfold hole_free. apply Forall_forall. intros x Hx. apply (Permutation_in _ F2) in Hx. apply in_app_or in Hx as [Hx|Hx]; [rewrite Forall_forall in HF; exact (HF x Hx)|]. apply in_map_iff in Hx as (d & <- & Hd).
      pose proof (entry_kinds ops P r z ds sq W He) as KD. rewrite Forall_forall in KD. specialize (KD d Hd). unfold tensor_of. destruct (kind d); [discriminate|contradiction|discriminate]. }
    eapply Forall_impl; [|exact (HQ fin out FQ H)]. intros t (_ & X). exact X.
Qed.
