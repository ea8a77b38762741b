(** No two terms of a contraction or commutator are the same up to symmetry. *)
From Coq Require Import Ascii String ZArith QArith Qcanon Sorting.Sorted Lia Bool.
From Verif Require BacktrackProofs SortProofs.
From Verif Require Import PyBase OrderSpec OrderProofs ParitySpec SpaceModel IndexModel IndexProofs IndicesModel IterProofs IndicesProofs SpaceProofs ElemModel ElemSpec CompatSpec MacroModel WickModel WickSpec WickProofs TermModel BchSpec ValueSpec ValueProofs TermSpec SumProofs TermProofs RenameProofs
  DriverProofs ConnectedProofs CommProofs OperatorProofs SimplifyProofs SimplifyValue SymmetryModel SymmetrySpec SympyValue SympyShape CombineModel BchModel CombineSpec CombineProofs CombineValue PropSimplify PropWick PropCanon ScheduleProofs ContractSpec ContractValue PropContract LoopSpec BchLoop LevelSpec ClosureProofs LevelProofs ContractReturns
  MergeSpec MergeWords MergeProofs.
Local Close Scope Q_scope.
Local Close Scope Qc_scope.
Local Open Scope nat_scope.
Local Notation length := List.length.

(** ** The relation *)
Definition same_parts (hermitian : bool) (xs : list tensor) (o : op) (xs' : list tensor) (o' : op) : Prop :=
  exists rho, (forall i, In i (content_indices xs o) -> fst (rho i) = fst i) /\ (forall i j, In i (content_indices xs o) -> In j (content_indices xs o) -> rho i = rho j -> i = j) /\
    Permutation (map rho (cre o)) (cre o') /\ Permutation (map rho (ann o)) (ann o') /\ exists ys, Permutation ys xs' /\ Forall2 (symmetric_tensor hermitian rho) xs ys.
Lemma word_content xs o : Permutation (slot_word xs o) (content_indices xs o).
Proof. apply slots_perm. Qed.
Lemma tensor_content xs o x i : In x xs -> In i (tensor_indices x) -> In i (content_indices xs o).
Proof. intros Hx Hi. unfold content_indices. apply in_or_app. right. apply in_flat_map. eauto. Qed.
Lemma parts_content h rho xs o ys xs' o' : Permutation (map rho (cre o)) (cre o') -> Permutation (map rho (ann o)) (ann o') -> Permutation ys xs' -> Forall2 (symmetric_tensor h rho) xs ys ->
  Permutation (map rho (content_indices xs o)) (content_indices xs' o').
Proof.
  intros C A P F. etransitivity; [apply Permutation_map; symmetry; apply word_content|]. etransitivity; [exact (symmetric_word h rho xs ys xs' o o' F P C A)|apply word_content].
Qed.
Lemma map_back (rho back : idx -> idx) l C : incl l C -> (forall i, In i C -> back (rho i) = i) -> map back (map rho l) = l.
Proof. intros I H. rewrite map_map. rewrite <- (map_id l) at 2. apply map_ext_in. intros i Hi. apply H, I, Hi. Qed.
Lemma same_parts_sym h xs o xs' o' : same_parts h xs o xs' o' -> same_parts h xs' o' xs o.
Proof.
  intros (rho & HL & HJ & PC & PA & ys & PY & F). set (C := content_indices xs o) in *. pose proof (parts_content h rho xs o ys xs' o' PC PA PY F) as PW. fold C in PW.
  set (back := fun j => match find (fun i => idx_eqb (rho i) j) C with Some i => i | None => j end).
  assert (HB : forall i, In i C -> back (rho i) = i).
  { intros i Hi. unfold back. destruct (find (fun k => idx_eqb (rho k) (rho i)) C) as [k|] eqn:E.
    - apply find_some in E as [Hk E]. apply idx_eqb_eq in E. apply HJ; assumption.
    - apply (find_none _ _ E) in Hi. assert (idx_eqb (rho i) (rho i) = true) by (apply idx_eqb_eq; reflexivity). congruence. }
  assert (HI : forall j, In j (content_indices xs' o') -> exists i, In i C /\ j = rho i) by (intros j Hj; rewrite <- PW in Hj; apply in_map_iff in Hj as (i & <- & Hi); eauto).
  assert (IO : incl (op_indices o) C) by (intros i Hi; unfold C, content_indices; apply in_or_app; auto).
  exists back. split; [|split; [|split; [|split]]].
  - intros j Hj. apply HI in Hj as (i & Hi & ->). rewrite HB by exact Hi. symmetry. apply HL, Hi.
  - intros j j' Hj Hj' E. apply HI in Hj as (i & Hi & ->). apply HI in Hj' as (i' & Hi' & ->). rewrite !HB in E by assumption. congruence.
  - rewrite <- PC. rewrite (map_back rho back _ C); [reflexivity| |exact HB]. intros i Hi. apply IO. unfold op_indices. apply in_or_app. auto.
  - rewrite <- PA. rewrite (map_back rho back _ C); [reflexivity| |exact HB]. intros i Hi. apply IO. unfold op_indices. apply in_or_app. auto.
  - assert (G : Forall2 (symmetric_tensor h back) ys xs).
    { assert (IX : forall x, In x xs -> incl (tensor_indices x) C) by (intros x Hx i Hi; exact (tensor_content xs o x i Hx Hi)). clearbody back C. clear - F IX HB. induction F as [|x y xs ys (E1 & E2 & E3 & E4 & S) F IH]; [constructor|]. constructor; [|apply IH; intros z Hz; apply IX; right; exact Hz].
      pose proof (IX x (or_introl eq_refl)) as I. assert (IU : incl (tupper x) C) by (intros i Hi; apply I; unfold tensor_indices; apply in_or_app; auto). assert (IL : incl (tlower x) C) by (intros i Hi; apply I; unfold tensor_indices; apply in_or_app; auto).
      split; [congruence|]. split; [congruence|]. split; [congruence|]. split; [congruence|]. destruct S as [[P1 P2]|(Hh & P1 & P2)]; [left|right].
      - rewrite <- P1, <- P2, (map_back rho back _ C IU HB), (map_back rho back _ C IL HB). split; reflexivity.
      - rewrite <- P1, <- P2, (map_back rho back _ C IU HB), (map_back rho back _ C IL HB). auto. }
    destruct (Permutation_Forall2 PY G) as (l & Pl & Fl). exists l. split; [symmetry; exact Pl|exact Fl].
Qed.
Lemma same_parts_trans h xs o xs' o' xs'' o'' : same_parts h xs o xs' o' -> same_parts h xs' o' xs'' o'' -> same_parts h xs o xs'' o''.
Proof.
  intros (rho & HL & HJ & PC & PA & ys & PY & F) (tau & HL' & HJ' & PC' & PA' & zs & PZ & F'). pose proof (parts_content h rho xs o ys xs' o' PC PA PY F) as PW.
  assert (HI : forall i, In i (content_indices xs o) -> In (rho i) (content_indices xs' o')) by (intros i Hi; rewrite <- PW; apply in_map, Hi).
  exists (fun i => tau (rho i)). split; [|split; [|split; [|split]]].
  - intros i Hi. rewrite HL' by (apply HI, Hi). apply HL, Hi.
  - intros i j Hi Hj E. apply HJ; [exact Hi|exact Hj|]. apply HJ'; [apply HI, Hi|apply HI, Hj|exact E].
  - rewrite <- map_map, PC. exact PC'.
  - rewrite <- map_map, PA. exact PA'.
  - destruct (Permutation_Forall2 (Permutation_sym PY) F') as (l & Pl & Fl). exists l. split; [rewrite <- Pl; exact PZ|]. clear - F Fl. revert l Fl. induction F as [|x y xs ys (E1 & E2 & E3 & E4 & S) F IH]; intros l Fl; inversion Fl as [|? z ? zs (E5 & E6 & E7 & E8 & S') F2]; subst; [constructor|]. constructor; [|apply IH; assumption].
    split; [congruence|]. split; [congruence|]. split; [congruence|]. split; [congruence|]. rewrite <- !(map_map rho tau). destruct S as [[P1 P2]|(Hh & P1 & P2)], S' as [[P3 P4]|(Hh' & P3 & P4)]; rewrite P1, P2; auto.
Qed.
Lemma symmetric_refl h x : symmetric_tensor h (fun i => i) x x.
Proof. repeat (split; [reflexivity|]). left. rewrite !map_id. split; reflexivity. Qed.
Lemma two_refl {B} (R : B -> B -> Prop) l : (forall x, R x x) -> Forall2 R l l.
Proof. intros H. induction l; constructor; auto. Qed.
Lemma same_parts_still h xs o xs' o' ys : Permutation (cre o) (cre o') -> Permutation (ann o) (ann o') -> Permutation ys xs' -> Forall2 (symmetric_tensor h (fun i => i)) xs ys -> same_parts h xs o xs' o'.
Proof. intros C A P F. exists (fun i => i). rewrite !map_id. repeat (split; [auto; fail|]). exists ys. auto. Qed.
Lemma same_parts_perm h xs o xs' : Permutation xs xs' -> same_parts h xs o xs' o.
Proof. intros P. apply (same_parts_still h xs o xs' o xs); [reflexivity|reflexivity|exact P|]. apply two_refl, symmetric_refl. Qed.

Definition kinds (xs : list tensor) : Prop := forall x y, In x xs -> In y xs -> tname x = tname y -> tcls x = tcls y /\ titype x = titype y /\ tpriority x = tpriority y.
Lemma kinds_alike xs ys : (forall y, In y ys -> exists x, In x xs /\ tkind y = tkind x) -> kinds xs -> kinds ys.
Proof.
  intros H K y z Hy Hz E. destruct (H y Hy) as (x & Hx & Ex). destruct (H z Hz) as (w & Hw & Ew). unfold tkind in *. injection Ex as X1 X2 X3 X4. injection Ew as W1 W2 W3 W4. destruct (K x w Hx Hw) as (Q1 & Q2 & Q3); [congruence|]. repeat split; congruence.
Qed.
Lemma alike_kind x y : alike x y -> tkind y = tkind x.
Proof. intros [A1 A2 A3 A4 _ _]. unfold tkind. congruence. Qed.
Lemma same_movable h xs0 o0 : movable h (fun o xs => kinds xs /\ same_parts h xs0 o0 xs o).
Proof.
  constructor.
  - intros o o' xs [K S] P1 P2. split; [exact K|]. eapply same_parts_trans; [exact S|]. apply (same_parts_still h xs o xs o' xs); [symmetry; exact P1|symmetry; exact P2|reflexivity|apply two_refl, symmetric_refl].
  - intros o l1 x x' l2 [K S] A Q. split.
    + apply (kinds_alike (l1 ++ x :: l2)); [|exact K]. intros y Hy. apply in_app_or in Hy as [Hy|[<-|Hy]]; [exists y; split; [apply in_or_app; auto|reflexivity]|exists x; split; [apply in_elt|apply alike_kind, A]|exists y; split; [apply in_or_app; right; right; exact Hy|reflexivity]].
    + eapply same_parts_trans; [exact S|]. apply (same_parts_still h _ o _ o (l1 ++ x' :: l2)); [reflexivity|reflexivity|reflexivity|]. apply Forall2_app; [apply two_refl, symmetric_refl|]. constructor; [|apply two_refl, symmetric_refl].
      destruct A as [A1 A2 A3 A4 _ _]. repeat (split; [assumption|]). rewrite !map_id. destruct Q as [[Q1 Q2]|(Hh & Q1 & Q2)]; [left|right]; [split; symmetry; assumption|]. split; [exact Hh|]. split; symmetry; assumption.
  - intros o l1 x y x' y' l2 [K S] A B EN EL EU E1 E2. assert (Hx : In x (l1 ++ x :: y :: l2)) by apply in_elt. assert (Hy : In y (l1 ++ x :: y :: l2)) by (apply in_or_app; right; right; left; reflexivity).
    destruct (K y x Hy Hx EN) as (K1 & K2 & K3). apply slots_split in E1 as [X1 X2]; [|rewrite (ak_lower _ _ A); symmetry; exact EL]. apply slots_split in E2 as [Y1 Y2]; [|rewrite (ak_lower _ _ B); exact EL].
    assert (Ex : x' = y) by (destruct A as [A1 A2 A3 A4 _ _], x', y; cbn in *; congruence). assert (Ey : y' = x) by (destruct B as [B1 B2 B3 B4 _ _], y', x; cbn in *; congruence). subst x' y'.
    assert (P : Permutation (l1 ++ x :: y :: l2) (l1 ++ y :: x :: l2)) by (apply Permutation_app_head; constructor). split.
    + intros a b Ha Hb. rewrite <- P in Ha, Hb. apply K; assumption.
    + eapply same_parts_trans; [exact S|]. apply same_parts_perm, P.
  - intros o xs tau [K S] T J. split.
    + apply (kinds_alike xs); [|exact K]. intros y Hy. apply in_map_iff in Hy as (x & <- & Hx). exists x. split; [exact Hx|reflexivity].
    + eapply same_parts_trans; [exact S|]. exists tau. split; [exact T|]. split; [exact J|]. split; [reflexivity|]. split; [reflexivity|]. exists (map (rename_tensor tau) xs). split; [reflexivity|]. clear. induction xs as [|x xs IH]; constructor; [|exact IH]. repeat (split; [reflexivity|]). left. split; reflexivity.
Qed.

(** ** Canonical terms *)
Definition empty (t : term) : Prop := ttensors t = [] /\ tsq t = Op [] [].
Definition reduced (sympy : sympy_oracle) (h : bool) (t : term) : Prop :=
  empty t \/ exists t0 s u, simplify true true t0 = Ok s /\ is_void s = false /\ canonicalize_sympy sympy true true h t0 = Ok u /\ same_content u t /\ ttype s = SpinOrbital /\ Forall (fun x => titype x = SpinOrbital) (ttensors s) /\
    kinds (ttensors s) /\ in_order (ttensors s) /\ length (cre (tsq s)) = length (ann (tsq s)) /\ paired (ttensors s) (tsq s) /\ same_parts h (ttensors s) (tsq s) (ttensors t) (tsq t) /\ Forall even_cumulant (ttensors t).
Lemma empty_same h xs o : same_parts h [] (Op [] []) xs o -> xs = [] /\ o = Op [] [].
Proof.
  intros (rho & _ & _ & PC & PA & ys & PY & F). inversion F; subst. apply Permutation_nil in PY. cbn [cre ann map] in PC, PA. apply Permutation_nil in PC, PA. destruct o as [c a]. cbn in PC, PA. subst. auto.
Qed.
Lemma reduced_same sympy h t t' : admissible sympy -> canonical sympy -> reduced sympy h t -> reduced sympy h t' -> same_up_to_symmetry h t t' -> same_content t t'.
Proof.
  intros AD CA R R' S. change (same_parts h (ttensors t) (tsq t) (ttensors t') (tsq t')) in S. destruct R as [[E1 E2]|R].
  - rewrite E1, E2 in S. apply empty_same in S as [S1 S2]. split; congruence.
  - destruct R' as [[E1 E2]|R'].
    + apply same_parts_sym in S. rewrite E1, E2 in S. apply empty_same in S as [S1 S2]. split; congruence.
    + destruct R as (t0 & s & u & HS & V & HC & [U1 U2] & T & TT & K & O & B & D & P & _). destruct R' as (t0' & s' & u' & HS' & V' & HC' & [U1' U2'] & T' & TT' & K' & O' & B' & D' & P' & _).
      assert (X : same_up_to_symmetry h s s') by (change (same_parts h (ttensors s) (tsq s) (ttensors s') (tsq s')); eapply same_parts_trans; [exact P|]; eapply same_parts_trans; [exact S|]; apply same_parts_sym; exact P').
      destruct (merged_canonical sympy true true h t0 t0' s s' u u') as [M1 M2]; try assumption; [congruence|rewrite T; reflexivity|rewrite T; exact TT|intros x y Hx Hy E; apply (K x y Hx Hy E)|]. split; congruence.
Qed.
Lemma reduced_set sympy h t c : reduced sympy h t -> reduced sympy h (set_coeff t c).
Proof. exact (fun H => H). Qed.
Definition formed (sympy : sympy_oracle) (h : bool) (t : term) : Prop := (reduced sympy h t /\ plain t) /\ regular t.
Lemma formed_set sympy h t c : formed sympy h t -> formed sympy h (set_coeff t c).
Proof. intros [F R]. split; [exact F|apply set_coeff_regular, R]. Qed.
Lemma order_filter f xs : in_order xs -> in_order (filter f xs).
Proof.
  unfold in_order. induction xs as [|x xs IH]; intros H; [exact H|]. cbn [map] in H. inversion H as [|? ? H1 H2]; subst. cbn [filter]. destruct (f x); [|apply IH, H1]. cbn [map]. constructor; [apply IH, H1|]. rewrite Forall_forall in *. intros k Hk. apply in_map_iff in Hk as (y & <- & Hy). apply filter_In in Hy as [Hy _]. apply H2, in_map, Hy.
Qed.
Lemma order_rename f xs : in_order xs -> in_order (map (rename_tensor f) xs).
Proof.
  unfold in_order. rewrite map_map. replace (map (fun x => key3 (rename_tensor f x)) xs) with (map key3 xs); [auto|]. apply map_ext. intros x. unfold key3, rename_tensor. cbn [tpriority tname tupper tlower]. rewrite !map_length. reflexivity.
Qed.
Lemma parts_plain h xs o xs' o' : same_parts h xs o xs' o' -> Forall plain_name xs -> Forall plain_name xs'.
Proof.
  intros (rho & _ & _ & _ & _ & ys & PY & F) H. assert (G : Forall plain_name ys). { clear PY. induction F as [|x y xs ys (_ & _ & E & _) F IH]; [constructor|]. inversion H; subst. constructor; [unfold plain_name; rewrite E; assumption|apply IH; assumption]. }
  rewrite Forall_forall in *. intros x Hx. rewrite <- PY in Hx. apply G, Hx.
Qed.
Lemma even_parts h xs o xs' o' : same_parts h xs o xs' o' -> Forall even_cumulant xs -> Forall even_cumulant xs'.
Proof.
  intros (rho & HL & _ & _ & _ & ys & PY & F) E. assert (G : Forall even_cumulant ys).
  { assert (IX : forall x, In x xs -> incl (tensor_indices x) (content_indices xs o)) by (intros x Hx i Hi; exact (tensor_content xs o x i Hx Hi)). set (C := content_indices xs o) in *. clearbody C. clear PY. induction F as [|x y xs ys (E1 & _ & _ & _ & S) F IH]; [constructor|]. inversion E as [|? ? Ex Er]; subst. constructor; [|apply IH; [exact Er|intros z Hz; apply IX; right; exact Hz]].
    pose proof (IX x (or_introl eq_refl)) as I. intros Q u l U L. rewrite E1 in Q. rewrite U, L in S.
    assert (ONE : forall a b, Permutation (map rho a) [b] -> exists i, a = [i] /\ b = rho i). { intros a b P. symmetry in P. apply Permutation_length_1_inv in P. destruct a as [|i [|? ?]]; try discriminate. injection P as <-. eauto. }
    destruct S as [[P1 P2]|(_ & P1 & P2)]; apply ONE in P1 as (i & U' & ->); apply ONE in P2 as (j & L' & ->); specialize (Ex Q i j U' L'); unfold tensor_indices in I; rewrite U', L' in I; rewrite !HL by (apply I; cbn; auto); congruence. }
  rewrite Forall_forall in *. intros x Hx. rewrite <- PY in Hx. apply G, Hx.
Qed.
Lemma simplified_even core r rho T I : simplified core T I rho -> (forall i, In i I -> rename r i = rho i) -> (forall x i, In x T -> In i (tensor_indices x) -> In i I) ->
  Forall even_cumulant (map (rename_tensor (rename r)) (filter (fun x => negb (is_delta core x)) T)).
Proof.
  intros SM RR HI. apply Forall_forall. intros y Hy. apply in_map_iff in Hy as (x & <- & Hx). apply filter_In in Hx as [Hx D]. apply negb_true_iff in D. intros E u l EU EL. cbn [rename_tensor tcls tupper tlower] in E, EU, EL.
  destruct (tupper x) as [|u0 [|? ?]] eqn:U; try discriminate. destruct (tlower x) as [|l0 [|? ?]] eqn:L; try discriminate. injection EU as <-. injection EL as <-.
  destruct (sm_cumulant _ _ _ _ SM x Hx E) as (u1 & l1 & s & U1 & L1 & DG); [rewrite U; reflexivity|]. rewrite U in U1. rewrite L in L1. injection U1 as <-. injection L1 as <-.
  assert (RQ : requests core x = [(u0, s); (l0, s)]). { unfold is_delta in D. apply orb_false_iff in D as [_ D]. unfold core_delta in D. unfold requests. rewrite E, U, L, DG in *. cbn [List.length Nat.eqb]. rewrite D. reflexivity. }
  assert (Iu : In u0 I) by (apply (HI x); [exact Hx|]; unfold tensor_indices; rewrite U, L; cbn; auto). assert (Il : In l0 I) by (apply (HI x); [exact Hx|]; unfold tensor_indices; rewrite U, L; cbn; auto).
  rewrite (RR u0 Iu), (RR l0 Il). rewrite (sm_request _ _ _ _ SM x u0 s Hx), (sm_request _ _ _ _ SM x l0 s Hx); [reflexivity|rewrite RQ; cbn; auto|rewrite RQ; cbn; auto].
Qed.
Lemma tensor_of_driver d : exists x, In x driver_tensors /\ tcls x = tcls (tensor_of d) /\ tname x = tname (tensor_of d) /\ tpriority x = tpriority (tensor_of d).
Proof. unfold tensor_of. destruct (kind d); cbn; eauto 10. Qed.
Lemma entry_kinds xs ds : consistent_names xs -> Forall (fun x => titype x = SpinOrbital) (xs ++ map tensor_of ds) -> kinds (xs ++ map tensor_of ds) /\ Forall plain_name (xs ++ map tensor_of ds).
Proof.
  intros [C1 C2] T. rewrite Forall_forall in C1, T. assert (G : forall x, In x (xs ++ map tensor_of ds) -> exists y, In y (xs ++ driver_tensors) /\ tcls y = tcls x /\ tname y = tname x /\ tpriority y = tpriority x /\ plain_name y).
  { intros x Hx. apply in_app_or in Hx as [Hx|Hx]; [exists x; split; [apply in_or_app; auto|auto]|]. apply in_map_iff in Hx as (d & <- & _). destruct (tensor_of_driver d) as (y & Hy & E1 & E2 & E3). exists y. split; [apply in_or_app; auto|]. repeat (split; [assumption|]). apply drivers_plain, Hy. }
  split.
  - intros x y Hx Hy E. destruct (G x Hx) as (x' & Hx' & X1 & X2 & X3 & _). destruct (G y Hy) as (y' & Hy' & Y1 & Y2 & Y3 & _). destruct (C2 x' y' Hx' Hy') as [Q1 Q2]; [congruence|]. split; [congruence|]. split; [rewrite (T x Hx), (T y Hy); reflexivity|congruence].
  - apply Forall_forall. intros x Hx. destruct (G x Hx) as (y & _ & _ & E & _ & P). unfold plain_name in *. rewrite <- E. exact P.
Qed.

Lemma canonical_reduced w terms hermitian c z ds sq tm : admissible (w_sympy w) -> Forall regular terms -> ForallOrdPairs apart_terms terms -> consistent_names (flat_map ttensors terms) ->
  Permutation (written_string (map tsq terms)) (flat_map density_legs ds ++ open_string sq) -> Forall density_shape ds -> Forall (crosses terms) ds ->
  canonicalize_contraction w (flat_map ttensors terms) c hermitian (z, ds, sq) = Ok tm -> formed (w_sympy w) hermitian tm.
Proof.
  intros AD RG AP CN PL SH CR H. split; [|exact (proj1 (canonical_regular w terms hermitian c z ds sq tm _ AD RG AP CN PL SH CR (le_n _) H))]. unfold canonicalize_contraction in H. destruct (make_term _ _ _ _) as [t0|] eqn:M; [|discriminate]. cbn [pybind] in H.
  assert (exists t', simplify true true t0 = Ok t') as [t' HS]. { unfold canonicalize_sympy in H. destruct (simplify true true t0) as [t'|]; [eauto|discriminate]. }
  destruct (simplified_shape terms RG AP CN ds sq PL SH CR _ t0 t' M HS) as (S1 & S2 & S3 & S4 & S5 & _).
  pose proof (regular_all terms RG) as ST. pose proof (make_term_inv _ _ _ _ _ M) as (TT & _ & _). destruct (entry_kinds _ ds CN TT) as [K0 N0]. destruct (make_term_fields _ _ _ _ _ M) as (F1 & F2 & F3 & F4 & F5 & F6 & F7 & F8 & F9 & F10).
  assert (KS : forall y, In y (ttensors t') -> exists x, In x (flat_map ttensors terms ++ map tensor_of ds) /\ tkind y = tkind x). { intros y Hy. destruct (simplify_kinds _ _ _ _ HS y Hy) as (x & Hx & E). exists x. split; [exact (Permutation_in _ F2 Hx)|exact E]. }
  assert (K : kinds (ttensors t')) by exact (kinds_alike _ _ KS K0).
  assert (NP : Forall plain_name (ttensors t')). { apply Forall_forall. intros y Hy. destruct (KS y Hy) as (x & Hx & E). rewrite Forall_forall in N0. specialize (N0 x Hx). unfold tkind in E. injection E as _ _ E _. unfold plain_name. rewrite E. exact N0. }
  assert (O0 : in_order (ttensors t0)). { unfold in_order. clear - F3. induction F3 as [|x l S IH F]; cbn [map]; constructor; [exact IH|]. rewrite Forall_forall in *. intros k Hk. apply in_map_iff in Hk as (y & <- & Hy). apply tensor_after, F, Hy. }
  assert (O : in_order (ttensors t') /\ Forall even_cumulant (ttensors t')).
  { pose proof (entry_plain terms ST AP ds sq PL) as ND. pose proof (entry_valid terms ST ds sq PL SH) as HV. pose proof (entry_disjoint terms ST AP ds sq PL) as HD.
    assert (Hd : tdiag t0 = []). { destruct (tdiag t0) as [|[i n] d]; [reflexivity|]. exfalso. apply (ND i). apply (F10 i n). left. reflexivity. }
    assert (HI0 : forall i, In i (content_indices (ttensors t0) (tsq t0)) -> In i (tindices t0)).
    { intros i Hi. apply F7. rewrite <- content_times. apply idx_times_in. unfold content_indices in *. rewrite F4 in Hi. apply in_app_or in Hi as [Hi|Hi]; apply in_or_app; [auto|right]. apply in_flat_map in Hi as (x & Hx & Hi). apply in_flat_map. exists x. split; [exact (Permutation_in _ F2 Hx)|exact Hi]. }
    destruct (simplify_inv true true t0 t' HS Hd F6 HI0) as (r & rho & SM & RR & _ & _ & D).
    - intros i Hi. apply F8. exists i. auto.
    - rewrite Forall_forall in *. intros x Hx. apply HV. exact (Permutation_in _ F2 Hx).
    - unfold densities_disjoint. eapply Permutation_NoDup; [|exact HD]. apply Permutation_flat_map, BacktrackProofs.perm_filter. symmetry. exact F2.
    - destruct D as [[_ ->]| ->]; [split; constructor|]. cbn [ttensors]. split; [apply order_rename, order_filter, O0|]. apply (simplified_even true r rho _ _ SM RR). intros x i Hx Hi. apply HI0. exact (tensor_content _ _ x i Hx Hi). }
  destruct O as [O EV].
  destruct (sympy_shape _ (w_sympy w) true true hermitian t0 t' tm (same_movable hermitian (ttensors t') (tsq t')) AD HS H) as [[_ ->]|(ys & o & c' & dummy & M' & [_ P] & _)]; try assumption.
  - rewrite S1. exact S2.
  - split; [exact K|]. apply same_parts_perm. reflexivity.
  - split; [left; split; reflexivity|constructor].
  - destruct (make_term_fields _ _ _ _ _ M') as (_ & G2 & _ & G4 & _). assert (P' : same_parts hermitian (ttensors t') (tsq t') (ttensors tm) (tsq tm)) by (eapply same_parts_trans; [exact P|]; rewrite G4; apply same_parts_perm; symmetry; exact G2).
    split; [|exact (parts_plain _ _ _ _ _ P' NP)]. destruct (is_void t') eqn:V.
    + left. unfold canonicalize_sympy in H. rewrite HS in H. cbn [pybind] in H. rewrite V in H. injection H as <-. split; reflexivity.
    + right. exists t0, t', tm. repeat (split; [assumption|]). split; [split; reflexivity|]. repeat (split; [assumption|]). exact (even_parts hermitian _ _ _ _ P' EV).
Qed.

(** ** Contractions and commutators *)
Definition merged_list (h : bool) (out : list term) : Prop := ForallOrdPairs (fun t t' => ~ same_up_to_symmetry h t t') out.
Lemma combine_live l out : combine_terms l = Ok out -> Forall (fun t => is_void t = false) out.
Proof.
  intros H. unfold combine_terms in H. destruct (collect_values l) as [items coeffs]. unfold sorted_terms in H. destruct (same_types _); [|discriminate]. injection H as <-. apply Forall_forall. intros t Ht.
  apply (Permutation_in _ (SortProofs.sort_by_perm _ _)) in Ht. apply filter_In in Ht as [_ Ht]. apply negb_true_iff, Ht.
Qed.
Lemma combine_merged sympy h l out : admissible sympy -> canonical sympy -> Forall (formed sympy h) l -> combine_terms l = Ok out -> merged_list h out /\ Forall (formed sympy h) out.
Proof.
  intros AD CA F H. pose proof (combine_all (formed sympy h) (formed_set sympy h) l out F H) as FO. split; [|exact FO].
  assert (PL : Forall plain l) by (eapply Forall_impl; [|exact F]; intros t [[_ Q] _]; exact Q). pose proof (cb_distinct _ _ (combine_combined l out PL H)) as D. clear - AD CA FO D. unfold merged_list. induction out as [|t out IH]; [constructor|]. cbn [map] in D. inversion D as [|? ? D1 D2]; subst. inversion FO as [|? ? F1 F2]; subst. constructor; [|apply IH; assumption].
  apply Forall_forall. intros t' Ht' S. rewrite Forall_forall in F2. destruct (reduced_same sympy h t t' AD CA (proj1 (proj1 F1)) (proj1 (proj1 (F2 t' Ht'))) S) as [E1 E2]. apply D1. apply in_map_iff. exists t'. split; [unfold labels; rewrite E1, E2; reflexivity|exact Ht'].
Qed.
Theorem contract_merged w terms max_cu max_o min_o sc fc eh n hermitian out :
  unordered w -> (forall l, Permutation (w_iter w l) l) -> admissible (w_sympy w) -> canonical (w_sympy w) -> Forall regular terms -> ForallOrdPairs apart_terms terms -> consistent_names (flat_map ttensors terms) ->
  2 <= length (filter (fun t => negb (op_is_empty (tsq t))) terms) ->
  contract_terms w terms max_cu max_o min_o sc fc eh n hermitian = Ok out -> merged_list hermitian out /\ Forall (formed (w_sympy w) hermitian) out.
Proof.
  intros UN IT AD CA RG AP CN LN H. pose proof (regular_all terms RG) as ST. unfold contract_terms in H. destruct terms as [|t0 ts]; [discriminate|]. set (terms := t0 :: ts) in *. clearbody terms. cbv zeta in H. assert (ST' := ST). rewrite Forall_forall in ST'.
  destruct (filter (fun t => negb (op_is_empty (tsq t))) terms) as [|t1 [|t2 tc]] eqn:F; [cbn in LN; lia|cbn in LN; lia|]. clear LN. rewrite <- F in *. set (ops := map tsq (filter (fun t => negb (op_is_empty (tsq t))) terms)) in *.
  destruct (forallb _ (filter _ terms)) in H; [|discriminate]. pose proof (standard_alpha terms ST) as Hal. pose proof (standard_distinct terms ST AP) as D. fold ops in Hal, D, H.
  assert (G : exists result (P : list econ -> Prop), compute_operator_contractions (w_pick w) (w_pick_connected w) (w_iter w) fc ops max_cu max_o min_o eh = Ok result /\ wick_sum ops eh P result /\
    (forall s, P s -> wick_set ops (cumulant_level ops max_cu) min_o max_o s)).
  { destruct fc.
    - destruct (connected_driver_ok (w_pick_connected w) ops max_cu max_o min_o eh Hal D) as (r & P & E & W & P1 & P2). exists r, P. split; [exact E|]. split; [exact W|]. intros s Hs. destruct (P1 s Hs) as (Q1 & _). exact Q1.
    - destruct (C32_entry_point (w_pick w) (w_pick_connected w) (w_iter w) ops max_cu max_o min_o eh Hal IT D) as (r & E & W). exists r, (wick_set ops (cumulant_level ops max_cu) min_o max_o). split; [exact E|]. split; [exact W|]. auto. }
  destruct G as (r & P & E & W & P1). rewrite E in H. cbn [pybind] in H. destruct (batch_loop w _ _ _ _ _ _ _ _ _ _) as [fin|] eqn:EL; [|discriminate]. cbn [pybind] in H.
  assert (AP' : ForallOrdPairs apart_terms (filter (fun t => negb (op_is_empty (tsq t))) terms)).
  { clear -AP. induction AP as [|x l F _ IH]; cbn [filter]; [constructor|]. destruct (negb _); [|exact IH]. constructor; [|exact IH]. rewrite Forall_forall in *. intros y Hy. apply filter_In in Hy. apply F, Hy. }
  assert (ST2 : Forall standard (filter (fun t => negb (op_is_empty (tsq t))) terms)) by (apply Forall_forall; intros t Ht; apply filter_In in Ht; apply ST', Ht).
  apply (combine_merged (w_sympy w) hermitian fin out AD CA); [|exact H]. apply (loop_all (formed (w_sympy w) hermitian) (formed_set (w_sympy w) hermitian) w UN _ _ hermitian _ _ r 0 0 [] [] fin) with (3 := EL); [|constructor].
  intros [[z ds] sq] t He Ht. cbn [app] in He. destruct (result_legs ops eh P _ _ _ r z ds sq P1 W He) as (L1 & L2 & _). unfold ops in L1. rewrite filter_empty_ops in L1.
  match type of Ht with canonicalize_contraction _ _ ?cc _ _ = _ => apply (canonical_reduced w terms hermitian cc z ds sq t AD RG AP CN L1) end; [exact (entry_shapes ops eh P _ _ _ r z ds sq P1 W He)| |exact Ht].
  pose proof (entry_crosses _ eh P _ _ _ r z ds sq ST2 AP' P1 W He) as CR. rewrite Forall_forall in *. intros d Hd. apply crosses_all; [apply Forall_forall; exact ST'| |apply CR, Hd|exact AP].
  intros i Hi. apply (leg_in terms ds sq L1). apply in_flat_map. exists (tensor_of d). split; [apply in_map, Hd|]. unfold tensor_indices. destruct (tensor_of_sides d) as (-> & -> & _). exact Hi.
Qed.
Theorem commutator_merged w1 w2 sympy a b max_cu max_o min_o sc fc eh n hermitian out :
  sound w1 -> sound w2 -> w_sympy w1 = sympy -> w_sympy w2 = sympy -> canonical sympy ->
  regular a -> regular b -> apart_terms a b -> consistent_names (ttensors a ++ ttensors b) -> (fc = true \/ (op_is_empty (tsq a) = false /\ op_is_empty (tsq b) = false)) ->
  single_commutator w1 w2 a b max_cu max_o min_o sc fc eh n hermitian = Ok out -> merged_list hermitian out /\ Forall (formed sympy hermitian) out.
Proof.
  intros (U1 & I1 & D1) (U2 & I2 & D2) S1 S2 CA Ra Rb AP CN NE H. unfold single_commutator in H. destruct (fc && _) eqn:Q; [injection H as <-; split; constructor|].
  assert (Ne : op_is_empty (tsq a) = false /\ op_is_empty (tsq b) = false). { destruct NE as [->|NE]; [|exact NE]. cbn [andb] in Q. apply orb_false_iff in Q. exact Q. } destruct Ne as [Na Nb].
  destruct (contract_terms w1 _ _ _ _ _ _ _ _ _) as [oa|] eqn:E1; [|discriminate]. cbn [pybind] in H. destruct (contract_terms w2 _ _ _ _ _ _ _ _ _) as [ob|] eqn:E2; [|discriminate]. cbn [pybind] in H.
  assert (AD : admissible sympy) by (rewrite <- S1; exact D1). assert (C1 : canonical (w_sympy w1)) by (rewrite S1; exact CA). assert (C2 : canonical (w_sympy w2)) by (rewrite S2; exact CA).
  apply (combine_merged sympy hermitian (oa ++ ob) out AD CA); [|exact H]. apply Forall_app. split.
  - apply (contract_merged w1 [a; b] _ _ _ _ _ _ _ _ _ U1 I1 D1 C1) in E1; [rewrite S1 in E1; apply E1|auto|constructor; [constructor; [exact AP|constructor]|constructor; [constructor|constructor]]|cbn [flat_map]; rewrite app_nil_r; exact CN|cbn [filter]; rewrite Na, Nb; cbn; lia].
  - apply (contract_merged w2 [b; a] _ _ _ _ _ _ _ _ _ U2 I2 D2 C2) in E2; [rewrite S2 in E2; apply E2|auto|constructor; [constructor; [intros i Hi Z; exact (AP i Z Hi)|constructor]|constructor; [constructor|constructor]]| |cbn [filter]; rewrite Na, Nb; cbn; lia].
    cbn [flat_map]. rewrite app_nil_r. destruct CN as [X1 X2]. split; [apply Forall_app; apply Forall_app in X1; tauto|]. intros x y Hx Hy. apply X2; rewrite !in_app_iff in *; tauto.
Qed.
Theorem linear_merged sympy hermitian sc lefts rights out : admissible sympy -> canonical sympy ->
  (forall l r o, In l lefts -> In r rights -> sc l r = Ok o -> Forall (formed sympy hermitian) o) ->
  linear_commutator sc lefts rights = Ok out -> merged_list hermitian out /\ Forall (formed sympy hermitian) out.
Proof.
  intros AD CA HS H. unfold linear_commutator in H. destruct (pymap _ lefts) as [lls|] eqn:E1; [|discriminate]. cbn [pybind] in H. apply (combine_merged sympy hermitian (concat lls) out AD CA); [|exact H]. clear H out.
  apply pymap_results in E1. induction E1 as [|l o ls os E _ IH]; [constructor|]. cbn [concat]. apply Forall_app. split; [|apply IH; intros; eapply HS; [right|..]; eassumption].
  destruct (pymap _ rights) as [rs|] eqn:E2; [|discriminate]. cbn [pybind] in E. injection E as <-. apply pymap_results in E2. clear IH. assert (HI : forall r, In r rights -> forall o, sc l r = Ok o -> Forall (formed sympy hermitian) o) by (intros r Hr o; apply HS; [left; reflexivity|exact Hr]). clear HS.
  induction E2 as [|r o rs' os' E _ IH]; [constructor|]. cbn [concat]. apply Forall_app. split; [apply (HI r); [left; reflexivity|exact E]|apply IH; intros; eapply HI; [right|]; eassumption].
Qed.
