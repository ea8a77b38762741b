(** C68: the values of the series of commutators of bch_cc_rsc and recursive_single_commutator. *)
From Coq Require Import Ascii String ZArith QArith Qcanon Sorting.Sorted Lia Ring_theory Ring.
From Verif Require BacktrackProofs SortProofs.
From Verif Require Import PyBase OrderSpec OrderProofs ParitySpec SpaceModel IndexModel IndicesModel IterProofs IndicesProofs SpaceProofs ElemModel ElemSpec CompatSpec MacroModel WickModel WickSpec WickProofs TermModel ValueSpec ValueProofs TermSpec SumProofs TermProofs RenameProofs
  DriverProofs ConnectedProofs CommProofs OperatorProofs SimplifyProofs SimplifyValue SymmetryModel SymmetrySpec SympyValue SympyShape CombineModel BchModel CombineSpec CombineProofs CombineValue PropSimplify PropWick PropCanon ScheduleProofs ContractSpec ContractValue PropContract LoopSpec BchLoop PropOperator ExciteModel ExciteProofs PropExcite LevelSpec ClosureProofs LevelProofs SeriesProofs PropSchedule.
Local Close Scope Q_scope.
Local Close Scope Qc_scope.
Local Open Scope nat_scope.
Local Notation length := List.length.

(** an argument given once, or level by level *)
Definition at_stage {B} (d : B) (x : B + list B) (i : nat) : B := match x with inl b => b | inr l => nth i l d end.
Lemma per_level_stage {B} (d : B) n x l : per_level n x = Ok l -> forall i, i < n -> nth i l d = at_stage d x i.
Proof.
  intros H i Hi. destruct x as [b|m]; cbn in *; [injection H as <-; rewrite nth_repeat with (n := i) (m := n) || (rewrite (nth_indep _ d b) by (rewrite repeat_length; exact Hi); apply nth_repeat)|destruct (length m =? n); [|discriminate]; injection H as <-; reflexivity].
Qed.
(** the k-body Hamiltonian without active orbitals *)
Definition inactive_part {A : qalg} (S : system) (v : tvaluation A) (k : nat) : A :=
  (inj (inv_sq k) * sum2 S (Lab false Sg) (Lab false Sg) k (fun p q =>
    if existsb (is_active S) (p ++ q) then q0 else vtensor v THamiltonian "H" q p * voper v p q))%alg.

Section Series.
  Context (A : qalg) (S : system) (v : tvaluation A).
  Add Ring alg_ring22 : (q_ring A).
  Lemma expanded_value k h ts : hamiltonian_operator k 0 SpinOrbital = Ok h -> expand_composite_indices true 0 h = Ok ts -> asum (map (term_value S v) ts) = inactive_part S v k.
  Proof.
    intros Eh H. pose proof (fun G => hamiltonian_sum A S k 0 SpinOrbital h G Eh) as HS. pose proof (fun e => hamiltonian_integrand A v k 0 SpinOrbital h e Eh) as HI.
    destruct (hamiltonian_ok k 0 SpinOrbital) as (h' & E & _ & E2 & E3 & E4 & _). rewrite Eh in E. injection E as <-.
    destruct (PropExcite.hamiltonian_made _ _ _ _ Eh) as (xs & o & c & M). destruct (make_term_fields _ _ _ _ _ M) as (_ & P & _ & F4 & F5 & _). rewrite F5 in E2. rewrite F4 in *. rewrite E3 in P. apply Permutation_length_1_inv in P. rewrite P in M. rewrite E3 in HS, HI. unfold expand_composite_indices in H. rewrite F4 in H.
    assert (N : NoDup (op_indices o)). { rewrite E4. unfold op_indices. cbn [cre ann]. apply NoDup_app_intro; try apply is_range_nodup. intros i Q Q'. apply is_range_in in Q, Q'. lia. }
    pose proof (C44_ddca_value A S v _ _ true 0 _ _ o c h ts M N H) as D. rewrite D, E2. unfold inactive_part. f_equal. rewrite <- HS. apply sum_over_ext; [|apply NoDup_nodup]. intros e _. cbv zeta. rewrite HI. cbn [negb orb].
    assert (G : forall (f : idx -> bool) l, (Z.of_nat (length (filter f l)) <=? Z.of_nat (length l))%Z = true) by (intros f l; apply Z.leb_le, inj_le; induction l as [|x l IH]; cbn; [lia|destruct (f x); cbn; lia]).
    rewrite !G. cbn [andb]. rewrite <- map_app. replace (length (filter (fun i => space_eqb (lsp (olabel S (e i))) Sa) (cre o ++ ann o)) =? 0) with (negb (existsb (is_active S) (map e (cre o ++ ann o)))).
    - destruct (existsb _ _); reflexivity.
    - unfold is_active. clear. induction (cre o ++ ann o) as [|x l IH]; [reflexivity|]. cbn [map existsb filter]. destruct (space_eqb _ _); [reflexivity|exact IH].
  Qed.
  Lemma expanded_checked k : k = 1 \/ k = 2 -> exists h ts, hamiltonian_operator k 0 SpinOrbital = Ok h /\ expand_composite_indices true 0 h = Ok ts /\ forallb start_check ts = true.
  Proof. intros [->| ->]; (eexists; eexists; split; [vm_compute; reflexivity|]; split; [vm_compute; reflexivity|]; vm_compute; reflexivity). Qed.
  Lemma combined_value k h ts out : k = 1 \/ k = 2 -> hamiltonian_operator k 0 SpinOrbital = Ok h -> expand_composite_indices true 0 h = Ok ts -> combine_terms ts = Ok out ->
    asum (map (term_value S v) out) = inactive_part S v k.
  Proof.
    intros K Eh Et Ec. rewrite <- (expanded_value k h ts Eh Et). destruct (expanded_checked k K) as (h' & ts' & Eh' & Et' & C). rewrite Eh in Eh'. injection Eh' as <-. rewrite Et in Et'. injection Et' as <-.
    assert (F : Forall (member series_tensors 4 quarter) ts). { pose proof (expand_made true 0 h ts (SeriesProofs.hamiltonian_made k h Eh) Et) as M. rewrite forallb_forall in C. rewrite Forall_forall in *. intros t Ht. apply checked_member; auto. }
    refine (proj2 (member_combine A S v series_tensors series_names (fun _ => 4) (fun _ => quarter) 0 ts out _ F Ec)). vm_compute. discriminate.
  Qed.
  Lemma start_value l : bch_start = Ok l -> asum (map (term_value S v) l) = (inactive_part S v 1 + inactive_part S v 2)%alg.
  Proof.
    intros H. unfold bch_start in H. destruct (hamiltonian_operator 1 0 SpinOrbital) as [h1|] eqn:E1; [|discriminate]. cbn [pybind] in H. destruct (expand_composite_indices true 0 h1) as [l1|] eqn:E2; [|discriminate]. cbn [pybind] in H. destruct (combine_terms l1) as [c1|] eqn:E3; [|discriminate]. cbn [pybind] in H.
    destruct (hamiltonian_operator 2 0 SpinOrbital) as [h2|] eqn:E4; [|discriminate]. cbn [pybind] in H. destruct (expand_composite_indices true 0 h2) as [l2|] eqn:E5; [|discriminate]. cbn [pybind] in H. destruct (combine_terms l2) as [c2|] eqn:E6; [|discriminate]. cbn [pybind] in H. injection H as <-.
    rewrite map_app, (asum_app A). f_equal; [apply (combined_value 1 h1 l1)|apply (combined_value 2 h2 l2)]; auto.
  Qed.
End Series.

(** ** C68 *)
(** bch_cc_rsc returns nested_level + 1 lists. The first has the value of the Hamiltonian over core and virtual orbitals. Each
    further list has the value of 1/i times the sum of the commutators of all terms of the list before with all terms of the
    cluster operator, whose indices have new numbers. Nothing is assumed of the terms in between. *)
Theorem C68_bch_levels :
  forall (A : qalg) (S : system) (v : tvaluation A) ws nested_level cluster_levels max_cu n_opens for_commutator expand_hole single_reference unitary n_process hermitian outs,
  physical S v -> no_active_amplitudes S v -> antisymmetric v -> hole_values v -> (hermitian = true -> hermitian_values v) ->
  (forall i a b, sound (fst (ws i a b)) /\ sound (snd (ws i a b))) ->
  (4 * Z.of_nat (fact nested_level) * Z.of_nat (fact (list_max cluster_levels)) ^ (2 * Z.of_nat nested_level) <= 10 ^ 15)%Z ->
  bch_cc_rsc ws nested_level cluster_levels max_cu n_opens for_commutator expand_hole single_reference unitary n_process hermitian = Ok outs ->
  length outs = Datatypes.S nested_level /\
  asum (map (term_value S v) (nth 0 outs [])) = (inactive_part S v 1 + inactive_part S v 2)%alg /\
  (forall i, i < nested_level -> exists amplitudes,
    cluster_operators cluster_levels (i * (list_max cluster_levels * 2) + 4) unitary single_reference = Ok amplitudes /\
    commutator_level S v (at_stage 0%Z max_cu i) (fst (at_stage (0, 0)%Z n_opens i)) (snd (at_stage (0, 0)%Z n_opens i)) (Qcinv (Qc_of_Z (Z.of_nat (i + 1))))
      (nth i outs []) amplitudes (nth (i + 1) outs [])) /\
  (forall i t, In t (nth i outs []) -> standard t /\ drawn_from series_tensors t /\
    (forall x, In x (tindices t) -> snd x < i * (list_max cluster_levels * 2) + 4) /\ length (tindices t) <= i * (list_max cluster_levels * 2) + 4).
Proof.
  intros A S v ws n cl cu os fc eh sr un np h outs PH NA AS HV HS WS B H. unfold bch_cc_rsc in H.
  destruct (per_level n cu) as [levels|] eqn:E1; [|discriminate]. cbn [pybind] in H. destruct (per_level n os) as [opens|] eqn:E2; [|discriminate]. cbn [pybind] in H. destruct cl as [|c0 cl0]; [discriminate|]. set (cl := c0 :: cl0) in *.
  destruct (pymap _ (seq 0 n)) as [amps|] eqn:E3; [|discriminate]. cbn [pybind] in H. destruct bch_start as [hl|] eqn:E4; [|discriminate]. cbn [pybind] in H. destruct (commutator_loop _ _ 1 hl amps) as [outs'|] eqn:E5; [|discriminate]. cbn [pybind] in H. injection H as <-.
  set (m := list_max cl) in *. set (N := fun k => k * (m * 2) + 4). rewrite <- denominator_closed in B.
  assert (LA : length amps = n) by (apply pymap_results in E3; apply Forall2_len in E3; rewrite seq_length in E3; symmetry; exact E3).
  assert (AM : forall i rs, nth_error amps i = Some rs -> i < n /\ cluster_operators cl (N i) un sr = Ok rs).
  { intros i rs Hi. assert (Li : i < n) by (rewrite <- LA; apply nth_error_Some; congruence). split; [exact Li|]. apply pymap_results in E3. assert (G : forall l l' k x y, Forall2 (fun i t => bch_amplitudes cl un sr i = Ok t) l l' -> nth_error l k = Some x -> nth_error l' k = Some y -> bch_amplitudes cl un sr x = Ok y).
    { clear. intros l l' k x y F. revert k. induction F as [|a b l l' Q _ IH]; intros [|k] X Y; try discriminate; cbn in X, Y; [congruence|eapply IH; eassumption]. }
    assert (Q : nth_error (seq 0 n) i = Some i) by (rewrite (nth_error_nth' _ 0) by (rewrite seq_length; exact Li); rewrite seq_nth by exact Li; reflexivity). exact (G _ _ _ _ _ E3 Q Hi). }
  assert (VU : forall k, k <= n -> Qcle tiny (Qc_abs (series_unit m k))).
  { intros k Hk. rewrite unit_denominator. apply inverse_visible. split; [apply denominator_pos|]. etransitivity; [apply denominator_mono, Hk|exact B]. }
  pose proof (start_members hl E4) as F0.
  destruct (levels_value A S v PH NA AS HV series_tensors series_names ws levels opens inv_nat fc eh np h HS WS N (series_unit m) (fun _ => inv_sq m) (fun k => eq_refl) from_term) with (rights := amps) (k := 0) (lp := hl) (outs := outs') as [L K].
  - intros k t t' [M1 M2 M3 M4] E. destruct (from_term_closed t t' (N k) M1 M2 E) as (C1 & C2 & C3 & C4 & C5). split; [|split; [exact C5|split; [exact C3|exact C4]]]. constructor; [exact C1|exact C2| |rewrite C3; exact M4].
    destruct M3 as [M3 M3']. split; [apply (standard_type _ (regular_standard _ C1))|]. intros y Hy. apply M3'. exact (Permutation_in _ C4 Hy).
  - exact F0.
  - intros j rs r Hj Hr. destruct (AM j rs Hj) as [_ Q]. cbn [Nat.add]. apply operators_factors in Q. rewrite Forall_forall in Q. specialize (Q r Hr). fold m in Q. replace (N j + m * 2) with (N (Datatypes.S j)) in Q by (unfold N; lia). exact Q.
  - intros j Hj. apply VU. rewrite <- LA. cbn. lia.
  - exact E5.
  - split; [cbn; lia|]. split; [exact (start_value A S v hl E4)|]. split.
    + intros i Hi. destruct (nth_error amps i) as [rs|] eqn:Ei; [|apply nth_error_None in Ei; lia]. destruct (AM i rs Ei) as [_ Q]. exists rs. split; [exact Q|]. destruct (K i rs Ei) as (L0 & L1 & K1 & K2 & _ & K4). cbn [Nat.add] in K4.
      rewrite (nth_error_nth _ _ _ K1). replace (i + 1) with (Datatypes.S i) by lia. cbn [nth]. rewrite (nth_error_nth _ _ _ K2). rewrite (per_level_stage 0%Z n cu levels E1 i Hi), (per_level_stage (0%Z, 0%Z) n os opens E2 i Hi) in K4. exact K4.
    + assert (MB : forall i t, In t (nth i (hl :: outs') []) -> member series_tensors (N i) (series_unit m i) t).
      { intros [|i] t Ht; [rewrite Forall_forall in F0; exact (F0 t Ht)|]. cbn [nth] in Ht. assert (Li : i < length outs') by (destruct (le_lt_dec (length outs') i) as [Q|Q]; [rewrite nth_overflow in Ht by exact Q; destruct Ht|exact Q]).
        destruct (nth_error amps i) as [rs|] eqn:Ei; [|apply nth_error_None in Ei; lia]. destruct (K i rs Ei) as (_ & L1 & _ & K2 & K3 & _). rewrite (nth_error_nth _ _ _ K2) in Ht. rewrite Forall_forall in K3. exact (K3 t Ht). }
      intros i t Ht. destruct (MB i t Ht) as [M1 [M2 M2'] M3 _]. split; [apply regular_standard, M1|]. split; [exact M3|]. split; [exact M2|exact M2'].
Qed.
Print Assumptions C68_bch_levels.

(** Without active orbitals the series starts with the whole Hamiltonian, *)
Theorem C68_single_reference :
  forall (A : qalg) (S : system) (v : tvaluation A) ws nested_level cluster_levels max_cu n_opens for_commutator expand_hole single_reference unitary n_process hermitian outs h1 h2,
  (forall p, p < norb S -> lsp (olabel S p) <> Sa) ->
  bch_cc_rsc ws nested_level cluster_levels max_cu n_opens for_commutator expand_hole single_reference unitary n_process hermitian = Ok outs ->
  hamiltonian_operator 1 0 SpinOrbital = Ok h1 -> hamiltonian_operator 2 0 SpinOrbital = Ok h2 ->
  asum (map (term_value S v) (nth 0 outs [])) = (term_value S v h1 + term_value S v h2)%alg.
Proof.
  intros A S v ws n cl cu os fc eh sr un np h outs h1 h2 NAct H E1 E2. unfold bch_cc_rsc in H.
  destruct (per_level n cu) as [levels|]; [|discriminate]. cbn [pybind] in H. destruct (per_level n os) as [opens|]; [|discriminate]. cbn [pybind] in H. destruct cl as [|c0 cl0]; [discriminate|].
  destruct (pymap _ (seq 0 n)) as [amps|]; [|discriminate]. cbn [pybind] in H. destruct bch_start as [hl|] eqn:E4; [|discriminate]. cbn [pybind] in H. destruct (commutator_loop _ _ 1 hl amps) as [outs'|]; [|discriminate]. cbn [pybind] in H. injection H as <-. cbn [nth].
  rewrite (start_value A S v hl E4), (C65_hamiltonian A S v 1 0 SpinOrbital h1 E1), (C65_hamiltonian A S v 2 0 SpinOrbital h2 E2).
  assert (G : forall k, inactive_part S v k = (inj (inv_sq k) * sum2 S (Lab false Sg) (Lab false Sg) k (fun p q => vtensor v THamiltonian "H" q p * voper v p q))%alg); [|rewrite !G; reflexivity].
  intros k. unfold inactive_part. f_equal. unfold sum2. apply asum_map_ext. intros p Hp. apply asum_map_ext. intros q Hq.
  assert (R : forall l, In l (choices S (Lab false Sg) k) -> Forall (fun x => x < norb S) l).
  { clear. intros l Hl. unfold choices in Hl. apply in_iproduct in Hl. remember (repeat _ k) as xs eqn:E. assert (X : forall y, In y xs -> y = orbitals S (Lab false Sg, 0)) by (intros y Hy; rewrite E in Hy; apply repeat_spec in Hy; exact Hy). clear E. induction Hl as [|a y l xs Ha _ IH]; constructor.
    - rewrite (X y (or_introl eq_refl)) in Ha. unfold orbitals in Ha. apply filter_In in Ha as [Ha _]. apply in_seq in Ha. lia.
    - apply IH. intros z Hz. apply X. right. exact Hz. }
  replace (existsb (is_active S) (p ++ q)) with false; [reflexivity|]. symmetry. apply not_true_is_false. rewrite existsb_exists. intros (x & Hx & Q). apply space_eqb_eq in Q. apply (NAct x); [|exact Q].
  pose proof (R p Hp) as Rp. pose proof (R q Hq) as Rq. rewrite Forall_forall in Rp, Rq. apply in_app_or in Hx as [Hx|Hx]; auto.
Qed.
Print Assumptions C68_single_reference.

(** but with active orbitals and single_reference = False all terms with active indices are missing *)
Theorem C68_active_hamiltonian_refuted :
  exists (S : system) (v : tvaluation Qc_alg) ws outs h1 h2, physical S v /\ no_active_amplitudes S v /\ antisymmetric v /\ hole_values v /\
  bch_cc_rsc ws 0 [1] (inl 1%Z) (inl (0, 2)%Z) true true false true 1 true = Ok outs /\
  hamiltonian_operator 1 0 SpinOrbital = Ok h1 /\ hamiltonian_operator 2 0 SpinOrbital = Ok h2 /\
  asum (map (term_value S v) (nth 0 outs [])) <> (term_value S v h1 + term_value S v h2)%alg.
Proof.
  exists three_orbitals, half_filled, (fun _ _ _ => (ex_serial, ex_serial)). eexists. eexists. eexists.
  split; [exact half_filled_physical|]. split; [exact half_filled_active|]. split; [exact half_filled_antisymmetric|]. split; [exact half_filled_holes|]. split; [vm_compute; reflexivity|]. split; [vm_compute; reflexivity|]. split; [vm_compute; reflexivity|].
  intros H. apply (f_equal this) in H. vm_compute in H. discriminate.
Qed.
Print Assumptions C68_active_hamiltonian_refuted.

(** recursive_single_commutator: every term has index numbers of its own, with room for as many indices as it has *)
Record series_term (lo hi : nat) (w : Qc) (t : term) : Prop := {
  se_standard : standard t;
  se_tensors : forall x, In x (ttensors t) -> NoDup (tupper x ++ tlower x) /\ tcls x <> TKronecker /\
    (tcls x = TCumulant -> forall i, In i (tupper x ++ tlower x) -> lsp (fst i) = Sa \/ (lsp (fst i) = Sh /\ length (tupper x) = 1));
  se_units : in_units w t;
  se_numbers : forall i, In i (tindices t) -> lo <= snd i < hi;
  se_room : lo + length (tindices t) <= hi }.
Fixpoint unit_to (w : nat -> Qc) (k : nat) : Qc := match k with 0 => w 0 | Datatypes.S j => Qcmult (unit_to w j) (w (Datatypes.S j)) end.
Lemma series_regular lo hi w t : series_term lo hi w t -> regular t.
Proof.
  intros [[M P L O V AC B] T U N R]. constructor; try assumption. constructor.
  - unfold op_indices. rewrite <- app_assoc. exact L.
  - intros x Hx. apply T, Hx.
  - intros x Hx. destruct (T x Hx) as (_ & T1 & T2). split; [exact T1|exact T2].
Qed.
Lemma series_clean lo hi w t terms : In t terms -> series_term lo hi w t -> clean (flat_map ttensors terms) t.
Proof.
  intros Ht H. pose proof (se_standard _ _ _ _ H) as ST. split; [apply (standard_type _ ST)|]. intros y Hy. destruct (standard_fields _ ST) as (_ & F & _). split.
  - rewrite Forall_forall in F. apply F, Hy.
  - exists y. split; [|auto]. apply in_or_app. left. apply in_flat_map. eauto.
Qed.
Theorem C68_recursive_levels :
  forall (A : qalg) (S : system) (v : tvaluation A) ws terms max_cu n_opens for_commutator expand_hole n_process hermitian outs t0 (N : nat -> nat) (w : nat -> Qc),
  physical S v -> no_active_amplitudes S v -> antisymmetric v -> hole_values v -> (hermitian = true -> hermitian_values v) ->
  (forall i a b, sound (fst (ws i a b)) /\ sound (snd (ws i a b))) ->
  consistent_names (flat_map ttensors terms) -> nth_error terms 0 = Some t0 ->
  (forall k t, nth_error terms k = Some t -> series_term (N k) (N (Datatypes.S k)) (w k) t) ->
  (forall k, k < length terms -> Qcle tiny (Qc_abs (unit_to w k))) ->
  recursive_single_commutator ws terms max_cu n_opens for_commutator expand_hole n_process hermitian = Ok outs ->
  length outs = length terms - 1 /\
  (forall i t, nth_error terms (i + 1) = Some t ->
    commutator_level S v (at_stage 0%Z max_cu i) (fst (at_stage (0, 0)%Z n_opens i)) (snd (at_stage (0, 0)%Z n_opens i)) (Q2Qc 1)
      (nth i ([t0] :: outs) []) [t] (nth i outs [])) /\
  (forall i t, In t (nth i outs []) -> standard t /\ drawn_from (flat_map ttensors terms) t /\ (forall x, In x (tindices t) -> snd x < N (i + 2)) /\ length (tindices t) <= N (i + 2)).
Proof.
  intros A S v ws terms cu os fc eh np h outs t0 N w PH NA AS HV HS WS CN E0 HT HU H. unfold recursive_single_commutator in H.
  destruct terms as [|t0' [|t1 rest]]; [discriminate..|]. injection E0 as ->. set (n := length (t0 :: t1 :: rest) - 1) in *. set (base := flat_map ttensors (t0 :: t1 :: rest)) in *.
  destruct (per_level n cu) as [levels|] eqn:E1; [|discriminate]. cbn [pybind] in H. destruct (per_level n os) as [opens|] eqn:E2; [|discriminate]. cbn [pybind tl] in H.
  assert (F0 : Forall (member base (N 1) (w 0)) [t0]).
  { constructor; [|constructor]. pose proof (HT 0 t0 eq_refl) as Q. constructor; [exact (series_regular _ _ _ _ Q)| |apply (series_clean (N 0) (N 1) (w 0)); [left; reflexivity|exact Q]|exact (se_units _ _ _ _ Q)].
    split; [intros i Hi; apply (se_numbers _ _ _ _ Q) in Hi; lia|pose proof (se_room _ _ _ _ Q); lia]. }
  assert (RN : forall j rs, nth_error (map (fun t => [t]) (t1 :: rest)) j = Some rs -> exists t, rs = [t] /\ nth_error (t0 :: t1 :: rest) (Datatypes.S j) = Some t).
  { intros j rs Hj. rewrite nth_error_map in Hj. cbn [nth_error]. destruct (nth_error (t1 :: rest) j) as [t|] eqn:E; [|discriminate]. injection Hj as <-. exists t. split; [reflexivity|]. first [reflexivity|exact E]. }
  destruct (levels_value A S v PH NA AS HV base CN ws levels opens (fun _ => Q2Qc 1) fc eh np h HS WS (fun k => N (Datatypes.S k)) (unit_to w) (fun k => w (Datatypes.S k))) with (copy := fun t : term => Ok t) (rights := map (fun t => [t]) (t1 :: rest)) (k := 0) (lp := [t0]) (outs := outs) as [L K].
  - intros k. cbn [unit_to]. ring.
  - intros k t t' M E. injection E as <-. split; [exact M|]. repeat split; reflexivity.
  - exact F0.
  - intros j rs r Hj Hr. destruct (RN j rs Hj) as (t & -> & Et). destruct Hr as [<-|[]]. cbn [Nat.add]. pose proof (HT _ _ Et) as Q. constructor; [exact (series_regular _ _ _ _ Q)|exact (series_clean _ _ _ _ _ (nth_error_In _ _ Et) Q)|apply Q..].
  - intros j Hj. rewrite map_length in Hj. apply HU. cbn in *. lia.
  - exact H.
  - rewrite map_length in L. split; [rewrite L; cbn; lia|]. split.
    + intros i t Hi. replace (i + 1) with (Datatypes.S i) in Hi by lia. assert (Li : i < n) by (assert (Datatypes.S i < length (t0 :: t1 :: rest)) by (apply nth_error_Some; congruence); unfold n; lia).
      destruct (K i [t]) as (L0 & L1 & K1 & K2 & _ & K4); [rewrite nth_error_map; change (nth_error (t0 :: t1 :: rest) (Datatypes.S i)) with (nth_error (t1 :: rest) i) in Hi; rewrite Hi; reflexivity|]. cbn [Nat.add] in K4.
      rewrite (nth_error_nth _ _ _ K1), (nth_error_nth _ _ _ K2). rewrite (per_level_stage 0%Z n cu levels E1 i Li), (per_level_stage (0%Z, 0%Z) n os opens E2 i Li) in K4. exact K4.
    + intros i t Ht. assert (Li : i < length outs) by (destruct (le_lt_dec (length outs) i) as [Q|Q]; [rewrite nth_overflow in Ht by exact Q; destruct Ht|exact Q]).
      destruct (nth_error (map (fun t => [t]) (t1 :: rest)) i) as [rs|] eqn:Ei; [|apply nth_error_None in Ei; rewrite map_length in Ei; lia]. destruct (K i rs Ei) as (_ & L1 & _ & K2 & K3 & _). rewrite (nth_error_nth _ _ _ K2) in Ht. rewrite Forall_forall in K3. destruct (K3 t Ht) as [M1 [M2 M2'] M3 _].
      replace (i + 2) with (Datatypes.S (Datatypes.S i)) by lia. split; [apply regular_standard, M1|]. split; [exact M3|]. split; [exact M2|exact M2'].
Qed.
Print Assumptions C68_recursive_levels.

(** H, T+ and T for two levels; the value of the second commutator is not zero *)
Definition ex_series : list term :=
  [ex_h; the_term (cluster_operator 1 2 false "T" (Q2Qc 1) (Lab false Sh) (Lab false Sp) SpinOrbital); the_term (cluster_operator 1 4 true "T" (Q2Qc 1) (Lab false Sh) (Lab false Sp) SpinOrbital)].
Example C68_example :
  (exists outs, bch_cc_rsc (fun _ _ _ => (ex_serial, ex_serial)) 2 [1] (inl 1%Z) (inr [(0, 4); (0, 2)]%Z) true true true true 1 true = Ok outs /\
    map (@List.length term) outs = [20; 106; 118] /\ map (fun l => asum (map (term_value three_orbitals half_filled) l)) outs = [Qc_of_Z 36; Qc_of_Z 28; Qc_of_Z (-128)]) /\
  consistent_names (flat_map ttensors ex_series) /\
  (forall k t, nth_error ex_series k = Some t -> series_term (2 * k) (2 * Datatypes.S k) (Q2Qc 1) t) /\ Qcle tiny (Qc_abs (unit_to (fun _ => Q2Qc 1) 2)) /\
  exists outs, recursive_single_commutator (fun _ _ _ => (ex_serial, ex_serial)) ex_series (inl 2%Z) (inl (0, 2)%Z) true true 1 true = Ok outs /\ length outs = 2 /\
    asum (map (term_value three_orbitals half_filled) (nth 1 outs [])) <> Q2Qc 0.
Proof.
  split. { eexists. split; [vm_compute; reflexivity|]. split; [vm_compute; reflexivity|]. vm_compute. reflexivity. }
  split. { split; [vm_compute; repeat constructor; intros H; cbn in H; intuition discriminate|]. intros x y X Y E. vm_compute in X, Y. intuition (subst; cbn in *; try discriminate; auto). }
  split.
  { assert (ST : Forall standard ex_series).
    { constructor; [apply (C62_hamiltonian_standard 1 0); reflexivity|]. constructor; [apply (C62_cluster_standard 1 2 false "T" (Q2Qc 1) (Lab false Sh) (Lab false Sp)); try reflexivity; discriminate|]. constructor; [apply (C62_cluster_standard 1 4 true "T" (Q2Qc 1) (Lab false Sh) (Lab false Sp)); try reflexivity; discriminate|constructor]. }
    intros k t Hk. pose proof (nth_error_In _ _ Hk) as I. rewrite Forall_forall in ST. specialize (ST t I). destruct k as [|[|[|k]]]; cbn [nth_error ex_series] in Hk; [| | |destruct k; discriminate]; injection Hk as <-;
      (constructor; [exact ST|intros x Hx; vm_compute in Hx; destruct Hx as [<-|[]]; cbn; split; [repeat constructor; cbn; intuition discriminate|split; discriminate]|exists 1%Z; vm_compute; reflexivity|intros i Hi; vm_compute in Hi; intuition (subst; cbn; lia)|vm_compute; lia]). }
  split; [vm_compute; discriminate|].
  eexists. split; [vm_compute; reflexivity|]. split; [reflexivity|]. intros H. apply (f_equal this) in H. vm_compute in H. discriminate.
Qed.
