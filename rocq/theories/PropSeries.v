(** C75: the series of commutators are the Baker-Campbell-Hausdorff series of operators. *)
From Coq Require Import Ascii String ZArith QArith Qcanon Ring_theory Ring Lia Bool Sorting.Sorted.
From Verif Require Import PyBase OrderSpec OrderProofs ParitySpec SpaceModel IndexModel IndicesModel IndicesProofs IterProofs ElemModel ElemSpec MacroModel CompatSpec WickModel WickSpec WickProofs
  TermModel BchSpec ValueSpec ValueProofs TermSpec SumProofs SymmetrySpec CombineModel BchModel CombineSpec PropWick ContractSpec ContractValue FamilySpec FamilyProofs FockSpec ExtensionProofs FockProofs FockValue FockTerms PropSchedule PropContract PropFock PropOperator
  SpaceProofs LevelSpec BchLoop ScheduleProofs SeriesSpec LevelProofs SeriesProofs PropLevels PropBch SeriesOperator NestedOperator.
Local Close Scope Q_scope.
Local Close Scope Qc_scope.
Local Open Scope nat_scope.
Local Notation length := List.length.

Lemma legs_counted t : standard t -> n_factors [t] <= length (tindices t).
Proof.
  intros H. unfold n_factors. cbn [map list_sum fold_right]. rewrite Nat.add_0_r, <- app_length. apply NoDup_incl_length.
  - pose proof (st_legs _ H) as N. rewrite app_assoc in N. apply NoDup_app_remove_r in N. exact N.
  - intros i Hi. apply (standard_indices t i H). unfold content_indices. apply in_or_app. left. exact Hi.
Qed.
Lemma pair_factors a b : n_factors [a; b] = n_factors [a] + n_factors [b].
Proof. unfold n_factors. cbn. lia. Qed.

(** ** bch_cc_rsc *)
(** The first list stands for the one- and two-body Hamiltonian over core and virtual orbitals. Every further list stands for 1/i times
    the commutator of the list before with the amplitude operator, without the normal products whose number of open indices is out of
    range. The linear maps T i keep the normal products in the range of stage i and remove the others, up to the number of factors that
    occur. *)
Theorem C75_bch_levels :
  forall (A : qalg) (B : fermions A) (S : system) (v : tvaluation A) ws nested_level cluster_levels max_cu n_opens for_commutator expand_hole single_reference unitary n_process hermitian outs (T : nat -> B -> B),
  norb S <= modes B -> physical S v -> no_active_amplitudes S v -> antisymmetric_tensors v -> hole_values v -> (hermitian = true -> hermitian_values v) ->
  (forall i a b, sound (fst (ws i a b)) /\ sound (snd (ws i a b))) ->
  (forall i, i < nested_level -> no_cumulants_above (at_stage 0%Z max_cu i) v) ->
  (forall i, i < nested_level -> keeps B v (fst (at_stage (0, 0)%Z n_opens i)) (snd (at_stage (0, 0)%Z n_opens i)) ((i + 1) * (list_max cluster_levels * 2) + 4) (T i)) ->
  (4 * Z.of_nat (fact nested_level) * Z.of_nat (fact (list_max cluster_levels)) ^ (2 * Z.of_nat nested_level) <= 10 ^ 15)%Z ->
  bch_cc_rsc ws nested_level cluster_levels max_cu n_opens for_commutator expand_hole single_reference unitary n_process hermitian = Ok outs ->
  length outs = Datatypes.S nested_level /\
  list_operator B v S (nth 0 outs []) = nadd (inactive_hamiltonian B v S 1) (inactive_hamiltonian B v S 2) /\
  forall i, i < nested_level ->
    list_operator B v S (nth (i + 1) outs []) =
    nscal (Qcinv (Qc_of_Z (Z.of_nat (i + 1)))) (T i (bracket (list_operator B v S (nth i outs [])) (amplitude_operator B v S cluster_levels unitary single_reference))).
Proof.
  intros A B S v ws n cl cu os fc eh sr un np h outs T MB PH NA AT HV HS WS NC KP BD H.
  destruct (C68_bch_levels (extension B) S (lift B v) ws n cl cu os fc eh sr un np h outs (lift_physical B S v PH) (lift_no_active B S v NA) (lift_antisymmetric B v AT) (lift_holes B v HV) (fun Q => lift_hermitian B v (HS Q)) WS BD H) as (L & V0 & LV & TM).
  split; [exact L|]. split.
  - apply oper_injective. rewrite <- (list_lift B S v MB), V0, oper_add, !inactive_value by exact MB. reflexivity.
  - intros i Hi. destruct (LV i Hi) as (amps & EA & CL). rewrite <- (amplitudes_value B S v MB cl _ un sr amps EA). apply (level_operator B S v MB PH AT HV _ _ _ _ _ amps _ _ (T i) (NC i Hi) (KP i Hi)); [|exact CL].
    intros l r Hl Hr. destruct (TM i l Hl) as (Sl & _ & N1 & N2). pose proof (operators_factors _ _ _ _ _ EA) as FO. rewrite Forall_forall in FO. destruct (FO r Hr) as [R1 R2 R3 R4 R5]. pose proof (ClosureProofs.regular_standard _ R1) as Sr.
    split; [exact Sl|]. split; [exact Sr|]. split; [intros x Hx Q; specialize (N1 x Hx); specialize (R4 x Q); lia|]. rewrite pair_factors. pose proof (legs_counted l Sl). pose proof (legs_counted r Sr). lia.
Qed.
Print Assumptions C75_bch_levels.
(** If the ranges leave nothing out, list i stands for 1/i! times the i-fold commutator. *)
Theorem C75_bch_series :
  forall (A : qalg) (B : fermions A) (S : system) (v : tvaluation A) ws nested_level cluster_levels max_cu n_opens for_commutator expand_hole single_reference unitary n_process hermitian outs,
  norb S <= modes B -> physical S v -> no_active_amplitudes S v -> antisymmetric_tensors v -> hole_values v -> (hermitian = true -> hermitian_values v) ->
  (forall i a b, sound (fst (ws i a b)) /\ sound (snd (ws i a b))) ->
  (forall i, i < nested_level -> no_cumulants_above (at_stage 0%Z max_cu i) v) ->
  (forall i, i < nested_level -> (fst (at_stage (0, 0) n_opens i) <= 0)%Z /\ (Z.of_nat ((i + 1) * (list_max cluster_levels * 2) + 4) <= snd (at_stage (0, 0) n_opens i))%Z) ->
  (4 * Z.of_nat (fact nested_level) * Z.of_nat (fact (list_max cluster_levels)) ^ (2 * Z.of_nat nested_level) <= 10 ^ 15)%Z ->
  bch_cc_rsc ws nested_level cluster_levels max_cu n_opens for_commutator expand_hole single_reference unitary n_process hermitian = Ok outs ->
  forall i, i <= nested_level ->
    list_operator B v S (nth i outs []) =
    nscal (Qcinv (Qc_of_Z (Z.of_nat (fact i)))) (nested i (nadd (inactive_hamiltonian B v S 1) (inactive_hamiltonian B v S 2)) (amplitude_operator B v S cluster_levels unitary single_reference)).
Proof.
  intros A B S v ws n cl cu os fc eh sr un np h outs MB PH NA AT HV HS WS NC RG BD H.
  destruct (C75_bch_levels A B S v ws n cl cu os fc eh sr un np h outs (fun _ x => x) MB PH NA AT HV HS WS NC) as (_ & E0 & EI); [intros i Hi; apply keeps_identity; apply RG, Hi|exact BD|exact H|].
  induction i as [|i IH]; intros Hi.
  - rewrite E0. cbn [nested]. symmetry. exact (nscal_1 B _).
  - replace (Datatypes.S i) with (i + 1) at 1 by lia. rewrite EI, IH by lia. cbn [nested]. set (x := nested i _ _). set (y := amplitude_operator _ _ _ _ _ _).
    rewrite <- (nscal_1 B y) at 1. rewrite (bracket_nscal B), (FockTerms.nscal_mul B). f_equal. change (fact (Datatypes.S i)) with (Datatypes.S i * fact i). rewrite Nat2Z.inj_mul, ScheduleProofs.Qc_of_Z_mul. replace (i + 1) with (Datatypes.S i) by lia.
    pose proof (lt_O_fact i). pose proof (BchLoop.Qc_of_Z_nonzero (Z.of_nat (fact i)) ltac:(lia)). pose proof (BchLoop.Qc_of_Z_nonzero (Z.of_nat (Datatypes.S i)) ltac:(lia)). change 1%Qc with (Q2Qc 1). field. auto.
Qed.
Print Assumptions C75_bch_series.
(** In the single-reference case, without active orbitals, the series is that of the whole Hamiltonian. *)
Theorem C75_single_reference :
  forall (A : qalg) (B : fermions A) (S : system) (v : tvaluation A) k, (forall p, p < norb S -> lsp (olabel S p) <> Sa) -> inactive_hamiltonian B v S k = hamiltonian_part B v S k.
Proof.
  intros A B S v k NAct. unfold inactive_hamiltonian, hamiltonian_part, k_body. f_equal. f_equal. apply map_ext_in. intros p Hp. f_equal. apply map_ext_in. intros q Hq.
  replace (existsb (is_active S) (p ++ q)) with false; [reflexivity|]. symmetry. apply not_true_is_false. rewrite existsb_exists. intros (x & Hx & Q). apply space_eqb_eq in Q. apply (NAct x); [|exact Q].
  pose proof (choice_bound S _ _ _ Hp) as Rp. pose proof (choice_bound S _ _ _ Hq) as Rq. rewrite Forall_forall in Rp, Rq. apply in_app_or in Hx as [Hx|Hx]; auto.
Qed.
Print Assumptions C75_single_reference.

(** ** recursive_single_commutator *)
(** Every list stands for the commutator of the list before (at first the first term) with the next term. *)
Theorem C75_recursive :
  forall (A : qalg) (B : fermions A) (S : system) (v : tvaluation A) ws terms max_cu n_opens for_commutator expand_hole n_process hermitian outs t0 (N : nat -> nat) (w : nat -> Qc) (T : nat -> B -> B),
  norb S <= modes B -> physical S v -> no_active_amplitudes S v -> antisymmetric_tensors v -> hole_values v -> (hermitian = true -> hermitian_values v) ->
  (forall i a b, sound (fst (ws i a b)) /\ sound (snd (ws i a b))) ->
  consistent_names (flat_map ttensors terms) -> nth_error terms 0 = Some t0 ->
  (forall k t, nth_error terms k = Some t -> series_term (N k) (N (Datatypes.S k)) (w k) t) ->
  (forall k, k < length terms -> Qcle tiny (Qc_abs (unit_to w k))) ->
  (forall i, i + 1 < length terms -> no_cumulants_above (at_stage 0%Z max_cu i) v) ->
  (forall i, i + 1 < length terms -> keeps B v (fst (at_stage (0, 0)%Z n_opens i)) (snd (at_stage (0, 0)%Z n_opens i)) (N (i + 2)) (T i)) ->
  recursive_single_commutator ws terms max_cu n_opens for_commutator expand_hole n_process hermitian = Ok outs ->
  length outs = length terms - 1 /\
  forall i t, nth_error terms (i + 1) = Some t ->
    list_operator B v S (nth i outs []) = T i (bracket (list_operator B v S (nth i ([t0] :: outs) [])) (term_operator B v S t)).
Proof.
  intros A B S v ws terms cu os fc eh np h outs t0 N w T MB PH NA AT HV HS WS CN E0 HT HU NC KP H.
  destruct (C68_recursive_levels (extension B) S (lift B v) ws terms cu os fc eh np h outs t0 N w (lift_physical B S v PH) (lift_no_active B S v NA) (lift_antisymmetric B v AT) (lift_holes B v HV) (fun Q => lift_hermitian B v (HS Q)) WS CN E0 HT HU H) as (L & LV & TM).
  split; [exact L|]. intros i t Ht. assert (Li : i + 1 < length terms) by (apply nth_error_Some; congruence).
  assert (E : list_operator B v S [t] = term_operator B v S t) by (unfold list_operator; cbn [map]; rewrite nsum_cons; apply nadd_0r).
  rewrite <- E, (level_operator B S v MB PH AT HV _ _ _ (Q2Qc 1) (nth i ([t0] :: outs) []) [t] (nth i outs []) (N (i + 2)) (T i) (NC i Li) (KP i Li)).
  - exact (nscal_1 B _).
  - intros l r Hl [<-|[]]. pose proof (HT _ _ Ht) as [R1 R2 R3 R4 R5]. replace (Datatypes.S (i + 1)) with (i + 2) in * by lia.
    assert (Q : standard l /\ (forall x, In x (tindices l) -> snd x < N (i + 1)) /\ length (tindices l) <= N (i + 1)).
    { destruct i as [|i]; cbn [nth] in Hl.
      - destruct Hl as [<-|[]]. pose proof (HT 0 t0 E0) as [Q1 _ _ Q4 Q5]. cbn [Nat.add]. split; [exact Q1|]. split; [intros x Hx; apply Q4, Hx|lia].
      - destruct (TM i l Hl) as (Q1 & _ & Q2 & Q3). replace (Datatypes.S i + 1) with (i + 2) by lia. auto. }
    destruct Q as (Q1 & Q2 & Q3). split; [exact Q1|]. split; [exact R1|]. split; [intros x Hx Q; specialize (Q2 x Hx); specialize (R4 x Q); lia|]. rewrite pair_factors. pose proof (legs_counted l Q1). pose proof (legs_counted t R1). lia.
  - exact (LV i t Ht).
Qed.
Print Assumptions C75_recursive.

(** ** nested_commutator_cc *)
(** With for_commutator = False the terms returned stand for 1/n! times the n-fold commutator of the Hamiltonian with the amplitude operator,
    without the normal products whose number of open indices is out of range. *)
Theorem C75_nested :
  forall (A : qalg) (B : fermions A) (S : system) (v : tvaluation A) ws order n levels max_cu max_n_open min_n_open expand_hole single_reference unitary n_process hermitian out T,
  norb S <= modes B -> physical S v -> no_active_amplitudes S v -> antisymmetric_tensors v -> hole_values v -> (hermitian = true -> hermitian_values v) ->
  no_cumulants_above max_cu v -> (forall k, sound (ws k)) -> (forall p, Permutation (order p) p) -> 1 <= n -> ~ In 0 levels ->
  keeps B v min_n_open max_n_open (n * (list_max levels * 2) + 4) T ->
  (4 * Z.of_nat (fact n) * Z.of_nat (fact (list_max levels)) ^ (2 * Z.of_nat n) <= 10 ^ 15)%Z ->
  nested_commutator_cc ws order n levels max_cu max_n_open min_n_open false expand_hole single_reference unitary n_process hermitian = Ok out ->
  list_operator B v S out =
  T (nscal (Qcinv (Qc_of_Z (Z.of_nat (fact n)))) (nested n (nadd (hamiltonian_part B v S 1) (hamiltonian_part B v S 2)) (amplitude_operator B v S levels unitary single_reference))).
Proof.
  intros A B S v ws order n levels mc mx mn eh sr un np h out T MB PH NA AT HV HS NC SW PO Hn NZ KP BD H.
  destruct (C48_products order n levels un sr PO Hn) as (tasks & E & F & V). rewrite E in H. destruct (pymap _ (positions tasks)) as [outs|] eqn:EO; [|discriminate]. cbn [pybind] in H.
  assert (G : Forall (product_ok (list_max levels) n) tasks) by (eapply Forall_impl; [|exact F]; intros task (F1 & F2 & F3 & F4); exact (task_product levels sr n task NZ F1 F2 F3 F4)).
  rewrite (products_operator B S v MB PH NA AT HV mc mx mn NC h HS eh np (list_max levels) n Hn BD T KP ws tasks outs out SW G EO H). f_equal.
  set (hl := Lab false (if sr then Sc else Sh)) in *. set (pl := Lab false (if sr then Sv else Sp)) in *. assert (D : hl <> pl) by (unfold hl, pl; destruct sr; discriminate).
  rewrite (V B (term_operator B v S) (cluster_part B v S hl pl true) (cluster_part B v S hl pl false) (hamiltonian_part B v S)).
  - f_equal. f_equal. unfold amplitude_operator. fold hl pl. destruct un; [reflexivity|]. rewrite nopp_0, nadd_0r. reflexivity.
  - intros k start t Et. exact (cluster_value B S v MB k start true hl pl SpinOrbital t D Et).
  - intros k start t Et. exact (cluster_value B S v MB k start false hl pl SpinOrbital t D Et).
  - intros k t Et. exact (hamiltonian_value B S v MB k 0 SpinOrbital t Et).
Qed.
Print Assumptions C75_nested.
(** With for_commutator = True, the default, this is wrong from three nested commutators on: contractions that connect four operators in a
    ring are not generated. *)
Theorem C75_nested_connected_refuted :
  exists (B : fermions Qc_alg) (S : system) (v : tvaluation Qc_alg) ws order n levels max_cu max_n_open min_n_open expand_hole single_reference unitary n_process hermitian out T,
  norb S <= modes B /\ physical S v /\ no_active_amplitudes S v /\ antisymmetric_tensors v /\ hole_values v /\ hermitian_values v /\
  no_cumulants_above max_cu v /\ (forall k : nat, sound (ws k)) /\ (forall p, Permutation (order p) p) /\ 1 <= n /\ ~ In 0 levels /\
  keeps B v min_n_open max_n_open (n * (list_max levels * 2) + 4) T /\
  (4 * Z.of_nat (fact n) * Z.of_nat (fact (list_max levels)) ^ (2 * Z.of_nat n) <= 10 ^ 15)%Z /\
  nested_commutator_cc ws order n levels max_cu max_n_open min_n_open true expand_hole single_reference unitary n_process hermitian = Ok out /\
  list_operator B v S out <>
  T (nscal (Qcinv (Qc_of_Z (Z.of_nat (fact n)))) (nested n (nadd (hamiltonian_part B v S 1) (hamiltonian_part B v S 2)) (amplitude_operator B v S levels unitary single_reference))).
Proof.
  exists ex_fock, three_orbitals, uncorrelated, (fun _ => ex_serial), (fun p => p), 3, [1], 2%Z, 0%Z, 0%Z, true, true, true, 1, true. eexists. exists (fun x => scal (ex_mean x) n1).
  assert (BD : (4 * Z.of_nat (fact 3) * Z.of_nat (fact (list_max [1%nat])) ^ (2 * Z.of_nat 3) <= 10 ^ 15)%Z) by (vm_compute; discriminate).
  assert (NZ : ~ In 0 [1]) by (intros [Q|[]]; discriminate).
  split; [exact (le_n 3)|]. split; [exact uncorrelated_physical|]. split; [exact half_filled_active|]. split; [exact uncorrelated_tensors|]. split; [exact half_filled_holes|]. split; [exact half_filled_hermitian|].
  split; [exact uncorrelated_cumulants|]. split; [intros; exact serial_sound|]. split; [reflexivity|]. split; [lia|]. split; [exact NZ|]. split; [apply ex_keeps|]. split; [exact BD|].
  split; [vm_compute; reflexivity|]. intros Q.
  assert (X : exists out, nested_commutator_cc (fun _ => ex_serial) (fun p => p) 3 [1] 2 0 0 false true true true 1 true = Ok out /\ this (ex_mean (list_operator ex_fock uncorrelated three_orbitals out)) = (-32 # 3)%Q).
  { eexists. split; [vm_compute; reflexivity|]. vm_compute. reflexivity. }
  destruct X as (out' & E & X).
  rewrite <- (C75_nested Qc_alg ex_fock three_orbitals uncorrelated (fun _ => ex_serial) (fun p => p) 3 [1] 2 0 0 true true true 1 true out' (fun x => scal (ex_mean x) n1) (le_n 3) uncorrelated_physical half_filled_active uncorrelated_tensors
    half_filled_holes (fun _ => half_filled_hermitian) uncorrelated_cumulants (fun _ => serial_sound) (fun p => Permutation_refl p) ltac:(lia) NZ (ex_keeps _) BD E) in Q.
  rewrite <- Q in X. vm_compute in X. discriminate.
Qed.
Print Assumptions C75_nested_connected_refuted.

(** *** Examples: 8 x 8 matrices *)
Example C75_example :
  norb three_orbitals <= modes ex_fock /\ physical three_orbitals uncorrelated /\ no_active_amplitudes three_orbitals uncorrelated /\ antisymmetric_tensors uncorrelated /\
  hole_values uncorrelated /\ hermitian_values uncorrelated /\ no_cumulants_above 2 uncorrelated /\ sound ex_serial /\
  (4 * Z.of_nat (fact 1) * Z.of_nat (fact (list_max [1%nat])) ^ (2 * Z.of_nat 1) <= 10 ^ 15)%Z /\
  keeps ex_fock uncorrelated 0 6 (1 * (list_max [1] * 2) + 4) (fun x => x) /\
  (exists outs, bch_cc_rsc (fun _ _ _ => (ex_serial, ex_serial)) 1 [1] (inl 2%Z) (inl (0, 6)%Z) true true true true 1 true = Ok outs /\ map (@List.length term) outs = [20; 106] /\
    ex_mean (list_operator ex_fock uncorrelated three_orbitals (nth 1 outs [])) = Qc_of_Z 4) /\
  (exists out, nested_commutator_cc (fun _ => ex_serial) (fun p => p) 2 [1] 2 0 0 false true true true 1 true = Ok out /\ ex_mean (list_operator ex_fock uncorrelated three_orbitals out) = Qc_of_Z 16) /\
  (exists outs, recursive_single_commutator (fun _ _ _ => (ex_serial, ex_serial)) ex_series (inl 2%Z) (inr [(0, 4); (0, 0)]%Z) true true 1 true = Ok outs /\
    ex_mean (list_operator ex_fock uncorrelated three_orbitals (nth 1 outs [])) <> Q2Qc 0).
Proof.
  split; [exact (le_n 3)|]. split; [exact uncorrelated_physical|]. split; [exact half_filled_active|]. split; [exact uncorrelated_tensors|]. split; [exact half_filled_holes|]. split; [exact half_filled_hermitian|].
  split; [exact uncorrelated_cumulants|]. split; [exact serial_sound|]. split; [vm_compute; discriminate|]. split; [apply keeps_identity; cbn; lia|].
  split. { eexists. split; [vm_compute; reflexivity|]. split; [vm_compute; reflexivity|]. apply Qc_is_canon. vm_compute. reflexivity. }
  split. { eexists. split; [vm_compute; reflexivity|]. apply Qc_is_canon. vm_compute. reflexivity. }
  eexists. split; [vm_compute; reflexivity|]. intros H. apply (f_equal this) in H. vm_compute in H. discriminate.
Qed.
