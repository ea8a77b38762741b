(** C76: linear_commutator and linear_commutator_amp return the commutator of sums of operators. *)
From Coq Require Import Ascii String ZArith QArith Qcanon Ring_theory Ring Lia Bool Sorting.Sorted.
From Verif Require Import PyBase OrderSpec OrderProofs ParitySpec SpaceModel IndexModel IndicesModel IndicesProofs IterProofs ElemModel ElemSpec MacroModel CompatSpec WickModel WickSpec WickProofs
  TermModel BchSpec ValueSpec ValueProofs TermSpec SumProofs SymmetrySpec CombineModel BchModel LinearModel CombineSpec PropWick ContractSpec ContractValue FamilySpec FamilyProofs FockSpec ExtensionProofs FockProofs FockValue FockTerms PropSchedule PropContract PropFock PropOperator
  OperatorProofs SpaceProofs LoopSpec LevelSpec BchProofs BchLoop ScheduleProofs SeriesSpec ClosureProofs LevelProofs SeriesProofs PropLevels SeriesOperator NestedOperator PropSeries.
Local Close Scope Q_scope.
Local Close Scope Qc_scope.
Local Open Scope nat_scope.
Local Notation length := List.length.

Section Linear.
  Context {A : qalg} (B : fermions A) (S : system) (v : tvaluation A).
  Context (MB : norb S <= modes B) (PH : physical S v) (NA : no_active_amplitudes S v) (AT : antisymmetric_tensors v) (HV : hole_values v).
  Context (mc mx mn : Z) (NC : no_cumulants_above mc v) (h : bool) (HS : h = true -> hermitian_values v) (fc eh : bool) (np : nat) (sf : Qc).
  Context (ws : term -> term -> world * world) (SW : forall l r, sound (fst (ws l r)) /\ sound (snd (ws l r))).
  Context (base : list tensor) (CN : consistent_names base) (u w : Qc) (VU : Qcle tiny (Qc_abs (Qcmult sf (Qcmult u w)))) (n : nat) (T : B -> B) (KP : keeps B v mn mx n T).
  Definition sc (l r : term) : pyres (list term) := single_commutator (fst (ws l r)) (snd (ws l r)) l r mc mx mn sf fc eh np h.
  Record operand (unit : Qc) (t : term) : Prop := { op_standard : standard t; op_clean : clean base t; op_units : multiple unit (tcoeff t) }.
  Definition meets (l r : term) : Prop := operand u l /\ operand w r /\ apart_terms l r /\ n_factors [l; r] <= n.
  Lemma pair_ok l r out : meets l r -> sc l r = Ok out ->
    Forall (good base (Qcmult sf (Qcmult u w))) out /\ list_operator B v S out = nscal sf (T (bracket (term_operator B v S l) (term_operator B v S r))).
  Proof.
    intros ([L1 L2 L3] & [R1 R2 R3] & AP & NF) H. destruct (SW l r) as [S1 S2].
    assert (MU : multiple (Qcmult sf (Qcmult u w)) (Qcmult sf (Qcmult (tcoeff l) (tcoeff r)))) by (apply multiple_mul; [exists 1%Z; change (Qc_of_Z 1) with 1%Qc; ring|apply multiple_mul; assumption]).
    pose proof (multiple_visible _ _ VU MU) as VC.
    assert (CP : consistent_names (ttensors l ++ ttensors r)) by (apply (pair_consistent base); assumption). split.
    - pose proof (commutator_good (fst (ws l r)) (snd (ws l r)) l r mc mx mn sf fc eh np h out _ (proj1 S1) (proj1 S2) CP (proj1 L2) (proj1 R2) eq_refl (visible_abs _ VC) H) as G.
      eapply Forall_impl; [|exact G]. intros t [G1 G2]. split; [|exact (multiple_trans _ _ _ MU G2)]. revert G1. apply clean_trans. intros y Hy. apply in_app_or in Hy as [Hy|Hy]; [apply (proj2 L2 y Hy)|apply (proj2 R2 y Hy)].
    - apply (C74_commutator A B S v (fst (ws l r)) (snd (ws l r)) l r mc mx mn sf fc eh np h out T); try assumption. exact (keeps_less B v mn mx n _ T NF KP).
  Qed.
  Lemma row_ok l rs ls : (forall r, In r rs -> meets l r) -> Forall2 (fun r out => sc l r = Ok out) rs ls ->
    Forall (good base (Qcmult sf (Qcmult u w))) (concat ls) /\ list_operator B v S (concat ls) = nscal sf (T (bracket (term_operator B v S l) (list_operator B v S rs))).
  Proof.
    intros H F. pose proof (keeps_linear B v _ _ _ _ KP) as LT. unfold list_operator at 2. rewrite bracket_nsum_r, map_map, (linear_nsum B T _ LT), map_map.
    rewrite <- nsum_scal. induction F as [|r out rs ls E _ IH]; [split; [constructor|reflexivity]|]. destruct (IH (fun r' Hr => H r' (or_intror Hr))) as [I1 I2]. destruct (pair_ok l r out (H r (or_introl eq_refl)) E) as [P1 P2].
    cbn [concat map]. split; [apply Forall_app; auto|]. rewrite list_operator_app, nsum_cons, P2. f_equal. exact I2.
  Qed.
  Theorem linear_operator lefts rights out : (forall l r, In l lefts -> In r rights -> meets l r) -> linear_commutator sc lefts rights = Ok out ->
    list_operator B v S out = nscal sf (T (bracket (list_operator B v S lefts) (list_operator B v S rights))).
  Proof.
    intros H E. unfold linear_commutator in E. destruct (pymap _ lefts) as [lls|] eqn:EL; [|discriminate]. cbn [pybind] in E. apply pymap_results in EL. pose proof (keeps_linear B v _ _ _ _ KP) as LT.
    assert (G : Forall (good base (Qcmult sf (Qcmult u w))) (concat lls) /\ list_operator B v S (concat lls) = nscal sf (T (bracket (list_operator B v S lefts) (list_operator B v S rights)))).
    { unfold list_operator at 2. rewrite bracket_nsum_l, map_map, (linear_nsum B T _ LT), map_map, <- nsum_scal. clear E. induction EL as [|l ls lefts lls E _ IH]; [split; [constructor|reflexivity]|].
      destruct (IH (fun l' r Hl Hr => H l' r (or_intror Hl) Hr)) as [I1 I2]. destruct (pymap _ rights) as [os|] eqn:ER; [|discriminate]. cbn [pybind] in E. injection E as <-. apply pymap_results in ER.
      destruct (row_ok l rights os (fun r Hr => H l r (or_introl eq_refl) Hr) ER) as [R1 R2]. cbn [concat map]. split; [apply Forall_app; auto|]. rewrite list_operator_app, nsum_cons, R2. f_equal. exact I2. }
    destruct G as [G1 G2]. destruct (good_combine base CN _ (or_intror VU) (concat lls) G1) as (out' & E' & GO & SS). rewrite E in E'. injection E' as <-. rewrite <- G2. apply oper_injective. rewrite <- !(list_lift B S v MB).
    apply (same_sums_values (extension B) S (lift B v) base); [exact CN|exact (goods_clean _ _ _ GO)|exact (goods_clean _ _ _ G1)|exact SS].
  Qed.
End Linear.
Lemma standard_clean base t : standard t -> incl (ttensors t) base -> clean base t.
Proof.
  intros ST I. split; [apply (standard_type _ ST)|]. intros y Hy. destruct (standard_fields _ ST) as (_ & F & _). split; [rewrite Forall_forall in F; apply F, Hy|]. exists y. split; [apply in_or_app; left; apply I, Hy|auto].
Qed.

Lemma amplitude_tensors levels start un sr ts : cluster_operators levels start un sr = Ok ts -> forall r, In r ts -> forall y, In y (ttensors r) -> tname y = "T"%string /\ tcls y = TCluster /\ tpriority y = 1%Z.
Proof.
  intros H. assert (G : forall ex sg hl pl l ts', Forall2 (fun k t => cluster_operator k start ex "T" sg hl pl SpinOrbital = Ok t) l ts' -> forall r, In r ts' -> forall y, In y (ttensors r) -> tname y = "T"%string /\ tcls y = TCluster /\ tpriority y = 1%Z).
  { intros ex sg hl pl l ts' F. induction F as [|k t l l' E _ IH]; intros r Hr y Hy; [destruct Hr|]. destruct Hr as [<-|Hr]; [|exact (IH r Hr y Hy)]. destruct (cluster_ok _ _ _ _ _ _ _ _ _ E) as (_ & _ & Q & _). rewrite Q in Hy. destruct Hy as [<-|[]]. cbn. auto. }
  unfold cluster_operators in H. cbv zeta in H. destruct (pymap _ levels) as [amps|] eqn:E1; [|discriminate]. cbn [pybind] in H. destruct un.
  - destruct (pymap (fun k => cluster_operator k start false _ _ _ _ _) levels) as [damps|] eqn:E2; [|discriminate]. cbn [pybind] in H. injection H as <-. intros r Hr. apply in_app_or in Hr as [Hr|Hr]; [exact (G _ _ _ _ _ _ (pymap_results _ _ _ E1) r Hr)|exact (G _ _ _ _ _ _ (pymap_results _ _ _ E2) r Hr)].
  - injection H as <-. exact (G _ _ _ _ _ _ (pymap_results _ _ _ E1)).
Qed.

(** The commutator is linear in both arguments: the terms returned stand for scale_factor times the commutator of the sum of the left terms
    with the sum of the right terms, without the normal products whose number of open indices is out of range. All coefficients on one side
    are integer multiples of one number, and no smallest possible coefficient counts as zero. *)
Theorem C76_linear_commutator :
  forall (A : qalg) (B : fermions A) (S : system) (v : tvaluation A) ws lefts rights max_cu max_o min_o scale for_commutator n_process hermitian out u w n T,
  norb S <= modes B -> physical S v -> no_active_amplitudes S v -> antisymmetric_tensors v -> hole_values v -> no_cumulants_above max_cu v ->
  (hermitian = true -> hermitian_values v) -> (forall l r : term, sound (fst (ws l r)) /\ sound (snd (ws l r))) ->
  Forall standard lefts -> Forall standard rights -> (forall l r, In l lefts -> In r rights -> apart_terms l r /\ n_factors [l; r] <= n) ->
  consistent_names (flat_map ttensors (lefts ++ rights)) ->
  Forall (in_units u) lefts -> Forall (in_units w) rights -> Qcle (Q2Qc (1 # 1000000000000000)) (Qc_abs (Qcmult scale (Qcmult u w))) ->
  keeps B v min_o max_o n T ->
  linear_commutator_py ws lefts rights scale min_o max_o max_cu n_process for_commutator hermitian = Ok out ->
  list_operator B v S out = nscal scale (T (bracket (list_operator B v S lefts) (list_operator B v S rights))).
Proof.
  intros A B S v ws lefts rights mc mx mn sf fc np h out u w n T MB PH NA AT HV NC HS SW SL SR AP CN UL UR VU KP H.
  apply (linear_operator B S v MB PH NA AT HV mc mx mn NC h HS fc true np sf ws SW _ CN u w VU n T KP lefts rights out); [|exact H].
  intros l r Hl Hr. rewrite Forall_forall in *. destruct (AP l r Hl Hr) as [A1 A2]. split; [|split; [|split; assumption]].
  - constructor; [apply SL, Hl|apply standard_clean; [apply SL, Hl|]|apply UL, Hl]. intros y Hy. apply in_flat_map. exists l. split; [apply in_or_app; auto|exact Hy].
  - constructor; [apply SR, Hr|apply standard_clean; [apply SR, Hr|]|apply UR, Hr]. intros y Hy. apply in_flat_map. exists r. split; [apply in_or_app; auto|exact Hy].
Qed.
Print Assumptions C76_linear_commutator.
(** With amplitudes whose index numbers start behind those of the left terms it is the commutator with T or T - T^+. *)
Theorem C76_amplitudes :
  forall (A : qalg) (B : fermions A) (S : system) (v : tvaluation A) ws lefts levels start unitary single_reference max_cu max_o min_o scale for_commutator n_process hermitian out u n T,
  norb S <= modes B -> physical S v -> no_active_amplitudes S v -> antisymmetric_tensors v -> hole_values v -> no_cumulants_above max_cu v ->
  (hermitian = true -> hermitian_values v) -> (forall l r : term, sound (fst (ws l r)) /\ sound (snd (ws l r))) ->
  Forall standard lefts -> (forall l i, In l lefts -> In i (tindices l) -> snd i < start) -> (forall l, In l lefts -> n_factors [l] <= n) ->
  consistent_names (flat_map ttensors lefts ++ [Ten TCluster SpinOrbital "T" 1%Z [] []]) ->
  Forall (in_units u) lefts -> Qcle (Q2Qc (1 # 1000000000000000)) (Qc_abs (Qcmult scale (Qcmult u (inv_sq (list_max levels))))) ->
  keeps B v min_o max_o (n + list_max levels * 2) T ->
  linear_commutator_amp ws lefts levels scale min_o max_o start n_process unitary max_cu for_commutator single_reference hermitian = Ok out ->
  list_operator B v S out = nscal scale (T (bracket (list_operator B v S lefts) (amplitude_operator B v S levels unitary single_reference))).
Proof.
  intros A B S v ws lefts levels start un sr mc mx mn sf fc np h out u n T MB PH NA AT HV NC HS SW SL NI NF CN UL VU KP H.
  unfold linear_commutator_amp in H. destruct (cluster_operators levels start un sr) as [amps|] eqn:EA; [|discriminate]. cbn [pybind] in H. rewrite <- (amplitudes_value B S v MB levels start un sr amps EA).
  pose proof (operators_factors _ _ _ _ _ EA) as FO.
  apply (linear_operator B S v MB PH NA AT HV mc mx mn NC h HS fc true np sf ws SW _ CN u (inv_sq (list_max levels)) VU _ T KP lefts amps out); [|exact H].
  intros l r Hl Hr. rewrite Forall_forall in *. destruct (FO r Hr) as [R1 R2 R3 R4 R5]. pose proof (regular_standard _ R1) as Sr. split; [|split; [|split]].
  - constructor; [apply SL, Hl|apply standard_clean; [apply SL, Hl|]|apply UL, Hl]. intros y Hy. apply in_or_app. left. apply in_flat_map. eauto.
  - constructor; [exact Sr| |exact R3]. destruct R2 as [R2 R2']. split; [exact R2|]. intros y Hy. destruct (R2' y Hy) as (Y & _). split; [exact Y|]. exists (Ten TCluster SpinOrbital "T" 1%Z [] []).
    split; [apply in_or_app; left; apply in_or_app; right; left; reflexivity|]. exact (amplitude_tensors _ _ _ _ _ EA r Hr y Hy).
  - intros i Hi Q. specialize (NI l i Hl Hi). specialize (R4 i Q). lia.
  - rewrite pair_factors. specialize (NF l Hl). pose proof (legs_counted r Sr). lia.
Qed.
Print Assumptions C76_amplitudes.
(** One- and two-body Hamiltonian, singles amplitudes and their adjoints, expectation value. *)
Example C76_example :
  let lefts := [ex_h; the_term (hamiltonian_operator 2 0 SpinOrbital)] in
  Forall standard lefts /\ (forall l i, In l lefts -> In i (tindices l) -> snd i < 4) /\ (forall l, In l lefts -> n_factors [l] <= 4) /\
  consistent_names (flat_map ttensors lefts ++ [Ten TCluster SpinOrbital "T" 1%Z [] []]) /\ Forall (in_units quarter) lefts /\
  Qcle (Q2Qc (1 # 1000000000000000)) (Qc_abs (Qcmult (Q2Qc 1) (Qcmult quarter (inv_sq (list_max [1]))))) /\
  exists out, linear_commutator_amp (fun _ _ => (ex_serial, ex_serial)) lefts [1] (Q2Qc 1) 0 0 4 1 true 2 true true true = Ok out /\
    ex_mean (list_operator ex_fock uncorrelated three_orbitals out) <> Q2Qc 0.
Proof.
  cbv zeta. split; [constructor; [apply (C62_hamiltonian_standard 1 0); reflexivity|constructor; [apply (C62_hamiltonian_standard 2 0); reflexivity|constructor]]|].
  split. { intros l i [<-|[<-|[]]] Hi; vm_compute in Hi; intuition (subst; cbn; lia). }
  split. { intros l [<-|[<-|[]]]; vm_compute; lia. }
  split. { split; [vm_compute; repeat constructor; intros H; cbn in H; intuition discriminate|]. intros x y X Y E. vm_compute in X, Y. intuition (subst; cbn in *; try discriminate; auto). }
  split. { constructor; [exists 4%Z; apply Qc_is_canon; reflexivity|constructor; [exists 1%Z; apply Qc_is_canon; reflexivity|constructor]]. }
  split; [vm_compute; discriminate|]. eexists. split; [vm_compute; reflexivity|]. intros H. apply (f_equal this) in H. vm_compute in H. discriminate.
Qed.
