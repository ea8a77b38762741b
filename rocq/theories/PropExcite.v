(** C66, C67: excitation parts, blocks, diagonal parts and zeroth-order Hamiltonians. *)
From Coq Require Import Ascii String ZArith QArith Qcanon Lia Ring_theory Ring Sorting.Sorted.
From Verif Require Import PyBase ParitySpec ParityProofs SpaceProofs OrderSpec OrderProofs SpaceModel IndicesModel IterProofs IndicesProofs ElemModel MacroModel TermModel ValueSpec ValueProofs TermSpec SumProofs TermProofs RenameProofs OperatorProofs
  SymmetryModel SymmetrySpec SymmetryProofs SympyProofs SympyValue PropTerm PropCanon PropOperator ExciteModel ExciteProofs.
Local Close Scope Q_scope.
Local Close Scope Qc_scope.
Local Open Scope nat_scope.
Local Notation length := List.length.

(** the orbital has one of the spaces of the label *)
Definition orbital_in (S : system) (l : label) (p : nat) : bool := mem_label (olabel S p) (relation l).

Lemma combine_app {B C} (a b : list B) (c d : list C) : length a = length c -> combine (a ++ b) (c ++ d) = combine a c ++ combine b d.
Proof. revert c. induction a as [|x a IH]; intros [|y c] L; try discriminate; [reflexivity|]. cbn. f_equal. apply IH. injection L as L. exact L. Qed.
Lemma Forall2_map_in {B C} (P : B -> C -> Prop) (f : B -> C) l m : Forall2 P l m -> map f l = m -> forall x, In x l -> P x (f x).
Proof. intros F. induction F as [|x y l m H F IH]; intros E z Hz; [destruct Hz|]. cbn [map] in E. injection E as E1 E2. destruct Hz as [<-|Hz]; [rewrite E1; exact H|apply IH; assumption]. Qed.
Lemma void_value (A : qalg) (S : system) (v : tvaluation A) t : term_value S v (void t) = q0.
Proof.
  unfold term_value, content_value, void, void_term. cbn [tcoeff ttensors tsq]. change (inj (Q2Qc 0)) with (@zin A 0). rewrite (zin_0 A).
  pose proof (q_ring A) as R. destruct R. rewrite Rmul_comm.
  assert (G : forall x : A, (x * q0)%alg = q0). { intros x. transitivity (asum (map (fun y : A => (x * y)%alg) [])); [|reflexivity]. rewrite asum_map_mul. reflexivity. } apply G.
Qed.

(** C66. make_excitation keeps the part of the term in which all creators are particles and all annihilators holes (virtual and
    core if single_ref), unless all operator indices are active, when nothing is kept. *)
Theorem C66_excitation_value :
  forall (A : qalg) (S : system) (v : tvaluation A) sympy single_ref ty xs o c t tm,
  make_term ty xs o c = Ok t -> NoDup (cre o ++ ann o) -> (forall i, ~ diagonal_in i xs o) -> densities_disjoint xs -> cumulants_open_active xs -> operator_off_cumulants xs o ->
  classes_by_name xs -> length (cre o) = length (ann o) -> zero_or_visible c ->
  physical S v -> no_active_amplitudes S v -> hermitian_values v ->
  (itype_antisymmetric ty = true -> antisymmetric v) -> (itype_antisymmetric ty = false -> pair_symmetric v) ->
  admissible sympy -> make_excitation sympy single_ref t = Ok tm ->
  let part := Lab false (if single_ref then Sv else Sp) in let hole := Lab false (if single_ref then Sc else Sh) in
  term_value S v tm =
    (if forallb (fun i => space_eqb (lsp (fst i)) Sa) (cre o ++ ann o) && negb (length (cre o ++ ann o) =? 0) then q0
     else inj c * sum_over S (nodup idx_eq_dec (content_indices xs o)) (fun e =>
       if forallb (fun i => orbital_in S part (e i)) (cre o) && forallb (fun i => orbital_in S hole (e i)) (ann o) then integrand v xs o e else q0))%alg.
Proof.
  intros A S v sympy sr ty xs o c t tm M N ND HD HA HO HC HB HZ PH NA HH AS PS AD H part hole. unfold make_excitation in H. fold part hole in H.
  destruct (make_term_fields _ _ _ _ _ M) as (E1 & P1 & _ & E2 & E3 & _). rewrite E2 in H. set (I := nodup idx_eq_dec (content_indices xs o)).
  assert (OI : forall i, In i (cre o ++ ann o) -> In i I). { intros i Hi. apply nodup_In. unfold content_indices. apply in_or_app. left. exact Hi. }
  assert (EA : forallb (fun i => space_eqb (lsp (fst i)) Sa) (cre o ++ ann o) && negb (length (cre o ++ ann o) =? 0) = all_active_op o).
  { unfold all_active_op, op_indices. destruct (cre o ++ ann o); [reflexivity|]. cbn [length Nat.eqb negb]. rewrite andb_true_r. reflexivity. }
  rewrite EA. clear EA.
  assert (SP : forall s, In s (relation part) -> lsp s <> Sc) by (unfold part; destruct sr; cbn; intuition (subst; discriminate)).
  assert (SH : forall s, In s (relation hole) -> lsp s <> Sv) by (unfold hole; destruct sr; cbn; intuition (subst; discriminate)).
  assert (Z : (exists i, (In i (cre o) /\ forall x, In x (relation part) -> ~ In x (relation (fst i))) \/ (In i (ann o) /\ forall x, In x (relation hole) -> ~ In x (relation (fst i)))) ->
    sum_over S I (fun e => if forallb (fun i => orbital_in S part (e i)) (cre o) && forallb (fun i => orbital_in S hole (e i)) (ann o) then integrand v xs o e else q0) = q0).
  { intros (i & Q). apply sum_over_zero; [apply NoDup_nodup|]. intros e He. destruct Q as [[Hi Q]|[Hi Q]].
    - replace (forallb (fun i => orbital_in S part (e i)) (cre o)) with false; [reflexivity|]. symmetry. apply not_true_is_false. intros T. rewrite forallb_forall in T. specialize (T i Hi). apply mem_label_in in T. apply (Q _ T).
      specialize (He i (OI i (in_or_app _ _ _ (or_introl Hi)))). apply orbitals_in in He. tauto.
    - replace (forallb (fun i => orbital_in S hole (e i)) (ann o)) with false; [rewrite andb_false_r; reflexivity|]. symmetry. apply not_true_is_false. intros T. rewrite forallb_forall in T. specialize (T i Hi). apply mem_label_in in T. apply (Q _ T).
      specialize (He i (OI i (in_or_app _ _ _ (or_intror Hi)))). apply orbitals_in in He. tauto. }
  assert (M0 : forall x : A, (x * q0)%alg = q0). { intros x. transitivity (asum (map (fun y : A => (x * y)%alg) [])); [|reflexivity]. rewrite asum_map_mul. reflexivity. }
  destruct (is_possible_excitation o) eqn:EP; cbn [negb] in H.
  - assert (EA : all_active_op o = false). { unfold is_possible_excitation in EP. rewrite !andb_true_iff, !negb_true_iff in EP. tauto. } rewrite EA.
    destruct (restrict_loop part (cre o) _) as [st|] eqn:R1.
    + destruct (restrict_loop hole (ann o) st) as [st'|] eqn:R2.
      * apply restrict_loop_some in R1 as (l1 & F1 & ->). apply restrict_loop_some in R2 as (l2 & F2 & ->). unfold rest_loop in H. pose proof (Forall2_len _ _ _ F1) as L1. pose proof (Forall2_len _ _ _ F2) as L2.
        rewrite <- fold_left_app, <- combine_app in H by exact L1.
        destruct (fill_spec 0 (cre o ++ ann o) (l1 ++ l2) (flat_map tensor_indices (ttensors t)) N) as (K1 & K2 & K3 & K4 & K5). { rewrite !app_length. f_equal; symmetry; assumption. }
        set (r := fst _) in *. rewrite map_app in K4. apply app_inv_len in K4; [|rewrite map_length; exact L1]. destruct K4 as [K41 K42].
        assert (G1 : forall i, In i (cre o) -> forall x, In x (relation (fst (rename r i))) <-> In x (relation part) /\ In x (relation (fst i))).
        { intros i Hi. apply (overlap_some false (if sr then Sv else Sp)); [destruct sr; cbn; tauto|]. exact (Forall2_map_in _ (fun i => fst (rename r i)) _ _ F1 K41 i Hi). }
        assert (G2 : forall i, In i (ann o) -> forall x, In x (relation (fst (rename r i))) <-> In x (relation hole) /\ In x (relation (fst i))).
        { intros i Hi. apply (overlap_some false (if sr then Sc else Sh)); [destruct sr; cbn; tauto|]. exact (Forall2_map_in _ (fun i => fst (rename r i)) _ _ F2 K42 i Hi). }
        destruct (restrict_value A S v sympy AD PH NA HH ty xs o c t r tm M ND HD HA HO HC HB HZ AS PS) as (V & _ & _); try assumption.
        -- intros i Hi. apply K3. unfold content_indices in Hi. apply in_app_or in Hi as [Hi|Hi]; [left; exact Hi|right]. apply (Permutation_in _ (Permutation_flat_map tensor_indices (Permutation_sym P1)) Hi).
        -- intros i Hi. apply K5, K3. unfold content_indices in Hi. apply in_app_or in Hi as [Hi|Hi]; [left; exact Hi|right]. apply (Permutation_in _ (Permutation_flat_map tensor_indices (Permutation_sym P1)) Hi).
        -- intros i Hi x Hx. apply in_app_or in Hi as [Hi|Hi]; [apply G1 in Hx|apply G2 in Hx]; tauto.
        -- rewrite V. f_equal. fold I. apply sum_over_ext; [|apply NoDup_nodup]. intros e He. rewrite forallb_app.
           assert (T1 : forall i, In i (cre o) -> mem_label (olabel S (e i)) (relation (fst (rename r i))) = orbital_in S part (e i)).
           { intros i Hi. specialize (He i (OI i (in_or_app _ _ _ (or_introl Hi)))). apply orbitals_in in He as [_ He]. apply eq_true_iff_eq. unfold orbital_in. rewrite !mem_label_in, (G1 i Hi). tauto. }
           assert (T2 : forall i, In i (ann o) -> mem_label (olabel S (e i)) (relation (fst (rename r i))) = orbital_in S hole (e i)).
           { intros i Hi. specialize (He i (OI i (in_or_app _ _ _ (or_intror Hi)))). apply orbitals_in in He as [_ He]. apply eq_true_iff_eq. unfold orbital_in. rewrite !mem_label_in, (G2 i Hi). tauto. }
           assert (X : forall f g (l : list idx), (forall i, In i l -> f i = g i) -> forallb f l = forallb g l) by (induction l as [|a l IH]; intros Q; [reflexivity|]; cbn; rewrite Q by (left; reflexivity); rewrite IH by (intros z Hz; apply Q; right; exact Hz); reflexivity).
           rewrite (X _ _ _ T1), (X _ _ _ T2). reflexivity.
      * injection H as <-. rewrite void_value, Z; [symmetry; apply M0|]. apply restrict_loop_none in R2 as (i & Hi & Q). exists i. right. split; [exact Hi|]. apply overlap_none, Q.
    + injection H as <-. rewrite void_value, Z; [symmetry; apply M0|]. apply restrict_loop_none in R1 as (i & Hi & Q). exists i. left. split; [exact Hi|]. apply overlap_none, Q.
  - injection H as <-. rewrite void_value. destruct (all_active_op o) eqn:EA; [reflexivity|]. unfold is_possible_excitation in EP. rewrite EA in EP. cbn [negb] in EP. rewrite andb_true_r, andb_false_iff, !negb_false_iff in EP.
    rewrite Z; [symmetry; apply M0|]. assert (RS : forall l x, In x (relation l) -> lsp l = Sc -> lsp x = Sc) by (intros [b s] x Hx E; cbn in E; subst s; cbn in Hx; destruct Hx as [<-|[]]; reflexivity).
    assert (RV : forall l x, In x (relation l) -> lsp l = Sv -> lsp x = Sv) by (intros [b s] x Hx E; cbn in E; subst s; cbn in Hx; destruct Hx as [<-|[]]; reflexivity).
    destruct EP as [EP|EP]; apply existsb_exists in EP as (i & Hi & Q); apply space_eqb_eq in Q; exists i; [left|right]; (split; [exact Hi|]); intros x X1 X2; [apply (SP x X1), (RS _ _ X2 Q)|apply (SH x X1), (RV _ _ X2 Q)].
Qed.
Print Assumptions C66_excitation_value.

(** Beta indices are never matched: the excitation T^{C0}_{V0} a^{V0}_{C0} is thrown away. *)
Theorem C66_beta_refuted :
  exists (S : system) (v : tvaluation Qc_alg) t, (forall sympy sr, make_excitation sympy sr t = Ok (void t)) /\ is_possible_excitation (tsq t) = true /\
    (exists C V : idx, tsq t = Op [V] [C] /\ lsp (fst V) = Sv /\ lsp (fst C) = Sc) /\
    make_term SpinIntegrated [Ten TCluster SpinIntegrated "T" 1 [(Lab true Sc, 0)] [(Lab true Sv, 0)]] (Op [(Lab true Sv, 0)] [(Lab true Sc, 0)]) (Q2Qc 1) = Ok t /\
    term_value S v t <> term_value S v (void t).
Proof.
  exists (Sys 2 (fun n => Lab true (if n =? 0 then Sc else Sv))), ones. eexists. split; [|split; [|split; [|split; [vm_compute; reflexivity|]]]].
  - intros sympy sr. destruct sr; reflexivity.
  - reflexivity.
  - eexists. eexists. split; [reflexivity|]. split; reflexivity.
  - intros H. apply (f_equal this) in H. vm_compute in H. discriminate.
Qed.
Print Assumptions C66_beta_refuted.
(** Operators with only active indices are refused at the beginning but can come out: h0^+ p0 gives a0^+ a1. *)
Theorem C66_active_refuted :
  exists t tm, make_term SpinOrbital [ex_H [xi Sp 0] [xi Sh 0]] (Op [xi Sh 0] [xi Sp 0]) (Q2Qc 1) = Ok t /\
    make_excitation (one_move []) false t = Ok tm /\ is_possible_excitation (tsq tm) = false /\ is_void tm = false /\ tsq tm = Op [xi Sa 0] [xi Sa 1].
Proof. eexists. eexists. split; [vm_compute; reflexivity|]. split; [vm_compute; reflexivity|]. split; [vm_compute; reflexivity|]. split; vm_compute; reflexivity. Qed.
Print Assumptions C66_active_refuted.
Example C66_example :
  exists t tm tm', ex_ham = Ok t /\ make_excitation (one_move []) false t = Ok tm /\ tsq tm = Op [xi Sp 0] [xi Sh 0] /\ make_excitation (one_move []) true t = Ok tm' /\ tsq tm' = Op [xi Sv 0] [xi Sc 0] /\
    NoDup (op_indices (tsq t)) /\ densities_disjoint (ttensors t) /\ cumulants_open_active (ttensors t) /\ operator_off_cumulants (ttensors t) (tsq t) /\ classes_by_name (ttensors t).
Proof.
  eexists. eexists. eexists. split; [vm_compute; reflexivity|]. split; [vm_compute; reflexivity|]. split; [vm_compute; reflexivity|]. split; [vm_compute; reflexivity|]. split; [vm_compute; reflexivity|].
  split; [repeat constructor; cbn; intuition discriminate|]. split; [cbn; constructor|]. split; [intros x i [<-|[]] E; discriminate|]. split; [intros x i [<-|[]] [E _]; discriminate|]. intros x y [<-|[]] [<-|[]] _. reflexivity.
Qed.

(** C44. make_ddca keeps the blocks with at most so many core and virtual orbitals (and no active ones if single_ref). *)
Theorem C44_ddca_value :
  forall (A : qalg) (S : system) (v : tvaluation A) mc mv sr start ty xs o c t ts,
  make_term ty xs o c = Ok t -> NoDup (cre o ++ ann o) -> make_ddca mc mv sr start t = Ok ts ->
  asum (map (term_value S v) ts) = (inj c * sum_over S (nodup idx_eq_dec (content_indices xs o)) (fun e =>
    let n s := length (filter (fun i => space_eqb (lsp (olabel S (e i))) s) (cre o ++ ann o)) in
    if (Z.of_nat (n Sc) <=? mc)%Z && (Z.of_nat (n Sv) <=? mv)%Z && (negb sr || (n Sa =? 0)) then integrand v xs o e else q0))%alg.
Proof.
  intros A S v mc mv sr start ty xs o c t ts M N H. pose proof (ddca_value A S v mc mv sr start ty xs o c t ts (fun _ => true) M N H) as V.
  assert (FT : forall l : list term, filter (fun _ => true) l = l) by (induction l as [|x l IH]; cbn; congruence). rewrite FT in V. rewrite V. f_equal. apply sum_over_ext; [|apply NoDup_nodup]. intros e _. cbv zeta.
  assert (C : forall s, count_in s (map (fun i => olabel S (e i)) (op_indices o)) = length (filter (fun i => space_eqb (lsp (olabel S (e i))) s) (cre o ++ ann o))).
  { clear N V. intros s. unfold count_in, op_indices. induction (cre o ++ ann o) as [|x l IH]; [reflexivity|]. cbn [map filter]. destruct (space_eqb (lsp (olabel S (e x))) s); cbn [length]; [f_equal|]; exact IH. }
  unfold ddca_kept. rewrite !C. cbn [andb]. rewrite negb_orb, <- !Z.leb_antisym, negb_andb, negb_involutive. destruct sr; cbn [negb orb]; rewrite ?orb_true_r, ?orb_false_r; reflexivity.
Qed.
Print Assumptions C44_ddca_value.

(** ** C67 *)
(** make_one_body_diagonal keeps the part in which creator and annihilator belong to the same space *)
Theorem C67_diagonal_value :
  forall (A : qalg) (S : system) (v : tvaluation A) sympy single_ref ty xs i j c t ts,
  make_term ty xs (Op [i] [j]) c = Ok t -> (forall k, ~ diagonal_in k xs (Op [i] [j])) -> densities_disjoint xs -> cumulants_open_active xs -> operator_off_cumulants xs (Op [i] [j]) ->
  classes_by_name xs -> zero_or_visible c ->
  physical S v -> no_active_amplitudes S v -> hermitian_values v ->
  (itype_antisymmetric ty = true -> antisymmetric v) -> (itype_antisymmetric ty = false -> pair_symmetric v) ->
  admissible sympy -> make_one_body_diagonal sympy single_ref t = Ok ts ->
  asum (map (term_value S v) ts) = (inj c * sum_over S (nodup idx_eq_dec (content_indices xs (Op [i] [j]))) (fun e =>
    if label_eqb (olabel S (e i)) (olabel S (e j)) && negb (single_ref && is_active S (e i)) then integrand v xs (Op [i] [j]) e else q0))%alg.
Proof.
  intros A S v sympy sr ty xs i j c t ts M ND HD HA HO HC HZ PH NA HH AS PS AD H. unfold make_one_body_diagonal in H. set (o := Op [i] [j]) in *.
  destruct (make_term_fields _ _ _ _ _ M) as (E1 & P1 & _ & E2 & E3 & _). rewrite E2 in H. unfold o in H at 1 2 3 4. cbn [cre ann length Nat.eqb negb] in H. apply pymap_forall2 in H. set (I := nodup idx_eq_dec (content_indices xs o)).
  assert (NI : NoDup I) by apply NoDup_nodup.
  assert (NE : i <> j). { intros ->. apply (ND j). left. cbn. auto. }
  assert (OI : forall k, In k [i; j] -> In k I). { intros k Hk. apply nodup_In. unfold content_indices. apply in_or_app. left. exact Hk. }
  set (ov := filter _ (inter_label (relation (fst i)) (relation (fst j)))) in H.
  assert (OV : forall s, In s ov <-> In s (relation (fst i)) /\ In s (relation (fst j)) /\ negb (sr && space_eqb (lsp s) Sa) = true).
  { intros s. unfold ov, inter_label. rewrite !filter_In, mem_label_in. tauto. }
  assert (NO : NoDup ov) by (unfold ov, inter_label; apply NoDup_filter', NoDup_filter', relation_nodup).
  assert (EV : map (term_value S v) ts = map (fun s => (inj c * sum_over S I (fun e => if label_eqb (olabel S (e i)) s && label_eqb (olabel S (e j)) s then integrand v xs o e else q0))%alg) ov).
  { assert (OV' : forall s, In s ov -> In s (relation (fst i)) /\ In s (relation (fst j))) by (intros s Hs; apply OV in Hs; tauto). clear NO OV. clearbody ov. induction H as [|s tm ov ts H F IH]; [reflexivity|]. cbn [map]. f_equal; [|apply IH; intros s' Hs'; apply OV'; right; exact Hs'].
    destruct (OV' s (or_introl eq_refl)) as [Si Sj]. clear IH F OV'. unfold rest_loop in H.
    destruct (fill_spec 0 [j; i] [s; s] (flat_map tensor_indices (ttensors t))) as (K1 & K2 & K3 & K4 & K5); [repeat constructor; cbn; intuition congruence|reflexivity|]. cbn [combine fold_left fst snd] in K1, K2, K3, K4, K5.
    set (r := fst _) in *. cbn [map] in K4. injection K4 as K4j K4i.
    assert (CK : forall k, In k (content_indices xs o) -> In k (map fst r)). { intros k Hk. apply K3. unfold content_indices in Hk. apply in_app_or in Hk as [Hk|Hk]; [left; cbn in Hk |- *; tauto|right]. apply (Permutation_in _ (Permutation_flat_map tensor_indices (Permutation_sym P1)) Hk). }
    destruct (restrict_value A S v sympy AD PH NA HH ty xs o c t r tm M ND HD HA HO HC eq_refl HZ AS PS) as (V & _ & _); try assumption.
    - intros k Hk Hn. apply K5; [apply CK, Hk|]. cbn in Hn |- *. tauto.
    - intros k [<-|[<-|[]]] x Hx; [rewrite K4i, (relation_elem _ _ Si) in Hx|rewrite K4j, (relation_elem _ _ Sj) in Hx]; destruct Hx as [<-|[]]; assumption.
    - rewrite V. f_equal. fold I. apply sum_over_ext; [|apply NoDup_nodup]. intros e _. unfold o at 1 2. cbn [cre ann app forallb]. rewrite K4i, K4j, (relation_elem _ _ Si). unfold mem_label. cbn [existsb]. rewrite !orb_false_r, andb_true_r. reflexivity. }
  rewrite EV, asum_map_mul. f_equal. unfold sum_over. rewrite asum_swap. apply asum_map_ext. intros a Ha. apply (in_assignments S I a NI) in Ha as (f & -> & Hf). set (e := env I (map f I)).
  assert (He : forall k, In k I -> In (olabel S (e k)) (relation (fst k))). { intros k Hk. unfold e. rewrite env_map by exact Hk. specialize (Hf k Hk). apply orbitals_in in Hf. tauto. }
  destruct (label_eqb (olabel S (e i)) (olabel S (e j)) && negb (sr && is_active S (e i))) eqn:T.
  - apply andb_true_iff in T as [T1 T2]. apply label_ext in T1. rewrite (asum_single A (fun s => if label_eqb (olabel S (e i)) s && label_eqb (olabel S (e j)) s then integrand v xs o e else q0) ov (olabel S (e i)) NO).
    + rewrite <- T1, (proj2 (label_ext _ _) eq_refl). reflexivity.
    + apply OV. split; [apply He, OI; left; reflexivity|]. split; [rewrite T1; apply He, OI; right; left; reflexivity|exact T2].
    + intros s _ Hs. destruct (label_eqb (olabel S (e i)) s) eqn:Q; [|reflexivity]. apply label_ext in Q. congruence.
  - transitivity (asum (map (fun _ : label => @q0 A) ov)); [|apply asum_zero]. apply asum_map_ext. intros s Hs. destruct (label_eqb (olabel S (e i)) s && label_eqb (olabel S (e j)) s) eqn:Q; [|reflexivity]. apply andb_true_iff in Q as [Q1 Q2]. apply label_ext in Q1, Q2. rewrite Q1, Q2, (proj2 (label_ext _ _) eq_refl) in T. cbn [andb] in T.
    unfold is_active in T. rewrite Q1 in T. apply OV in Hs. destruct Hs as (_ & _ & Hs). congruence.
Qed.
Print Assumptions C67_diagonal_value.

(** the two lists of orbitals have the same spaces, each as often *)
Definition same_spaces (S : system) (p q : list nat) : bool :=
  forallb (fun s => count_occ label_dec (map (olabel S) p) s =? count_occ label_dec (map (olabel S) q) s) (map (olabel S) (p ++ q)).
Lemma same_spaces_perm S p q : same_spaces S p q = true <-> Permutation (map (olabel S) p) (map (olabel S) q).
Proof.
  unfold same_spaces. rewrite (Permutation_count_occ label_dec), forallb_forall. split.
  - intros H s. destruct (in_dec label_dec s (map (olabel S) (p ++ q))) as [Q|Q]; [apply Nat.eqb_eq, H, Q|]. rewrite map_app in Q. rewrite !(proj1 (count_occ_not_In label_dec _ s)); [reflexivity| |]; intros Q'; apply Q, in_or_app; auto.
  - intros H s _. apply Nat.eqb_eq, H.
Qed.
(** the part of the k-body Hamiltonian in which creators and annihilators have the same spaces *)
Definition diagonal_part {A : qalg} (S : system) (v : tvaluation A) (single_ref : bool) (k : nat) : A :=
  (inj (inv_sq k) * sum2 S (Lab false Sg) (Lab false Sg) k (fun p q =>
    if same_spaces S p q && negb (single_ref && existsb (is_active S) (p ++ q)) then vtensor v THamiltonian "H" q p * voper v p q else q0))%alg.

Lemma mem_ext2 (X Y : bool) : (X = true <-> Y = true) -> X = Y.
Proof. intros H. apply eq_true_iff_eq, H. Qed.
Section Hamiltonian.
  Context (A : qalg) (S : system) (v : tvaluation A).
  Add Ring alg_ring20 : (q_ring A).
  Lemma hamiltonian_sum k start ty tm (G : list nat -> list nat -> A) : hamiltonian_operator k start ty = Ok tm ->
    sum_over S (nodup idx_eq_dec (content_indices (ttensors tm) (tsq tm))) (fun e => G (map e (cre (tsq tm))) (map e (ann (tsq tm)))) = sum2 S (Lab false Sg) (Lab false Sg) k G.
  Proof.
    intros H. destruct (hamiltonian_ok k start ty) as (tm' & E & _ & E2 & E3 & E4 & _). rewrite H in E. injection E as <-. rewrite E3, E4. cbn [cre ann]. set (lo := is_range (Lab false Sg) start k). set (hi := is_range (Lab false Sg) (start + k) k).
    assert (N : NoDup (lo ++ hi)). { apply NoDup_app_intro; try apply is_range_nodup. intros i Q Q'. apply is_range_in in Q, Q'. lia. }
    rewrite (sum_over_same A S _ (lo ++ hi)); [apply (range_sum A S _ start _ (start + k) k G N)|apply NoDup_nodup|exact N| |].
    - intros i. rewrite nodup_In. unfold content_indices, op_indices, tensor_indices. cbn [flat_map cre ann tupper tlower]. fold lo hi. rewrite !in_app_iff. cbn [In]. tauto.
    - intros e e' Q. f_equal; apply map_ext_in; intros i Hi; apply Q, nodup_In; unfold content_indices, op_indices; cbn [cre ann]; fold lo hi; rewrite !in_app_iff; auto.
  Qed.
  Lemma hamiltonian_integrand k start ty tm e : hamiltonian_operator k start ty = Ok tm ->
    integrand v (ttensors tm) (tsq tm) e = (vtensor v THamiltonian "H" (map e (ann (tsq tm))) (map e (cre (tsq tm))) * voper v (map e (cre (tsq tm))) (map e (ann (tsq tm))))%alg.
  Proof.
    intros H. destruct (hamiltonian_ok k start ty) as (tm' & E & _ & E2 & E3 & E4 & _). rewrite H in E. injection E as <-. rewrite E3, E4. unfold integrand, aprod, tensor_value, op_value. cbn [map fold_right tcls tname tupper tlower cre ann]. ring.
  Qed.
  Lemma hamiltonian_made k start ty tm : hamiltonian_operator k start ty = Ok tm -> exists xs o c, make_term ty xs o c = Ok tm.
  Proof.
    unfold hamiltonian_operator. intros H. destruct (make_tensor _ _ _ _ _ _) as [x|]; [|discriminate]. cbn [pybind] in H. destruct (make_typed ty _) as [l|]; [|discriminate]. cbn [pybind] in H. destruct (make_typed ty _) as [l'|]; [|discriminate]. cbn [pybind] in H. eauto.
  Qed.
End Hamiltonian.

Section Zeroth.
  Context (A : qalg) (S : system) (v : tvaluation A) (sympy : sympy_oracle).
  Context (PH : physical S v) (NA : no_active_amplitudes S v) (HH : hermitian_values v) (AS : antisymmetric v) (AD : admissible sympy).

  Lemma fock_value sr ts : diagonal_fock_operator sympy sr = Ok ts -> asum (map (term_value S v) ts) = diagonal_part S v sr 1.
  Proof.
    intros H. unfold diagonal_fock_operator in H. destruct (hamiltonian_operator 1 0 SpinOrbital) as [h|] eqn:Eh; [|discriminate]. cbn [pybind] in H.
    pose proof (fun G => hamiltonian_sum A S 1 0 SpinOrbital h G Eh) as HS. pose proof (fun e => hamiltonian_integrand A v 1 0 SpinOrbital h e Eh) as HI.
    destruct (hamiltonian_ok 1 0 SpinOrbital) as (h' & E & _ & E2 & E3 & E4 & _). rewrite Eh in E. injection E as <-.
    destruct (hamiltonian_made _ _ _ _ Eh) as (xs & o & c & M). destruct (make_term_fields _ _ _ _ _ M) as (_ & P & _ & F4 & F5 & _). rewrite F5 in E2. rewrite F4 in *. rewrite E3 in P. apply Permutation_length_1_inv in P. rewrite P in M. rewrite E4 in M, HS, HI. rewrite E3 in HS, HI. cbn [is_range seq map Nat.add] in *. clear xs o P F4 E3 E4.
    set (i := (Lab false Sg, 0) : idx) in *. set (j := (Lab false Sg, 1) : idx) in *.
    rewrite (C67_diagonal_value A S v sympy sr SpinOrbital _ i j c h ts M); try assumption; try (intros _; exact AS); try (intros; discriminate).
    - unfold diagonal_part. f_equal; [rewrite E2; reflexivity|]. rewrite <- HS. apply sum_over_ext; [|apply NoDup_nodup]. intros e _. rewrite HI. cbn [cre ann map app existsb].
      replace (same_spaces S [e i] [e j]) with (label_eqb (olabel S (e i)) (olabel S (e j))).
      + destruct (label_eqb _ _) eqn:Q; [|reflexivity]. apply label_ext in Q. cbn [andb]. unfold is_active. rewrite <- Q, orb_false_r, orb_diag. reflexivity.
      + apply mem_ext2. rewrite label_ext, same_spaces_perm. cbn [map]. split; [intros ->; reflexivity|]. intros Q. apply Permutation_length_1 in Q. exact Q.
    - intros k [[[<-|[]] [Q|[]]]|(x & [<-|[]] & [<-|[]] & [Q|[]])]; discriminate.
    - cbn. constructor.
    - intros x k [<-|[]] Q. discriminate.
    - intros x k [<-|[]] [Q _]. discriminate.
    - intros x y [<-|[]] [<-|[]] _. reflexivity.
    - rewrite E2. right. left. vm_compute. discriminate.
  Qed.

  Lemma fink_value sr h ts : hamiltonian_operator 2 0 SpinOrbital = Ok h -> expand_composite_indices sr 0 h = Ok ts -> asum (map (term_value S v) (filter (fun t => same_counts (tsq t)) ts)) = diagonal_part S v sr 2.
  Proof.
    intros Eh H. pose proof (fun G => hamiltonian_sum A S 2 0 SpinOrbital h G Eh) as HS. pose proof (fun e => hamiltonian_integrand A v 2 0 SpinOrbital h e Eh) as HI.
    destruct (hamiltonian_ok 2 0 SpinOrbital) as (h' & E & _ & E2 & E3 & E4 & _). rewrite Eh in E. injection E as <-.
    destruct (hamiltonian_made _ _ _ _ Eh) as (xs & o & c & M). destruct (make_term_fields _ _ _ _ _ M) as (_ & P & _ & F4 & F5 & _). rewrite F5 in E2. rewrite F4 in *. rewrite E3 in P. apply Permutation_length_1_inv in P. rewrite P in M. rewrite E4 in M, HS, HI. rewrite E3 in HS, HI.
    unfold expand_composite_indices in H. rewrite F4, E4 in H. cbn [is_range seq map Nat.add] in *. clear xs P F4 E3 E4.
    set (i := (Lab false Sg, 0) : idx) in *. set (j := (Lab false Sg, 1) : idx) in *. set (k := (Lab false Sg, 2) : idx) in *. set (l := (Lab false Sg, 3) : idx) in *. set (o' := {| cre := [i; j]; ann := [k; l] |}) in *.
    assert (N : NoDup (op_indices o')) by (repeat constructor; cbn; intuition discriminate). assert (H4 : make_ddca 4 4 sr 0 h = Ok ts) by exact H.
    set (same := fun b : list label => forallb (fun s => length (filter (label_eqb s) (firstn 2 b)) =? length (filter (label_eqb s) (skipn 2 b))) b).
    destruct (make_ddca_spec _ _ _ _ _ _ _ _ _ _ M N H) as (bs & _ & _ & F).
    rewrite (filter_ext_in (fun t => same_counts (tsq t)) (fun t' => same (map fst (op_indices (tsq t'))))).
    - rewrite (ddca_value A S v 4 4 sr 0 _ _ o' c h ts same M N H4). unfold diagonal_part. f_equal; [rewrite E2; reflexivity|]. rewrite <- HS. apply sum_over_ext; [|apply NoDup_nodup]. intros e _. cbv zeta. rewrite HI. change (Op [i; j] [k; l]) with o'. set (b := map _ (op_indices o')).
      replace (same_spaces S (map e (cre o')) (map e (ann o'))) with (same b).
      + replace (ddca_kept 4 4 sr b) with (negb (sr && existsb (is_active S) (map e (cre o') ++ map e (ann o')))); [reflexivity|]. apply mem_ext2. rewrite ddca_kept_spec, negb_true_iff, andb_false_iff. pose proof (count_in_le Sc b). pose proof (count_in_le Sv b). change (length b) with 4 in *.
        assert (X : existsb (is_active S) (map e (cre o') ++ map e (ann o')) = true <-> exists x, In x b /\ lsp x = Sa).
        { unfold b, op_indices. rewrite <- map_app, existsb_exists. split.
          - intros (p & Hp & Q). apply in_map_iff in Hp as (z & <- & Hz). exists (olabel S (e z)). split; [apply (in_map (fun i => olabel S (e i))), Hz|apply space_eqb_eq, Q].
          - intros (x & Hx & Q). apply in_map_iff in Hx as (z & <- & Hz). exists (e z). split; [apply in_map, Hz|apply space_eqb_eq, Q]. }
        split.
        * intros Q. split; [lia|]. split; [lia|]. intros -> Q'. apply X in Q'. destruct Q as [Q|Q]; congruence.
        * intros (_ & _ & Q). destruct sr; [|left; reflexivity]. right. apply not_true_is_false. intros T. apply (Q eq_refl), X, T.
      + unfold same, same_spaces. unfold b, op_indices, o'. cbn [cre ann map app firstn skipn].
        assert (X : forall (m : list label) s, length (filter (label_eqb s) m) = count_occ label_dec m s).
        { induction m as [|x m IH]; intros s; [reflexivity|]. cbn [filter count_occ]. destruct (label_dec x s) as [D|D]; [subst x; rewrite (proj2 (label_ext s s) eq_refl); cbn [length]; rewrite IH; reflexivity|]. destruct (label_eqb s x) eqn:Q; [apply label_ext in Q; congruence|apply IH]. }
        apply mem_ext2. rewrite !forallb_forall. split; intros Q s Hs; specialize (Q s Hs); rewrite !X in *; exact Q.
    - intros t' Ht. assert (L : exists rho, tsq t' = rename_op rho o'). { clear -F Ht. induction F as [|b x bs ts (_ & _ & _ & rho & Q & _) F IH]; [destruct Ht|]. destruct Ht as [<-|Ht]; [exists rho; exact Q|apply IH, Ht]. }
      destruct L as (rho & ->). reflexivity.
  Qed.
End Zeroth.

(** diagonal_fock_operator, dyall_hamiltonian, fink_hamiltonian *)
Theorem C67_fock :
  forall (A : qalg) (S : system) (v : tvaluation A) sympy single_ref ts, physical S v -> no_active_amplitudes S v -> hermitian_values v -> antisymmetric v -> admissible sympy ->
  diagonal_fock_operator sympy single_ref = Ok ts -> asum (map (term_value S v) ts) = diagonal_part S v single_ref 1.
Proof. intros. apply (fock_value A S v sympy); assumption. Qed.
Print Assumptions C67_fock.
Theorem C67_dyall :
  forall (A : qalg) (S : system) (v : tvaluation A) sympy ts, physical S v -> no_active_amplitudes S v -> hermitian_values v -> antisymmetric v -> admissible sympy ->
  dyall_hamiltonian sympy = Ok ts ->
  asum (map (term_value S v) ts) = (diagonal_part S v false 1 + inj (inv_sq 2) * sum2 S (Lab false Sa) (Lab false Sa) 2 (fun p q => vtensor v THamiltonian "H" q p * voper v p q))%alg.
Proof.
  intros A S v sympy ts PH NA HH AS AD H. unfold dyall_hamiltonian in H. set (l01 := is_range (Lab false Sa) 0 2). set (l23 := is_range (Lab false Sa) 2 2). change [active_index 0; active_index 1] with l01 in H. change [active_index 2; active_index 3] with l23 in H.
  destruct (make_tensor THamiltonian SpinOrbital "H" 0 l23 l01) as [x|] eqn:Ex; [|discriminate]. cbn [pybind] in H. destruct (make_term SpinOrbital [x] (Op l01 l23) _) as [t|] eqn:M; [|discriminate]. cbn [pybind] in H. destruct (diagonal_fock_operator sympy false) as [l|] eqn:Ef; [|discriminate]. cbn [pybind] in H. injection H as <-.
  rewrite map_app, asum_app, (fock_value A S v sympy PH NA HH AS AD false l Ef). f_equal. cbn [map].
  assert (X : x = Ten THamiltonian SpinOrbital "H" 0 l23 l01) by (vm_compute in Ex; injection Ex as <-; reflexivity). subst x.
  destruct (make_term_fields _ _ _ _ _ M) as (_ & P & _ & F4 & F5 & _). symmetry in P. apply Permutation_length_1_inv in P.
  unfold asum. cbn [fold_right]. pose proof (one_tensor_sum A S v t (Lab false Sa) 0 (Lab false Sa) 2 2 (fun p q => vtensor v THamiltonian "H" q p * voper v p q)%alg) as O. fold l01 l23 in O. rewrite O.
  - rewrite F5. replace (Q2Qc (1 # 4)) with (inv_sq 2) by (apply Qc_is_canon; reflexivity). pose proof (q_ring A) as R. destruct R. rewrite Radd_comm. apply Radd_0_l.
  - right. left. lia.
  - rewrite P, F4. intros i. unfold content_indices, op_indices, tensor_indices. cbn [flat_map cre ann tupper tlower]. rewrite !in_app_iff. cbn [In]. tauto.
  - rewrite P, F4. intros e. unfold integrand, aprod, tensor_value, op_value. cbn [map fold_right tcls tname tupper tlower cre ann]. apply mul_one.
Qed.
Print Assumptions C67_dyall.
Theorem C67_fink :
  forall (A : qalg) (S : system) (v : tvaluation A) sympy single_ref ts, physical S v -> no_active_amplitudes S v -> hermitian_values v -> antisymmetric v -> admissible sympy ->
  fink_hamiltonian sympy single_ref = Ok ts -> asum (map (term_value S v) ts) = (diagonal_part S v single_ref 1 + diagonal_part S v single_ref 2)%alg.
Proof.
  intros A S v sympy sr ts PH NA HH AS AD H. unfold fink_hamiltonian in H. destruct (diagonal_fock_operator sympy sr) as [l|] eqn:Ef; [|discriminate]. cbn [pybind] in H. destruct (hamiltonian_operator 2 0 SpinOrbital) as [h|] eqn:Eh; [|discriminate]. cbn [pybind] in H.
  destruct (expand_composite_indices sr 0 h) as [m|] eqn:Em; [|discriminate]. cbn [pybind] in H. injection H as <-. rewrite map_app, asum_app, (fock_value A S v sympy PH NA HH AS AD sr l Ef), (fink_value A S v sr h m Eh Em). reflexivity.
Qed.
Print Assumptions C67_fink.
Example C67_example :
  exists f d k, diagonal_fock_operator (one_move []) true = Ok f /\ length f = 2 /\ dyall_hamiltonian (one_move []) = Ok d /\ length d = 4 /\ fink_hamiltonian (one_move []) false = Ok k /\ length k = 18.
Proof. eexists. eexists. eexists. split; [vm_compute; reflexivity|]. split; [reflexivity|]. split; [vm_compute; reflexivity|]. split; [reflexivity|]. split; [vm_compute; reflexivity|]. vm_compute. reflexivity. Qed.
(** values meeting the hypotheses: identities on a core and a virtual orbital *)
Definition kron_values : tvaluation Qc_alg := TVal Qc_alg
  (fun c _ u l => match c, u, l with
    | TCluster, _, _ => Q2Qc 0
    | TCumulant, [p], [q] => if (p =? q) && is_core two_orbitals p then Q2Qc 1 else Q2Qc 0
    | _, [p], [q] => if p =? q then Q2Qc 1 else Q2Qc 0
    | _, _, _ => Q2Qc 0 end)
  (fun u l => match u, l with [p], [q] => if p =? q then Q2Qc 1 else Q2Qc 0 | _, _ => Q2Qc 0 end).
Example C67_hypotheses :
  physical two_orbitals kron_values /\ no_active_amplitudes two_orbitals kron_values /\ hermitian_values kron_values /\ antisymmetric kron_values /\ admissible (one_move []) /\
  diagonal_part two_orbitals kron_values true 1 = Q2Qc (2 # 1).
Proof.
  assert (Z : Q2Qc 0 = Qcopp (Q2Qc 0)) by (apply Qc_is_canon; reflexivity). assert (G : forall (p q : list nat) x y, exists z w m, p ++ x :: y :: q = z :: w :: m) by (intros [|a [|b p]] q x y; eexists; eexists; eexists; reflexivity).
  split; [|split; [|split; [|split; [|split]]]].
  - constructor.
    + reflexivity.
    + intros n p q H. cbn. destruct (Nat.eqb_spec p q) as [->|]; [|reflexivity]. unfold is_core. unfold is_virtual in H. assert (V : lsp (olabel two_orbitals q) = Sv) by (destruct H as [H|H]; apply space_eqb_eq, H). rewrite V. reflexivity.
    + intros n p q H. cbn. destruct (Nat.eqb_spec p q) as [->|]; [|reflexivity]. replace (is_core two_orbitals q) with true by (destruct H; auto). reflexivity.
    + intros n [|p [|p' ps]] qs L H; cbn; try reflexivity. contradiction.
  - intros n ps qs _. reflexivity.
  - intros c n u l. cbn. destruct c; try reflexivity; destruct u as [|p [|p' u]], l as [|q [|q' l]]; try reflexivity; rewrite (Nat.eqb_sym q p); try reflexivity. destruct (Nat.eqb_spec p q) as [->|]; reflexivity.
  - constructor.
    + intros c n l p x y q. cbn. destruct (G p q x y) as (z & w & m & ->), (G p q y x) as (z' & w' & m' & ->). destruct c; exact Z.
    + intros c n u p x y q. cbn. destruct (G p q x y) as (z & w & m & ->), (G p q y x) as (z' & w' & m' & ->). destruct c, u as [|a [|a' u]]; exact Z.
    + intros l p x y q. cbn. destruct (G p q x y) as (z & w & m & ->), (G p q y x) as (z' & w' & m' & ->). exact Z.
    + intros u p x y q. cbn. destruct (G p q x y) as (z & w & m & ->), (G p q y x) as (z' & w' & m' & ->). destruct u as [|a [|a' u]]; exact Z.
  - apply one_move_admissible.
  - apply Qc_is_canon. vm_compute. reflexivity.
Qed.
