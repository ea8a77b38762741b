(** C74: contracted terms and commutators stand for the products and commutators of the operators. *)
From Coq Require Import Ascii String ZArith QArith Qcanon Ring_theory Ring Lia Bool Sorting.Sorted ListDec Permutation.
From Verif Require Import PyBase OrderSpec OrderProofs ParitySpec ParityProofs SpaceModel IndicesModel IndicesProofs IterProofs ElemModel ElemSpec MacroModel CompatSpec WickModel WickSpec WickProofs
  TermModel BchSpec ValueSpec ValueProofs TermSpec SumProofs SymmetrySpec CombineModel CombineSpec PropWick ContractSpec ContractValue FamilySpec FamilyProofs FockSpec ExtensionProofs FockProofs FockValue FockTerms FockMatrix PropSimplify PropCanon PropSchedule PropContract.
Local Close Scope Q_scope.
Local Close Scope Qc_scope.
Local Open Scope nat_scope.
Local Notation length := List.length.

(** the number of creators and annihilators in all operators *)
Definition n_factors (terms : list term) : nat := list_sum (map (fun t => length (cre (tsq t)) + length (ann (tsq t))) terms).
Lemma n_factors_written terms : n_factors terms = factors terms.
Proof.
  unfold n_factors, factors, written_string. induction terms as [|t l IH]; [reflexivity|]. cbn [map list_sum fold_right flat_map]. rewrite app_length. unfold list_sum in IH. rewrite IH. unfold open_string. rewrite app_length, !map_length, rev_length. reflexivity.
Qed.

(** ** Normal products *)
(** A string is the sum over all its contractions of the value of the contractions times the normal product of the rest: Wick's theorem for
    a single string. The sign is that of the permutation putting the contracted groups to the front. *)
Theorem C74_strings :
  forall (A : qalg) (B : fermions A) (v : tvaluation A) (w : list factor),
  string_product B w = nsum (map (fun p => let '(s, gs, r) := p in scal (signed s (aprod (map (contraction v) gs))) (normal_product B v r)) (families (length w) w)).
Proof.
  intros A B v w. apply oper_injective. pose proof (string_contractions B v w) as Q. unfold product_value in Q. rewrite Q. apply (family_oper B (contraction v) (normal_product B v)).
Qed.
Print Assumptions C74_strings.
(** Exchanging two neighbours in a normal product changes its sign, although strings obey the anticommutation relations. *)
Theorem C74_alternates :
  forall (A : qalg) (B : fermions A) (v : tvaluation A) (l1 : list factor) (x y : factor) (l2 : list factor),
  antisymmetric_tensors v -> snd x < modes B -> snd y < modes B ->
  normal_product B v (l1 ++ x :: y :: l2) = nopp (normal_product B v (l1 ++ y :: x :: l2)).
Proof.
  intros A B v l1 x y l2 [AU AL] Hx Hy. apply oper_injective. rewrite oper_opp. exact (normal_alternates B v (AU TCumulant) (AL TCumulant) l1 x y l2 Hx Hy).
Qed.
Print Assumptions C74_alternates.

Section Results.
  Context {A : qalg} (B : fermions A) (S : system) (v : tvaluation A).
  Add Ring alg_ring39 : (q_ring A).
  Add Ring alg_ring40 : (q_ring (extension B)).
  Lemma keeps_linear lo hi n T : keeps B v lo hi n T -> linear B T. Proof. intros K. split; apply K. Qed.
  Lemma keeps_identity lo hi n : (lo <= 0)%Z -> (Z.of_nat n <= hi)%Z -> keeps B v lo hi n (fun x => x).
  Proof. intros L H. constructor; try reflexivity. intros w _ Hw Q. exfalso. apply Q. lia. Qed.
  Lemma keeps_less lo hi n m T : m <= n -> keeps B v lo hi n T -> keeps B v lo hi m T.
  Proof. intros L K. constructor; [apply K|apply K|intros w M H; apply (keeps_inside _ _ _ _ _ _ K w M); lia|intros w M H; apply (keeps_outside _ _ _ _ _ _ K w M); lia]. Qed.
  Lemma body_scalar t : op_is_empty (tsq t) = true -> exists a, body B S v t = scal a n1.
  Proof.
    intros H. unfold body. eexists. rewrite (map_ext _ (fun a => scal (aprod (map (tensor_value v (env (own t) a)) (ttensors t))) n1)) by (intros a; rewrite empty_string by exact H; reflexivity).
    match goal with |- nsum (map (fun a => scal (@?f a) n1) ?l) = _ => instantiate (1 := asum (map f l)); induction l as [|a m IH]; [symmetry; apply scal_0l|] end. cbn [map]. rewrite nsum_cons, IH. change (asum (?x :: ?l)) with (x + asum l)%alg. symmetry. apply scal_add.
  Qed.
  Lemma scalar_bracket t (x : B) : op_is_empty (tsq t) = true -> bracket (term_operator B v S t) x = n0 /\ bracket x (term_operator B v S t) = n0.
  Proof.
    intros H. rewrite operator_body. destruct (body_scalar t H) as [a ->]. unfold bracket. rewrite (nscal_nmul B), (nmul_nscal B), scal_mull, scal_mulr, nmul_1l, nmul_1r. split; apply nadd_opp.
  Qed.
  Lemma linear_bracket T x y : linear B T -> T (bracket x y) = nadd (T (nmul x y)) (nopp (T (nmul y x))).
  Proof. intros L. unfold bracket. rewrite (proj1 L), (linear_opp B T _ L). reflexivity. Qed.
  Lemma nscal_opp c (x : B) : nopp (nscal c x) = nscal c (nopp x).
  Proof. symmetry. apply nopp_unique. rewrite <- nscal_addr, nadd_opp, <- scal_inj. apply scal_0r. Qed.
  Lemma bracket_nscal c d (x y : B) : bracket (nscal c x) (nscal d y) = nscal (Qcmult c d) (bracket x y).
  Proof. unfold bracket. rewrite !(nscal_nmul B), !(nmul_nscal B), !(FockTerms.nscal_mul B), (Qcmult_comm d c), nscal_opp, <- nscal_addr. reflexivity. Qed.
End Results.

(** ** Products *)
(** At least two operators: the sum of the terms returned stands for the product of the operators in the given order, without the
    normal products whose number of open indices is out of range. This holds in every algebra with fermion operators for the orbitals. *)
Theorem C74_product :
  forall (A : qalg) (B : fermions A) (S : system) (v : tvaluation A) w terms max_cu max_o min_o sc eh n hermitian out T,
  norb S <= modes B -> physical S v -> no_active_amplitudes S v -> antisymmetric_tensors v -> hole_values v -> no_cumulants_above max_cu v ->
  (hermitian = true -> hermitian_values v) -> sound w ->
  Forall standard terms -> ForallOrdPairs apart_terms terms -> consistent_names (flat_map ttensors terms) ->
  2 <= length (proper_ops terms) -> zero_or_visible (total_coeff sc terms) -> keeps B v min_o max_o (n_factors terms) T ->
  contract_terms w terms max_cu max_o min_o sc false eh n hermitian = Ok out ->
  list_operator B v S out = nscal sc (T (nprod (map (term_operator B v S) terms))).
Proof.
  intros A B S v w terms mc mx mn sc eh n h out T MB PH NA AT HV NC HS SW ST AP CN L VC KP H. rewrite n_factors_written in KP.
  destruct (C62_product_value (extension B) S (lift B v) w terms mc mx mn sc eh n h out) as (r & W & V); try assumption.
  - apply lift_physical, PH.
  - apply lift_no_active, NA.
  - apply lift_antisymmetric; assumption.
  - intros Q. apply lift_hermitian, HS, Q.
  - rewrite (contracted_operator B S v MB PH AT terms T eh r mc mn mx HV NC ST AP KP W), list_lift in V by assumption. rewrite <- oper_nscal in V. apply oper_injective in V. rewrite V.
    rewrite <- !(linear_nscal B T) by (eapply keeps_linear; exact KP). f_equal. apply total_operator.
Qed.
Print Assumptions C74_product.
(** Nothing is left out if the range allows for all indices to remain open. *)
Theorem C74_full_product :
  forall (A : qalg) (B : fermions A) (S : system) (v : tvaluation A) w terms max_cu max_o min_o sc eh n hermitian out,
  norb S <= modes B -> physical S v -> no_active_amplitudes S v -> antisymmetric_tensors v -> hole_values v -> no_cumulants_above max_cu v ->
  (hermitian = true -> hermitian_values v) -> sound w ->
  Forall standard terms -> ForallOrdPairs apart_terms terms -> consistent_names (flat_map ttensors terms) ->
  2 <= length (proper_ops terms) -> zero_or_visible (total_coeff sc terms) -> (min_o <= 0)%Z -> (Z.of_nat (n_factors terms) <= max_o)%Z ->
  contract_terms w terms max_cu max_o min_o sc false eh n hermitian = Ok out ->
  list_operator B v S out = nscal sc (nprod (map (term_operator B v S) terms)).
Proof.
  intros A B S v w terms mc mx mn sc eh n h out MB PH NA AT HV NC HS SW ST AP CN L VC L1 L2 H.
  apply (C74_product A B S v w terms mc mx mn sc eh n h out (fun x => x)); try assumption. apply keeps_identity; assumption.
Qed.
Print Assumptions C74_full_product.
(** At most one operator, the rest scalars: the product, whatever the range. *)
Theorem C74_single_operator :
  forall (A : qalg) (B : fermions A) (S : system) (v : tvaluation A) w terms max_cu max_o min_o sc fc eh n hermitian out,
  norb S <= modes B -> Forall standard terms -> ForallOrdPairs apart_terms terms -> length (proper_ops terms) <= 1 ->
  contract_terms w terms max_cu max_o min_o sc fc eh n hermitian = Ok out ->
  list_operator B v S out = nscal sc (nprod (map (term_operator B v S) terms)).
Proof.
  intros A B S v w terms mc mx mn sc fc eh n h out MB ST AP L H.
  pose proof (C62_single_operator (extension B) S (lift B v) w terms mc mx mn sc fc eh n h out ST L H) as V. rewrite list_lift in V by assumption.
  rewrite <- total_operator, <- joint_product by (apply standard_separate; assumption). apply oper_injective. rewrite V, oper_nscal. f_equal. rewrite oper_nsum, map_map.
  apply (sum_over_ext (extension B) S (all_indices terms) _ (fun e => oper B (joint B v terms e))); [|apply NoDup_nodup]. intros e He.
  assert (ME : forall i, In i (all_indices terms) -> e i < modes B) by (intros i Hi; apply He, orbitals_in in Hi as [Hi _]; lia).
  rewrite lift_op.
  - unfold joint. rewrite oper_scal, emb_aprod, map_map. f_equal. f_equal. rewrite <- (nprod_proper B (fun o => normal_product B v (op_string e o))) by (intros o Ho; apply empty_string, Ho).
    destruct (proper_ops terms) as [|o [|o' l]]; [apply normal_nil|cbn [hd map]; symmetry; apply nmul_1r|cbn in L; lia].
  - intros i Hi. apply ME. destruct (proper_ops terms) as [|o l] eqn:P; [destruct Hi|]. cbn [hd] in Hi. assert (Ho : In o (proper_ops terms)) by (rewrite P; left; reflexivity). unfold proper_ops in Ho. apply in_map_iff in Ho as (t & <- & Ht). apply filter_In in Ht as [Ht _].
    apply nodup_In, in_flat_map. exists t. split; [exact Ht|]. unfold content_indices. apply in_or_app. left. exact Hi.
Qed.
Print Assumptions C74_single_operator.
(** Fully contracted products are expectation values: a linear functional that is one on the identity and zero on all other normal
    products gives the product of the operators the value of the terms returned. *)
Theorem C74_expectation :
  forall (A : qalg) (B : fermions A) (S : system) (v : tvaluation A) w terms max_cu sc eh n hermitian out (mean : B -> A),
  norb S <= modes B -> physical S v -> no_active_amplitudes S v -> antisymmetric_tensors v -> hole_values v -> no_cumulants_above max_cu v ->
  (hermitian = true -> hermitian_values v) -> sound w ->
  Forall standard terms -> ForallOrdPairs apart_terms terms -> consistent_names (flat_map ttensors terms) ->
  2 <= length (proper_ops terms) -> zero_or_visible (total_coeff sc terms) ->
  (forall x y, mean (nadd x y) = (mean x + mean y)%alg) -> (forall a x, mean (scal a x) = (a * mean x)%alg) -> mean n1 = q1 ->
  (forall x u, Forall (fun y : factor => snd y < modes B) (x :: u) -> mean (normal_product B v (x :: u)) = q0) ->
  (forall u l, voper v u l = match u, l with [], [] => q1 | _, _ => q0 end) ->
  contract_terms w terms max_cu 0 0 sc false eh n hermitian = Ok out ->
  asum (map (term_value S v) out) = (inj sc * mean (nprod (map (term_operator B v S) terms)))%alg.
Proof.
  intros A B S v w terms mc sc eh n h out mean MB PH NA AT HV NC HS SW ST AP CN L VC M1 M2 M3 M4 VO H. pose proof (q_ring A) as RT.
  assert (Z0 : forall a : A, (a * q0)%alg = q0) by (intros a; rewrite (Rmul_comm RT), <- (Radd_0_l RT (q0 * a)%alg), <- (Ropp_def RT (q0 * a)%alg) at 1; rewrite (Radd_comm RT (q0 * a)%alg), <- (Radd_assoc RT), <- (Rdistr_l RT), (Radd_0_l RT), (Radd_comm RT), (Ropp_def RT); reflexivity).
  assert (M0 : mean n0 = q0) by (rewrite <- (scal_0l B n0), M2, (Rmul_comm RT); apply Z0).
  assert (KP : keeps B v 0 0 (n_factors terms) (fun x => scal (mean x) n1)).
  { constructor.
    - intros x y. rewrite M1. apply scal_add.
    - intros a x. rewrite M2. apply scal_mul.
    - intros [|x u] F _ Q; [|cbn [length] in Q; lia]. rewrite normal_nil, M3. apply scal_1.
    - intros [|x u] F _ Q; [exfalso; apply Q; cbn; lia|]. rewrite M4 by exact F. apply scal_0l. }
  pose proof (C74_product A B S v w terms mc 0 0 sc eh n h out _ MB PH NA AT HV NC HS SW ST AP CN L VC KP H) as Q. cbv beta in Q.
  assert (TV : forall t, mean (term_operator B v S t) = term_value S v t).
  { intros t. rewrite operator_body, <- scal_inj, M2. unfold term_value, content_value. f_equal. unfold body, sum_over. fold (own t).
    assert (G : forall l, (forall a, In a l -> In a (assignments S (own t))) -> mean (nsum (map (fun a => scal (aprod (map (tensor_value v (env (own t) a)) (ttensors t))) (normal_product B v (op_string (env (own t) a) (tsq t)))) l)) = asum (map (fun a => integrand v (ttensors t) (tsq t) (env (own t) a)) l)); [|apply G; auto].
    induction l as [|a l IH]; intros Hl; [exact M0|]. cbn [map]. rewrite nsum_cons, M1, IH by (intros b Hb; apply Hl; right; exact Hb). change (asum (?x :: ?m)) with (x + asum m)%alg. f_equal. rewrite M2. unfold integrand. f_equal. unfold op_value. rewrite VO.
    assert (F : Forall (fun y : factor => snd y < modes B) (op_string (env (own t) a) (tsq t))).
    { apply Forall_forall. intros y Hy. assert (X : exists i, In i (op_indices (tsq t)) /\ snd y = env (own t) a i).
      { unfold op_string in Hy. unfold op_indices. apply in_app_or in Hy as [Hy|Hy]; apply in_map_iff in Hy as (i & <- & Hi); exists i; (split; [|reflexivity]); apply in_or_app; [left; exact Hi|right; apply in_rev; exact Hi]. }
      destruct X as (i & Hi & ->). apply (env_mode B S MB (own t) a i); [apply Hl; left; reflexivity|apply NoDup_nodup|]. apply nodup_In. unfold content_indices. apply in_or_app. left. exact Hi. }
    revert F. unfold op_string. destruct (cre (tsq t)) as [|c cs]; cbn [map app].
    - destruct (ann (tsq t)) as [|b bs]; [intros _; cbn [rev map app]; rewrite normal_nil; exact M3|]. intros F. cbn [map]. destruct (rev (b :: bs)) as [|z zs] eqn:R; [exfalso; apply (f_equal (@length idx)) in R; rewrite rev_length in R; discriminate|]. cbn [map] in *. apply M4, F.
    - intros F. apply M4, F. }
  assert (SUM : forall l, mean (list_operator B v S l) = asum (map (term_value S v) l)).
  { unfold list_operator. induction l as [|t l IH]; [exact M0|]. cbn [map]. rewrite nsum_cons, M1, IH, TV. reflexivity. }
  rewrite <- SUM, Q, <- scal_inj, M2. f_equal. rewrite M2, M3, (Rmul_comm RT). apply (Rmul_1_l RT).
Qed.
Print Assumptions C74_expectation.

(** ** Commutators *)
(** The sum of the terms returned by single_commutator stands for the commutator of the two operators, for any choice of for_commutator. *)
Theorem C74_commutator :
  forall (A : qalg) (B : fermions A) (S : system) (v : tvaluation A) w1 w2 a b max_cu max_o min_o sc fc eh n hermitian out T,
  norb S <= modes B -> physical S v -> no_active_amplitudes S v -> antisymmetric_tensors v -> hole_values v -> no_cumulants_above max_cu v ->
  (hermitian = true -> hermitian_values v) -> sound w1 -> sound w2 ->
  standard a -> standard b -> apart_terms a b -> consistent_names (ttensors a ++ ttensors b) -> zero_or_visible (Qcmult sc (Qcmult (tcoeff a) (tcoeff b))) ->
  keeps B v min_o max_o (n_factors [a; b]) T ->
  single_commutator w1 w2 a b max_cu max_o min_o sc fc eh n hermitian = Ok out ->
  list_operator B v S out = nscal sc (T (bracket (term_operator B v S a) (term_operator B v S b))).
Proof.
  intros A B S v w1 w2 a b mc mx mn sc fc eh n h out T MB PH NA AT HV NC HS W1 W2 Sa Sb AP CN VC KP H. pose proof (keeps_linear B v _ _ _ _ KP) as LT. apply oper_injective. rewrite <- list_lift by assumption.
  destruct (op_is_empty (tsq a) || op_is_empty (tsq b)) eqn:E.
  - rewrite (C63_scalar_commutes (extension B) S (lift B v) w1 w2 a b mc mx mn sc fc eh n h out) by (first [assumption|apply W1|apply W2]).
    replace (bracket (term_operator B v S a) (term_operator B v S b)) with (@n0 B); [rewrite (linear_0 B T LT), <- scal_inj, scal_0r; reflexivity|]. symmetry. apply orb_true_iff in E as [E|E]; [exact (proj1 (scalar_bracket B S v a _ E))|exact (proj2 (scalar_bracket B S v b _ E))].
  - apply orb_false_iff in E as [Ea Eb].
    destruct (C63_commutator_value (extension B) S (lift B v) w1 w2 a b mc mx mn sc fc eh n h out) as [(r1 & r2 & X1 & X2) V]; try assumption.
    { apply lift_physical, PH. } { apply lift_no_active, NA. } { apply lift_antisymmetric; assumption. } { apply lift_holes, HV. } { intros Q. apply lift_hermitian, HS, Q. }
    assert (P1 : proper_ops [a; b] = [tsq a; tsq b]) by (unfold proper_ops; cbn [filter]; rewrite Ea, Eb; reflexivity). assert (P2 : proper_ops [b; a] = [tsq b; tsq a]) by (unfold proper_ops; cbn [filter]; rewrite Ea, Eb; reflexivity).
    rewrite (V true true r1 r2 X1 X2). unfold expansion in X1, X2. rewrite <- P1 in X1. rewrite <- P2 in X2. rewrite n_factors_written in KP.
    assert (KP' : keeps B v mn mx (factors [b; a]) T) by (replace (factors [b; a]) with (factors [a; b]); [exact KP|]; rewrite <- !n_factors_written; unfold n_factors; cbn; lia).
    assert (F1 : Forall standard [a; b]) by (constructor; [exact Sa|constructor; [exact Sb|constructor]]). assert (F2 : Forall standard [b; a]) by (constructor; [exact Sb|constructor; [exact Sa|constructor]]).
    assert (O1 : ForallOrdPairs apart_terms [a; b]) by (constructor; [constructor; [exact AP|constructor]|constructor; [constructor|constructor]]).
    assert (O2 : ForallOrdPairs apart_terms [b; a]) by (constructor; [constructor; [intros i Hb Ha; exact (AP i Ha Hb)|constructor]|constructor; [constructor|constructor]]).
    rewrite (contracted_operator B S v MB PH AT [a; b] T true r1 mc mn mx HV NC F1 O1 KP X1), (contracted_operator B S v MB PH AT [b; a] T true r2 mc mn mx HV NC F2 O2 KP' X2).
    rewrite oper_sub, <- oper_nscal. f_equal. cbn [map nprod fold_right]. rewrite !nmul_1r. rewrite <- (linear_opp B T), <- (proj1 LT) by exact LT. rewrite <- !(linear_nscal B T) by exact LT. f_equal.
    rewrite !operator_body, bracket_nscal, (FockTerms.nscal_mul B). reflexivity.
Qed.
Print Assumptions C74_commutator.
Theorem C74_full_commutator :
  forall (A : qalg) (B : fermions A) (S : system) (v : tvaluation A) w1 w2 a b max_cu max_o min_o sc fc eh n hermitian out,
  norb S <= modes B -> physical S v -> no_active_amplitudes S v -> antisymmetric_tensors v -> hole_values v -> no_cumulants_above max_cu v ->
  (hermitian = true -> hermitian_values v) -> sound w1 -> sound w2 ->
  standard a -> standard b -> apart_terms a b -> consistent_names (ttensors a ++ ttensors b) -> zero_or_visible (Qcmult sc (Qcmult (tcoeff a) (tcoeff b))) ->
  (min_o <= 0)%Z -> (Z.of_nat (n_factors [a; b]) <= max_o)%Z ->
  single_commutator w1 w2 a b max_cu max_o min_o sc fc eh n hermitian = Ok out ->
  list_operator B v S out = nscal sc (bracket (term_operator B v S a) (term_operator B v S b)).
Proof.
  intros A B S v w1 w2 a b mc mx mn sc fc eh n h out MB PH NA AT HV NC HS W1 W2 Sa Sb AP CN VC L1 L2 H.
  apply (C74_commutator A B S v w1 w2 a b mc mx mn sc fc eh n h out (fun x => x)); try assumption. apply keeps_identity; assumption.
Qed.
Print Assumptions C74_full_commutator.

(** ** Examples *)
Section Zero.
  (** A functional that is zero on the normal products of the sublists of a list of all factors is zero on all others but the empty one. *)
  Context {A : qalg} (B : fermions A) (v : tvaluation A) (AT : antisymmetric_tensors v) (mean : B -> A).
  Context (M1 : forall x y, mean (nadd x y) = (mean x + mean y)%alg) (M2 : forall a x, mean (scal a x) = (a * mean x)%alg).
  Add Ring alg_ring42 : (q_ring A).
  Lemma mean_zero : mean n0 = q0. Proof. rewrite <- (scal_0l B n0), M2. ring. Qed.
  Lemma mean_opp x : mean (nopp x) = (- mean x)%alg.
  Proof. assert (H : (mean x + mean (nopp x))%alg = q0) by (rewrite <- M1, nadd_opp; apply mean_zero). transitivity (mean x + mean (nopp x) - mean x)%alg; [ring|]. rewrite H. ring. Qed.
  Lemma mean_permuted (w w' : list factor) : Permutation w w' -> forall p : list factor, Forall (fun x : factor => snd x < modes B) (p ++ w) -> mean (normal_product B v (p ++ w')) = q0 -> mean (normal_product B v (p ++ w)) = q0.
  Proof.
    intros P. induction P as [|x l l' P IH|x y l|l l' l'' P1 IH1 P2 IH2]; intros p F H; [exact H| | |].
    - specialize (IH (p ++ [x])). rewrite <- !app_assoc in IH. cbn [app] in IH. apply IH; assumption.
    - apply Forall_app in F as [_ F]. inversion F as [|? ? Fy F']; subst. inversion F'; subst. rewrite (C74_alternates A B v p y x l AT) by assumption. rewrite mean_opp, H. ring.
    - apply IH1; [exact F|]. apply IH2; [|exact H]. apply Forall_app in F as [F1 F2]. apply Forall_app. split; [exact F1|]. eapply Permutation_Forall; eassumption.
  Qed.
  Lemma mean_repeated x w : snd x < modes B -> mean (normal_product B v (x :: x :: w)) = q0.
  Proof.
    intros H. pose proof (C74_alternates A B v [] x x w AT H H) as Q. cbn [app] in Q. apply (f_equal mean) in Q. rewrite mean_opp in Q. set (m := mean _) in *.
    assert (Z2 : (m + m)%alg = q0) by (rewrite Q at 1; ring). transitivity (inj (Q2Qc (1 # 2)) * (m + m))%alg; [|rewrite Z2; ring].
    transitivity (inj (Qcplus (Q2Qc (1 # 2)) (Q2Qc (1 # 2))) * m)%alg; [|rewrite inj_add; ring]. replace (Qcplus (Q2Qc (1 # 2)) (Q2Qc (1 # 2))) with (Q2Qc 1) by (apply Qc_is_canon; reflexivity). change (Q2Qc 1) with 1%Qc. rewrite inj_one. ring.
  Qed.
  Lemma mean_all (letters : list factor) : (forall x : factor, snd x < modes B -> In x letters) -> NoDup letters ->
    (forall keep : factor -> bool, filter keep letters <> [] -> mean (normal_product B v (filter keep letters)) = q0) ->
    forall x u, Forall (fun y : factor => snd y < modes B) (x :: u) -> mean (normal_product B v (x :: u)) = q0.
  Proof.
    intros HL ND HK x u F. assert (dec : forall a b : factor, {a = b} + {a <> b}) by (repeat decide equality).
    destruct (ListDec.NoDup_dec dec (x :: u)) as [N|N].
    - set (keep := fun y => if in_dec dec y (x :: u) then true else false).
      assert (P : Permutation (x :: u) (filter keep letters)).
      { apply NoDup_Permutation; [exact N|apply NoDup_filter; exact ND|]. intros y. rewrite filter_In. unfold keep. split.
        - intros Hy. split; [apply HL; rewrite Forall_forall in F; apply F, Hy|]. destruct (in_dec dec y (x :: u)); [reflexivity|contradiction].
        - intros [_ Hy]. destruct (in_dec dec y (x :: u)); [assumption|discriminate]. }
      apply (mean_permuted _ _ P [] F). apply HK. intros Q. rewrite Q in P. apply Permutation_sym, Permutation_nil in P. discriminate.
    - assert (D : exists y r, Permutation (x :: u) (y :: y :: r)).
      { clear F. revert N. generalize (x :: u). intros w. induction w as [|a w IH]; intros N; [exfalso; apply N; constructor|].
        destruct (in_dec dec a w) as [I|I]; [apply in_split in I as (l1 & l2 & ->); exists a, (l1 ++ l2); constructor; symmetry; apply Permutation_middle|].
        destruct IH as (y & r & P); [intros K; apply N; constructor; assumption|]. exists y, (a :: r). rewrite P. transitivity (y :: a :: y :: r); [apply perm_swap|constructor; apply perm_swap]. }
      destruct D as (y & r & P). apply (mean_permuted _ _ P [] F). apply mean_repeated. rewrite Forall_forall in F. apply F. apply (Permutation_in _ (Permutation_sym P)). left. reflexivity.
  Qed.
End Zero.

(** three orbitals with occupations 1, 1/2 and 0 as 8 x 8 matrices *)
Definition ex_fock : fermions Qc_alg := matrix_fermions Qc_alg 3.
Definition ex_mean : ex_fock -> Qc_alg := matrix_mean Qc_alg (fun p => occupation p p) 3.
Definition uncorrelated : tvaluation Qc_alg := TVal Qc_alg (vtensor half_filled) (fun u l => match u, l with [], [] => Q2Qc 1 | _, _ => Q2Qc 0 end).
Lemma uncorrelated_tensors : antisymmetric_tensors uncorrelated.
Proof. split; intros; [apply one_body_upper|apply one_body_lower]. Qed.
Lemma uncorrelated_physical : physical three_orbitals uncorrelated.
Proof. destruct half_filled_physical. constructor; assumption. Qed.
Lemma uncorrelated_cumulants : no_cumulants_above 2 uncorrelated.
Proof. intros n [|p [|p' us]] ls _ H; [reflexivity|cbn in H; lia|reflexivity]. Qed.
Lemma ex_mean_zero : forall x u, Forall (fun y : factor => snd y < 3) (x :: u) -> ex_mean (normal_product ex_fock uncorrelated (x :: u)) = Q2Qc 0.
Proof.
  intros x u F. assert (E : forall q : Qc, (if Qeq_bool (this q) 0 then true else false) = true -> q = Q2Qc 0).
  { intros q H. apply Qc_is_canon. apply Qeq_bool_iff. destruct (Qeq_bool (this q) 0) eqn:Q; [exact Q|discriminate]. }
  refine (mean_all ex_fock uncorrelated uncorrelated_tensors ex_mean (mean_add _ _ 3) (mean_scal _ _ 3) (flat_map (fun p => [(true, p); (false, p)]) [0; 1; 2]) _ _ _ x u F).
  - intros [b p] H. cbn [ex_fock modes snd] in H. change (p < 3) in H. destruct p as [|[|[|p]]]; destruct b; cbn; auto 10; lia.
  - repeat constructor; cbn; intuition discriminate.
  - intros keep. cbn [flat_map app filter]. repeat match goal with |- context [keep ?x] => destruct (keep x) end; intros N; (try (exfalso; apply N; reflexivity)); apply E; vm_compute; reflexivity.
Qed.
Lemma ex_keeps n : keeps ex_fock uncorrelated 0 0 n (fun x => scal (ex_mean x) n1).
Proof.
  constructor.
  - intros x y. unfold ex_mean. rewrite mean_add. apply scal_add.
  - intros a x. unfold ex_mean. rewrite mean_scal. apply scal_mul.
  - intros [|x u] F _ Q; [|cbn [List.length] in Q; lia]. rewrite normal_nil. unfold ex_mean. rewrite mean_one. apply scal_1.
  - intros [|x u] F _ Q; [exfalso; apply Q; cbn; lia|]. rewrite ex_mean_zero by exact F. exact (scal_0l ex_fock n1).
Qed.
Example C74_example :
  norb three_orbitals <= modes ex_fock /\ physical three_orbitals uncorrelated /\ no_active_amplitudes three_orbitals uncorrelated /\ antisymmetric_tensors uncorrelated /\
  hole_values uncorrelated /\ no_cumulants_above 2 uncorrelated /\ hermitian_values uncorrelated /\ sound ex_serial /\
  Forall standard [ex_h; ex_t] /\ ForallOrdPairs apart_terms [ex_h; ex_t] /\ consistent_names (flat_map ttensors [ex_h; ex_t]) /\
  2 <= length (proper_ops [ex_h; ex_t]) /\ zero_or_visible (total_coeff (Q2Qc 1) [ex_h; ex_t]) /\ n_factors [ex_h; ex_t] = 4 /\
  keeps ex_fock uncorrelated 0 4 4 (fun x => x) /\ keeps ex_fock uncorrelated 0 0 4 (fun x => scal (ex_mean x) n1) /\
  (exists out, contract_terms ex_serial [ex_h; ex_t] 2 4 0 (Q2Qc 1) false true 1 true = Ok out /\ ex_mean (list_operator ex_fock uncorrelated three_orbitals out) <> Q2Qc 0) /\
  (exists out, contract_terms ex_serial [ex_h; ex_t] 2 0 0 (Q2Qc 1) false true 1 true = Ok out /\ asum (map (term_value three_orbitals uncorrelated) out) <> Q2Qc 0) /\
  (exists out, single_commutator ex_serial ex_serial ex_h ex_t 2 4 0 (Q2Qc 1) true true 1 true = Ok out /\ ex_mean (list_operator ex_fock uncorrelated three_orbitals out) <> Q2Qc 0).
Proof.
  destruct C62_example as (F & O & C & L & V & _).
  split; [exact (le_n 3)|]. split; [exact uncorrelated_physical|]. split; [exact half_filled_active|]. split; [exact uncorrelated_tensors|]. split; [exact half_filled_holes|].
  split; [exact uncorrelated_cumulants|]. split; [exact half_filled_hermitian|]. split; [exact serial_sound|]. split; [exact F|]. split; [exact O|]. split; [exact C|]. split; [rewrite L; reflexivity|].
  split; [rewrite V; right; left; vm_compute; discriminate|]. split; [reflexivity|]. split; [apply keeps_identity; cbn; lia|]. split; [apply ex_keeps|].
  split; [|split]; (eexists; split; [vm_compute; reflexivity|]); intros H; apply (f_equal this) in H; vm_compute in H; discriminate.
Qed.
Example C74_single_example :
  length (proper_ops [ex_h]) = 1 /\ exists out, contract_terms ex_serial [ex_h] 2 2 2 (Q2Qc 1) false true 1 true = Ok out /\ ex_mean (nmul (list_operator ex_fock uncorrelated three_orbitals out) (term_operator ex_fock uncorrelated three_orbitals ex_t)) <> Q2Qc 0.
Proof. split; [reflexivity|]. eexists. split; [vm_compute; reflexivity|]. intros H. apply (f_equal this) in H. vm_compute in H. discriminate. Qed.
