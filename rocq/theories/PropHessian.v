(** C81: diagonal elements of the derivative of a residual with respect to the amplitudes. *)
From Coq Require Import Ascii String ZArith QArith Qcanon Lia Ring_theory Ring.
From Verif Require Import PyBase SpaceModel IndexModel IndicesModel IterProofs IndicesProofs ElemModel MacroModel TermModel ValueSpec ValueProofs TermSpec SumProofs TermProofs RenameProofs GradientModel PropGradient OpenProofs PropSimplify HessianModel HessianSpec HessianProofs.
From Verif Require PropOperator SympyValue BacktrackProofs.
Local Close Scope Q_scope.
Local Close Scope Qc_scope.
Local Open Scope nat_scope.
Local Notation length := List.length.

Section Hessian.
  Context (A : qalg) (S : system).
  Add Ring alg_ring49 : (q_ring A).
  Lemma zero_mul (a : A) : (q0 * a)%alg = q0.
  Proof. ring. Qed.
  Lemma nudged_nothing (v : tvaluation A) c xs O (e : idx -> nat) us ls :
    (forall y, In y xs -> tcls y = TCluster -> length (tupper y) <> length us) ->
    element S (nudged v us ls) c xs O e = (element S v c xs O e, q0).
  Proof.
    intros H. unfold element. assert (EV : forall E : idx -> nat, aprod (map (tensor_value (nudged v us ls) E) xs) = (aprod (map (tensor_value v E) xs), q0)).
    { intros E. rewrite dual_prod_plain; [reflexivity|]. intros y Hy. unfold tensor_value, nudged. cbn. destruct (tcls y) eqn:Cy; try reflexivity. destruct (same_numbers _ us) eqn:Q; [|reflexivity]. apply same_numbers_iff in Q. exfalso. apply (H y Hy Cy). rewrite <- Q, map_length. reflexivity. }
    rewrite (sum_over_ext (dual A) S _ _ _ (fun e' _ => EV (with_open O e e')) (summed_nodup _ _)), dual_sum_over. cbn [fst snd]. rewrite sum_over_0.
    transitivity (inj c * sum_over S (summed xs O) (fun e' => aprod (map (tensor_value v (with_open O e e')) xs)), inj c * q0 + q0 * sum_over S (summed xs O) (fun e' => aprod (map (tensor_value v (with_open O e e')) xs)))%alg; [reflexivity|]. f_equal. ring.
  Qed.
End Hessian.

Lemma combine_pairs {B C} (X : list B) (Y : list C) : forall i, length X = length Y -> In i X -> exists j, In (i, j) (combine X Y).
Proof.
  revert Y. induction X as [|x X IH]; intros [|y Y] i L Hi; try discriminate; [destruct Hi|]. injection L as L. destruct Hi as [->|Hi]; [exists y; left; reflexivity|]. destruct (IH Y i L Hi) as [j Hj]. exists j. right. exact Hj.
Qed.
Lemma combine_map {B C} (f : B -> C) (X : list B) i j : In (i, j) (combine X (map f X)) -> j = f i.
Proof. induction X as [|x X IH]; cbn; [intros []|]. intros [E|H]; [congruence|apply IH, H]. Qed.
Lemma map_app_inv {B C} (f : B -> C) a b c d : map f (a ++ b) = c ++ d -> length a = length c -> c = map f a /\ d = map f b.
Proof. rewrite map_app. intros E L. assert (L' : length (map f a) = length c) by (rewrite map_length; exact L). apply PropOperator.app_inv_len in E; [|exact L']. destruct E. auto. Qed.

(** what the function does when it returns *)
Lemma hessian_inv ty xs o c t r us ls :
  make_term ty xs o c = Ok t -> length (cre o) = length (ann o) ->
  (us = cre o /\ ls = ann o) \/ (us = ann o /\ ls = cre o) ->
  (forall x, In x xs -> tcls x = TCluster -> length (tupper x) = length us -> fits o x us ls) ->
  diagonal_hessian_t t = Ok r ->
  (r = HTuple (Q2Qc 0) [] (Op [] []) /\ forall y, In y xs -> tcls y = TCluster -> length (tupper y) <> length us) \/
  exists x non rho, Permutation xs (x :: non) /\ tcls x = TCluster /\ length (tupper x) = length us /\ fits o x us ls /\
    (forall y, In y non -> tcls y = TCluster -> length (tupper y) <> length us) /\
    us = map rho (tupper x) /\ ls = map rho (tlower x) /\ (forall i, ~ In i (tensor_indices x) -> rho i = i) /\
    (forall i, In i (tensor_indices x) -> In (rho i) (op_indices o) /\ fst (rho i) = fst i) /\
    (forall i, In i (tensor_indices x) -> In i (op_indices o) -> rho i = i) /\
    ((exists t', make_term ty (map (rename_tensor rho) non) o c = Ok t' /\ r = HTerm t') \/ r = HTuple c (map (rename_tensor rho) non) o).
Proof.
  intros M B SD FT H. destruct (make_term_fields _ _ _ _ _ M) as (F1 & F2 & _ & F4 & F5 & _ & F7 & _).
  assert (Lus : length us = length (cre o)) by (destruct SD as [[-> _]|[-> _]]; congruence).
  assert (Lls : length ls = length (cre o)) by (destruct SD as [[_ ->]|[_ ->]]; congruence).
  unfold diagonal_hessian_t in H. destruct (hessian_loop t (ttensors t) None []) as [[cl non]|] eqn:EL; [|discriminate]. cbn [pybind fst snd] in H.
  destruct (loop_result _ _ _ _ _ EL) as (cs & H1 & H2 & H3 & H5). cbn [fst snd app] in H1, H3.
  assert (AM : forall x b, In x (ttensors t) -> is_amplitude_of t x = Ok b -> (b = true <-> tcls x = TCluster /\ length (tupper x) = length us)).
  { intros x b Hx Q. unfold is_amplitude_of, is_cluster in Q. rewrite F4 in Q. destruct (tcls x) eqn:Cx; try (injection Q as <-; split; [discriminate|intros [E _]; discriminate E]).
    unfold pair_n_body in Q. destruct (length (tlower x) =? length (tupper x)) eqn:Q1; [|discriminate]. cbn [pybind] in Q. destruct (length (ann o) =? length (cre o)) eqn:Q2; [|discriminate]. cbn [pybind] in Q. injection Q as <-. apply Nat.eqb_eq in Q1. rewrite Nat.eqb_eq. split; [intros E; split; [reflexivity|lia]|intros [_ E]; lia]. }
  destruct cl as [x|].
  - (* the amplitude *)
    destruct cs as [|x' [|]]; try discriminate; try contradiction. injection H3 as ->. 
    assert (Hx : In x' (ttensors t)) by (assert (Q : In x' [x']) by (left; reflexivity); rewrite H2 in Q; apply filter_In in Q; tauto).
    assert (Ax : is_amplitude_of t x' = Ok true). { assert (Q : In x' [x']) by (left; reflexivity). rewrite H2 in Q. apply filter_In in Q as [_ Q]. destruct (is_amplitude_of t x') as [[|]|]; try discriminate. reflexivity. }
    apply (AM x' true Hx) in Ax as AX. destruct (proj1 AX eq_refl) as [Cx Lx]. rename x' into x.
    assert (Hx' : In x xs) by (apply (Permutation_in _ F2), Hx). pose proof (FT x Hx' Cx Lx) as [FS FU FL FD FP].
    destruct (replace_tensors_indices non (hessian_replacement t x)) as [ys|] eqn:ER; [|discriminate]. cbn [pybind] in H. apply replace_tensors_ok in ER as [_ ER].
    set (rho := rename (hessian_replacement t x)) in *.
    assert (Ll : length (tlower x) = length ls) by (apply (f_equal (@length label)) in FL; rewrite !map_length in FL; exact FL).
    assert (RR : hessian_replacement t x = dict_update idx_eqb (map (fun i => (i, i)) (tindices t)) (combine (tensor_indices x) (us ++ ls))).
    { unfold hessian_replacement. rewrite F4. unfold tensor_indices. destruct (labels_eqb (map fst (tupper x)) (map fst (cre o))) eqn:Q.
      - apply labels_eqb_iff in Q. destruct FS as [[-> ->]|(_ & _ & N)]; [reflexivity|contradiction].
      - destruct FS as [[-> ->]|(-> & -> & N)]; [|reflexivity]. exfalso. apply labels_eqb_iff in FU. congruence. }
    assert (LX : length (tensor_indices x) = length (us ++ ls)) by (unfold tensor_indices; rewrite !app_length; lia).
    assert (RM : map rho (tensor_indices x) = us ++ ls) by (unfold rho; rewrite RR; apply rename_combine; assumption).
    destruct (map_app_inv rho (tupper x) (tlower x) us ls RM Lx) as [RU RL].
    assert (P : Permutation (ttensors t) (x :: non)).
    { rewrite H1. transitivity ([x] ++ filter (fun x0 => match is_amplitude_of t x0 with Ok b => negb b | _ => true end) (ttensors t)); [|reflexivity]. rewrite H2. clear -H5. induction (ttensors t) as [|y l IH]; [reflexivity|]. cbn [filter]. destruct (H5 y (or_introl eq_refl)) as [b E]. rewrite E. destruct b; cbn [negb app]; [|rewrite <- Permutation_middle]; constructor; apply IH; intros z Hz; apply H5; right; exact Hz. }
    assert (FSTrho : forall i, In i (tensor_indices x) -> In (rho i) (op_indices o) /\ fst (rho i) = fst i).
    { assert (T : map fst (map rho (tensor_indices x)) = map fst (tensor_indices x)) by (rewrite RM; unfold tensor_indices; rewrite !map_app; exact (f_equal2 (@app label) (eq_sym FU) (eq_sym FL))).
      intros i Hi. split; [|rewrite map_map in T; exact (proj1 map_ext_in_iff T i Hi)]. assert (Q : In (rho i) (us ++ ls)) by (rewrite <- RM; apply in_map, Hi). unfold op_indices. apply in_app_iff in Q. apply in_app_iff. destruct SD as [[-> ->]|[-> ->]]; tauto. }
    right. exists x, non, rho. split; [rewrite <- F2; exact P|]. split; [exact Cx|]. split; [exact Lx|]. split; [apply FT; assumption|]. split.
    { intros y Hy Cy Ly. rewrite H1 in Hy. apply filter_In in Hy as [Hy Q]. destruct (H5 y Hy) as [b E]. rewrite E in Q. apply (AM y b Hy) in E as [_ E]. rewrite E in Q by auto. discriminate. }
    split; [exact RU|]. split; [exact RL|]. split; [intros i Hi; unfold rho; rewrite RR; apply rename_other; assumption|]. split; [exact FSTrho|]. split.
    { intros i Hi Oi. destruct (combine_pairs _ _ i LX Hi) as [j Hj]. rewrite (FP i j Hj Oi) at 2. symmetry. rewrite <- RM in Hj. apply combine_map in Hj. exact Hj. }
    rewrite <- ER. rewrite F1, F4, F5 in H. destruct (make_term ty ys o c) as [t'|ex] eqn:EM.
    + injection H as <-. left. eauto.
    + destruct ex; try discriminate. injection H as <-. right. reflexivity.
  - (* no amplitude *)
    injection H as <-. left. split; [reflexivity|]. destruct cs as [|y [|]]; try discriminate; try contradiction.
    intros y Hy Cy Ly. assert (Hy' : In y (ttensors t)) by (apply (Permutation_in _ (Permutation_sym F2)), Hy). destruct (H5 y Hy') as [b E]. apply (AM y b Hy') in E as E'. assert (b = true) by (apply E'; auto). subst b. assert (Q : In y []) by (rewrite H2; apply filter_In; split; [exact Hy'|rewrite E; reflexivity]). destruct Q.
Qed.

(** ** C81 *)
(** the elements determine the term: it is the sum over the orbitals of the operator *)
Theorem C81_elements :
  forall (A : qalg) (S : system) (v : tvaluation A) t,
  term_value S v t = sum_over S (nodup idx_eq_dec (op_indices (tsq t))) (fun e => element S v (tcoeff t) (ttensors t) (op_indices (tsq t)) e * op_value v e (tsq t))%alg.
Proof. intros A S v t. apply elements_sum. Qed.
Print Assumptions C81_elements.

(** diagonal_hessian_t differentiates: when the element of the amplitudes at the orbitals e of the operator is changed by eps, the element of the
    term at e changes by eps times the element at e of what is returned. *)
Theorem C81_diagonal_hessian :
  forall (A : qalg) (S : system) (v : tvaluation A) ty xs o c t r us ls e,
  make_term ty xs o c = Ok t -> length (cre o) = length (ann o) ->
  (us = cre o /\ ls = ann o) \/ (us = ann o /\ ls = cre o) ->
  (forall x, In x xs -> tcls x = TCluster -> length (tupper x) = length us -> fits o x us ls) ->
  (forall i, In i (op_indices o) -> In (e i) (orbitals S i)) ->
  diagonal_hessian_t t = Ok r ->
  element S (nudged v (map e us) (map e ls)) c xs (op_indices o) e =
  (element S v c xs (op_indices o) e, element S v (hessian_coeff r) (hessian_tensors r) (op_indices o) e).
Proof.
  intros A S v ty xs o c t r us ls e M B SD FT He H. destruct (hessian_inv _ _ _ _ _ _ us ls M B SD FT H) as [[-> N]|(x & non & rho & P & Cx & Lx & FX & HN & RU & RL & HO & HI & HF & R)].
  - cbn [hessian_coeff hessian_tensors]. rewrite nudged_nothing by (rewrite map_length; exact N). f_equal. unfold element. replace (inj (Q2Qc 0)) with (@q0 A); [|symmetry; exact (zin_0 A)]. symmetry. apply zero_mul.
  - rewrite (nudged_element A S v c o xs x non us ls e rho) by (auto; apply FX). f_equal. destruct R as [(t' & E & ->)| ->]; [|reflexivity].
    destruct (make_term_fields _ _ _ _ _ E) as (_ & G2 & _ & _ & G5 & _). cbn [hessian_coeff hessian_tensors]. rewrite G5. apply element_perm. symmetry. exact G2.
Qed.
Print Assumptions C81_diagonal_hessian.

(** The result is never a Term: each index of the operator occurs once or three times in it. *)
Theorem C81_tuple :
  forall ty xs o c t r us ls,
  make_term ty xs o c = Ok t -> length (cre o) = length (ann o) -> cre o <> [] -> NoDup (op_indices o) -> (forall i, ~ diagonal_in i xs o) ->
  (us = cre o /\ ls = ann o) \/ (us = ann o /\ ls = cre o) ->
  (forall x, In x xs -> tcls x = TCluster -> length (tupper x) = length us -> fits o x us ls) ->
  diagonal_hessian_t t = Ok r -> exists c' xs' o', r = HTuple c' xs' o' /\ (xs' <> [] -> c' = c /\ o' = o).
Proof.
  intros ty xs o c t r us ls M B NE NO ND SD FT H. destruct (hessian_inv _ _ _ _ _ _ us ls M B SD FT H) as [[-> N]|(x & non & rho & P & Cx & Lx & FX & HN & RU & RL & HO & HI & HF & [(t' & E & ->)| ->])].
  - exists (Q2Qc 0), [], (Op [] []). split; [reflexivity|]. intros Q. contradiction.
  - exfalso. apply make_term_inv in M as (_ & C & _). apply make_term_inv in E as (_ & C' & _).
    assert (Lu : length us = length (cre o)) by (destruct SD as [[-> _]|[-> _]]; congruence).
    destruct (tupper x) as [|i ui] eqn:Eu; [destruct (cre o); [contradiction|cbn in *; lia]|].
    assert (Ix : In i (tensor_indices x)) by (unfold tensor_indices; rewrite Eu; left; reflexivity).
    destruct (HI i Ix) as [Oj _]. set (j := rho i) in *. destruct FX as [_ _ _ FD _].
    assert (NUL : NoDup (us ++ ls)). { destruct SD as [[-> ->]|[-> ->]]; [exact NO|]. apply (Permutation_NoDup (l := op_indices o)); [unfold op_indices; apply Permutation_app_comm|exact NO]. }
    assert (INJ : forall k, In k (tensor_indices x) -> rho k = j -> k = i).
    { assert (NM : NoDup (map rho (tensor_indices x))) by (unfold tensor_indices; rewrite map_app, Eu, <- RU, <- RL; exact NUL). clear -NM Ix. intros k Hk Ek. unfold j in Ek. induction (tensor_indices x) as [|a l IH]; [destruct Hk|]. cbn in NM. inversion NM as [|? ? N1 N2]; subst. destruct Hk as [->|Hk], Ix as [->|Ix]; auto; exfalso; apply N1; [rewrite Ek|rewrite <- Ek]; apply in_map; assumption. }
    assert (PRE : forall k, rho k = j -> k = i \/ (k = j /\ ~ In j (tensor_indices x))). { intros k Hk. destruct (in_dec idx_eq_dec k (tensor_indices x)) as [Q|Q]; [left; apply INJ; assumption|]. right. rewrite (HO k Q) in Hk. subst k. auto. }
    assert (CNT : forall l, idx_times j (map rho l) = idx_times i l + (if idx_eq_dec i j then 0 else idx_times j l)).
    { assert (JX : i <> j -> ~ In j (tensor_indices x)) by (intros Q Q'; apply Q; symmetry; apply INJ; [exact Q'|apply HF; assumption]).
      induction l as [|k l IH]; [cbn; destruct (idx_eq_dec i j); reflexivity|]. cbn [map]. unfold idx_times in *. cbn [count_occ]. rewrite IH. destruct (idx_eq_dec (rho k) j) as [Q|Q].
      - destruct (PRE k Q) as [->|[-> Q']].
        + destruct (idx_eq_dec i i); [|congruence]. destruct (idx_eq_dec i j); lia.
        + destruct (idx_eq_dec j i) as [Z|Z]; [exfalso; apply Q'; rewrite Z; exact Ix|]. destruct (idx_eq_dec i j); [congruence|]. destruct (idx_eq_dec j j); [|congruence]. lia.
      - destruct (idx_eq_dec k i) as [->|Z]; [exfalso; apply Q; reflexivity|]. destruct (idx_eq_dec i j) as [Z'|Z']; [lia|]. destruct (idx_eq_dec k j) as [->|Z'']; [|lia]. exfalso. apply Q. apply HO, JX, Z'. }
    set (n := fun k => idx_times k (flat_map tensor_indices non)).
    assert (TT : forall k zs, total_times k zs o = idx_times k (op_indices o) + idx_times k (flat_map tensor_indices zs)). { intros k zs. rewrite <- content_times. unfold content_indices. apply idx_times_app || (rewrite idx_times_app; lia). }
    assert (T' : total_times j (map (rename_tensor rho) non) o = 1 + (n i + if idx_eq_dec i j then 0 else n j)).
    { rewrite TT. unfold n. rewrite <- CNT. rewrite (SympyValue.nodup_times j (op_indices o) NO Oj). f_equal. f_equal. clear. induction non as [|y l IH]; [reflexivity|]. cbn [map flat_map]. rewrite map_app, <- IH. f_equal. unfold tensor_indices, rename_tensor. cbn. symmetry. apply map_app. }
    assert (T : forall k, In k (content_indices xs o) -> idx_times k (op_indices o) + idx_times k (tensor_indices x) + n k = 2).
    { intros k Hk. assert (Q : 0 < total_times k xs o) by (rewrite <- content_times; apply idx_times_in, Hk). destruct (C k Q) as [_ Q']. specialize (Q' (ND k)). rewrite TT in Q'. rewrite <- Q'. unfold n. assert (Z : idx_times k (flat_map tensor_indices xs) = idx_times k (flat_map tensor_indices (x :: non))) by (apply SympyValue.idx_times_perm, Permutation_flat_map, P). rewrite Z. cbn [flat_map]. rewrite idx_times_app. lia. }
    assert (Inx : In x xs) by (apply (Permutation_in _ (Permutation_sym P)); left; reflexivity).
    assert (Ti := T i ltac:(unfold content_indices; apply in_or_app; first [right; apply in_flat_map; exists x; auto|left; apply in_flat_map; exists x; auto])).
    assert (Tj := T j ltac:(unfold content_indices; apply in_or_app; first [left; exact Oj|right; exact Oj])).
    rewrite (SympyValue.nodup_times i _ FD Ix) in Ti. rewrite (SympyValue.nodup_times j _ NO Oj) in Tj.
    assert (OD : Nat.odd (total_times j (map (rename_tensor rho) non) o) = true).
    { rewrite T'. destruct (idx_eq_dec i j) as [Q|Q].
      - rewrite <- Q in Oj. rewrite (SympyValue.nodup_times i _ NO Oj) in Ti. replace (n i) with 0 by lia. reflexivity.
      - assert (Z1 : idx_times i (op_indices o) = 0). { destruct (Nat.eq_dec (idx_times i (op_indices o)) 0) as [Z|Z]; [exact Z|]. exfalso. apply Q. symmetry. apply HF; [exact Ix|]. apply idx_times_in. lia. }
        assert (Z2 : idx_times j (tensor_indices x) = 0). { destruct (Nat.eq_dec (idx_times j (tensor_indices x)) 0) as [Z|Z]; [exact Z|]. exfalso. assert (Xj : In j (tensor_indices x)) by (apply idx_times_in; lia). apply Q. symmetry. apply INJ; [exact Xj|]. apply HF; assumption. }
        replace (n i) with 1 by lia. replace (n j) with 1 by lia. reflexivity. }
    assert (POS : 0 < total_times j (map (rename_tensor rho) non) o) by (rewrite T'; lia).
    destruct (C' j POS) as [D1 D2]. assert (ND' : ~ diagonal_in j (map (rename_tensor rho) non) o) by (intros Q; apply D1 in Q; unfold Nat.odd in OD; rewrite Q in OD; discriminate). apply D2 in ND'. rewrite ND' in OD. discriminate.
  - eexists _, _, _. split; [reflexivity|]. auto.
Qed.
Print Assumptions C81_tuple.

(** Terms with two amplitudes of the rank of the operator are refused. *)
Theorem C81_two_amplitudes :
  forall ty xs o c t, make_term ty xs o c = Ok t -> length (cre o) = length (ann o) -> Forall valid_tensor xs ->
  2 <= length (filter (fun x => match tcls x with TCluster => length (tupper x) =? length (cre o) | _ => false end) xs) ->
  diagonal_hessian_t t = Raise NotImplementedErr.
Proof.
  intros ty xs o c t M B V L. destruct (make_term_fields _ _ _ _ _ M) as (F1 & F2 & _ & F4 & F5 & _).
  set (p := fun x => match tcls x with TCluster => length (tupper x) =? length (cre o) | _ => false end) in *.
  assert (AM : forall x, In x (ttensors t) -> is_amplitude_of t x = Ok (p x)).
  { intros x Hx. apply (Permutation_in _ F2) in Hx. rewrite Forall_forall in V. specialize (V x Hx). unfold is_amplitude_of, is_cluster, p. rewrite F4. destruct (tcls x) eqn:Cx; try reflexivity.
    assert (Q : length (tlower x) = length (tupper x)). { unfold valid_tensor, check_tensor, is_spin_conserving in V. rewrite Cx in V. destruct (length (tupper x) =? length (tlower x)) eqn:Q; [symmetry; apply Nat.eqb_eq, Q|]. cbn [pybind] in V. discriminate. }
    unfold pair_n_body. rewrite Q, B, !Nat.eqb_refl. reflexivity. }
  assert (L' : 2 <= length (filter p (ttensors t))) by (rewrite (Permutation_length (BacktrackProofs.perm_filter _ _ _ F2)); exact L).
  unfold diagonal_hessian_t. assert (G : forall l cl non, (forall x, In x l -> is_amplitude_of t x = Ok (p x)) -> 2 <= length (filter p l) + match cl with Some _ => 1 | None => 0 end -> hessian_loop t l cl non = Raise NotImplementedErr).
  { induction l as [|x l IH]; intros cl non HA HL; [destruct cl; cbn in HL; lia|]. cbn [hessian_loop]. rewrite (HA x (or_introl eq_refl)). cbn [pybind]. cbn [filter] in HL. destruct (p x); [destruct cl; [reflexivity|]|]; (apply IH; [intros y Hy; apply HA; right; exact Hy|cbn in *; lia]). }
  rewrite G; [reflexivity|exact AM|lia].
Qed.
Print Assumptions C81_two_amplitudes.

(** ** Examples *)
(** orbitals 0 and 1 are core, 2 and 3 virtual *)
Definition four_orbitals : system := Sys 4 (fun p => Lab false (if p <? 2 then Sc else Sv)).
(** amplitudes are 1; H[p,q] = p + 2 q + 1 *)
Definition weights : tvaluation Qc_alg :=
  TVal Qc_alg (fun c _ u l => match c, u, l with THamiltonian, [p], [q] => Q2Qc (inject_Z (Z.of_nat (p + 2 * q + 1))) | _, _, _ => Q2Qc 1 end) (fun _ _ => Q2Qc 1).
(** H[c0,c1] T[c0,v0] {v0+ c1} gives H[c1,c1]; at the orbital 1 its value is 4 *)
Definition ex_residual : list tensor := [Ten THamiltonian SpinOrbital "H" 0%Z [ci 0] [ci 1]; Ten TCluster SpinOrbital "T" 1%Z [ci 0] [vi 0]].
Definition ex_residual_op : op := Op [vi 0] [ci 1].
Definition at_one (i : idx) : nat := match lsp (fst i) with Sc => 1 | _ => 2 end.
Example C81_example :
  exists t, make_term SpinOrbital ex_residual ex_residual_op (Q2Qc 1) = Ok t /\
  (forall x, In x ex_residual -> tcls x = TCluster -> length (tupper x) = 1 -> fits ex_residual_op x [ci 1] [vi 0]) /\
  (forall i, In i (op_indices ex_residual_op) -> In (at_one i) (orbitals four_orbitals i)) /\
  diagonal_hessian_t t = Ok (HTuple (Q2Qc 1) [Ten THamiltonian SpinOrbital "H" 0%Z [ci 1] [ci 1]] ex_residual_op) /\
  element four_orbitals weights (Q2Qc 1) [Ten THamiltonian SpinOrbital "H" 0%Z [ci 1] [ci 1]] (op_indices ex_residual_op) at_one = Q2Qc (inject_Z 4).
Proof.
  eexists. split; [vm_compute; reflexivity|]. split.
  { intros x [<-|[<-|[]]] Q; [discriminate|]. intros _. constructor; try reflexivity.
    - right. repeat split. discriminate.
    - repeat constructor; cbn; intuition discriminate.
    - cbn. intros i j [E|[E|[]]]; injection E as <- <-; intros [E|[E|[]]]; try discriminate; reflexivity. }
  split; [cbn; intros i [<-|[<-|[]]]; cbn; auto|]. split; [vm_compute; reflexivity|]. apply Qc_is_canon. vm_compute. reflexivity.
Qed.
(** H[c2,c0] T[c1 c2, v0 v1] {v0+ v1+ c1 c0}: the index c1 of the operator is the first upper index of the amplitude but the second annihilator.
    At c0 = 0, c1 = 1 the amplitude T[0 1, ...] does not occur at all (c1 is the first index of the amplitude), but H[c1,c0] is returned. *)
Definition ex_misplaced : list tensor := [Ten THamiltonian SpinOrbital "H" 0%Z [ci 2] [ci 0]; Ten TCluster SpinOrbital "T" 1%Z [ci 1; ci 2] [vi 0; vi 1]].
Definition ex_misplaced_op : op := Op [vi 0; vi 1] [ci 0; ci 1].
Definition by_number (i : idx) : nat := match lsp (fst i) with Sc => snd i | _ => 2 + snd i end.
Theorem C81_misplaced_refuted :
  exists t r, make_term SpinOrbital ex_misplaced ex_misplaced_op (Q2Qc 1) = Ok t /\ Forall valid_tensor ex_misplaced /\
  (forall i, In i (op_indices ex_misplaced_op) -> In (by_number i) (orbitals four_orbitals i)) /\
  diagonal_hessian_t t = Ok r /\
  element four_orbitals (nudged weights (map by_number [ci 0; ci 1]) (map by_number [vi 0; vi 1])) (Q2Qc 1) ex_misplaced (op_indices ex_misplaced_op) by_number <>
  (element four_orbitals weights (Q2Qc 1) ex_misplaced (op_indices ex_misplaced_op) by_number,
   element four_orbitals weights (hessian_coeff r) (hessian_tensors r) (op_indices ex_misplaced_op) by_number).
Proof.
  eexists. eexists. split; [vm_compute; reflexivity|]. split; [repeat constructor|]. split; [cbn; intros i [<-|[<-|[<-|[<-|[]]]]]; cbn; auto|]. split; [vm_compute; reflexivity|].
  intros H. apply (f_equal snd) in H. apply (f_equal this) in H. vm_compute in H. discriminate.
Qed.
Print Assumptions C81_misplaced_refuted.
(** T[c0,v0] T[c1,v1] H[v1,c1] {v0+ c0} *)
Definition ex_two : list tensor := [Ten TCluster SpinOrbital "T" 1%Z [ci 0] [vi 0]; Ten TCluster SpinOrbital "T" 1%Z [ci 1] [vi 1]; Ten THamiltonian SpinOrbital "H" 0%Z [vi 1] [ci 1]].
Example C81_two_example :
  exists t, make_term SpinOrbital ex_two (Op [vi 0] [ci 0]) (Q2Qc 1) = Ok t /\ Forall valid_tensor ex_two /\
  2 <= length (filter (fun x => match tcls x with TCluster => length (tupper x) =? length (cre (Op [vi 0] [ci 0])) | _ => false end) ex_two).
Proof. eexists. split; [vm_compute; reflexivity|]. split; [repeat constructor|]. cbn. auto. Qed.
