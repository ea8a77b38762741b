(** canonicalize_simple: value and minimal labels. *)
From Coq Require Import Ascii String ZArith QArith Qcanon Sorting.Sorted Ring_theory Ring.
From Verif Require Import PyBase OrderSpec OrderProofs ParitySpec ParityProofs SpaceModel IndicesModel IterProofs IndicesProofs SpaceProofs ElemModel MacroModel TermModel ValueSpec ValueProofs TermSpec SumProofs TermProofs RenameProofs.
Local Close Scope Q_scope.
Local Close Scope Qc_scope.
Local Open Scope nat_scope.
Local Notation length := List.length.

Lemma canonicalize_any t l r s : NoDup l -> canonicalize_indices t l = Ok (r, s) -> reorder_sign l r s /\ (itype_antisymmetric t = false -> r = l /\ s = 1%Z) /\ (itype_antisymmetric t = true -> idx_sorted r).
Proof.
  intros N H. destruct (itype_antisymmetric t) eqn:E.
  - destruct (canonicalize_spec t l E N) as (r' & s' & E' & S' & R'). rewrite H in E'. injection E' as <- <-. split; [exact R'|]. split; [discriminate|auto].
  - unfold canonicalize_indices in H. rewrite E in H. injection H as <- <-. split; [apply reorder_sign_refl|]. split; [auto|discriminate].
Qed.
Lemma canonicalize_pair_any t u l u' l' s : NoDup u -> NoDup l -> canonicalize_pair t u l = Ok (u', l', s) ->
  exists su sl, s = (su * sl)%Z /\ reorder_sign u u' su /\ reorder_sign l l' sl /\ (itype_antisymmetric t = false -> u' = u /\ l' = l /\ su = 1%Z /\ sl = 1%Z) /\
    (itype_antisymmetric t = true -> idx_sorted u' /\ idx_sorted l').
Proof.
  intros Nu Nl. unfold canonicalize_pair. destruct (canonicalize_indices t u) as [[a su]|] eqn:Eu; [|discriminate]. cbn [pybind]. destruct (canonicalize_indices t l) as [[b sl]|] eqn:El; [|discriminate]. cbn [pybind fst snd].
  intros H. injection H as <- <- <-. apply canonicalize_any in Eu as (R1 & Q1 & S1); [|exact Nu]. apply canonicalize_any in El as (R2 & Q2 & S2); [|exact Nl]. exists su, sl. split; [reflexivity|]. split; [exact R1|]. split; [exact R2|].
  split; [|auto]. intros E. destruct (Q1 E), (Q2 E). auto.
Qed.

Section Canon.
  Context (A : qalg) (S : system) (v : tvaluation A).
  Add Ring alg_ring3 : (q_ring A).

  Lemma alternates_sign (f : list nat -> A) l l' s : alternates f -> reorder_sign l l' s -> f l = (zin s * f l')%alg.
  Proof.
    intros Hf (n & Hn & ->). induction Hn as [l|n p x y q l' H IH].
    - change (sgn 0) with 1%Z. rewrite (zin_1 A). ring.
    - rewrite Hf, IH, sgn_S, (zin_opp A). ring.
  Qed.

  Lemma tensor_canon_value e x y u l s : (itype_antisymmetric (titype x) = true -> antisymmetric v) -> NoDup (tupper x) -> NoDup (tlower x) ->
    canonicalize_pair (titype x) (tupper x) (tlower x) = Ok (u, l, s) -> tcls y = tcls x -> tname y = tname x -> tupper y = u -> tlower y = l ->
    tensor_value v e x = (zin s * tensor_value v e y)%alg.
  Proof.
    intros HA Nu Nl H E1 E2 E3 E4. destruct (canonicalize_pair_any _ _ _ _ _ _ Nu Nl H) as (su & sl & -> & R1 & R2 & Q & _). unfold tensor_value. rewrite E1, E2, E3, E4.
    destruct (itype_antisymmetric (titype x)) eqn:E.
    - specialize (HA eq_refl). rewrite (alternates_sign (fun w => vtensor v (tcls x) (tname x) w _) _ _ _ (as_upper v HA _ _ _) (reorder_sign_map e _ _ _ R1)).
      rewrite (alternates_sign (fun w => vtensor v (tcls x) (tname x) _ w) _ _ _ (as_lower v HA _ _ _) (reorder_sign_map e _ _ _ R2)). rewrite (zin_mul A). ring.
    - destruct (Q eq_refl) as (-> & -> & -> & ->). change (1 * 1)%Z with 1%Z. rewrite (zin_1 A). ring.
  Qed.
  Lemma op_canon_value e t o u l s : (itype_antisymmetric t = true -> antisymmetric v) -> NoDup (cre o) -> NoDup (ann o) ->
    canonicalize_pair t (cre o) (ann o) = Ok (u, l, s) -> op_value v e o = (zin s * op_value v e (Op u l))%alg.
  Proof.
    intros HA Nu Nl H. destruct (canonicalize_pair_any _ _ _ _ _ _ Nu Nl H) as (su & sl & -> & R1 & R2 & Q & _). unfold op_value. cbn [cre ann].
    destruct (itype_antisymmetric t) eqn:E.
    - specialize (HA eq_refl). rewrite (alternates_sign (fun w => voper v w _) _ _ _ (as_cre v HA _) (reorder_sign_map e _ _ _ R1)).
      rewrite (alternates_sign (fun w => voper v _ w) _ _ _ (as_ann v HA _) (reorder_sign_map e _ _ _ R2)). rewrite (zin_mul A). ring.
    - destruct (Q eq_refl) as (-> & -> & -> & ->). change (1 * 1)%Z with 1%Z. rewrite (zin_1 A). ring.
  Qed.

  Lemma canon_tensors ty xs ys : (itype_antisymmetric ty = true -> antisymmetric v) -> pymap canonicalize_tensor xs = Ok ys -> Forall (fun x => NoDup (tupper x) /\ NoDup (tlower x)) xs ->
    Forall (fun y => titype y = ty) (map fst ys) ->
    (forall e, aprod (map (tensor_value v e) xs) = (zin (fold_left Z.mul (map snd ys) 1%Z) * aprod (map (tensor_value v e) (map fst ys)))%alg) /\
    (forall i, In i (flat_map tensor_indices xs) <-> In i (flat_map tensor_indices (map fst ys))) /\
    Forall2 (fun x y => tcls (fst y) = tcls x /\ tname (fst y) = tname x /\ tpriority (fst y) = tpriority x /\ Permutation (tupper (fst y)) (tupper x) /\ Permutation (tlower (fst y)) (tlower x) /\
       (itype_antisymmetric ty = true -> idx_sorted (tupper (fst y)) /\ idx_sorted (tlower (fst y)))) xs ys.
  Proof.
    intros HA. assert (G : forall xs ys z, pymap canonicalize_tensor xs = Ok ys -> Forall (fun x => NoDup (tupper x) /\ NoDup (tlower x)) xs -> Forall (fun y => titype y = ty) (map fst ys) ->
      (forall e, (zin z * aprod (map (tensor_value v e) xs))%alg = (zin (fold_left Z.mul (map snd ys) z) * aprod (map (tensor_value v e) (map fst ys)))%alg) /\
      (forall i, In i (flat_map tensor_indices xs) <-> In i (flat_map tensor_indices (map fst ys))) /\
      Forall2 (fun x y => tcls (fst y) = tcls x /\ tname (fst y) = tname x /\ tpriority (fst y) = tpriority x /\ Permutation (tupper (fst y)) (tupper x) /\ Permutation (tlower (fst y)) (tlower x) /\
       (itype_antisymmetric ty = true -> idx_sorted (tupper (fst y)) /\ idx_sorted (tlower (fst y)))) xs ys).
    { clear xs ys. induction xs as [|x xs IH]; intros ys z H F T; cbn [pymap] in H; [injection H as <-; cbn; split; [reflexivity|]; split; [tauto|constructor]|].
      destruct (canonicalize_tensor x) as [[y s]|] eqn:E; [|discriminate]. cbn [pybind] in H. destruct (pymap canonicalize_tensor xs) as [ys'|] eqn:E'; [|discriminate]. cbn [pybind] in H. injection H as <-.
      inversion F as [|? ? [F1 F2] F3]; subst. cbn [map fst] in T. inversion T as [|? ? T1 T2]; subst.
      destruct (IH ys' (z * s)%Z eq_refl F3 T2) as (V & I & Q). unfold canonicalize_tensor in E. destruct (canonicalize_pair _ _ _) as [[[u l] s']|] eqn:Ep; [|discriminate]. cbn [pybind] in E.
      destruct (from_indices x u l) as [y'|] eqn:Ef; [|discriminate]. cbn [pybind] in E. injection E as -> ->. unfold from_indices in Ef. apply check_tensor_ok in Ef as ->.
      destruct (canonicalize_pair_any _ _ _ _ _ _ F1 F2 Ep) as (su & sl & _ & R1 & R2 & _ & Sd). cbn [titype] in *. split; [|split].
      - intros e. cbn [map fst snd fold_left]. specialize (V e). unfold aprod in *. cbn [fold_right]. rewrite (tensor_canon_value e x (Ten (tcls x) (titype x) (tname x) (tpriority x) u l) u l s HA F1 F2 Ep eq_refl eq_refl eq_refl eq_refl).
        rewrite (zin_mul A) in V. transitivity (tensor_value v e (Ten (tcls x) (titype x) (tname x) (tpriority x) u l) * (zin z * zin s * fold_right qmul q1 (map (tensor_value v e) xs)))%alg; [ring|]. rewrite V. ring.
      - intros i. cbn [flat_map map fst]. rewrite !in_app_iff, I. unfold tensor_indices at 1 3. cbn [tupper tlower]. rewrite !in_app_iff. rewrite (reorder_sign_perm _ _ _ R1), (reorder_sign_perm _ _ _ R2). tauto.
      - constructor; [|exact Q]. cbn. repeat (split; [reflexivity|]). split; [symmetry; apply (reorder_sign_perm _ _ _ R1)|]. split; [symmetry; apply (reorder_sign_perm _ _ _ R2)|exact Sd]. }
    intros H F T. destruct (G xs ys 1%Z H F T) as (V & I & Q). split; [|split; assumption]. intros e. rewrite <- V, (zin_1 A). ring.
  Qed.

  Lemma inj_zin q z : inj (Qcmult q (Qc_of_Z z)) = (inj q * @zin A z)%alg.
  Proof. apply inj_mul. Qed.

  Lemma relabel_ok t r sign xs o tm : relabel_indices t r = Ok (sign, xs, o) -> make_term (ttype t) xs o (Qcmult (tcoeff t) (Qc_of_Z sign)) = Ok tm ->
    (itype_antisymmetric (ttype t) = true -> antisymmetric v) ->
    term_value S v tm = content_value S v (tcoeff t) (map (rename_tensor (rename r)) (ttensors t)) (rename_op (rename r) (tsq t)) /\
    (forall i, In i (tindices tm) <-> In i (map (rename r) (content_indices (ttensors t) (tsq t)))) /\
    (itype_antisymmetric (ttype t) = true -> idx_sorted (cre (tsq tm)) /\ idx_sorted (ann (tsq tm)) /\ Forall (fun x => idx_sorted (tupper x) /\ idx_sorted (tlower x)) (ttensors tm)).
  Proof.
    unfold relabel_indices. destruct (replace_op_indices _ _ _) as [o1|] eqn:Eo; [|discriminate]. cbn [pybind]. destruct (canonicalize_op _ o1) as [[o2 s0]|] eqn:Ec; [|discriminate]. cbn [pybind].
    destruct (replace_tensors_indices _ _) as [xs1|] eqn:Ex; [|discriminate]. cbn [pybind]. destruct (pymap canonicalize_tensor xs1) as [ys|] eqn:Ey; [|discriminate]. cbn [pybind fst snd].
    intros H M HA. injection H as <- <- <-. apply replace_op_ok in Eo as (-> & N1 & N2).
    destruct (make_term_inv _ _ _ _ _ M) as (F & _ & _). destruct (make_term_fields _ _ _ _ _ M) as (G1 & G2 & _ & G4 & G5 & _ & G7 & _).
    assert (FN : Forall (fun x => NoDup (tupper x) /\ NoDup (tlower x)) xs1).
    { unfold replace_tensors_indices in Ex. destruct (ttensors t) as [|z zs]; [discriminate|]. revert Ex. generalize (z :: zs). clear. intros l. revert xs1. induction l as [|x l IH]; intros xs1 H; cbn [pymap] in H; [injection H as <-; constructor|].
      destruct (replace_tensor r x) as [y|] eqn:E; [|discriminate]. cbn [pybind] in H. destruct (pymap (replace_tensor r) l) as [ys|] eqn:E'; [|discriminate]. cbn [pybind] in H. injection H as <-. constructor; [|apply IH; reflexivity].
      unfold replace_tensor in E. destruct (replace r (tupper x)) as [u|]; [|discriminate]. cbn [pybind] in E. destruct (make_typed _ u) as [u'|] eqn:E1; [|discriminate]. cbn [pybind] in E.
      destruct (replace r (tlower x)) as [w|]; [|discriminate]. cbn [pybind] in E. destruct (make_typed _ w) as [w'|] eqn:E2; [|discriminate]. cbn [pybind] in E. unfold from_indices in E. apply check_tensor_ok in E as ->. cbn.
      apply make_typed_ok in E1 as [-> ?]. apply make_typed_ok in E2 as [-> ?]. auto. }
    apply replace_tensors_ok in Ex as [_ ->]. destruct (canon_tensors _ _ _ HA Ey FN F) as (V & HI & Q).
    unfold canonicalize_op in Ec. destruct (canonicalize_pair _ _ _) as [[[u l] s]|] eqn:Ep; [|discriminate]. cbn [pybind] in Ec. injection Ec as <- <-.
    pose proof (canonicalize_pair_any _ _ _ _ _ _ N1 N2 Ep) as (su & sl & _ & R1 & R2 & _ & Sd).
    set (xs1 := map (rename_tensor (rename r)) (ttensors t)) in *. set (o1 := rename_op (rename r) (tsq t)) in *.
    assert (HC : forall i, In i (content_indices xs1 o1) <-> In i (content_indices (map fst ys) (Op u l))).
    { intros i. unfold content_indices. rewrite !in_app_iff, <- HI. unfold op_indices. cbn [cre ann]. rewrite !in_app_iff, (reorder_sign_perm _ _ _ R1), (reorder_sign_perm _ _ _ R2). tauto. }
    split; [|split].
    - unfold term_value. rewrite G4, G5, (content_value_perm A S v _ _ _ _ G2). unfold content_value. rewrite inj_zin.
      rewrite (sum_over_same A S _ (nodup idx_eq_dec (content_indices (map fst ys) (Op u l))) (integrand v xs1 o1)); [|apply NoDup_nodup|apply NoDup_nodup|intros i; rewrite !nodup_In; apply HC|apply integrand_depends].
      transitivity (inj (tcoeff t) * (zin (s * fold_left Z.mul (map snd ys) 1%Z) * sum_over S (nodup idx_eq_dec (content_indices (map fst ys) (Op u l))) (integrand v (map fst ys) (Op u l))))%alg; [ring|].
      rewrite <- (sum_over_mul A S). f_equal. apply sum_over_ext; [|apply NoDup_nodup]. intros e _. unfold integrand. rewrite V. rewrite (op_canon_value e _ _ _ _ _ HA N1 N2 Ep), (zin_mul A). ring.
    - intros i. rewrite G7, <- content_times, <- idx_times_in, <- HC. unfold xs1, o1. rewrite content_rename. reflexivity.
    - intros E. destruct (Sd E). rewrite G4. cbn [cre ann]. split; [assumption|]. split; [assumption|]. apply Forall_forall. intros x Hx. rewrite G2 in Hx. clear -Hx Q E. induction Q as [|a b la lb (_ & _ & _ & _ & _ & Hs) Q IH]; [destruct Hx|].
      destruct Hx as [<-|Hx]; auto.
  Qed.

  Lemma canonicalize_simple_ok core ra t t' tm : simplify core ra t = Ok t' -> canonicalize_simple core ra t = Ok tm ->
    (itype_antisymmetric (ttype t') = true -> antisymmetric v) -> (is_void t' = true -> tcoeff t' = Q2Qc 0) ->
    term_value S v tm = term_value S v t' /\
    (exists k : label -> nat, forall s n, In (s, n) (tindices tm) <-> n < k s) /\
    (itype_antisymmetric (ttype t') = true -> idx_sorted (cre (tsq tm)) /\ idx_sorted (ann (tsq tm)) /\ Forall (fun x => idx_sorted (tupper x) /\ idx_sorted (tlower x)) (ttensors tm)).
  Proof.
    intros Hs H HA HV. unfold canonicalize_simple in H. rewrite Hs in H. cbn [pybind] in H. destruct (is_void t') eqn:Ev.
    - injection H as <-. split; [|split].
      + unfold term_value, content_value. rewrite (HV eq_refl). unfold void, void_term. cbn [tcoeff ttensors tsq]. change (inj (Q2Qc 0)) with (@zin A 0). rewrite (zin_0 A). ring.
      + exists (fun _ => 0). intros s n. cbn. split; [intros []|lia].
      + intros _. cbn. repeat constructor.
    - destruct (relabel_indices t' (minimal_indices t')) as [[[sign xs] o]|] eqn:Er; [|discriminate]. cbn [pybind] in H.
      destruct (relabel_ok _ _ _ _ _ _ Er H HA) as (V & I & Q). destruct (minimal_indices_spec t') as (next' & N & K & G & L). split; [|split; [|exact Q]].
      + rewrite V. unfold term_value. destruct (generates_spec _ _ _ G) as (NG & _ & _). apply content_value_rename_inj.
        * intros i Hi. apply (L i). apply rename_in, K, Hi.
        * intros i j Hi Hj. apply (rename_inj _ _ _ NG); apply K; assumption.
      + exists next'. intros s n. rewrite I. destruct (generates_spec _ _ _ G) as (NG & _ & HG). transitivity (In (s, n) (map snd (minimal_indices t'))); [|rewrite HG; intuition lia].
        split; intros Hi.
        * apply in_map_iff in Hi as (i & <- & Hi). apply (in_map snd) with (x := (i, rename (minimal_indices t') i)). apply rename_in, K, Hi.
        * apply in_map_iff in Hi as ([i z] & Ez & Hi). cbn in Ez. subst z. apply in_map_iff. exists i. split; [|apply K; exact (in_map fst _ _ Hi)]. unfold rename. rewrite (dget_some i _ _ N Hi). reflexivity.
  Qed.
End Canon.
