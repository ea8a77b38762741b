(** Values of singlet-adapted terms. *)
From Coq Require Import Ascii String ZArith QArith Qcanon Lia Ring Qcabs.
From Verif Require BacktrackProofs ContractValue.
From Verif Require Import PyBase OrderSpec SpaceModel IndexModel IndicesModel IterProofs ParitySpec ParityProofs IndicesProofs ElemModel MacroModel SortProofs TermModel ValueSpec ValueProofs TermSpec SumProofs TermProofs RenameProofs CanonProofs SimplifyValue SymmetryModel SymmetrySpec SympyValue CombineModel CombineSpec PermuteModel PermuteSpec PermuteProofs OpenProofs ExciteModel ExciteProofs PropCanon SingletProofs SingletModel SingletSpec ArrangeProofs SingletValue.
Local Close Scope Q_scope.
Local Close Scope Qc_scope.
Local Open Scope nat_scope.
Local Notation length := List.length.

(** ** The replacement *)
Definition spatial_step (st : repl * (label -> nat)) (i : idx) : repl * (label -> nat) := if idx_beta i then put_fresh i (Lab false (lsp (fst i))) st else st.
Lemma put_fold l : forall r next, NoDup l -> let r' := fst (fold_left spatial_step l (r, next)) in
  (forall i, In i (map fst r) -> In i (map fst r')) /\
  (forall i, ~ (In i l /\ idx_beta i = true) -> dict_get idx_eqb i r' = dict_get idx_eqb i r) /\
  (forall i, In i l -> idx_beta i = true -> exists n, dict_get idx_eqb i r' = Some (spatial_label i, n) /\ next (spatial_label i) <= n) /\
  (forall i j x, In i l -> In j l -> idx_beta i = true -> idx_beta j = true -> dict_get idx_eqb i r' = Some x -> dict_get idx_eqb j r' = Some x -> i = j).
Proof.
  induction l as [|i l IH]; intros r next N; cbv zeta; [cbn [fold_left fst]; repeat split; try tauto; intros; match goal with H : In _ [] |- _ => destruct H end|]. inversion N as [|? ? N1 N2]; subst. change (fold_left spatial_step (i :: l) (r, next)) with (fold_left spatial_step l (if idx_beta i then put_fresh i (Lab false (lsp (fst i))) (r, next) else (r, next))). destruct (idx_beta i) eqn:E.
  - assert (X : exists r1 : repl, r1 = dict_set idx_eqb i (Lab false (lsp (fst i)), next (Lab false (lsp (fst i)))) r) by eauto. destruct X as (r1 & X). set (next1 := bump next (Lab false (lsp (fst i)))). assert (E0 : put_fresh i (Lab false (lsp (fst i))) (r, next) = (r1, next1)) by (rewrite X; reflexivity). rewrite !E0. pose proof (IH r1 next1 N2) as Q0. cbv zeta in Q0. destruct Q0 as (K & H1 & H2 & H3). fold (spatial_label i) in *.
    assert (G : dict_get idx_eqb i (fst (fold_left spatial_step l (r1, next1))) = Some (spatial_label i, next (spatial_label i))).
    { rewrite H1 by tauto. rewrite X, dget_set, (proj2 (idx_eqb_eq i i) eq_refl). reflexivity. }
    assert (B : forall s, next s <= next1 s) by (intros s; unfold next1, bump; destruct (label_eqb _ s); lia).
    assert (D : forall j x, In j l -> idx_beta j = true -> dict_get idx_eqb j (fst (fold_left spatial_step l (r1, next1))) = Some x -> x <> (spatial_label i, next (spatial_label i))).
    { intros j x Hj Bj Ej Q. subst x. destruct (H2 j Hj Bj) as (n & E1 & E2). rewrite Ej in E1. assert (E4 : spatial_label j = spatial_label i) by congruence. assert (E3 : n = next (spatial_label i)) by congruence. rewrite E4, E3 in E2. unfold next1, bump in E2. fold (spatial_label i) in E2. rewrite (proj2 (label_eqb_iff _ _) eq_refl) in E2. lia. }
    split; [|split; [|split]].
    + intros j Hj. apply K. destruct (dict_get idx_eqb j r1) eqn:Q; [apply dget_in in Q; apply (in_map fst) in Q; exact Q|]. exfalso. rewrite X, dget_set in Q. destruct (idx_eqb j i); [discriminate|]. apply dget_none in Q. contradiction.
    + intros j Hj. rewrite H1 by (intros [Q1 Q2]; apply Hj; split; [right; exact Q1|exact Q2]). rewrite X, dget_set. destruct (idx_eqb j i) eqn:Q; [|reflexivity]. apply idx_eqb_eq in Q. subst j. exfalso. apply Hj. split; [left; reflexivity|exact E].
    + intros j [<-|Hj] Bj; [exists (next (spatial_label i)); auto|]. destruct (H2 j Hj Bj) as (n & E1 & E2). exists n. split; [exact E1|]. specialize (B (spatial_label j)). lia.
    + intros a b x [<-|Ha] [<-|Hb] Ba Bb Ea Eb; [reflexivity| | |apply (H3 a b x); assumption]; exfalso; rewrite G in *; [injection Ea as <-; apply (D b _ Hb Bb Eb); reflexivity|injection Eb as <-; apply (D a _ Ha Ba Ea); reflexivity].
  - pose proof (IH r next N2) as Q0. cbv zeta in Q0. destruct Q0 as (K & H1 & H2 & H3). split; [exact K|split; [|split]].
    + intros j Hj. apply H1. intros [Q1 Q2]. apply Hj. split; [right; exact Q1|exact Q2].
    + intros j [<-|Hj] Bj; [congruence|]. apply H2; assumption.
    + intros a b x [<-|Ha] [<-|Hb] Ba Bb; try congruence. apply H3; assumption.
Qed.
Lemma spatial_label_alpha (i : idx) : idx_beta i = false -> spatial_label i = fst i.
Proof. destruct i as [[b s] n]. unfold idx_beta. cbn. intros ->. reflexivity. Qed.
Lemma singlet_replacement_spec order t : NoDup order -> (forall i, In i order -> snd i < tnext t (fst i)) ->
  incl order (map fst (singlet_replacement order t)) /\ (forall i, In i order -> fst (rename (singlet_replacement order t) i) = spatial_label i) /\
  (forall i j, In i order -> In j order -> rename (singlet_replacement order t) i = rename (singlet_replacement order t) j -> i = j).
Proof.
  intros N B. unfold singlet_replacement. change (fun (st : repl * (label -> nat)) (i : idx) => if idx_beta i then put_fresh i (Lab false (lsp (fst i))) st else st) with spatial_step.
  destruct (put_fold order (map (fun i : idx => (i, i)) order) (tnext t) N) as (K & H1 & H2 & H3). set (r := fst (fold_left _ _ _)) in *.
  assert (G : forall i, In i order -> dict_get idx_eqb i (map (fun i : idx => (i, i)) order) = Some i). { intros i Hi. apply dget_some; [rewrite map_map; cbn [fst]; rewrite map_id; exact N|apply in_map_iff; eauto]. }
  assert (V : forall i, In i order -> exists x, dict_get idx_eqb i r = Some x /\ rename r i = x /\ fst x = spatial_label i /\ (idx_beta i = false -> x = i) /\ (idx_beta i = true -> tnext t (spatial_label i) <= snd x)).
  { intros i Hi. destruct (idx_beta i) eqn:E.
    - destruct (H2 i Hi E) as (n & E1 & E2). exists (spatial_label i, n). unfold rename. rewrite E1. cbn. repeat split; auto; discriminate.
    - exists i. unfold rename. rewrite H1 by (rewrite E; intros [_ Q]; discriminate). pose proof (G i Hi) as Gi. unfold idx, repl in *. rewrite Gi. repeat split; auto; [symmetry; apply spatial_label_alpha, E|discriminate]. }
  split; [|split].
  - intros i Hi. apply K. rewrite map_map. cbn [fst]. rewrite map_id. exact Hi.
  - intros i Hi. destruct (V i Hi) as (x & _ & -> & E & _). exact E.
  - intros i j Hi Hj E. destruct (V i Hi) as (x & X1 & X2 & X3 & X4 & X5), (V j Hj) as (y & Y1 & Y2 & Y3 & Y4 & Y5). rewrite X2, Y2 in E. subst y. assert (SL : spatial_label i = spatial_label j) by congruence. destruct (idx_beta i) eqn:Bi, (idx_beta j) eqn:Bj.
    + apply (H3 i j x); assumption.
    + exfalso. specialize (Y4 eq_refl). specialize (X5 eq_refl). rewrite Y4 in X5. specialize (B j Hj). rewrite SL, (spatial_label_alpha j Bj) in X5. exact (Nat.lt_irrefl _ (Nat.lt_le_trans _ _ _ B X5)).
    + exfalso. specialize (X4 eq_refl). specialize (Y5 eq_refl). rewrite X4 in Y5. specialize (B i Hi). rewrite <- SL, (spatial_label_alpha i Bi) in Y5. exact (Nat.lt_irrefl _ (Nat.lt_le_trans _ _ _ B Y5)).
    + rewrite <- (X4 eq_refl), <- (Y4 eq_refl). reflexivity.
Qed.

(** ** One adapted term *)
Lemma pair_entries upper lower r amaj res p : NoDup upper -> NoDup lower -> incl (upper ++ lower) (map fst r) -> singlet_adaptation SpinIntegrated upper lower r amaj = Ok res -> In p res ->
  Permutation (snd (fst p)) (map (rename r) upper) /\ Permutation (snd p) (map (rename r) lower) /\ (fst (fst p) = 1 \/ fst (fst p) = -1)%Z.
Proof.
  intros Nu Nl Hr H Hp. destruct (singlet_shape _ _ _ _ _ Nu Nl H) as [Hb Hl]. destruct (singlet_ok upper lower r amaj Nu Nl Hb Hl Hr) as (ls & E & _ & _ & I). rewrite H in E. injection E as ->.
  apply in_map_iff in Hp as ([s L] & <- & Hp). cbn [fst snd]. apply I in Hp as (P & _ & su & sl & R1 & R2 & ->). split; [apply Permutation_map; symmetry; apply spin_sorted_perm|]. split; [apply Permutation_map, P|]. apply unit_mul; eapply reorder_sign_pm; eassumption.
Qed.
Lemma fold_mul l : forall s, fold_left Z.mul l s = (s * fold_right Z.mul 1 l)%Z.
Proof. induction l as [|x l IH]; intros s; cbn [fold_left fold_right]; [lia|]. rewrite IH. lia. Qed.

Lemma nothing_permuted part r0 : Permutation (concat part) [] -> NoDup (map snd r0) ->
  (forall s l, In (s, l) r0 <-> Permutation l [] /\ keeps_blocks part l /\ map idx_beta l = map idx_beta (@nil idx) /\ reorder_sign [] l s) -> r0 = [(1%Z, [])].
Proof.
  intros C N I. assert (H : forall s l, In (s, l) r0 -> s = 1%Z /\ l = []).
  { intros s l H. apply I in H as (P & _ & _ & R). apply Permutation_sym, Permutation_nil in P. subst l. split; [|reflexivity]. apply (reorder_sign_unique [] [] s 1); [constructor|exact R|]. exists 0. split; [constructor|reflexivity]. }
  assert (H0 : In (1%Z, []) r0).
  { apply I. repeat split; try reflexivity; [|exists 0; split; [constructor|reflexivity]]. intros b Hb. apply Permutation_sym, Permutation_nil in C. destruct b as [|x b]; [reflexivity|]. exfalso. apply (in_nil (a := x)). rewrite <- C. apply in_concat. exists (x :: b). split; [exact Hb|left; reflexivity]. }
  destruct r0 as [|[s l] r0]; [contradiction|]. destruct (H s l (or_introl eq_refl)) as [-> ->]. f_equal. destruct r0 as [|[s l] r0]; [reflexivity|]. exfalso. destruct (H s l) as [-> ->]; [right; left; reflexivity|]. inversion N as [|? ? K _]. apply K. left. reflexivity.
Qed.

Section Adapted.
  Context (A : qalg) (S : system) (flip : nat -> nat) (w : tvaluation A) (sympy : sympy_oracle) (amaj : bool).
  Add Ring alg_ring27 : (q_ring A).
  Context (SP : spin_pairs S flip) (PS : pair_symmetric w) (PO : pair_symmetric_operators w) (PH : physical S w) (NA : no_active_amplitudes S w) (HH : hermitian_values w) (AD : admissible sympy).
  Context (xs : list tensor) (o : op) (c : Qc) (t : term) (order : list idx).
  Context (M : make_term SpinIntegrated xs o c = Ok t) (ND : forall i, ~ diagonal_in i xs o) (HD : densities_disjoint xs) (HO : cumulants_open_active xs) (HC : classes_by_name xs).
  Context (NT : forall x, In x xs -> NoDup (tupper x) /\ NoDup (tlower x)) (Nc : NoDup (cre o)) (Na : NoDup (ann o)) (HB : length (cre o) = length (ann o)).
  Context (NO : NoDup order) (IO : forall i, In i order <-> In i (tindices t)).
  Let r := singlet_replacement order t.
  Let rho := rename r.
  Let v := spin_values S flip w.
  Let sp := spatial S flip.

  Lemma order_content i : In i order <-> In i (content_indices xs o).
  Proof.
    rewrite IO. destruct (make_term_fields _ _ _ _ _ M) as (_ & _ & _ & _ & _ & _ & F & _). rewrite F, <- content_times. unfold idx_times. rewrite (count_occ_In idx_eq_dec). lia.
  Qed.
  Lemma order_bound i : In i order -> snd i < tnext t (fst i).
  Proof. intros H. apply IO in H. destruct (make_term_fields _ _ _ _ _ M) as (_ & _ & _ & _ & _ & _ & _ & F & _). apply F. exists i. auto. Qed.
  Lemma r_keys : incl order (map fst r).
  Proof. apply (singlet_replacement_spec order t NO order_bound). Qed.
  Lemma r_label i : In i order -> fst (rho i) = spatial_label i.
  Proof. apply (singlet_replacement_spec order t NO order_bound). Qed.
  Lemma r_inj i j : In i order -> In j order -> rho i = rho j -> i = j.
  Proof. apply (singlet_replacement_spec order t NO order_bound). Qed.
  Lemma sorted_tensors : Permutation (ttensors t) xs.
  Proof. apply (make_term_fields _ _ _ _ _ M). Qed.

  Definition at_spatial (a : list nat) : idx -> nat := env (map rho order) (map sp a).
  Definition op_factor (e : idx -> nat) (p : Z * list idx * list idx) : A := (zin (fst (fst p)) * voper w (map e (snd (fst p))) (map e (snd p)))%alg.
  Definition tensor_factor (e : idx -> nat) (x : tensor) (p : Z * list idx * list idx) : A := (zin (fst (fst p)) * vtensor w (tcls x) (tname x) (map e (snd (fst p))) (map e (snd p)))%alg.
  Definition entry_of (upper lower : list idx) (p : Z * list idx * list idx) : Prop :=
    Permutation (snd (fst p)) (map rho upper) /\ Permutation (snd p) (map rho lower) /\ (fst (fst p) = 1 \/ fst (fst p) = -1)%Z.

  Lemma adapted_value sg n p0 rest tm : (sg = 1 \/ sg = -1)%Z -> entry_of (cre o) (ann o) p0 -> Forall2 (fun x p => entry_of (tupper x) (tlower x) p) (ttensors t) rest -> zero_or_visible (Qcdiv c (Qc_of_Z (Z.of_nat n))) ->
    adapted_term sympy t sg n (p0 :: rest) = Ok tm ->
    term_value S w tm = (inj (Qcdiv c (Qc_of_Z (Z.of_nat n))) * asum (map (fun a => zin sg * (op_factor (at_spatial a) p0 * aprod (map (fun xp => tensor_factor (at_spatial a) (fst xp) (snd xp)) (combine (ttensors t) rest)))) (assignments S order)))%alg.
  Proof.
    intros Hsg H0 HF Hv H. destruct p0 as [[s0 u0] l0]. unfold adapted_term in H. destruct H0 as (Pu & Pl & Hs0). cbn [fst snd] in Pu, Pl, Hs0.
    destruct (make_typed SpinAdapted u0) as [u1|] eqn:Eu; [|discriminate]. apply make_typed_ok in Eu as [-> Nu]. cbn [pybind] in H. destruct (make_typed SpinAdapted l0) as [l1|] eqn:El; [|discriminate]. apply make_typed_ok in El as [-> Nl]. cbn [pybind] in H.
    destruct (pymap _ (combine (ttensors t) rest)) as [ys|] eqn:Ey; [|discriminate]. cbn [pybind] in H. set (sign := fold_left Z.mul _ _) in H. destruct (make_term SpinAdapted ys _ _) as [t'|] eqn:Et; [|discriminate]. cbn [pybind] in H.
    (* the tensors *)
    assert (FY : Forall2 (fun xp y => y = Ten (tcls (fst xp)) SpinAdapted (tname (fst xp)) (tpriority (fst xp)) (snd (fst (snd xp))) (snd (snd xp)) /\ valid_tensor y) (combine (ttensors t) rest) ys).
    { apply pymap_forall2 in Ey. revert Ey. apply Forall2_impl_in. intros [x [[s u] l]] y _ _ E. cbn [fst snd]. unfold make_tensor in E. destruct (make_typed SpinAdapted u) as [u2|] eqn:Eu; [|discriminate]. apply make_typed_ok in Eu as [-> _]. cbn [pybind] in E. destruct (make_typed SpinAdapted l) as [l2|] eqn:El; [|discriminate]. apply make_typed_ok in El as [-> _]. cbn [pybind] in E. pose proof (check_tensor_ok _ _ E) as ->. split; [reflexivity|exact E]. }
    assert (FM : Forall2 (moved_tensor rho) (ttensors t) ys).
    { clear -HF FY. revert ys FY. induction HF as [|x p l m (E1 & E2 & _) _ IH]; intros ys FY; cbn [combine] in FY; inversion FY as [|? y ? ys' [Ey Vy] F']; subst; constructor; [|apply IH, F']. cbn [fst snd] in *. unfold moved_tensor. cbn [tcls tname tupper tlower]. auto. }
    assert (CI : forall i, In i (content_indices (ttensors t) o) <-> In i order). { intros i. rewrite order_content. apply content_perm, sorted_tensors. }
    assert (HI : forall i j, In i (content_indices (ttensors t) o) -> In j (content_indices (ttensors t) o) -> rho i = rho j -> i = j) by (intros i j Hi Hj; apply r_inj; apply CI; assumption).
    destruct (make_term_fields _ _ _ _ _ M) as (_ & _ & _ & Eo & Ec & _). rewrite Ec in Et.
    assert (UN : (sign = 1 \/ sign = -1)%Z). { unfold sign. rewrite fold_mul. apply unit_mul; [apply unit_mul; assumption|]. clear -HF. induction HF as [|x p l m (_ & _ & E) _ IH]; [left; reflexivity|]. cbn [map fold_right]. apply unit_mul; assumption. }
    assert (CO : Qcdiv (Qcmult (Qc_of_Z sign) c) (Qc_of_Z (Z.of_nat n)) = Qcmult (Qc_of_Z sign) (Qcdiv c (Qc_of_Z (Z.of_nat n)))) by (unfold Qcdiv; ring).
    assert (PX := sorted_tensors).
    destruct (C42_canonicalize_value A S w sympy true true true SpinAdapted ys (Op u0 l0) _ t' tm Et) as (V & _); auto.
    - apply (moved_diagonal rho (ttensors t) ys o (Op u0 l0) FM Pu Pl HI). intros i [Q|(x & Q1 & Q2)]; apply (ND i); [left; exact Q|right; exists x; split; [apply (Permutation_in _ PX Q1)|exact Q2]].
    - apply (moved_valid rho (ttensors t) ys). exact FM.
    - apply (moved_densities rho (ttensors t) ys o FM HI). unfold densities_disjoint in *. apply (Permutation_NoDup (l := flat_map tensor_indices (filter is_density xs))); [|exact HD]. apply Permutation_flat_map. apply BacktrackProofs.perm_filter. symmetry. exact PX.
    - intros y i Hy E Ly Hi. destruct (moved_from rho (ttensors t) ys FM y Hy) as (x & Hx & C1 & _ & P1 & P2 & _). assert (Hi' : In i (map rho (tensor_indices x))).
      { unfold tensor_indices in *. rewrite map_app. apply in_app_iff in Hi. apply in_or_app. destruct Hi as [Hi|Hi]; [left; rewrite <- P1; exact Hi|right; rewrite <- P2; exact Hi]. }
      apply in_map_iff in Hi' as (j & <- & Hj). rewrite r_label; [|apply CI; apply (tensor_content (ttensors t) o x); assumption]. unfold spatial_label. cbn [lsp]. apply (HO x j); [apply (Permutation_in _ PX Hx)|congruence| |exact Hj]. apply Permutation_length in P1. rewrite map_length in P1. congruence.
    - apply (moved_classes rho (ttensors t) ys FM). intros x y Hx Hy. apply HC; apply (Permutation_in _ PX); assumption.
    - cbn [cre ann]. apply Permutation_length in Pu, Pl. rewrite map_length in Pu, Pl. congruence.
    - rewrite CO. apply ContractValue.visible_sign; assumption.
    - intros Q. discriminate.
    - rewrite V. unfold term_value. destruct (make_term_fields _ _ _ _ _ Et) as (_ & Gp & _ & Go & Gc & _). rewrite Go, Gc, CO. rewrite (content_value_perm A S w _ _ ys _ Gp).
      rewrite (content_value_list A S w _ ys (Op u0 l0) (map rho order)).
      + rewrite (spatial_sum A S flip SP rho order _ r_label). fold sp. rewrite Qcmult_comm, (inj_zin A). transitivity (inj (Qcdiv c (Qc_of_Z (Z.of_nat n))) * (zin sign * asum (map (fun a => integrand w ys (Op u0 l0) (env (map rho order) (map sp a))) (assignments S order))))%alg; [ring|]. f_equal. rewrite <- (asum_map_mul A). apply asum_map_ext. intros a _. fold (at_spatial a).
        assert (TF : aprod (map (fun xp => tensor_factor (at_spatial a) (fst xp) (snd xp)) (combine (ttensors t) rest)) = (zin (fold_right Z.mul 1 (map (fun p => fst (fst p)) rest))%Z * aprod (map (tensor_value w (at_spatial a)) ys))%alg).
        { clear -HF FY. revert ys FY. induction HF as [|x p l m _ _ IH]; intros ys FY; cbn [combine] in FY; inversion FY as [|? y ? ys' [Ey Vy] F']; subst; [cbn; rewrite (zin_1 A); unfold aprod; cbn; ring|]. cbn [combine map fold_right fst snd]. rewrite (zin_mul A).
          transitivity (tensor_factor (at_spatial a) x p * aprod (map (fun xp => tensor_factor (at_spatial a) (fst xp) (snd xp)) (combine l m)))%alg; [reflexivity|]. rewrite (IH ys' F'). unfold tensor_factor.
          transitivity (zin (fst (fst p)) * zin (fold_right Z.mul 1%Z (map (fun p => fst (fst p)) m)) * (vtensor w (tcls x) (tname x) (map (at_spatial a) (snd (fst p))) (map (at_spatial a) (snd p)) * aprod (map (tensor_value w (at_spatial a)) ys')))%alg; [ring|reflexivity]. }
        rewrite TF. unfold sign. rewrite fold_mul, !(zin_mul A). unfold integrand, op_value, op_factor. cbn [cre ann fst snd]. ring.
      + apply NoDup_map_on; [exact r_inj|exact NO].
      + assert (PC : Permutation (content_indices ys (Op u0 l0)) (map rho (content_indices (ttensors t) o))).
        { unfold content_indices, op_indices. cbn [cre ann]. rewrite !map_app. apply Permutation_app; [apply Permutation_app; assumption|]. clear -FM. induction FM as [|x y l m (_ & _ & P1 & P2 & _) _ IH]; [reflexivity|]. cbn [flat_map]. rewrite map_app. apply Permutation_app; [|exact IH]. unfold tensor_indices. rewrite map_app. apply Permutation_app; assumption. }
        intros j. split; intros Q.
        * apply (Permutation_in _ (Permutation_sym PC)). apply in_map_iff in Q as (i & <- & Q). apply in_map, CI, Q.
        * apply (Permutation_in _ PC) in Q. apply in_map_iff in Q as (i & <- & Q). apply in_map, CI, Q.
  Qed.

  (** ** All adapted terms of one arrangement of the operator *)
  Lemma tensor_in_order x i : In x (ttensors t) -> In i (tupper x ++ tlower x) -> In i order.
  Proof. intros Hx Hi. apply order_content. unfold content_indices. apply in_or_app. right. apply in_flat_map. exists x. split; [apply (Permutation_in _ sorted_tensors Hx)|exact Hi]. Qed.
  Lemma op_in_order i : In i (cre o ++ ann o) -> In i order.
  Proof. intros Hi. apply order_content. unfold content_indices. apply in_or_app. left. exact Hi. Qed.
  Lemma combine_map_l {B C D} (f : B -> C) (l : list B) (m : list D) : combine (map f l) m = map (fun p => (f (fst p), snd p)) (combine l m).
  Proof. revert m. induction l as [|x l IH]; intros [|y m]; try reflexivity. cbn [map combine fst snd]. rewrite IH. reflexivity. Qed.
  Lemma choose_each {B C} (P : B -> C -> Prop) l chs rest : Forall2 (fun x ch => forall p, In p ch -> P x p) l chs -> Forall2 (@In C) rest chs -> Forall2 P l rest.
  Proof. intros F. revert rest. induction F as [|x ch l chs H _ IH]; intros rest G; inversion G; subst; constructor; auto. Qed.
  Lemma perm_value sg cr an s1 s2 n choices tms : reorder_sign (cre o) cr s1 -> reorder_sign (ann o) an s2 -> sg = (s1 * s2)%Z -> zero_or_visible (Qcdiv c (Qc_of_Z (Z.of_nat n))) ->
    pymap (fun ul => singlet_adaptation SpinIntegrated (fst ul) (snd ul) r amaj) ((cr, an) :: map (fun x => (tupper x, tlower x)) (ttensors t)) = Ok choices ->
    pymap (adapted_term sympy t sg n) (iproduct choices) = Ok tms ->
    asum (map (term_value S w) tms) = (inj (Qcdiv c (Qc_of_Z (Z.of_nat n))) * sum_over S order (integrand v (ttensors t) o))%alg.
  Proof.
    intros R1 R2 Esg Hv HC1 HT. apply pymap_forall2 in HC1. apply pymap_forall2 in HT. inversion HC1 as [|? ch0 ? chs S0 FS]; subst choices. clear HC1. cbn [fst snd] in S0.
    assert (FS' : Forall2 (fun x ch => singlet_adaptation SpinIntegrated (tupper x) (tlower x) r amaj = Ok ch) (ttensors t) chs).
    { clear -FS. remember (map (fun x => (tupper x, tlower x)) (ttensors t)) as l eqn:E. revert E. generalize (ttensors t) as ts. induction FS as [|ul ch l m H _ IH]; intros [|x ts] E; try discriminate; constructor; injection E as -> E; [exact H|apply IH, E]. }
    clear FS. pose proof (reorder_sign_perm _ _ _ R1) as P1. pose proof (reorder_sign_perm _ _ _ R2) as P2.
    assert (Ncr : NoDup cr) by (apply (Permutation_NoDup P1), Nc). assert (Nan : NoDup an) by (apply (Permutation_NoDup P2), Na).
    assert (Icr : forall i, In i (cr ++ an) -> In i order). { intros i Hi. apply op_in_order. apply in_app_iff in Hi. apply in_or_app. destruct Hi as [Hi|Hi]; [left; apply (Permutation_in _ (Permutation_sym P1) Hi)|right; apply (Permutation_in _ (Permutation_sym P2) Hi)]. }
    assert (K0 : incl (cr ++ an) (map fst r)) by (intros i Hi; apply r_keys, Icr, Hi).
    assert (NT' : forall x, In x (ttensors t) -> NoDup (tupper x) /\ NoDup (tlower x) /\ incl (tupper x ++ tlower x) (map fst r)).
    { intros z Hz. destruct (NT z (Permutation_in _ sorted_tensors Hz)) as [N1 N2]. repeat split; auto. intros i Hi. apply r_keys, (tensor_in_order z i Hz Hi). }
    assert (Hsg : (sg = 1 \/ sg = -1)%Z) by (rewrite Esg; apply unit_mul; eapply reorder_sign_pm; eassumption).
    set (gs := fun a => op_factor (at_spatial a) :: map (fun x => tensor_factor (at_spatial a) x) (ttensors t)).
    assert (V1 : Forall2 (fun pairs tm => term_value S w tm = (inj (Qcdiv c (Qc_of_Z (Z.of_nat n))) * asum (map (fun a => zin sg * aprod (map (fun gb => fst gb (snd gb)) (combine (gs a) pairs))) (assignments S order)))%alg) (iproduct (ch0 :: chs)) tms).
    { revert HT. apply Forall2_impl_in. intros pairs tm Hp _ E. apply in_iproduct in Hp. inversion Hp as [|p0 ? rest ? Hp0 Hrest]; subst.
      rewrite (adapted_value (s1 * s2) n p0 rest tm Hsg) with (4 := E).
      - f_equal. apply asum_map_ext. intros a _. f_equal. unfold gs. cbn [combine map fst snd]. rewrite combine_map_l, map_map. reflexivity.
      - destruct (pair_entries _ _ _ _ _ _ Ncr Nan K0 S0 Hp0) as (Q1 & Q2 & Q3). split; [rewrite Q1; apply Permutation_map; symmetry; exact P1|]. split; [rewrite Q2; apply Permutation_map; symmetry; exact P2|exact Q3].
      - apply (choose_each _ _ chs); [|exact Hrest]. revert FS'. apply Forall2_impl_in. intros z ch Hz _ E' p Hp'. destruct (NT' z Hz) as (N1 & N2 & N3). apply (pair_entries _ _ _ _ _ _ N1 N2 N3 E' Hp').
      - exact Hv. }
    transitivity (asum (map (fun pairs => inj (Qcdiv c (Qc_of_Z (Z.of_nat n))) * asum (map (fun a => zin sg * aprod (map (fun gb => fst gb (snd gb)) (combine (gs a) pairs))) (assignments S order)))%alg (iproduct (ch0 :: chs)))).
    { clear -V1. f_equal. induction V1 as [|pairs tm l m E _ IH]; [reflexivity|]. cbn [map]. rewrite E, IH. reflexivity. }
    rewrite (asum_map_mul A). f_equal. rewrite (asum_swap A). unfold sum_over. apply asum_map_ext. intros a Ha. rewrite (asum_map_mul A).
    assert (LC : length (ttensors t) = length chs) by (clear -FS'; induction FS'; cbn; congruence).
    rewrite <- (aprod_sums A) by (unfold gs; cbn [length]; rewrite map_length, LC; reflexivity). unfold gs. cbn [combine map fst snd].
    apply in_assignments in Ha as (f & -> & Hf); [|exact NO]. set (e := env order (map f order)).
    assert (He : forall i, In i order -> e i = f i) by (intros i Hi; apply env_map, Hi).
    assert (Hs : forall i, In i order -> spin_of S (e i) = idx_beta i) by (intros i Hi; rewrite (He i Hi); apply orbital_spin, Hf, Hi).
    assert (Ha : forall i, In i order -> at_spatial (map f order) (rename r i) = spatial S flip (e i)) by (intros i Hi; unfold at_spatial; apply (env_spatial S flip rho order (map f order) i r_inj); [apply map_length|exact Hi]).
    destruct (spin_antisymmetric A S flip w PS PO) as [AU AL AC AA].
    set (e' := at_spatial (map f order)) in *.
    assert (OF : asum (map (op_factor e') ch0) = spin_sum S flip (voper w) (map e cr) (map e an)).
    { symmetry. apply (singlet_sum A S flip (voper w) cr an r amaj ch0 e e' Ncr Nan K0 S0); [intros i Hi; apply Hs, Icr, Hi|intros i Hi; apply Ha, Icr, Hi|exact AC]. }
    assert (OV : op_value v e o = (zin sg * spin_sum S flip (voper w) (map e cr) (map e an))%alg).
    { unfold op_value. rewrite (alternates_sign A (fun u => voper v u (map e (ann o))) (map e (cre o)) (map e cr) s1 (AC _) (reorder_sign_map _ _ _ _ R1)).
      rewrite (alternates_sign A (fun l => voper v (map e cr) l) (map e (ann o)) (map e an) s2 (AA _) (reorder_sign_map _ _ _ _ R2)). rewrite Esg, (zin_mul A). change (voper v (map e cr) (map e an)) with (spin_sum S flip (voper w) (map e cr) (map e an)). ring. }
    assert (TV : aprod (map (fun gc => asum (map (fst gc) (snd gc))) (combine (map (fun x => tensor_factor e' x) (ttensors t)) chs)) = aprod (map (tensor_value v e) (ttensors t))).
    { assert (Q : Forall2 (fun z ch => asum (map (tensor_factor e' z) ch) = tensor_value v e z) (ttensors t) chs).
      { revert FS'. apply Forall2_impl_in. intros z ch Hz _ E. destruct (NT' z Hz) as (N1 & N2 & N3). symmetry. apply (singlet_sum A S flip (vtensor w (tcls z) (tname z)) (tupper z) (tlower z) r amaj ch e e' N1 N2 N3 E); [intros i Hi; apply Hs, (tensor_in_order z i Hz Hi)|intros i Hi; apply Ha, (tensor_in_order z i Hz Hi)|apply AU]. }
      clear -Q. f_equal. induction Q as [|z ch l m E _ IH]; [reflexivity|]. cbn [map combine fst snd]. rewrite E, IH. reflexivity. }
    unfold integrand. rewrite OV, <- TV, <- OF.
    match goal with |- (_ * aprod (?x :: ?l))%alg = _ => transitivity (zin sg * (x * aprod l))%alg; [reflexivity|] end. ring.
  Qed.
  (** ** All arrangements *)
  Lemma no_tdiag : tdiag t = [].
  Proof. destruct (make_term_fields _ _ _ _ _ M) as (_ & _ & _ & _ & _ & _ & _ & _ & _ & F). destruct (tdiag t) as [|[i k] l] eqn:E; [reflexivity|]. exfalso. apply (ND i). apply (F i k). left. reflexivity. Qed.
  Lemma permutations_of pc pa : perm_partition_open t = (pc, pa) -> exists r1 r2,
    permuted_indices SpinIntegrated (cre o) pc = Ok r1 /\ permuted_indices SpinIntegrated (ann o) pa = Ok r2 /\
    NoDup (map snd r1) /\ NoDup (map snd r2) /\
    (forall s l, In (s, l) r1 <-> Permutation l (cre o) /\ keeps_blocks pc l /\ map idx_beta l = map idx_beta (cre o) /\ reorder_sign (cre o) l s) /\
    (forall s l, In (s, l) r2 <-> Permutation l (ann o) /\ keeps_blocks pa l /\ map idx_beta l = map idx_beta (ann o) /\ reorder_sign (ann o) l s) /\
    permute_indices SpinIntegrated o pc pa true = Ok (flat_map (fun x => map (fun y => ((fst x * fst y)%Z, snd x, snd y)) r2) r1).
  Proof.
    intros EP. destruct (open_partition _ _ _ _ _ M no_tdiag Nc Na) as [[G1 _ _ _ _] [G2 _ _ _ _]]. rewrite EP in G1, G2. cbn [fst snd] in G1, G2.
    destruct (permuted_ok SpinIntegrated pc (cre o) eq_refl Nc G1) as (r1 & E1 & N1 & I1); [discriminate|]. destruct (permuted_ok SpinIntegrated pa (ann o) eq_refl Na G2) as (r2 & E2 & N2 & I2); [discriminate|].
    exists r1, r2. repeat (split; [assumption|]). unfold permute_indices. rewrite E1, E2. cbn [pybind]. destruct (op_is_empty o) eqn:Eo; [|destruct r1; reflexivity].
    unfold op_is_empty in Eo. destruct (cre o); [|discriminate]. destruct (ann o); [|discriminate]. rewrite (nothing_permuted _ _ G1 N1 I1), (nothing_permuted _ _ G2 N2 I2). reflexivity.
  Qed.
  Lemma singlet_total ts n perms pc pa : perm_partition_open t = (pc, pa) -> op_n_multiset_permutation SpinIntegrated o pc pa = Ok n -> permute_indices SpinIntegrated o pc pa true = Ok perms ->
    zero_or_visible (Qcdiv c (Qc_of_Z (Z.of_nat n))) -> 0 < n -> generate_singlet_adaptation sympy order amaj t = Ok ts ->
    (zin (Z.of_nat n) * asum (map (term_value S w) ts) = zin (Z.of_nat (length perms)) * term_value S v t)%alg.
  Proof.
    intros EP En Ep Hv Hn H. destruct (permutations_of pc pa EP) as (r1 & r2 & _ & _ & _ & _ & I1 & I2 & EQ). rewrite Ep in EQ. injection EQ as EQ.
    pose proof (make_term_fields _ _ _ _ _ M) as (Ty & P & _ & Eo & Co & _).
    unfold generate_singlet_adaptation in H. rewrite Ty, Eo, EP, En, Ep in H. cbn [itype_eqb negb pybind] in H. destruct (pymap _ perms) as [tss|] eqn:E in H; [|discriminate]. injection H as <-.
    apply pymap_forall2 in E.
    assert (V : (inj (Qcdiv c (Qc_of_Z (Z.of_nat n))) * sum_over S order (integrand v (ttensors t) o) * zin (Z.of_nat n) = term_value S v t)%alg).
    { unfold term_value. rewrite Eo, Co, (content_value_list A S v c _ o order NO).
      - assert (Ec : c = Qcmult (Qcdiv c (Qc_of_Z (Z.of_nat n))) (Qc_of_Z (Z.of_nat n))). { symmetry. rewrite Qcmult_comm. apply Qcmult_div_r. intros Q. assert (Q' : Qeq (Qc_of_Z (Z.of_nat n)) (Q2Qc 0)) by (rewrite Q; reflexivity). unfold Qc_of_Z in Q'. cbn [this Q2Qc] in Q'. rewrite !Qred_correct in Q'. unfold Qeq in Q'. cbn in Q'. lia. }
        rewrite Ec at 2. rewrite (inj_zin A). ring.
      - intros i. rewrite order_content. unfold content_indices. rewrite !in_app_iff, !in_flat_map. split; (intros [Hi|(x & Hx & Hi)]; [left; exact Hi|right; exists x; split; [|exact Hi]]); [apply (Permutation_in _ (Permutation_sym P)), Hx|apply (Permutation_in _ P), Hx]. }
    assert (G : Forall (fun tms => asum (map (term_value S w) tms) = (inj (Qcdiv c (Qc_of_Z (Z.of_nat n))) * sum_over S order (integrand v (ttensors t) o))%alg) tss).
    { assert (Q : Forall (fun p => exists s1 s2, reorder_sign (cre o) (snd (fst p)) s1 /\ reorder_sign (ann o) (snd p) s2 /\ fst (fst p) = (s1 * s2)%Z) perms).
      { apply Forall_forall. intros [[sg cr] an] Hp. rewrite EQ in Hp. apply in_flat_map in Hp as ([s1 l1] & H1 & Hp). apply in_map_iff in Hp as ([s2 l2] & Eq & H2). cbn [fst snd] in Eq. injection Eq as <- <- <-. exists s1, s2. split; [apply I1, H1|]. split; [apply I2, H2|]. reflexivity. }
      clear EQ Ep. induction E as [|[[sg cr] an] tms perms tss Hp _ IH]; [constructor|]. apply Forall_cons_iff in Q as [(s1 & s2 & R1 & R2 & Es) Q']. constructor; [|apply IH, Q']. cbn [fst snd] in *.
      destruct (make_typed SpinIntegrated cr) as [cr'|] eqn:Ec; [|discriminate]. destruct (make_typed SpinIntegrated an) as [an'|] eqn:Ea; [|discriminate]. apply make_typed_ok in Ec as [-> _]. apply make_typed_ok in Ea as [-> _]. cbn [pybind] in Hp.
      match type of Hp with pybind ?e _ = _ => destruct e as [choices|] eqn:Ech end; [|discriminate]. cbn [pybind] in Hp. apply (perm_value sg cr an s1 s2 n choices tms R1 R2 Es Hv Ech Hp). }
    assert (L : length tss = length perms) by (clear -E; induction E; cbn [length]; congruence). rewrite <- L, <- V.
    clear E V EQ L. induction G as [|tms tss Ht _ IH]; cbn [concat length].
    - cbn [map]. change (Z.of_nat 0) with 0%Z. rewrite (zin_0 A). change (@asum A []) with (@q0 A). ring.
    - rewrite map_app, (asum_app A), Nat2Z.inj_succ, <- Z.add_1_l, (zin_add A), (zin_1 A), Ht. replace (zin (Z.of_nat n) * (inj (c / Qc_of_Z (Z.of_nat n))%Qc * sum_over S order (integrand v (ttensors t) o) + asum (map (term_value S w) (concat tss))))%alg
        with (zin (Z.of_nat n) * (inj (c / Qc_of_Z (Z.of_nat n))%Qc * sum_over S order (integrand v (ttensors t) o)) + zin (Z.of_nat n) * asum (map (term_value S w) (concat tss)))%alg by ring. rewrite IH. ring.
  Qed.
End Adapted.
