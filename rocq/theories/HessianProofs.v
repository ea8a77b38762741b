(** Proofs about diagonal_hessian_t. *)
From Coq Require Import Ascii String ZArith QArith Qcanon Lia Ring_theory Ring.
From Verif Require Import PyBase SpaceModel IndicesModel IterProofs IndicesProofs ElemModel MacroModel TermModel ValueSpec ValueProofs TermSpec SumProofs TermProofs RenameProofs GradientModel PropGradient OpenProofs HessianModel HessianSpec.
From Verif Require FockTerms PropOperator.
Local Close Scope Q_scope.
Local Close Scope Qc_scope.
Local Open Scope nat_scope.
Local Notation length := List.length.

Lemma labels_eqb_iff a : forall b, labels_eqb a b = true <-> a = b.
Proof.
  induction a as [|x a IH]; intros [|y b]; cbn; split; try congruence; intros H.
  - apply andb_true_iff in H as [H1 H2]. apply label_eqb_iff in H1. apply IH in H2. congruence.
  - injection H as -> ->. apply andb_true_iff. split; [apply label_eqb_iff|apply IH]; reflexivity.
Qed.
Lemma same_numbers_iff a b : same_numbers a b = true <-> a = b.
Proof. unfold same_numbers. destruct (list_eq_dec _ a b); split; congruence. Qed.

Lemma rename_combine (d : repl) X Y : NoDup X -> length X = length Y -> map (rename (dict_update idx_eqb d (combine X Y))) X = Y.
Proof.
  intros N L. assert (K : map fst (combine X Y) = X). { clear N. revert Y L. induction X as [|x X IH]; intros [|y Y] L; try discriminate; [reflexivity|]. cbn. f_equal. apply IH. injection L as L. exact L. }
  transitivity (map (fun i => match dict_get idx_eqb i (combine X Y) with Some j => j | None => i end) X).
  - apply map_ext_in. intros i Hi. unfold rename. rewrite dget_update by (rewrite K; exact N). destruct (dict_get idx_eqb i (combine X Y)) eqn:E; [reflexivity|]. apply dget_none in E. rewrite K in E. contradiction.
  - clear K. revert Y L. induction X as [|x X IH]; intros [|y Y] L; try discriminate; [reflexivity|]. cbn [map combine dict_get]. rewrite idx_eqb_refl. f_equal. inversion N as [|? ? N1 N2]. injection L as L. etransitivity; [|exact (IH N2 Y L)]. apply map_ext_in. intros i Hi. destruct (idx_eqb i x) eqn:E; [apply idx_eqb_eq in E as ->; contradiction|reflexivity].
Qed.
Lemma rename_other (idd : list idx) X Y i : NoDup X -> length X = length Y -> ~ In i X -> rename (dict_update idx_eqb (map (fun i => (i, i)) idd) (combine X Y)) i = i.
Proof.
  intros N L Hi. assert (K : map fst (combine X Y) = X). { clear N Hi. revert Y L. induction X as [|x X IH]; intros [|y Y] L; try discriminate; [reflexivity|]. cbn. f_equal. apply IH. injection L as L. exact L. }
  unfold rename. rewrite dget_update by (rewrite K; exact N). destruct (dict_get idx_eqb i (combine X Y)) eqn:E; [apply dget_in, in_combine_l in E; contradiction|]. destruct (dict_get idx_eqb i (map _ idd)) as [j|] eqn:E'; [|reflexivity]. apply dget_in in E'. apply in_map_iff in E' as (k & E' & _). congruence.
Qed.

(** the loop finds the amplitude *)
Lemma loop_result t xs : forall cl non r, hessian_loop t xs cl non = Ok r ->
  exists cs, snd r = non ++ filter (fun x => match is_amplitude_of t x with Ok b => negb b | _ => true end) xs /\
  cs = filter (fun x => match is_amplitude_of t x with Ok b => b | _ => false end) xs /\
  match cl with Some x => cs = [] /\ fst r = Some x | None => match cs with [] => fst r = None | [x] => fst r = Some x | _ => False end end /\
  (forall x, In x xs -> exists b, is_amplitude_of t x = Ok b).
Proof.
  induction xs as [|x xs IH]; intros cl non r H; cbn [hessian_loop] in H.
  - injection H as <-. exists []. cbn. rewrite app_nil_r. repeat split; try (destruct cl; auto; fail). intros x [].
  - destruct (is_amplitude_of t x) as [b|] eqn:E; [|discriminate]. cbn [pybind] in H. destruct b.
    + destruct cl; [discriminate|]. apply IH in H as (cs & H1 & H2 & [-> H4] & H5). exists [x]. cbn [filter]. rewrite E. cbn [negb]. rewrite <- H2. repeat split; auto. intros y [<-|Hy]; eauto.
    + apply IH in H as (cs & H1 & H2 & H3 & H5). exists cs. cbn [filter]. rewrite E. cbn [negb]. rewrite <- app_assoc in H1. repeat split; auto. intros y [<-|Hy]; eauto.
Qed.

Section Elements.
  Context (A : qalg) (S : system).
  Add Ring alg_ring48 : (q_ring A).

  Lemma sum_app I J (F : (idx -> nat) -> A) : depends_on A (I ++ J) F -> sum_over S (I ++ J) F = sum_over S I (fun e => sum_over S J (fun e' => F (with_open I e e'))).
  Proof.
    intros D. unfold sum_over. unfold assignments at 1. rewrite map_app, FockTerms.iproduct_app, PropOperator.asum_flat. apply asum_map_ext. intros a Ha. rewrite map_map. apply asum_map_ext. intros b Hb. apply D.
    assert (L : length a = length I) by (apply FockTerms.iproduct_length in Ha; rewrite map_length in Ha; exact Ha).
    intros i Hi. unfold with_open. destruct (mem_idx i I) eqn:E; [apply mem_idx_in in E; apply FockTerms.env_left; assumption|apply mem_idx_notin in E; apply FockTerms.env_right; assumption].
  Qed.
  Lemma sum_pin D (g : idx -> nat) (G : (idx -> nat) -> A) : NoDup D -> (forall d, In d D -> In (g d) (orbitals S d)) -> depends_on A D G ->
    sum_over S D (fun e => if forallb (fun d => e d =? g d) D then G e else q0) = G g.
  Proof.
    intros N H DG. unfold sum_over. rewrite (asum_single A _ _ (map g D)).
    - replace (forallb _ D) with true; [apply DG; intros i Hi; apply env_map, Hi|]. symmetry. apply forallb_forall. intros d Hd. rewrite (env_map D g d Hd). apply Nat.eqb_refl.
    - apply nodup_assignments.
    - apply in_assignments; [exact N|]. exists g. auto.
    - intros a Ha Hn. destruct (forallb _ D) eqn:E; [|reflexivity]. exfalso. apply Hn. apply (in_assignments S D a N) in Ha as (f & -> & _). apply map_ext_in. intros d Hd. rewrite forallb_forall in E. specialize (E d Hd). apply Nat.eqb_eq in E. rewrite <- E. symmetry. apply env_map, Hd.
  Qed.

  Lemma in_summed xs O i : In i (summed xs O) <-> (exists x, In x xs /\ In i (tensor_indices x)) /\ ~ In i O.
  Proof. unfold summed. rewrite filter_In, nodup_In, in_flat_map, negb_true_iff, mem_idx_notin. reflexivity. Qed.
  Lemma summed_nodup xs O : NoDup (summed xs O).
  Proof. apply NoDup_filter, NoDup_nodup. Qed.
  Lemma product_ext (v : tvaluation A) xs e e' : (forall x i, In x xs -> In i (tensor_indices x) -> e i = e' i) -> aprod (map (tensor_value v e) xs) = aprod (map (tensor_value v e') xs).
  Proof.
    intros H. f_equal. apply map_ext_in. intros x Hx. unfold tensor_value. f_equal; apply map_ext_in; intros i Hi; apply (H x i Hx), in_or_app; auto.
  Qed.
  Lemma element_perm (v : tvaluation A) c xs ys O e : Permutation xs ys -> element S v c xs O e = element S v c ys O e.
  Proof.
    intros P. unfold element. f_equal. rewrite (sum_over_same A S _ (summed ys O)); [|apply summed_nodup..| |].
    - apply sum_over_ext; [|apply summed_nodup]. intros e' _. apply aprod_perm, Permutation_map, P.
    - intros i. rewrite !in_summed. split; intros [(x & X1 & X2) H]; (split; [|exact H]); exists x; (split; [|exact X2]); [exact (Permutation_in _ P X1)|exact (Permutation_in _ (Permutation_sym P) X1)].
    - intros e1 e2 H. apply product_ext. intros x i Hx Hi. unfold with_open. destruct (mem_idx i O) eqn:E; [reflexivity|]. apply H, in_summed. split; [eauto|]. apply mem_idx_notin, E.
  Qed.

  (** the term is the sum of its elements times the operators *)
  Lemma elements_sum (v : tvaluation A) c xs o : content_value S v c xs o = sum_over S (nodup idx_eq_dec (op_indices o)) (fun e => element S v c xs (op_indices o) e * op_value v e o)%alg.
  Proof.
    unfold content_value. set (O := op_indices o). set (N := nodup idx_eq_dec O).
    assert (M : forall i, mem_idx i N = mem_idx i O). { intros i. unfold N. destruct (mem_idx i O) eqn:E; [apply mem_idx_in, nodup_In, mem_idx_in, E|]. apply mem_idx_notin. rewrite nodup_In. apply mem_idx_notin, E. }
    assert (NN : NoDup (N ++ summed xs O)). { apply NoDup_app_intro; [apply NoDup_nodup|apply summed_nodup|]. intros i H1 H2. apply nodup_In in H1. apply in_summed in H2. tauto. }
    rewrite (sum_over_same A S _ (N ++ summed xs O)); [|apply NoDup_nodup|exact NN| |apply integrand_depends].
    - rewrite sum_app.
      + rewrite <- sum_over_mul. apply sum_over_ext; [|apply NoDup_nodup]. intros e _. unfold element. transitivity (inj c * (op_value v e o * sum_over S (summed xs O) (fun e' => aprod (map (tensor_value v (with_open O e e')) xs))))%alg; [f_equal|ring].
        rewrite <- sum_over_mul. apply sum_over_ext; [|apply summed_nodup]. intros e' _. unfold integrand.
        replace (op_value v (with_open N e e') o) with (op_value v e o).
        * replace (aprod (map (tensor_value v (with_open N e e')) xs)) with (aprod (map (tensor_value v (with_open O e e')) xs)); [ring|]. apply product_ext. intros x i _ _. unfold with_open. rewrite M. reflexivity.
        * unfold op_value. f_equal; apply map_ext_in; intros i Hi; unfold with_open; rewrite M; (replace (mem_idx i O) with true; [reflexivity|]); symmetry; apply mem_idx_in, in_or_app; auto.
      + intros e e' H. apply integrand_ext. intros i Hi. apply H. unfold content_indices in Hi. apply in_app_iff. destruct (in_dec idx_eq_dec i O) as [Q|Q]; [left; apply nodup_In, Q|]. right. apply in_summed. split; [|exact Q]. unfold O in Q. apply in_app_iff in Hi as [Hi|Hi]; [|]; try contradiction. apply in_flat_map in Hi. exact Hi.
    - intros i. rewrite nodup_In, in_app_iff, in_summed. unfold N. rewrite nodup_In. unfold content_indices. rewrite in_app_iff, in_flat_map. fold O. destruct (in_dec idx_eq_dec i O); tauto.
  Qed.

  (** the derivative *)
  Lemma nudged_element (v : tvaluation A) c o xs x others us ls (e : idx -> nat) (rho : idx -> idx) :
    Permutation xs (x :: others) -> tcls x = TCluster ->
    (forall y, In y others -> tcls y = TCluster -> length (tupper y) <> length us) ->
    us = map rho (tupper x) -> ls = map rho (tlower x) -> (forall i, ~ In i (tensor_indices x) -> rho i = i) ->
    NoDup (tensor_indices x) -> (forall i, In i (tensor_indices x) -> In (rho i) (op_indices o) /\ fst (rho i) = fst i) ->
    (forall i, In i (tensor_indices x) -> In i (op_indices o) -> rho i = i) ->
    (forall i, In i (op_indices o) -> In (e i) (orbitals S i)) ->
    element S (nudged v (map e us) (map e ls)) c xs (op_indices o) e =
    (element S v c xs (op_indices o) e, element S v c (map (rename_tensor rho) others) (op_indices o) e).
  Proof.
    intros P Cx HO Eus Els Hout NX Hin Hfix He. set (O := op_indices o) in *. set (w := nudged v (map e us) (map e ls)).
    set (ind := fun E : idx -> nat => same_numbers (map E (tupper x)) (map e us) && same_numbers (map E (tlower x)) (map e ls)).
    assert (EV : forall E : idx -> nat, aprod (map (tensor_value w E) xs) = (aprod (map (tensor_value v E) xs), if ind E then aprod (map (tensor_value v E) others) else q0)).
    { intros E. rewrite (aprod_perm (dual A) _ _ (Permutation_map _ P)), (aprod_perm A _ _ (Permutation_map (tensor_value v E) P)). cbn [map].
      assert (NZ : aprod (map (tensor_value w E) others) = (aprod (map (tensor_value v E) others), q0)).
      { rewrite dual_prod_plain; [reflexivity|]. intros y Hy. unfold tensor_value, w, nudged. cbn. destruct (tcls y) eqn:Cy; try reflexivity. destruct (same_numbers (map E (tupper y)) (map e us)) eqn:Q; [|reflexivity]. apply same_numbers_iff in Q. exfalso. apply (HO y Hy Cy). apply (f_equal (@length nat)) in Q. rewrite !map_length in Q. exact Q. }
      transitivity (qmul (tensor_value w E x) (aprod (map (tensor_value w E) others))); [reflexivity|]. rewrite NZ. transitivity (tensor_value v E x * aprod (map (tensor_value v E) others), tensor_value v E x * q0 + (if ind E then q1 else q0) * aprod (map (tensor_value v E) others))%alg.
      - assert (W : tensor_value w E x = ((tensor_value v E x, if ind E then q1 else q0) : dual A)) by (unfold tensor_value, w, nudged, ind; cbn; rewrite Cx; reflexivity). rewrite W. reflexivity.
      - f_equal. destruct (ind E); ring. }
    unfold element. set (I := summed xs O). rewrite (sum_over_ext (dual A) S I _ _ (fun e' _ => EV (with_open O e e')) (summed_nodup _ _)), dual_sum_over. cbn [fst snd].
    transitivity (inj c * sum_over S I (fun e' => aprod (map (tensor_value v (with_open O e e')) xs)), inj c * sum_over S I (fun e' => if ind (with_open O e e') then aprod (map (tensor_value v (with_open O e e')) others) else q0) + q0 * sum_over S I (fun e' => aprod (map (tensor_value v (with_open O e e')) xs)))%alg; [reflexivity|]. f_equal.
    transitivity (inj c * sum_over S I (fun e' => if ind (with_open O e e') then aprod (map (tensor_value v (with_open O e e')) others) else q0))%alg; [ring|]. f_equal.
    set (D := filter (fun i => negb (mem_idx i O)) (tensor_indices x)). set (R := filter (fun i => negb (mem_idx i (tensor_indices x))) I).
    assert (InD : forall i, In i D <-> In i (tensor_indices x) /\ ~ In i O) by (intros i; unfold D; rewrite filter_In, negb_true_iff, mem_idx_notin; reflexivity).
    assert (InR : forall i, In i R <-> In i I /\ ~ In i (tensor_indices x)) by (intros i; unfold R; rewrite filter_In, negb_true_iff, mem_idx_notin; reflexivity).
    assert (InI : forall i, In i I <-> (In i (tensor_indices x) \/ exists y, In y others /\ In i (tensor_indices y)) /\ ~ In i O).
    { intros i. unfold I. rewrite in_summed. split; intros [H Q]; (split; [|exact Q]).
      - destruct H as (y & Y1 & Y2). apply (Permutation_in _ P) in Y1. destruct Y1 as [<-|Y1]; [left; exact Y2|right; eauto].
      - destruct H as [H|(y & Y1 & Y2)]; [exists x|exists y]; (split; [|assumption]); apply (Permutation_in _ (Permutation_sym P)); [left; reflexivity|right; exact Y1]. }
    assert (ND : NoDup D) by (apply NoDup_filter, NX). assert (NR : NoDup R) by (apply NoDup_filter, summed_nodup).
    set (F := fun e' : idx -> nat => if ind (with_open O e e') then aprod (map (tensor_value v (with_open O e e')) others) else q0).
    assert (wo : forall e1 e2 i, (~ In i O -> e1 i = e2 i) -> with_open O e e1 i = with_open O e e2 i) by (intros e1 e2 i H; unfold with_open; destruct (mem_idx i O) eqn:Q; [reflexivity|apply H, mem_idx_notin, Q]).
    assert (indx : forall E1 E2, (forall i, In i (tensor_indices x) -> E1 i = E2 i) -> ind E1 = ind E2) by (intros E1 E2 H; unfold ind; f_equal; f_equal; apply map_ext_in; intros i Hi; apply H, in_or_app; auto).
    assert (DF : depends_on A I F).
    { intros e1 e2 H. unfold F. rewrite (indx (with_open O e e1) (with_open O e e2)) by (intros i Hi; apply wo; intros Q; apply H, InI; auto).
      rewrite (product_ext v others (with_open O e e1) (with_open O e e2)) by (intros y i Hy Hi; apply wo; intros Q; apply H, InI; split; [right; eauto|exact Q]). reflexivity. }
    assert (InDR : forall i, In i I <-> In i (D ++ R)). { intros i. rewrite in_app_iff, InD, InR, InI. destruct (in_dec idx_eq_dec i (tensor_indices x)); tauto. }
    rewrite (sum_over_same A S I (D ++ R) F); [|apply summed_nodup| |exact InDR|exact DF].
    2:{ apply NoDup_app_intro; [exact ND|exact NR|]. intros i H1 H2. apply InD in H1. apply InR in H2. tauto. }
    rewrite sum_app by (intros e1 e2 H; apply DF; intros i Hi; apply H, InDR, Hi).
    set (g := fun i => e (rho i)).
    transitivity (sum_over S D (fun eD => if forallb (fun d => eD d =? g d) D then sum_over S R (fun eR => aprod (map (tensor_value v (with_open O e (with_open D eD eR))) others)) else q0)).
    { apply sum_over_ext; [|exact ND]. intros eD _.
      assert (C : forall eR, ind (with_open O e (with_open D eD eR)) = forallb (fun d => eD d =? g d) D).
      { intros eR. apply eq_true_iff_eq. unfold ind. rewrite andb_true_iff, !same_numbers_iff, forallb_forall. set (E := with_open O e (with_open D eD eR)).
        assert (Q : (map E (tupper x) = map e us /\ map E (tlower x) = map e ls) <-> (forall i, In i (tensor_indices x) -> E i = g i)).
        { rewrite Eus, Els, !map_map. unfold tensor_indices. split.
          - intros [Q1 Q2] i Hi. apply in_app_iff in Hi as [Hi|Hi]; [exact (proj1 map_ext_in_iff Q1 i Hi)|exact (proj1 map_ext_in_iff Q2 i Hi)].
          - intros H. split; apply map_ext_in; intros i Hi; apply H, in_or_app; auto. }
        rewrite Q. split.
        - intros H d Hd. apply InD in Hd as Hd'. destruct Hd' as [H1 H2]. apply Nat.eqb_eq. rewrite <- (H d H1). unfold E, with_open. apply mem_idx_notin in H2. rewrite H2. apply mem_idx_in in Hd. rewrite Hd. reflexivity.
        - intros H i Hi. unfold E, with_open. destruct (mem_idx i O) eqn:Oi; [apply mem_idx_in in Oi; unfold g; rewrite (Hfix i Hi Oi); reflexivity|]. apply mem_idx_notin in Oi. assert (Di : In i D) by (apply InD; auto). specialize (H i Di). apply Nat.eqb_eq in H. apply mem_idx_in in Di. rewrite Di. exact H. }
      unfold F. rewrite (sum_over_ext A S R _ (fun eR => if forallb (fun d => eD d =? g d) D then aprod (map (tensor_value v (with_open O e (with_open D eD eR))) others) else q0)) by (try exact NR; intros eR _; rewrite C; reflexivity).
      destruct (forallb _ D); [reflexivity|apply sum_over_0]. }
    rewrite (sum_pin D g (fun eD => sum_over S R (fun eR => aprod (map (tensor_value v (with_open O e (with_open D eD eR))) others))) ND).
    2:{ intros d Hd. apply InD in Hd as [Hd _]. destruct (Hin d Hd) as [H1 H2]. specialize (He _ H1). unfold g. unfold orbitals in *. rewrite H2 in He. exact He. }
    2:{ intros e1 e2 H. apply sum_over_ext; [|exact NR]. intros eR _. apply product_ext. intros y i Hy Hi. apply wo. intros Q. unfold with_open. destruct (mem_idx i D) eqn:Di; [|reflexivity]. apply H, mem_idx_in, Di. }
    symmetry. rewrite (sum_over_same A S _ R); [|apply summed_nodup|exact NR| |].
    - apply sum_over_ext; [|exact NR]. intros eR _. rewrite map_map. f_equal. apply map_ext_in. intros y Hy. unfold tensor_value, rename_tensor. cbn. rewrite !map_map.
      assert (Q : forall i, In i (tensor_indices y) -> with_open O e eR (rho i) = with_open O e (with_open D g eR) i).
      { intros i Hi. unfold with_open. destruct (in_dec idx_eq_dec i (tensor_indices x)) as [Xi|Xi].
        - destruct (Hin i Xi) as [H1 _]. apply mem_idx_in in H1. rewrite H1. destruct (mem_idx i O) eqn:Oi; [apply mem_idx_in in Oi; rewrite (Hfix i Xi Oi); reflexivity|]. assert (Di : In i D) by (apply InD; split; [exact Xi|apply mem_idx_notin, Oi]). apply mem_idx_in in Di. rewrite Di. reflexivity.
        - rewrite (Hout i Xi). assert (Di : mem_idx i D = false) by (apply mem_idx_notin; rewrite InD; tauto). rewrite Di. reflexivity. }
      f_equal; apply map_ext_in; intros i Hi; apply Q, in_or_app; auto.
    - intros i. rewrite in_summed, InR, InI. split.
      + intros [(y & Hy & Hi) Q]. apply in_map_iff in Hy as (z & <- & Hz). unfold tensor_indices, rename_tensor in Hi. cbn in Hi. rewrite <- map_app in Hi. apply in_map_iff in Hi as (k & <- & Hk). fold (tensor_indices z) in Hk.
        destruct (in_dec idx_eq_dec k (tensor_indices x)) as [Xk|Xk]; [destruct (Hin k Xk) as [H1 _]; contradiction|]. rewrite (Hout k Xk) in *. split; [split; [right; eauto|exact Q]|exact Xk].
      + intros [[[H|(y & Y1 & Y2)] Q] Xi]; [contradiction|]. split; [|exact Q]. exists (rename_tensor rho y). split; [apply in_map, Y1|]. unfold tensor_indices, rename_tensor. cbn. rewrite <- map_app. apply in_map_iff. exists i. split; [apply Hout, Xi|exact Y2].
    - intros e1 e2 H. apply product_ext. intros y i Hy Hi. apply wo. intros Q. apply H, in_summed. split; [eauto|exact Q].
  Qed.
End Elements.
