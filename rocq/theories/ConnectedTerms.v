(** The part dropped by the connected contraction of a product of terms, as a multilinear form in the terms. *)
From Coq Require Import Ascii String ZArith QArith Qcanon Ring_theory Ring Lia Bool Sorting.Sorted.
From Verif Require Import PyBase OrderSpec OrderProofs ParitySpec ParityProofs SpaceModel IndicesModel IndicesProofs IterProofs ElemModel ElemSpec ElemProofs MacroModel CompatSpec ConnectedProofs BacktrackProofs CumulantProofs HalfProofs WickModel WickSpec WickProofs DriverProofs
  TermModel BchModel BchSpec ValueSpec ValueProofs TermSpec SumProofs SymmetrySpec CombineModel PropWick ContractSpec ContractValue FamilySpec FamilyProofs FamilySets RenameProofs FockSpec ExtensionProofs FockProofs FockWick FockValue PropContract FockTerms PropOperator
  OperatorProofs IndexProofs SeriesSpec SeriesProofs NestedOperator TaskProofs ConnectedFamilies ConnectedForms ConnectedFock ConnectedWords.
Local Close Scope Q_scope.
Local Close Scope Qc_scope.
Local Open Scope nat_scope.
Local Notation length := List.length.

Section Terms.
  Context {A : qalg} (B : fermions A) (S : system) (v : tvaluation A).
  Context (MB : norb S <= modes B) (PH : physical S v) (AT : antisymmetric_tensors v).
  Add Ring alg_ring96 : (q_ring A).
  Local Notation E := (extension B).
  Add Ring alg_ring97 : (q_ring E).
  Local Notation N := (normal_product B v).
  Local Notation V := (lift B v).
  (** the part missing from the contraction of the terms *)
  Definition lost (lo hi : Z) (terms : list term) : E :=
    sum_over S (all_indices terms) (fun e => (aprod (map (tensor_value V e) (flat_map ttensors terms)) * drop B v lo hi (map (op_string e) (map tsq terms)))%alg).
  Theorem contracted_connected terms T eh result max_cu lo hi : hole_values v -> no_cumulants_above max_cu v -> Forall standard terms -> ForallOrdPairs apart_terms terms -> keeps B v lo hi (factors terms) T ->
    proper_ops terms = map tsq terms -> 2 <= length terms <= 3 ->
    wick_sum (proper_ops terms) eh (fun s => wick_set (proper_ops terms) (cumulant_level (proper_ops terms) max_cu) lo hi s /\ connects_ops (proper_ops terms) s /\ has_pair s) result ->
    contracted_value S V terms result = (oper B (T (nprod (map (body B S v) terms))) - lost lo hi terms)%alg.
  Proof.
    intros HV NC ST AP KP PO L23 WS. pose proof (standard_distinct terms ST AP) as D. fold (proper_ops terms) in D. pose proof (standard_alpha terms ST) as OA. fold (proper_ops terms) in OA.
    assert (WE : written_string (proper_ops terms) = written_string (map tsq terms)) by apply filter_empty_ops.
    assert (LT : linear B T) by (split; apply KP).
    assert (FIT : legs_fit terms result).
    { intros z ds sq Hin. split; [destruct (result_legs _ eh _ _ _ _ result z ds sq (fun s (Hs : _ /\ _) => proj1 Hs) WS Hin) as (Q & _); rewrite <- WE; exact Q|exact (entry_shapes _ eh _ _ _ _ result z ds sq (fun s (Hs : _ /\ _) => proj1 Hs) WS Hin)]. }
    rewrite <- (joint_product B S v) by (apply standard_separate; assumption). rewrite (linear_nsum B T _ LT), map_map, oper_nsum, map_map. unfold contracted_value, lost.
    rewrite (sum_over_ext E S (all_indices terms) _ (fun e => (oper B (T (joint B v terms e)) + - (aprod (map (tensor_value V e) (flat_map ttensors terms)) * drop B v lo hi (map (op_string e) (map tsq terms))))%alg)).
    - unfold sum_over. rewrite (sum_plus E). transitivity (asum (map (fun a => oper B (T (joint B v terms (env (all_indices terms) a)))) (assignments S (all_indices terms))) + - q1 * asum (map (fun a => (aprod (map (tensor_value V (env (all_indices terms) a)) (flat_map ttensors terms)) * drop B v lo hi (map (op_string (env (all_indices terms) a)) (map tsq terms)))%alg) (assignments S (all_indices terms))))%alg; [|ring].
      f_equal. rewrite <- (asum_map_mul E). apply (f_equal asum). apply map_ext. intros a. ring.
    - intros e He. rewrite <- (without_result E S V (lift_physical B S v PH) (lift_holes B v HV) terms result e FIT He).
      rewrite (result_connected B S v PH (proj1 AT TCumulant) (proj2 AT TCumulant) MB (proper_ops terms) D OA (cumulant_level (proper_ops terms) max_cu) lo hi) with (T := T) (eh := eh).
      + unfold joint. rewrite (proj2 LT), oper_scal, emb_aprod, map_map, PO, map_map. change (fun x => emb B (tensor_value v e x)) with (tensor_value V e). rewrite map_map. ring.
      + rewrite PO, map_length. exact L23.
      + intros l Hl. rewrite WE in Hl. apply He, leg_index, Hl.
      + exact (cumulant_limit B S v MB (proper_ops terms) max_cu D NC e).
      + split; [exact LT|]. intros w Mw Lw. rewrite WE in Lw. unfold in_range. destruct ((lo <=? Z.of_nat (length w)) && (Z.of_nat (length w) <=? hi))%Z eqn:Q; [apply (keeps_inside _ _ _ _ _ _ KP w Mw Lw)|apply (keeps_outside _ _ _ _ _ _ KP w Mw Lw)]; lia.
      + exact WS.
    - apply NoDup_nodup.
  Qed.
  (** *** a term, as a form in a function of its string *)
  Definition tform (t : term) (phi : list factor -> E) : E :=
    (inj (tcoeff t) * asum (map (fun a => aprod (map (tensor_value V (env (own t) a)) (ttensors t)) * phi (op_string (env (own t) a) (tsq t))) (assignments S (own t))))%alg.
  Definition functional (phi : list factor -> E) : tvaluation E := TVal E (vtensor V) (fun u l => phi (map (pair true) u ++ map (pair false) (rev l))).
  Lemma tform_value t phi : tform t phi = term_value S (functional phi) t.
  Proof.
    unfold tform, term_value, content_value, sum_over. f_equal. apply (f_equal asum). apply map_ext. intros a. unfold integrand, op_value. cbn [functional voper]. f_equal. f_equal. unfold op_string. rewrite <- map_rev, !map_map. reflexivity.
  Qed.
  Lemma tform_ext t phi psi : (forall e, phi (op_string e (tsq t)) = psi (op_string e (tsq t))) -> tform t phi = tform t psi.
  Proof. intros H. unfold tform. f_equal. apply (f_equal asum). apply map_ext. intros a. rewrite H. reflexivity. Qed.
  Lemma tform_sub t phi psi : tform t (fun u => phi u - psi u)%alg = (tform t phi - tform t psi)%alg.
  Proof.
    unfold tform. set (L := assignments S (own t)). set (f := fun a => aprod (map (tensor_value V (env (own t) a)) (ttensors t))). change (inj (tcoeff t) * asum (map (fun a => f a * (phi (op_string (env (own t) a) (tsq t)) - psi (op_string (env (own t) a) (tsq t)))) L) = inj (tcoeff t) * asum (map (fun a => f a * phi (op_string (env (own t) a) (tsq t))) L) - inj (tcoeff t) * asum (map (fun a => f a * psi (op_string (env (own t) a) (tsq t))) L))%alg.
    transitivity (inj (tcoeff t) * (asum (map (fun a => f a * phi (op_string (env (own t) a) (tsq t))) L) - asum (map (fun a => f a * psi (op_string (env (own t) a) (tsq t))) L)))%alg; [|ring]. f_equal. induction L as [|a L IH]; cbn [map]; [change (@asum E []) with (@q0 E); ring|]. rewrite !sum_cons, IH. ring.
  Qed.
  Lemma tform_zero t : tform t (fun _ => q0) = q0.
  Proof. transitivity (tform t (fun u => q0 - q0)%alg); [apply tform_ext; intros; ring|]. rewrite tform_sub. ring. Qed.
  Lemma tform_swap t t' (F : list factor -> list factor -> E) : tform t (fun u => tform t' (fun u' => F u u')) = tform t' (fun u' => tform t (fun u => F u u')).
  Proof.
    unfold tform. set (L := assignments S (own t)). set (f := fun a => aprod (map (tensor_value V (env (own t) a)) (ttensors t))). set (L' := assignments S (own t')). set (f' := fun a => aprod (map (tensor_value V (env (own t') a)) (ttensors t'))).
    set (s := fun a => op_string (env (own t) a) (tsq t)). set (s' := fun a => op_string (env (own t') a) (tsq t')).
    change (inj (tcoeff t) * asum (map (fun a => f a * (inj (tcoeff t') * asum (map (fun a' => f' a' * F (s a) (s' a')) L'))) L) = inj (tcoeff t') * asum (map (fun a' => f' a' * (inj (tcoeff t) * asum (map (fun a => f a * F (s a) (s' a')) L))) L'))%alg.
    transitivity (inj (tcoeff t) * (inj (tcoeff t') * asum (map (fun a => asum (map (fun a' => f a * (f' a' * F (s a) (s' a'))) L')) L)))%alg.
    - f_equal. rewrite <- (asum_map_mul E). apply (f_equal asum). apply map_ext. intros a. rewrite (asum_map_mul E). ring.
    - rewrite (asum_swap E). transitivity (inj (tcoeff t') * (inj (tcoeff t) * asum (map (fun a' => asum (map (fun a => f a * (f' a' * F (s a) (s' a'))) L)) L')))%alg; [ring|]. f_equal. rewrite <- (asum_map_mul E). apply (f_equal asum). apply map_ext. intros a'.
      transitivity (inj (tcoeff t) * (f' a' * asum (map (fun a => f a * F (s a) (s' a')) L)))%alg; [|ring]. f_equal. rewrite <- (asum_map_mul E). apply (f_equal asum). apply map_ext. intros a. ring.
  Qed.
  (** *** several terms *)
  Fixpoint multi (ts : list term) (Phi : list (list factor) -> E) : E :=
    match ts with [] => Phi [] | t :: ts => tform t (fun u => multi ts (fun us => Phi (u :: us))) end.
  Lemma multi_joint ts : separate ts -> forall Phi,
    (inj (numbers ts) * sum_over S (all_indices ts) (fun e => aprod (map (tensor_value V e) (flat_map ttensors ts)) * Phi (map (op_string e) (map tsq ts))))%alg = multi ts Phi.
  Proof.
    induction ts as [|t ts IH]; intros SP Phi.
    - change (numbers []) with (Q2Qc 1). rewrite (inj_one E). change (q1 * (q1 * Phi [] + q0) = Phi [])%alg. ring.
    - inversion SP as [|? ? S1 S2]; subst. rewrite Forall_forall in S1. cbn [multi]. change (numbers (t :: ts)) with (Qcmult (tcoeff t) (numbers ts)). rewrite (inj_mul E). unfold tform. transitivity (inj (tcoeff t) * (inj (numbers ts) * sum_over S (all_indices (t :: ts)) (fun e => aprod (map (tensor_value V e) (flat_map ttensors (t :: ts))) * Phi (map (op_string e) (map tsq (t :: ts))))))%alg; [ring|]. f_equal.
      unfold sum_over. rewrite own_all by (intros i t' Ht Hi; exact (S1 t' Ht i Hi)). unfold assignments. rewrite map_app, iproduct_app. rewrite (asum_flat E), <- (asum_map_mul E). apply (f_equal asum). apply map_ext_in. intros a Ha. rewrite <- (IH S2). rewrite map_map. unfold sum_over, assignments.
      apply iproduct_length in Ha. rewrite map_length in Ha.
      match goal with |- (_ * asum (map ?f ?L) = ?c * (_ * asum (map ?g ?L)))%alg => transitivity (inj (numbers ts) * asum (map (fun b => (c * g b)%alg) L))%alg; [|rewrite (asum_map_mul E); ring] end.
      f_equal. apply (f_equal asum). apply map_ext. intros b. cbn [flat_map map]. rewrite map_app, (aprod_app E).
      assert (X1 : forall i, In i (content_indices (ttensors t) (tsq t)) -> env (own t ++ all_indices ts) (a ++ b) i = env (own t) a i) by (intros i Hi; apply env_left; [exact Ha|apply nodup_In, Hi]).
      assert (X2 : forall i t', In t' ts -> In i (content_indices (ttensors t') (tsq t')) -> env (own t ++ all_indices ts) (a ++ b) i = env (all_indices ts) b i).
      { intros i t' Ht Hi. apply env_right; [exact Ha|]. intros Q. apply nodup_In in Q. exact (S1 t' Ht i Q Hi). }
      rewrite (map_ext_in (tensor_value V (env (own t ++ all_indices ts) (a ++ b))) (tensor_value V (env (own t) a)) (ttensors t)) by (intros x Hx; apply tensor_value_ext; intros i Hi; apply X1; unfold content_indices; apply in_or_app; right; apply in_flat_map; exists x; auto).
      rewrite (op_string_ext _ (env (own t) a) (tsq t)) by (intros i Hi; apply X1; unfold content_indices; apply in_or_app; left; exact Hi).
      rewrite (map_ext_in (tensor_value V (env (own t ++ all_indices ts) (a ++ b))) (tensor_value V (env (all_indices ts) b)) (flat_map ttensors ts)).
      2: { intros x Hx. apply in_flat_map in Hx as (t' & Ht & Hx). apply tensor_value_ext. intros i Hi. apply (X2 i t' Ht). unfold content_indices. apply in_or_app. right. apply in_flat_map. exists x. auto. }
      rewrite (map_ext_in (op_string (env (own t ++ all_indices ts) (a ++ b))) (op_string (env (all_indices ts) b)) (map tsq ts)); [ring|].
      intros o Ho. apply in_map_iff in Ho as (t' & <- & Ht). apply op_string_ext. intros i Hi. apply (X2 i t' Ht). unfold content_indices. apply in_or_app. left. exact Hi.
  Qed.
  Lemma lost_multi lo hi ts : separate ts -> (inj (numbers ts) * lost lo hi ts)%alg = multi ts (drop B v lo hi).
  Proof. intros SP. exact (multi_joint ts SP (drop B v lo hi)). Qed.
  (** *** symbols *)
  Context (hole particle : label) (HP : hole <> particle).
  Context (HL : lbeta hole = false) (PL : lbeta particle = false) (HG : hole <> Lab false Sg) (PG : particle <> Lab false Sg).
  Definition sform (s : symbol) (phi : list factor -> E) : E :=
    match list_of_terms hole particle 0 (tensor_names [s]) with Ok [t] => tform t phi | _ => q0 end.
  Lemma built_form s st st' t t' phi : built hole particle s st t -> built hole particle s st' t' -> tform t phi = tform t' phi.
  Proof.
    intros H H'. rewrite !tform_value.
    destruct H as [(k & -> & H)|[(k & -> & H)|(k & -> & H)]], H' as [(j & Q & H')|[(j & Q & H')|(j & Q & H')]]; try discriminate.
    - apply T_X_inj in Q. subst j. rewrite (C65_cluster E S _ _ _ _ _ _ _ _ _ _ HP H), (C65_cluster E S _ _ _ _ _ _ _ _ _ _ HP H'). reflexivity.
    - injection Q as Q. apply IndexProofs.decimal_inj in Q. subst j. rewrite (C65_cluster E S _ _ _ _ _ _ _ _ _ _ HP H), (C65_cluster E S _ _ _ _ _ _ _ _ _ _ HP H'). reflexivity.
    - injection Q as Q. apply IndexProofs.decimal_inj in Q. subst j. rewrite (C65_hamiltonian E S _ _ _ _ _ H), (C65_hamiltonian E S _ _ _ _ _ H'). reflexivity.
  Qed.
  Lemma sform_term s : known s -> exists t, list_of_terms hole particle 0 (tensor_names [s]) = Ok [t] /\ exists st, built hole particle s st t.
  Proof.
    intros K. destruct (list_of_terms_ok hole particle HL PL HG PG [s]) with (start := 0) as (ts & H & F & _); [constructor; [exact K|constructor]|constructor; constructor|]. inversion F as [|? t ? l (st & _ & Bt) F']; subst. inversion F'; subst. exists t. split; [exact H|exists st; exact Bt].
  Qed.
  Lemma built_known s st t : built hole particle s st t -> known s.
  Proof. intros [(k & -> & _)|[(k & -> & _)|(k & -> & _)]]; exists k; auto. Qed.
  Lemma sform_built s st t phi : built hole particle s st t -> sform s phi = tform t phi.
  Proof. intros H. unfold sform. destruct (sform_term s (built_known _ _ _ H)) as (t' & -> & st' & H'). exact (built_form _ _ _ _ _ _ H' H). Qed.
  Lemma built_even s st t e : built hole particle s st t -> Nat.even (length (op_string e (tsq t))) = true.
  Proof.
    assert (R : forall l i k, length (is_range l i k) = k) by (intros; unfold is_range; rewrite map_length, seq_length; reflexivity).
    assert (Q : forall k, Nat.even (k + k) = true) by (intros k; replace (k + k) with (2 * k) by lia; apply Nat.even_spec; exists k; reflexivity).
    intros [(k & -> & H)|[(k & -> & H)|(k & -> & H)]].
    - destruct (cluster_ok _ _ _ _ _ _ _ _ _ H) as (_ & _ & _ & -> & _). unfold op_string. cbn [cre ann]. rewrite app_length, !map_length, rev_length, !R. apply Q.
    - destruct (cluster_ok _ _ _ _ _ _ _ _ _ H) as (_ & _ & _ & -> & _). unfold op_string. cbn [cre ann]. rewrite app_length, !map_length, rev_length, !R. apply Q.
    - destruct (hamiltonian_ok k 0 SpinOrbital) as (tm & E1 & _ & _ & _ & E2 & _). rewrite H in E1. injection E1 as <-. rewrite E2. unfold op_string. cbn [cre ann]. rewrite app_length, !map_length, rev_length, !R. apply Q.
  Qed.
  Lemma sform_ext s phi psi : known s -> (forall u, Nat.even (length u) = true -> phi u = psi u) -> sform s phi = sform s psi.
  Proof. intros K H. unfold sform. destruct (sform_term s K) as (t & -> & st & Bt). apply tform_ext. intros e. apply H. exact (built_even _ _ _ _ Bt). Qed.
  Lemma sform_sub s phi psi : sform s (fun u => phi u - psi u)%alg = (sform s phi - sform s psi)%alg.
  Proof. unfold sform. destruct (list_of_terms _ _ _ _) as [[|t [|]]|]; try apply tform_sub; ring. Qed.
  Lemma sform_zero s : sform s (fun _ => q0) = q0.
  Proof. unfold sform. destruct (list_of_terms _ _ _ _) as [[|t [|]]|]; try reflexivity. apply tform_zero. Qed.
  Lemma sform_swap s s' (F : list factor -> list factor -> E) : sform s (fun u => sform s' (fun u' => F u u')) = sform s' (fun u' => sform s (fun u => F u u')).
  Proof. unfold sform. destruct (list_of_terms _ _ _ (tensor_names [s])) as [[|t [|]]|], (list_of_terms _ _ _ (tensor_names [s'])) as [[|t' [|]]|]; try reflexivity; try apply tform_zero; try (symmetry; apply tform_zero). apply tform_swap. Qed.
  Fixpoint wform (w : word) (Phi : list (list factor) -> E) : E :=
    match w with [] => Phi [] | s :: w => sform s (fun u => wform w (fun us => Phi (u :: us))) end.
  Lemma multi_word w ts : Forall2 (fun s t => exists st, 0 <= st /\ built hole particle s st t) w ts -> forall Phi, multi ts Phi = wform w Phi.
  Proof.
    induction 1 as [|s t w ts (st & _ & Bt) _ IH]; intros Phi; [reflexivity|]. cbn [multi wform]. rewrite (sform_built _ _ _ _ Bt). apply tform_ext. intros e. apply IH.
  Qed.
  (** *** commutators *)
  Context (lo hi : Z).
  Local Notation F := (fun w => wform w (drop B v lo hi)).
  Lemma single_commutator h b : known h -> known b -> (F [h; b] - F [b; h])%alg = q0.
  Proof.
    intros Kh Kb. cbn [wform]. rewrite (sform_swap b h). rewrite <- sform_sub. rewrite <- (sform_zero h). apply sform_ext; [exact Kh|]. intros u Hu. rewrite <- sform_sub. rewrite <- (sform_zero b). apply sform_ext; [exact Kb|]. intros u' Hu'.
    apply (drop2_commutator B v (proj1 AT TCumulant) (proj2 AT TCumulant) lo hi); assumption.
  Qed.
  Lemma double_commutator h b c : known h -> known b -> known c -> (F [h; b; c] - F [b; h; c] - (F [c; h; b] - F [c; b; h]))%alg = q0.
  Proof.
    intros Kh Kb Kc. cbn [wform]. set (D := drop B v lo hi).
    assert (R2 : sform b (fun u => sform h (fun u0 => sform c (fun u1 => D [u; u0; u1]))) = sform h (fun x => sform b (fun y => sform c (fun z => D [y; x; z])))) by apply (sform_swap b h (fun u u0 => sform c (fun u1 => D [u; u0; u1]))).
    assert (R3 : sform c (fun u => sform h (fun u0 => sform b (fun u1 => D [u; u0; u1]))) = sform h (fun x => sform b (fun y => sform c (fun z => D [z; x; y])))).
    { rewrite (sform_swap c h (fun u u0 => sform b (fun u1 => D [u; u0; u1]))). apply sform_ext; [exact Kh|]. intros x _. apply (sform_swap c b (fun u u1 => D [u; x; u1])). }
    assert (R4 : sform c (fun u => sform b (fun u0 => sform h (fun u1 => D [u; u0; u1]))) = sform h (fun x => sform b (fun y => sform c (fun z => D [z; y; x])))).
    { transitivity (sform c (fun z => sform h (fun x => sform b (fun y => D [z; y; x])))); [apply sform_ext; [exact Kc|]; intros z _; apply (sform_swap b h (fun y x => D [z; y; x]))|]. rewrite (sform_swap c h (fun z x => sform b (fun y => D [z; y; x]))). apply sform_ext; [exact Kh|]. intros x _. apply (sform_swap c b (fun z y => D [z; y; x])). }
    rewrite R2, R3, R4, <- !sform_sub. rewrite <- (sform_zero h). apply sform_ext; [exact Kh|]. intros x Hx. rewrite <- !sform_sub. rewrite <- (sform_zero b). apply sform_ext; [exact Kb|]. intros y Hy. rewrite <- !sform_sub. rewrite <- (sform_zero c). apply sform_ext; [exact Kc|]. intros z Hz.
    apply (drop3_nested B v (proj1 AT TCumulant) (proj2 AT TCumulant) lo hi); assumption.
  Qed.
  Lemma hamiltonian_symbol m : In m sum_of_hamiltonians -> exists s, snd m = [s] /\ known s.
  Proof. intros [<-|[<-|[]]]; (eexists; split; [reflexivity|]); [exists 1|exists 2]; right; right; reflexivity. Qed.
  Lemma generator_symbol levels un m : In m (bch_generator levels un) -> exists s, snd m = [s] /\ known s.
  Proof. intros H. apply generator_words in H as (s & Es & k & _ & Hk). exists s. split; [exact Es|]. exists k. destruct Hk as [-> | ->]; auto. Qed.
  Lemma nothing_lost levels un n : 1 <= n <= 2 -> wsum E F (doit_expand (sympy_nested_commutator_recursive n (Poly sum_of_hamiltonians) (Poly (bch_generator levels un)))) = q0.
  Proof.
    intros Hn. unfold doit_expand. rewrite wsum_collected. assert (Q : n = 1 \/ n = 2) by lia. destruct Q as [-> | ->].
    - rewrite wsum_one. rewrite <- (wsum_zero E sum_of_hamiltonians). apply wsum_ext. intros m Hm. rewrite <- (wsum_zero E (bch_generator levels un)). apply wsum_ext. intros m' Hm'.
      apply hamiltonian_symbol in Hm as (s & -> & K). apply generator_symbol in Hm' as (s' & -> & K'). exact (single_commutator s s' K K').
    - rewrite wsum_two. rewrite <- (wsum_zero E sum_of_hamiltonians). apply wsum_ext. intros m Hm. rewrite <- (wsum_zero E (bch_generator levels un)). apply wsum_ext. intros m' Hm'. rewrite <- (wsum_zero E (bch_generator levels un)). apply wsum_ext. intros m'' Hm''.
      apply hamiltonian_symbol in Hm as (s & -> & K). apply generator_symbol in Hm' as (s' & -> & K'). apply generator_symbol in Hm'' as (s'' & -> & K''). exact (double_commutator s s' s'' K K' K'').
  Qed.
End Terms.
