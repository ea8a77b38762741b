(** No two terms of a series of commutators are the same up to symmetry. *)
From Coq Require Import Ascii String ZArith QArith Qcanon Sorting.Sorted Lia Bool Ring_theory Ring.
From Verif Require BacktrackProofs SortProofs.
From Verif Require Import PyBase OrderSpec OrderProofs ParitySpec SpaceModel IndexModel IndexProofs IndicesModel IterProofs IndicesProofs SpaceProofs ElemModel ElemSpec CompatSpec MacroModel WickModel WickSpec WickProofs TermModel BchSpec ValueSpec ValueProofs TermSpec SumProofs TermProofs RenameProofs
  DriverProofs ConnectedProofs CommProofs OperatorProofs SimplifyProofs SimplifyValue SymmetryModel SymmetrySpec SympyValue SympyShape CombineModel BchModel CombineSpec CombineProofs CombineValue PropSimplify PropWick PropCanon ScheduleProofs ContractSpec ContractValue PropContract LoopSpec BchLoop LevelSpec ClosureProofs LevelProofs
  PropOperator SeriesProofs SeriesOperator NestedOperator PropBch PropLevels PropFock FockSpec ExtensionProofs FockTerms PropSeries PropNested TaskProofs SeriesSpec AmbitModel AmbitSpec AmbitText AmbitValue AmbitMain PipelineTerms PipelineLevels MergeSpec MergeWords MergeProofs MergeClosed.
Local Close Scope Q_scope.
Local Close Scope Qc_scope.
Local Open Scope nat_scope.
Local Notation length := List.length.

Lemma copy_same t t' : regular t -> from_term t = Ok t' -> same_content t' t.
Proof.
  intros R H. destruct R as [[xs MK] TD AL VT BL]. destruct (make_term_fields _ _ _ _ _ MK) as (F1 & _ & F3 & _). unfold from_term in H. pose proof (make_term_inv _ _ _ _ _ H) as (_ & _ & E). rewrite E. split; cbn [ttensors tsq]; [|reflexivity].
  apply (sort_sorted_id tensor_ord tensor_ord_lawful), F3.
Qed.
Lemma copy_reduced sympy h t t' : same_content t' t -> reduced sympy h t /\ plain t -> reduced sympy h t' /\ plain t'.
Proof. intros [E1 E2] [R P]. split; [|unfold plain; rewrite E1; exact P]. unfold reduced, empty, same_content in *. rewrite E1, E2. exact R. Qed.
Lemma member_copy N u t t' : member series_tensors N u t -> from_term t = Ok t' -> member series_tensors N u t'.
Proof.
  intros [M1 M2 M3 M4] E. destruct (from_term_closed t t' N M1 M2 E) as (C1 & C2 & C3 & C4 & C5). constructor; [exact C1|exact C2| |rewrite C3; exact M4].
  destruct M3 as [M3 M3']. split; [apply (standard_type _ (regular_standard _ C1))|]. intros y Hy. apply M3'. exact (Permutation_in _ C4 Hy).
Qed.

Lemma loop_merged (P : nat -> term -> Prop) (M : list term -> Prop) copy sc rights : (forall k t t', P k t -> copy t = Ok t' -> P k t') ->
  (forall k l out, k <= length rights -> Forall (P k) l -> combine_terms l = Ok out -> Forall (P k) out /\ (k <> 0 -> M out)) ->
  forall tail k lp outs, (forall j, nth_error tail j = nth_error rights (k + j)) -> length rights = k + length tail ->
  (forall j a b l r rs out, nth_error rights j = Some rs -> In r rs -> P j l -> sc (Datatypes.S j) a b l r = Ok out -> Forall (P (Datatypes.S j)) out) ->
  Forall (P k) lp -> commutator_loop copy sc (Datatypes.S k) lp tail = Ok outs -> forall j L, nth_error outs j = Some L -> M L.
Proof.
  intros HC HM. assert (CP : forall k l l', Forall (P k) l -> pymap copy l = Ok l' -> Forall (P k) l').
  { intros k l l' F E. apply pymap_results in E. induction E as [|t t' l l' E _ IH]; [constructor|]. inversion F; subst. constructor; [eapply HC; eassumption|auto]. }
  induction tail as [|rs tail IH]; intros k lp outs HT HL HS F H; cbn [commutator_loop] in H; [injection H as <-; intros [|j]; discriminate|].
  destruct (pymap _ (positions lp)) as [lls|] eqn:E1; [|discriminate]. cbn [pybind] in H. destruct (pymap copy (concat lls)) as [ts|] eqn:E2; [|discriminate]. cbn [pybind] in H. destruct (combine_terms ts) as [out|] eqn:E3; [|discriminate]. cbn [pybind] in H.
  destruct (pymap copy out) as [lp'|] eqn:E4; [|discriminate]. cbn [pybind] in H. destruct (commutator_loop _ _ _ lp' tail) as [outs'|] eqn:E5; [|discriminate]. cbn [pybind] in H. injection H as <-.
  assert (F1 : Forall (P (Datatypes.S k)) (concat lls)).
  { pose proof (HT 0) as R0. cbn [nth_error] in R0. rewrite Nat.add_0_r in R0. symmetry in R0. apply pymap_results in E1. assert (HP : forall al, In al (positions lp) -> In (snd al) lp) by (intros [i x]; apply positions_in). clear - E1 HP R0 HS F. induction E1 as [|al o ps os E _ IH]; [constructor|]. cbn [concat]. apply Forall_app. split; [|apply IH; intros x Hx; apply HP; right; exact Hx].
    destruct (pymap _ (positions rs)) as [ls|] eqn:El; [|discriminate]. cbn [pybind] in E. injection E as <-. apply pymap_results in El. assert (HR : forall br, In br (positions rs) -> In (snd br) rs) by (intros [i x]; apply positions_in). assert (PL : P k (snd al)) by (rewrite Forall_forall in F; apply F, HP; left; reflexivity).
    clear - El HR R0 HS PL. induction El as [|br o ps os E _ IH]; [constructor|]. cbn [concat]. apply Forall_app. split; [|apply IH; intros x Hx; apply HR; right; exact Hx]. apply (HS k _ _ _ _ rs _ R0 (HR br (or_introl eq_refl)) PL E). }
  destruct (HM (Datatypes.S k) ts out ltac:(cbn in HL; lia) (CP _ _ _ F1 E2) E3) as [F3 F3']. pose proof (CP _ _ _ F3 E4) as F4.
  intros [|j] L HJ; [cbn [nth_error] in HJ; injection HJ as <-; apply F3'; discriminate|]. cbn [nth_error] in HJ. apply (IH (Datatypes.S k) lp' outs') with (j := j); try assumption.
  - intros i. specialize (HT (Datatypes.S i)). cbn [nth_error] in HT. rewrite HT. f_equal. lia.
  - cbn in HL. lia.
Qed.

Section Series.
  Context (sympy : sympy_oracle) (AD : admissible sympy) (CA : canonical sympy).
  Local Notation good_form h := (formed sympy h).
  Theorem bch_merged ws n cl cu os eh sr un np h outs : (forall i a b, sound (fst (ws i a b)) /\ sound (snd (ws i a b))) -> (forall i a b, w_sympy (fst (ws i a b)) = sympy /\ w_sympy (snd (ws i a b)) = sympy) ->
    (4 * Z.of_nat (fact n) * Z.of_nat (fact (list_max cl)) ^ (2 * Z.of_nat n) <= 10 ^ 15)%Z ->
    bch_cc_rsc ws n cl cu os true eh sr un np h = Ok outs -> forall i L, nth_error outs (Datatypes.S i) = Some L -> merged_list h L /\ Forall (formed sympy h) L /\ Forall (fun t => is_void t = false) L.
  Proof.
    intros WS WY B H. unfold bch_cc_rsc in H.
    destruct (per_level n cu) as [levels|] eqn:E1; [|discriminate]. cbn [pybind] in H. destruct (per_level n os) as [opens|] eqn:E2; [|discriminate]. cbn [pybind] in H. destruct cl as [|c0 cl0]; [discriminate|]. set (cl := c0 :: cl0) in *.
    destruct (pymap _ (seq 0 n)) as [amps|] eqn:E3; [|discriminate]. cbn [pybind] in H. destruct bch_start as [hl|] eqn:E4; [|discriminate]. cbn [pybind] in H. destruct (commutator_loop _ _ 1 hl amps) as [outs'|] eqn:E5; [|discriminate]. cbn [pybind] in H. injection H as <-.
    set (m := list_max cl) in *. set (N := fun k => k * (m * 2) + 4). rewrite <- denominator_closed in B.
    assert (LA : length amps = n) by (apply pymap_results in E3; apply Forall2_len in E3; rewrite seq_length in E3; symmetry; exact E3).
    assert (AM : forall i rs, nth_error amps i = Some rs -> i < n /\ cluster_operators cl (N i) un sr = Ok rs).
    { intros i rs Hi. assert (Li : i < n) by (rewrite <- LA; apply nth_error_Some; congruence). split; [exact Li|]. apply pymap_results in E3. assert (G : forall l l' k x y, Forall2 (fun i t => bch_amplitudes cl un sr i = Ok t) l l' -> nth_error l k = Some x -> nth_error l' k = Some y -> bch_amplitudes cl un sr x = Ok y).
      { clear. intros l l' k x y F. revert k. induction F as [|a b l l' Q _ IH]; intros [|k] X Y; try discriminate; cbn in X, Y; [congruence|eapply IH; eassumption]. }
      assert (Q : nth_error (seq 0 n) i = Some i) by (rewrite (nth_error_nth' _ 0) by (rewrite seq_length; exact Li); rewrite seq_nth by exact Li; reflexivity). exact (G _ _ _ _ _ E3 Q Hi). }
    assert (VU : forall k, k <= n -> Qcle tiny (Qc_abs (series_unit m k))).
    { intros k Hk. rewrite unit_denominator. apply inverse_visible. split; [apply denominator_pos|]. etransitivity; [apply denominator_mono, Hk|exact B]. }
    pose proof (start_members hl E4) as F0.
    intros i L HL. cbn [nth_error] in HL.
    apply (loop_merged (fun k t => member series_tensors (N k) (series_unit m k) t /\ (k = 0 \/ good_form h t)) (fun L => merged_list h L /\ Forall (formed sympy h) L /\ Forall (fun t => is_void t = false) L) from_term (commutator_at ws levels opens inv_nat true eh np h) amps) with (tail := amps) (k := 0) (lp := hl) (outs := outs') (j := i); try assumption; try reflexivity.
    - intros k t t' [F G] E. split; [exact (member_copy _ _ t t' F E)|]. destruct G as [->|G]; [left; reflexivity|right]. destruct G as [G _]. split; [apply (copy_reduced sympy h t t'); [|exact G]; apply (copy_same t t' (mb_regular _ _ _ _ F) E)|exact (mb_regular _ _ _ _ (member_copy _ _ t t' F E))].
    - intros k l out Hk F E. destruct (member_combine Qc_alg three_orbitals half_filled series_tensors series_names (fun _ => N k) (fun _ => series_unit m k) 0 l out (VU k ltac:(lia))) as [Ga _]; [eapply Forall_impl; [|exact F]; intros t [Q _]; exact Q|exact E|].
      destruct k as [|k]; [split; [rewrite Forall_forall in *; intros t Ht; split; auto|intros Q; contradiction]|].
      assert (FB : Forall (good_form h) l) by (eapply Forall_impl; [|exact F]; intros t [_ [Q|Q]]; [discriminate|exact Q]).
      destruct (combine_merged sympy h l out AD CA FB E) as [Gm Gb]. split; [|intros _; split; [exact Gm|split; [exact Gb|exact (combine_live l out E)]]]. rewrite Forall_forall in *. intros t Ht. split; auto.
    - intros j a b l r rs out Hj Hr [FL _] E. destruct (AM j rs Hj) as [Lj Q]. unfold commutator_at, at_level in E. replace (Datatypes.S j - 1) with j in E by lia. destruct (nth j opens (0%Z, 0%Z)) as [mn mx]. destruct (WS (Datatypes.S j) a b) as [W1 W2]. destruct (WY (Datatypes.S j) a b) as [Y1 Y2].
      apply operators_factors in Q. rewrite Forall_forall in Q. specialize (Q r Hr). fold m in Q. replace (N j + m * 2) with (N (Datatypes.S j)) in Q by (unfold N; lia).
      destruct (step Qc_alg three_orbitals half_filled half_filled_physical half_filled_active half_filled_antisymmetric half_filled_holes series_tensors series_names _ _ l r _ _ _ _ true eh np h out _ _ _ _ _ (fun _ => half_filled_hermitian) W1 W2 FL Q eq_refl (VU (Datatypes.S j) Lj) E) as [GF _].
      destruct FL as [Rl [L1 L2] Cl Ml], Q as [Rr Cr Mr NR RM]. assert (APR : apart_terms l r) by (intros i' Hi Q; specialize (L1 i' Hi); specialize (NR i' Q); lia).
      destruct (commutator_merged _ _ sympy l r _ _ _ _ true eh np h out W1 W2 Y1 Y2 CA Rl Rr APR (pair_consistent series_tensors series_names l r Cl Cr) (or_introl eq_refl) E) as [_ GW]. rewrite Forall_forall in *. intros t Ht. split; auto.
    - rewrite Forall_forall in *. intros t Ht. split; auto.
  Qed.

  Theorem nested_merged ws order n levels mc mx mn fc eh sr un np h out : (forall k, sound (ws k)) -> (forall k, w_sympy (ws k) = sympy) -> (forall p, Permutation (order p) p) -> 1 <= n -> ~ In 0 levels ->
    nested_commutator_cc ws order n levels mc mx mn fc eh sr un np h = Ok out -> merged_list h out /\ Forall (formed sympy h) out.
  Proof.
    intros SW SY PO Hn NZ H. destruct (C48_products order n levels un sr PO Hn) as (tasks & E & F & _). rewrite E in H. destruct (pymap _ (positions tasks)) as [outs|] eqn:EO; [|discriminate]. cbn [pybind] in H.
    apply (combine_merged sympy h (concat outs) out AD CA); [|exact H]. clear H.
    apply pymap_results in EO. rewrite <- (positions_snd tasks) in F. rewrite Forall_map in F. clear E. induction EO as [|kt o ts outs EO _ IH]; [constructor|]. cbn [concat]. apply Forall_app. split; [|exact (IH (Forall_inv_tail F))].
    destruct (Forall_inv F) as (F1 & F2 & F3 & F4). pose proof (task_product levels sr n (snd kt) NZ F1 F2 F3 F4) as PK. destruct F4 as (l & h0 & r & E & (k & K & EH) & FA).
    assert (RG : Forall regular (snd (snd kt))).
    { rewrite E. assert (X : Forall regular (l ++ r)) by (eapply Forall_impl; [|exact FA]; intros t (j & st & ex & Hj & Ej); apply (amplitude_ingredient j st ex sr t (list_max levels)); [apply list_max_in, Hj|intros ->; contradiction|exact Ej]).
      apply Forall_app in X as [X1 X2]. apply Forall_app. split; [exact X1|]. constructor; [|exact X2]. apply (hamiltonian_ingredient k h0 K EH). }
    destruct PK as [P1 P2 P3 P4 P5 P6]. destruct (SW (fst kt)) as (U & I & D). unfold proper_ops in P4. rewrite map_length in P4. rewrite <- (SY (fst kt)).
    apply (contract_merged (ws (fst kt)) (snd (snd kt))) in EO; [apply EO|assumption|assumption|assumption|rewrite SY; exact CA|exact RG|exact P2|exact (list_consistent _ P3)|rewrite P4; lia].
  Qed.
End Series.
