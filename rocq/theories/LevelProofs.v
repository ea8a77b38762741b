(** Series of commutators of terms, level by level. *)
From Coq Require Import Ascii String ZArith QArith Qcanon Sorting.Sorted Lia Ring_theory Ring.
From Verif Require BacktrackProofs SortProofs.
From Verif Require Import PyBase OrderSpec OrderProofs ParitySpec SpaceModel IndexModel IndicesModel IterProofs IndicesProofs SpaceProofs ElemModel ElemSpec CompatSpec MacroModel WickModel WickSpec WickProofs TermModel ValueSpec ValueProofs TermSpec SumProofs TermProofs RenameProofs
  DriverProofs ConnectedProofs CommProofs OperatorProofs SimplifyProofs SimplifyValue SymmetryModel SymmetrySpec SympyValue SympyShape CombineModel BchModel CombineSpec CombineProofs CombineValue PropSimplify PropWick PropCanon ScheduleProofs ContractSpec ContractValue PropContract LoopSpec BchLoop LevelSpec ClosureProofs.
Local Close Scope Q_scope.
Local Close Scope Qc_scope.
Local Open Scope nat_scope.
Local Notation length := List.length.

Definition same_content (t t' : term) : Prop := tsq t' = tsq t /\ tcoeff t' = tcoeff t /\ Permutation (ttensors t') (ttensors t).
Lemma drivers_plain x : In x driver_tensors -> plain_name x.
Proof. intros [<-|[<-|[<-|[]]]]; unfold plain_name; cbn; intros [H|[]]; discriminate. Qed.
Lemma clean_consistent base xs : consistent_names base ->
  (forall y, In y xs -> exists x, In x (base ++ driver_tensors) /\ tname y = tname x /\ tcls y = tcls x /\ tpriority y = tpriority x) -> consistent_names xs.
Proof.
  intros [P C] H. split.
  - apply Forall_forall. intros y Hy. destruct (H y Hy) as (x & Hx & E & _). unfold plain_name. rewrite E. change (plain_name x). apply in_app_or in Hx as [Hx|Hx]; [rewrite Forall_forall in P; auto|apply drivers_plain, Hx].
  - assert (G : forall y, In y (xs ++ driver_tensors) -> exists x, In x (base ++ driver_tensors) /\ tname y = tname x /\ tcls y = tcls x /\ tpriority y = tpriority x).
    { intros y Hy. apply in_app_or in Hy as [Hy|Hy]; [auto|]. exists y. split; [apply in_or_app; auto|auto]. }
    intros y z Hy Hz E. destruct (G y Hy) as (y' & Y1 & Y2 & -> & ->), (G z Hz) as (z' & Z1 & Z2 & -> & ->). apply C; congruence.
Qed.
Lemma multiple_visible u c : Qcle tiny (Qc_abs u) -> multiple u c -> zero_or_visible c.
Proof.
  intros H M. destruct (multiple_not_tiny u c (or_intror H) M) as [Q|Q]; [left; exact Q|right]. unfold Qc_abs in Q. destruct (Qclt_le_dec c (Q2Qc 0)) as [L|L]; [right|left; exact Q].
  apply Qcopp_le_compat in Q. rewrite Qcopp_involutive in Q. exact Q.
Qed.
Lemma minus_one c : Qcopp c = Qcmult (Qc_of_Z (-1)) c.
Proof. change (-1)%Z with (- (1))%Z. rewrite (Qc_of_Z_opp' 1). change (Qc_of_Z 1) with (Q2Qc 1). ring. Qed.
Lemma multiple_trans u c q : multiple u c -> multiple c q -> multiple u q.
Proof. intros [a ->] [b ->]. exists (b * a)%Z. rewrite Qc_of_Z_mul. ring. Qed.

Section Levels.
  Context (A : qalg) (S : system) (v : tvaluation A).
  Add Ring alg_ring21 : (q_ring A).
  Context (PH : physical S v) (NA : no_active_amplitudes S v) (AS : antisymmetric v) (HV : hole_values v) (base : list tensor) (CN : consistent_names base).

  Record member (N : nat) (u : Qc) (t : term) : Prop := {
    mb_regular : regular t;
    mb_small : small N t;
    mb_clean : clean base t;
    mb_units : multiple u (tcoeff t) }.
  (** the right factors at a level: their index numbers are new, and there is room for them *)
  Record factor_ok (N N' : nat) (w : Qc) (r : term) : Prop := {
    fo_regular : regular r;
    fo_clean : clean base r;
    fo_units : multiple w (tcoeff r);
    fo_numbers : forall i, In i (tindices r) -> N <= snd i < N';
    fo_room : N + length (tindices r) <= N' }.

  Lemma pair_consistent a b : clean base a -> clean base b -> consistent_names (ttensors a ++ ttensors b).
  Proof. intros [_ Ca] [_ Cb]. apply (clean_consistent base); [exact CN|]. intros y Hy. apply in_app_or in Hy as [Hy|Hy]; [apply Ca, Hy|apply Cb, Hy]. Qed.
  Lemma clean_trans xs t : (forall y, In y xs -> exists x, In x (base ++ driver_tensors) /\ tname y = tname x /\ tcls y = tcls x /\ tpriority y = tpriority x) -> clean xs t -> clean base t.
  Proof.
    intros H [T1 T2]. split; [exact T1|]. intros y Hy. destruct (T2 y Hy) as (Y & x & Hx & E1 & E2 & E3). split; [exact Y|]. apply in_app_or in Hx as [Hx|Hx].
    - destruct (H x Hx) as (x' & X & -> & -> & ->) in E1, E2, E3 |- *. exists x'. auto.
    - exists x. split; [apply in_or_app; auto|auto].
  Qed.
  Lemma commutator_good w1 w2 a b max_cu max_o min_o sc fc eh n h out c : unordered w1 -> unordered w2 -> consistent_names (ttensors a ++ ttensors b) -> ttype a = SpinOrbital -> ttype b = SpinOrbital ->
    c = Qcmult sc (Qcmult (tcoeff a) (tcoeff b)) -> c = Q2Qc 0 \/ Qcle tiny (Qc_abs c) ->
    single_commutator w1 w2 a b max_cu max_o min_o sc fc eh n h = Ok out -> Forall (good (ttensors a ++ ttensors b) c) out.
  Proof.
    intros U1 U2 CN' Ta Tb Ec HC H. unfold single_commutator in H. destruct (fc && _); [injection H as <-; constructor|].
    destruct (contract_terms w1 _ _ _ _ _ _ _ _ _) as [oa|] eqn:E1; [|discriminate]. cbn [pybind] in H. destruct (contract_terms w2 _ _ _ _ _ _ _ _ _) as [ob|] eqn:E2; [|discriminate]. cbn [pybind] in H.
    assert (Q1 : fold_left (fun c t => Qcmult c (tcoeff t)) [a; b] sc = c) by (cbn [fold_left]; rewrite Ec; ring).
    assert (Q2 : fold_left (fun c t => Qcmult c (tcoeff t)) [b; a] (Qcopp sc) = Qcopp c) by (cbn [fold_left]; rewrite Ec; ring).
    assert (C1 : consistent_names (flat_map ttensors [a; b])) by (cbn [flat_map]; rewrite app_nil_r; exact CN').
    assert (C2 : consistent_names (flat_map ttensors [b; a])).
    { cbn [flat_map]; rewrite app_nil_r. destruct CN' as [X1 X2]. split; [apply Forall_app; apply Forall_app in X1; tauto|]. intros x y Hx Hy. apply X2; rewrite !in_app_iff in *; tauto. }
    assert (HC2 : Qcopp c = Q2Qc 0 \/ Qcle tiny (Qc_abs (Qcopp c))).
    { destruct HC as [->|HC]; [left; apply Qc_is_canon; reflexivity|]. destruct (multiple_not_tiny c (Qcopp c) (or_intror HC)) as [Q|Q]; [exists (-1)%Z; exact (minus_one c)|auto|auto]. }
    assert (G : Forall (good (ttensors a ++ ttensors b) c) (oa ++ ob)).
    { apply Forall_app. split.
      - pose proof (contract_good w1 [a; b] max_cu max_o min_o sc fc eh n h oa U1 C1) as G. cbv zeta in G. rewrite Q1 in G. specialize (G HC ltac:(intros t [<-|[<-|[]]]; assumption) E1). cbn [flat_map] in G. rewrite app_nil_r in G. exact G.
      - pose proof (contract_good w2 [b; a] max_cu max_o min_o (Qcopp sc) fc eh n h ob U2 C2) as G. cbv zeta in G. rewrite Q2 in G. specialize (G HC2 ltac:(intros t [<-|[<-|[]]]; assumption) E2). eapply Forall_impl; [|exact G]. intros t [K1 K2]. split; [revert K1; apply clean_incl; cbn [flat_map]; rewrite app_nil_r; intros x; rewrite !in_app_iff; tauto|].
        apply (multiple_trans _ (Qcopp c)); [|exact K2]. exists (-1)%Z. exact (minus_one c). }
    destruct (good_combine _ CN' _ HC (oa ++ ob) G) as (out' & EO & GO & _). rewrite H in EO. injection EO as <-. exact GO.
  Qed.

  Lemma step w1 w2 l r mc mx mn f fc eh n h out N N' u w u' : (h = true -> hermitian_values v) -> sound w1 -> sound w2 ->
    member N u l -> factor_ok N N' w r -> u' = Qcmult f (Qcmult u w) -> Qcle tiny (Qc_abs u') ->
    single_commutator w1 w2 l r mc mx mn f fc eh n h = Ok out ->
    Forall (member N' u') out /\ exists x, wick_commutator S v mc mn mx l r x /\ asum (map (term_value S v) out) = (inj f * x)%alg.
  Proof.
    intros HS (U1 & I1 & D1) (U2 & I2 & D2) [Rl [L1 L2] Cl Ml] [Rr Cr Mr NR RM] Eu VU H.
    pose proof (regular_standard _ Rl) as Sl. pose proof (regular_standard _ Rr) as Sr.
    assert (AP : apart_terms l r) by (intros i Hi Q; specialize (L1 i Hi); specialize (NR i Q); lia).
    pose proof (pair_consistent l r Cl Cr) as CP. assert (Tl : ttype l = SpinOrbital) by apply Cl. assert (Tr : ttype r = SpinOrbital) by apply Cr.
    set (c := Qcmult f (Qcmult (tcoeff l) (tcoeff r))) in *.
    assert (MC : multiple u' c). { destruct Ml as [a Ea], Mr as [b Eb]. exists (a * b)%Z. unfold c. rewrite Ea, Eb, Eu, Qc_of_Z_mul. ring. }
    pose proof (multiple_visible _ _ VU MC) as VC. split.
    - pose proof (commutator_good w1 w2 l r mc mx mn f fc eh n h out c U1 U2 CP Tl Tr eq_refl (visible_abs _ VC) H) as G.
      pose proof (commutator_closed w1 w2 l r mc mx mn f fc eh n h out N' U1 U2 I1 I2 D1 D2 Rl Rr AP CP ltac:(lia) ltac:(intros i Hi; specialize (L1 i Hi); lia) ltac:(intros i Hi; specialize (NR i Hi); lia) H) as R.
      rewrite Forall_forall in *. intros t Ht. destruct (G t Ht) as [G1 G2]. destruct (R t Ht) as [R1 R2]. constructor; [exact R1|exact R2| |exact (multiple_trans _ _ _ MC G2)].
      apply (clean_trans (ttensors l ++ ttensors r)); [|exact G1]. intros y Hy. apply in_app_or in Hy as [Hy|Hy]; [apply Cl, Hy|apply Cr, Hy].
    - destruct (op_is_empty (tsq l) || op_is_empty (tsq r)) eqn:E.
      + exists q0. split; [left; auto|]. rewrite (C63_scalar_commutes A S v w1 w2 l r mc mx mn f fc eh n h out U1 U2 Sl Sr CP E VC H). ring.
      + apply orb_false_iff in E as [E1 E2].
        destruct (C63_commutator_value A S v w1 w2 l r mc mx mn f fc eh n h out PH NA AS HV HS (conj U1 (conj I1 D1)) (conj U2 (conj I2 D2)) Sl Sr AP CP E1 E2 VC H) as [(r1 & r2 & W1 & W2) V].
        exists (inj (Qcmult (tcoeff l) (tcoeff r)) * (contracted_value S v [l; r] r1 - contracted_value S v [r; l] r2))%alg. split.
        * right. split; [rewrite E1, E2; reflexivity|]. split; [eauto|]. intros eh1 eh2 q1' q2' Q1 Q2.
          assert (NF : f <> Q2Qc 0). { intros ->. apply (Qclt_not_le (Qc_abs (Q2Qc 0)) tiny); [reflexivity|]. rewrite Eu in VU. replace (Qcmult (Q2Qc 0) (Qcmult u w)) with (Q2Qc 0) in VU by ring. exact VU. }
          pose proof (V true true r1 r2 W1 W2) as V1. rewrite (V eh1 eh2 q1' q2' Q1 Q2) in V1. rewrite !inj_mul in V1.
          assert (IF : (inj (Qcinv f) * @inj A f)%alg = q1) by (rewrite <- inj_mul, Qcmult_inv_l by exact NF; apply inj_one).
          assert (E : forall x y : A, (inj f * x)%alg = (inj f * y)%alg -> x = y).
          { intros x y E. transitivity ((inj (Qcinv f) * inj f) * x)%alg; [rewrite IF; ring|]. transitivity (inj (Qcinv f) * (inj f * y))%alg; [rewrite <- E; ring|]. transitivity ((inj (Qcinv f) * inj f) * y)%alg; [ring|rewrite IF; ring]. }
          apply E. rewrite !inj_mul. transitivity (inj f * (inj (tcoeff l) * inj (tcoeff r)) * (contracted_value S v [l; r] r1 - contracted_value S v [r; l] r2))%alg; [ring|]. rewrite <- V1. ring.
        * rewrite (V true true r1 r2 W1 W2), !inj_mul. ring.
  Qed.

  (** copies *)
  Lemma all_indices_perm ts ts' : Forall2 same_content ts ts' -> forall i, In i (all_indices ts) <-> In i (all_indices ts').
  Proof.
    intros H i. unfold all_indices. rewrite !nodup_In, !in_flat_map. assert (G : forall t t', same_content t t' -> In i (content_indices (ttensors t) (tsq t)) <-> In i (content_indices (ttensors t') (tsq t'))).
    { intros t t' (E1 & _ & P). unfold content_indices. rewrite E1, !in_app_iff, !in_flat_map. split; (intros [Q|(x & X1 & X2)]; [auto|right; exists x; split; [|exact X2]]); [exact (Permutation_in _ (Permutation_sym P) X1)|exact (Permutation_in _ P X1)]. }
    induction H as [|t t' l l' E _ IH]; [split; intros (? & [] & _)|]. split; intros (x & [<-|Hx] & Hi).
    - exists t'. split; [left; reflexivity|apply (G t t' E), Hi].
    - destruct (proj1 IH) as (y & Hy & Y); [exists x; auto|]. exists y. split; [right; exact Hy|exact Y].
    - exists t. split; [left; reflexivity|apply (G t t' E), Hi].
    - destruct (proj2 IH) as (y & Hy & Y); [exists x; auto|]. exists y. split; [right; exact Hy|exact Y].
  Qed.
  Lemma contracted_same ts ts' r : Forall2 same_content ts ts' -> (forall z ds sq i, In (z, ds, sq) (concat r) -> In i (content_indices (map tensor_of ds) sq) -> In i (all_indices ts)) ->
    contracted_value S v ts r = contracted_value S v ts' r.
  Proof.
    intros H HR. unfold contracted_value. rewrite (sum_over_same A S (all_indices ts) (all_indices ts')); [|apply NoDup_nodup|apply NoDup_nodup|intros i; apply all_indices_perm, H|].
    - apply sum_over_ext; [|apply NoDup_nodup]. intros e _. f_equal. apply aprod_perm, Permutation_map. clear HR. induction H as [|t t' l l' (_ & _ & P) _ IH]; [reflexivity|]. cbn [flat_map]. apply Permutation_app; [symmetry; exact P|exact IH].
    - intros e e' He. f_equal.
      + f_equal. apply map_ext_in. intros x Hx. apply tensor_value_ext. intros i Hi. apply He. unfold all_indices. apply nodup_In. apply in_flat_map in Hx as (t & Ht & Hx). apply in_flat_map. exists t. split; [exact Ht|]. unfold content_indices. apply in_or_app. right. apply in_flat_map. exists x. auto.
      + unfold result_value. f_equal. apply map_ext_in. intros [[z ds] sq] Hin. unfold entry_value, at_orbitals. cbn [fst snd vden vop]. f_equal; [f_equal; f_equal|].
        * apply map_ext_in. intros d Hd. apply tensor_value_ext. intros i Hi. apply He. apply (HR z ds sq i Hin). unfold content_indices. apply in_or_app. right. apply in_flat_map. exists (tensor_of d). split; [apply in_map, Hd|exact Hi].
        * unfold op_value. f_equal; apply map_ext_in; intros i Hi; apply He, (HR z ds sq i Hin); unfold content_indices, op_indices; apply in_or_app; left; apply in_or_app; auto.
  Qed.
  Lemma expansion_in l r mc mn mx eh res : expansion l r mc mn mx eh res -> forall ts, (forall i, In i (op_indices (tsq l) ++ op_indices (tsq r)) -> In i (all_indices ts)) ->
    forall z ds sq i, In (z, ds, sq) (concat res) -> In i (content_indices (map tensor_of ds) sq) -> In i (all_indices ts).
  Proof.
    intros W ts H z ds sq i Hin Hi. destruct (result_legs _ eh _ _ _ _ res z ds sq (fun s Hs => Hs) W Hin) as (Q & _). apply H.
    assert (P : Permutation (op_indices sq ++ flat_map tensor_indices (map tensor_of ds)) (op_indices (tsq l) ++ op_indices (tsq r))).
    { pose proof (written_indices [tsq l; tsq r]) as WI. cbn [flat_map] in WI. rewrite app_nil_r in WI. rewrite <- WI, Q, map_app, density_leg_indices, open_indices. apply Permutation_app_comm. }
    exact (Permutation_in _ P Hi).
  Qed.
  Lemma commutator_copy mc mn mx l l' r x : same_content l l' -> wick_commutator S v mc mn mx l' r x -> wick_commutator S v mc mn mx l r x.
  Proof.
    intros SC. assert (SC' := SC). destruct SC' as (E1 & E2 & _). unfold wick_commutator. rewrite E1. intros [H|(H1 & (a & b & H2 & H3) & H4)]; [left; exact H|right]. split; [exact H1|].
    assert (X1 : forall eh q, expansion l r mc mn mx eh q <-> expansion l' r mc mn mx eh q) by (intros; unfold expansion; rewrite E1; reflexivity).
    assert (X2 : forall eh q, expansion r l mc mn mx eh q <-> expansion r l' mc mn mx eh q) by (intros; unfold expansion; rewrite E1; reflexivity).
    split; [exists a, b; split; [apply X1, H2|apply X2, H3]|]. intros eh1 eh2 q1' q2' Q1 Q2. rewrite (H4 eh1 eh2 q1' q2' (proj1 (X1 _ _) Q1) (proj1 (X2 _ _) Q2)), E2.
    assert (RF : same_content r r) by (split; [reflexivity|split; [reflexivity|reflexivity]]).
    assert (IN : forall t ts i, In t ts -> In i (op_indices (tsq t)) -> In i (all_indices ts)) by (intros t ts i Ht Hi; unfold all_indices; apply nodup_In, in_flat_map; exists t; split; [exact Ht|unfold content_indices; apply in_or_app; auto]).
    f_equal. f_equal; symmetry; apply contracted_same.
    - constructor; [exact SC|constructor; [exact RF|constructor]].
    - apply (expansion_in _ _ _ _ _ _ _ Q1). intros i Hi. apply in_app_or in Hi as [Hi|Hi]; [apply (IN l)|apply (IN r)]; cbn; auto.
    - constructor; [exact RF|constructor; [exact SC|constructor]].
    - apply (expansion_in _ _ _ _ _ _ _ Q2). intros i Hi. apply in_app_or in Hi as [Hi|Hi]; [apply (IN r)|apply (IN l)]; cbn; auto.
  Qed.
  Lemma copy_value t t' : same_content t t' -> term_value S v t' = term_value S v t.
  Proof.
    intros (E1 & E2 & P). unfold term_value. rewrite E1, E2. apply content_value_perm. exact P.
  Qed.
  Lemma level_copy mc mn mx f L L0 rs L' : Forall2 same_content L L0 -> commutator_level S v mc mn mx f L0 rs L' -> commutator_level S v mc mn mx f L rs L'.
  Proof.
    intros F (M & HM & V). exists M. split; [|exact V]. clear V. revert M HM. induction F as [|t t' l l' E _ IH]; intros M HM; inversion HM as [|? row ? M' H1 H2]; subst; constructor; [|apply IH; assumption].
    clear -H1 E. induction H1 as [|r x rs row H _ IH]; constructor; [exact (commutator_copy _ _ _ _ _ _ _ E H)|exact IH].
  Qed.

  Lemma acons (x : A) l : asum (x :: l) = (x + asum l)%alg.
  Proof. reflexivity. Qed.
  (** all pairs of terms of one level *)
  Lemma pairs mc mn mx f (P : term -> Prop) (sc : nat -> nat -> term -> term -> pyres (list term)) lp rs lls :
    (forall a b l r out, In l lp -> In r rs -> sc a b l r = Ok out -> Forall P out /\ exists x, wick_commutator S v mc mn mx l r x /\ asum (map (term_value S v) out) = (inj f * x)%alg) ->
    pymap (fun al => pybind (pymap (fun br => sc (fst al) (fst br) (snd al) (snd br)) (positions rs)) (fun ls => Ok (concat ls))) (positions lp) = Ok lls ->
    Forall P (concat lls) /\ exists M, Forall2 (fun l row => Forall2 (fun r x => wick_commutator S v mc mn mx l r x) rs row) lp M /\ asum (map (term_value S v) (concat lls)) = (inj f * asum (map asum M))%alg.
  Proof.
    intros H E. apply pymap_results in E. rewrite <- (positions_snd lp).
    assert (HP : forall al, In al (positions lp) -> In (snd al) lp) by (intros [k x]; apply positions_in). revert E HP. generalize (positions lp) as ps. intros ps E.
    induction E as [|al out ps outs Eo _ IH]; intros HP.
    - split; [constructor|]. exists []. split; [constructor|]. cbn [concat map]. change (asum (@nil A)) with (@q0 A). ring.
    - destruct (IH (fun x Hx => HP x (or_intror Hx))) as (F & M & FM & V).
      destruct (pymap _ (positions rs)) as [ls|] eqn:El; [|discriminate]. cbn [pybind] in Eo. injection Eo as <-. apply pymap_results in El.
      assert (R : Forall P (concat ls) /\ exists row, Forall2 (fun r x => wick_commutator S v mc mn mx (snd al) r x) rs row /\ asum (map (term_value S v) (concat ls)) = (inj f * asum row)%alg).
      { rewrite <- (positions_snd rs). assert (HR : forall br, In br (positions rs) -> In (snd br) rs) by (intros [k x]; apply positions_in). pose proof (HP al (or_introl eq_refl)) as HL. clear -H El HR HL. revert El HR. generalize (positions rs) as qs. intros qs El.
        induction El as [|br out qs outs Eo _ IH]; intros HR.
        - split; [constructor|]. exists []. split; [constructor|]. cbn [concat map]. change (asum (@nil A)) with (@q0 A). ring.
        - destruct (IH (fun x Hx => HR x (or_intror Hx))) as (F & row & FR & V). destruct (H _ _ _ _ _ HL (HR br (or_introl eq_refl)) Eo) as (F1 & x & W & V1). split; [cbn [concat]; apply Forall_app; auto|]. exists (x :: row). split; [constructor; assumption|].
          cbn [concat]. rewrite map_app, (asum_app A), V1, V. rewrite acons. ring. }
      destruct R as (F1 & row & FR & V1). split; [cbn [concat]; apply Forall_app; auto|]. exists (row :: M). split; [constructor; assumption|].
      cbn [concat]. rewrite map_app, (asum_app A), V1, V. cbn [map]. rewrite acons. ring.
  Qed.

  Context (ws : worlds) (levels : list Z) (opens : list (Z * Z)) (factor : nat -> Qc) (fc eh : bool) (np : nat) (h : bool) (HS : h = true -> hermitian_values v).
  Context (WS : forall i a b, sound (fst (ws i a b)) /\ sound (snd (ws i a b))).
  Context (N : nat -> nat) (u w : nat -> Qc) (UW : forall k, u (Datatypes.S k) = Qcmult (factor (Datatypes.S k)) (Qcmult (u k) (w k))).
  Context (copy : term -> pyres term) (CP : forall k t t', member (N k) (u k) t -> copy t = Ok t' -> member (N k) (u k) t' /\ same_content t t').
  Lemma copies k l l' : Forall (member (N k) (u k)) l -> pymap copy l = Ok l' -> Forall (member (N k) (u k)) l' /\ Forall2 same_content l l' /\ asum (map (term_value S v) l') = asum (map (term_value S v) l).
  Proof.
    intros F E. apply pymap_results in E. induction E as [|t t' l l' E _ IH]; [repeat split; constructor|]. inversion F as [|? ? F1 F2]; subst. destruct (IH F2) as (I1 & I2 & I3). destruct (CP k t t' F1 E) as [C1 C2].
    split; [constructor; assumption|]. split; [constructor; assumption|]. cbn [map]. unfold asum in *. cbn [fold_right]. rewrite I3, (copy_value t t' C2). reflexivity.
  Qed.
  Lemma member_combine k l out : Qcle tiny (Qc_abs (u k)) -> Forall (member (N k) (u k)) l -> combine_terms l = Ok out -> Forall (member (N k) (u k)) out /\ asum (map (term_value S v) out) = asum (map (term_value S v) l).
  Proof.
    intros VU F H. assert (G : Forall (good base (u k)) l) by (eapply Forall_impl; [|exact F]; intros t [_ _ M1 M2]; split; assumption).
    destruct (good_combine base CN (u k) (or_intror VU) l G) as (out' & E & GO & SS). rewrite H in E. injection E as <-. split.
    - pose proof (combine_all (fun t => regular t /\ small (N k) t) (fun t c Q => conj (set_coeff_regular t c (proj1 Q)) (set_coeff_small (N k) t c (proj2 Q))) l out) as R.
      specialize (R ltac:(eapply Forall_impl; [|exact F]; intros t [M1 M2 _ _]; auto) H). rewrite Forall_forall in *. intros t Ht. destruct (GO t Ht) as [G1 G2], (R t Ht) as [R1 R2]. constructor; assumption.
    - apply (same_sums_values A S v base); [exact CN|exact (goods_clean _ _ _ GO)|exact (goods_clean _ _ _ G)|exact SS].
  Qed.
  Theorem levels_value rights : forall k lp outs, Forall (member (N k) (u k)) lp ->
    (forall j rs r, nth_error rights j = Some rs -> In r rs -> factor_ok (N (k + j)) (N (Datatypes.S (k + j))) (w (k + j)) r) ->
    (forall j, j < length rights -> Qcle tiny (Qc_abs (u (Datatypes.S (k + j))))) ->
    commutator_loop copy (commutator_at ws levels opens factor fc eh np h) (Datatypes.S k) lp rights = Ok outs ->
    length outs = length rights /\
    forall j rs, nth_error rights j = Some rs -> exists L L', nth_error (lp :: outs) j = Some L /\ nth_error outs j = Some L' /\ Forall (member (N (Datatypes.S (k + j))) (u (Datatypes.S (k + j)))) L' /\
      commutator_level S v (nth (k + j) levels 0%Z) (fst (nth (k + j) opens (0%Z, 0%Z))) (snd (nth (k + j) opens (0%Z, 0%Z))) (factor (Datatypes.S (k + j))) L rs L'.
  Proof.
    induction rights as [|rs rights IH]; intros k lp outs F HR HU H; cbn [commutator_loop] in H.
    - injection H as <-. split; [reflexivity|]. intros [|j] rs Hj; discriminate.
    - destruct (pymap _ (positions lp)) as [lls|] eqn:E1; [|discriminate]. cbn [pybind] in H. destruct (pymap copy (concat lls)) as [ts|] eqn:E2; [|discriminate]. cbn [pybind] in H. destruct (combine_terms ts) as [out|] eqn:E3; [|discriminate]. cbn [pybind] in H.
      destruct (pymap copy out) as [lp'|] eqn:E4; [|discriminate]. cbn [pybind] in H. destruct (commutator_loop _ _ _ lp' rights) as [outs'|] eqn:E5; [|discriminate]. cbn [pybind] in H. injection H as <-.
      pose proof (HU 0 ltac:(cbn; lia)) as VU. rewrite Nat.add_0_r in VU.
      destruct (pairs (nth k levels 0%Z) (fst (nth k opens (0%Z, 0%Z))) (snd (nth k opens (0%Z, 0%Z))) (factor (Datatypes.S k)) (member (N (Datatypes.S k)) (u (Datatypes.S k))) (commutator_at ws levels opens factor fc eh np h (Datatypes.S k)) lp rs lls) as (F1 & M & FM & V); [|exact E1|].
      { intros a b l r out0 Hl Hr E. unfold commutator_at, at_level in E. replace (Datatypes.S k - 1) with k in E by lia. destruct (nth k opens (0%Z, 0%Z)) as [mn mx]. cbn [fst snd]. rewrite Forall_forall in F. destruct (WS (Datatypes.S k) a b) as [W1 W2].
        apply (step _ _ l r _ _ _ _ fc eh np h out0 (N k) (N (Datatypes.S k)) (u k) (w k) (u (Datatypes.S k)) HS W1 W2 (F l Hl)) with (2 := UW k) (3 := VU) (4 := E). pose proof (HR 0 rs r eq_refl Hr) as Q. rewrite Nat.add_0_r in Q. exact Q. }
      destruct (copies (Datatypes.S k) _ _ F1 E2) as (F2 & _ & V2). destruct (member_combine (Datatypes.S k) ts out VU F2 E3) as (F3 & V3). destruct (copies (Datatypes.S k) _ _ F3 E4) as (F4 & SC & _).
      destruct (IH (Datatypes.S k) lp' outs' F4) as [L K]; [| |exact E5|].
      { intros j rs' r Hj Hr. replace (Datatypes.S k + j) with (k + Datatypes.S j) by lia. apply (HR (Datatypes.S j) rs' r Hj Hr). }
      { intros j Hj. replace (Datatypes.S k + j) with (k + Datatypes.S j) by lia. apply HU. cbn. lia. }
      split; [cbn; lia|]. intros [|j] rs' Hj.
      + cbn [nth_error] in Hj. injection Hj as <-. rewrite Nat.add_0_r. exists lp, out. split; [reflexivity|]. split; [reflexivity|]. split; [exact F3|]. exists M. split; [exact FM|]. rewrite V3, V2. exact V.
      + cbn [nth_error] in Hj. destruct (K j rs' Hj) as (L0 & L' & K1 & K2 & K3 & K4). replace (Datatypes.S k + j) with (k + Datatypes.S j) in K3, K4 by lia. destruct j as [|j].
        * cbn [nth_error] in K1. injection K1 as <-. exists out, L'. split; [reflexivity|]. split; [exact K2|]. split; [exact K3|]. exact (level_copy _ _ _ _ _ _ _ _ SC K4).
        * exists L0, L'. split; [exact K1|]. split; [exact K2|]. split; [exact K3|exact K4].
  Qed.
End Levels.
