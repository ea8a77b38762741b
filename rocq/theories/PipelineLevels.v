(** Series of commutators can be printed. *)
From Coq Require Import Ascii String ZArith QArith Qcanon Sorting.Sorted Lia Bool Ring_theory Ring.
From Verif Require BacktrackProofs SortProofs.
From Verif Require Import PyBase OrderSpec OrderProofs ParitySpec SpaceModel IndexModel IndexProofs IndicesModel IterProofs IndicesProofs SpaceProofs ElemModel ElemSpec CompatSpec MacroModel WickModel WickSpec WickProofs TermModel BchSpec ValueSpec ValueProofs TermSpec SumProofs TermProofs RenameProofs
  DriverProofs ConnectedProofs CommProofs OperatorProofs SimplifyProofs SimplifyValue SymmetryModel SymmetrySpec SympyValue SympyShape CombineModel BchModel CombineSpec CombineProofs CombineValue PropSimplify PropWick PropCanon ScheduleProofs ContractSpec ContractValue PropContract LoopSpec BchLoop LevelSpec ClosureProofs LevelProofs
  PropOperator SeriesProofs SeriesOperator NestedOperator PropBch PropLevels PropFock FockSpec ExtensionProofs FockTerms PropSeries PropNested TaskProofs SeriesSpec AmbitModel AmbitSpec AmbitText AmbitValue AmbitMain PipelineTerms.
Local Close Scope Q_scope.
Local Close Scope Qc_scope.
Local Open Scope nat_scope.
Local Notation length := List.length.

(** ** Terms that can be printed *)
Lemma typed_alpha l : NoDup l -> Forall alpha l -> make_typed SpinOrbital l = Ok l.
Proof.
  intros N F. unfold make_typed. rewrite (proj2 (nodup_idx_spec l) N). replace (existsb idx_beta l) with false; [reflexivity|]. symmetry. apply not_true_is_false. rewrite existsb_exists. intros (i & Hi & Q). rewrite Forall_forall in F. specialize (F i Hi). unfold alpha in F. unfold idx_beta in Q. rewrite F in Q. discriminate.
Qed.
Lemma whole_number z : this (Qc_of_Z z) = inject_Z z.
Proof. unfold Qc_of_Z. cbn [this Q2Qc]. apply Qred_identity. cbn [Qnum Qden inject_Z]. apply Z.gcd_1_r. Qed.
Lemma unit_den d q : (0 < d)%Z -> multiple (Qcinv (Qc_of_Z d)) q -> (Z.pos (Qden (this q)) <= d)%Z.
Proof.
  intros Hd [z ->]. rewrite Qcmult_comm. pose proof (scaled_den (Qcinv (Qc_of_Z d)) z) as Q. assert (U : (Qden (this (Qcinv (Qc_of_Z d))) <= Z.to_pos d)%positive).
  { unfold Qcinv. cbn [this Q2Qc]. eapply Pos.le_trans; [apply Qred_den|]. rewrite whole_number. destruct d as [|d|d]; try lia. cbn. lia. }
  assert (X : (Z.pos (Qden (this (Qcmult (Qcinv (Qc_of_Z d)) (Qc_of_Z z)))) <= Z.pos (Z.to_pos d))%Z) by (apply Pos2Z.pos_le_pos; eapply Pos.le_trans; eassumption). rewrite Z2Pos.id in X by exact Hd. exact X.
Qed.
Theorem printable_term d t : (0 < d <= 1000000000)%Z -> regular t -> good series_tensors (Qcinv (Qc_of_Z d)) t -> usable t -> printable t.
Proof.
  intros Hd R [[_ C] M] [HF FL]. pose proof (regular_standard _ R) as ST. destruct R as [[xs MK] TD AL VT BL].
  assert (NM : forall x, In x (ttensors t) -> tname x = "H"%string \/ tname x = "T"%string \/ tname x = "L"%string).
  { intros x Hx. destruct (C x Hx) as (_ & y & Hy & E1 & E2 & _). rewrite E1. unfold hole_free in HF. rewrite Forall_forall in HF. specialize (HF x Hx). destruct (td_settled _ _ TD x Hx) as [K _].
    cbn in Hy. destruct Hy as [<-|[<-|[<-|[<-|[<-|[]]]]]]; cbn [tname tcls] in *; auto; contradiction. }
  pose proof (td_legs _ _ TD) as ND. apply NoDup_app_remove_r in ND. unfold op_indices in ND.
  constructor.
  - exists (length (ann (tsq t))). constructor; try assumption; try reflexivity.
    + eauto.
    + destruct (make_term_fields _ _ _ _ _ MK) as (_ & F2 & _ & F4 & F5 & F6 & F7 & F8 & F9 & F10). destruct (tdiag t) as [|[i n] dg] eqn:Dg; [reflexivity|]. exfalso.
      assert (DI : diagonal_in i xs (tsq t)) by (apply (F10 i n); left; reflexivity).
      apply (st_plain _ ST i). destruct DI as [DI|(x & X1 & X2)]; [left; exact DI|right]. exists x. split; [exact (Permutation_in _ (Permutation_sym F2) X1)|exact X2].
    + apply typed_alpha; [apply NoDup_app_remove_r in ND; exact ND|apply AL].
    + apply typed_alpha; [apply NoDup_app_remove_l in ND; exact ND|apply AL].
    + etransitivity; [exact (unit_den d _ (proj1 Hd) M)|apply Hd].
  - apply Forall_forall. intros x Hx. unfold name_ok. destruct (NM x Hx) as [-> |[-> | ->]]; nonl_str.
  - exact FL.
  - apply Forall_forall. intros x Hx m. unfold tensor_array, array_name, target_name. destruct (NM x Hx) as [-> |[-> | ->]]; destruct (_ =? _); discriminate.
Qed.

(** ** Commutators *)
Lemma usable_set t c : usable t -> usable (set_coeff t c).
Proof. exact (fun H => H). Qed.
Lemma usable_perm t t' : Permutation (ttensors t') (ttensors t) -> usable t -> usable t'.
Proof.
  intros P [H F]. split; [unfold hole_free in *; exact (Permutation_Forall (Permutation_sym P) H)|]. intros E. rewrite E in P. apply Permutation_nil in P. exact (F P).
Qed.
Lemma commutator_usable w1 w2 a b max_cu max_o min_o sc fc n h out : sound w1 -> sound w2 -> standard a -> standard b -> apart_terms a b -> consistent_names (ttensors a ++ ttensors b) ->
  (let c := Qcmult sc (Qcmult (tcoeff a) (tcoeff b)) in c = Q2Qc 0 \/ Qcle tiny (Qc_abs c)) -> usable a -> usable b ->
  single_commutator w1 w2 a b max_cu max_o min_o sc fc true n h = Ok out -> Forall usable out.
Proof.
  cbv zeta. intros (U1 & I1 & _) (U2 & I2 & _) Sa Sb AP CN HC Ua Ub H. set (c := Qcmult sc (Qcmult (tcoeff a) (tcoeff b))) in *. unfold single_commutator in H. destruct (fc && _); [injection H as <-; constructor|].
  destruct (contract_terms w1 _ _ _ _ _ _ _ _ _) as [oa|] eqn:E1; [|discriminate]. cbn [pybind] in H. destruct (contract_terms w2 _ _ _ _ _ _ _ _ _) as [ob|] eqn:E2; [|discriminate]. cbn [pybind] in H.
  assert (Q1 : fold_left (fun c t => Qcmult c (tcoeff t)) [a; b] sc = c) by (cbn [fold_left]; unfold c; ring).
  assert (Q2 : fold_left (fun c t => Qcmult c (tcoeff t)) [b; a] (Qcopp sc) = Qcopp c) by (cbn [fold_left]; unfold c; ring).
  assert (HC2 : Qcopp c = Q2Qc 0 \/ Qcle tiny (Qc_abs (Qcopp c))).
  { destruct HC as [->|HC]; [left; apply Qc_is_canon; reflexivity|]. destruct (multiple_not_tiny c (Qcopp c) (or_intror HC)) as [Q|Q]; [exists (-1)%Z; exact (minus_one c)|auto|auto]. }
  apply (combine_all usable usable_set (oa ++ ob) out); [|exact H]. apply Forall_app. split.
  - apply (contract_usable w1 [a; b] max_cu max_o min_o sc fc n h oa U1 I1) in E1; [exact E1|auto|constructor; [constructor; [exact AP|constructor]|constructor; [constructor|constructor]]|cbn [flat_map]; rewrite app_nil_r; exact CN|cbv zeta; rewrite Q1; exact HC|auto].
  - apply (contract_usable w2 [b; a] max_cu max_o min_o (Qcopp sc) fc n h ob U2 I2) in E2; [exact E2|auto|constructor; [constructor; [intros i Hi Q; exact (AP i Q Hi)|constructor]|constructor; [constructor|constructor]]| |cbv zeta; rewrite Q2; exact HC2|auto].
    cbn [flat_map]. rewrite app_nil_r. destruct CN as [C1 C2]. split; [apply Forall_app; apply Forall_app in C1; tauto|]. intros x y Hx Hy. apply C2; rewrite !in_app_iff in *; tauto.
Qed.

(** ** The levels *)
Lemma loop_members (P : nat -> term -> Prop) copy sc rights : (forall k t t', P k t -> copy t = Ok t' -> P k t') ->
  (forall k l out, k <= length rights -> Forall (P k) l -> combine_terms l = Ok out -> Forall (P k) out) ->
  forall tail k lp outs, (forall j, nth_error tail j = nth_error rights (k + j)) -> length rights = k + length tail ->
  (forall j a b l r rs out, nth_error rights j = Some rs -> In r rs -> P j l -> sc (Datatypes.S j) a b l r = Ok out -> Forall (P (Datatypes.S j)) out) ->
  Forall (P k) lp -> commutator_loop copy sc (Datatypes.S k) lp tail = Ok outs -> forall j L, nth_error outs j = Some L -> Forall (P (Datatypes.S (k + j))) L.
Proof.
  intros HC HM. assert (CP : forall k l l', Forall (P k) l -> pymap copy l = Ok l' -> Forall (P k) l').
  { intros k l l' F E. apply pymap_results in E. induction E as [|t t' l l' E _ IH]; [constructor|]. inversion F; subst. constructor; [eapply HC; eassumption|auto]. }
  induction tail as [|rs tail IH]; intros k lp outs HT HL HS F H; cbn [commutator_loop] in H; [injection H as <-; intros [|j]; discriminate|].
  destruct (pymap _ (positions lp)) as [lls|] eqn:E1; [|discriminate]. cbn [pybind] in H. destruct (pymap copy (concat lls)) as [ts|] eqn:E2; [|discriminate]. cbn [pybind] in H. destruct (combine_terms ts) as [out|] eqn:E3; [|discriminate]. cbn [pybind] in H.
  destruct (pymap copy out) as [lp'|] eqn:E4; [|discriminate]. cbn [pybind] in H. destruct (commutator_loop _ _ _ lp' tail) as [outs'|] eqn:E5; [|discriminate]. cbn [pybind] in H. injection H as <-.
  assert (F1 : Forall (P (Datatypes.S k)) (concat lls)).
  { pose proof (HT 0) as R0. cbn [nth_error] in R0. rewrite Nat.add_0_r in R0. symmetry in R0. apply pymap_results in E1. assert (HP : forall al, In al (positions lp) -> In (snd al) lp) by (intros [i x]; apply positions_in). clear - E1 HP R0 HS F. induction E1 as [|al o ps os E _ IH]; [constructor|]. cbn [concat]. apply Forall_app. split; [|apply IH; intros x Hx; apply HP; right; exact Hx].
    destruct (pymap _ (positions rs)) as [ls|] eqn:El; [|discriminate]. cbn [pybind] in E. injection E as <-. apply pymap_results in El. assert (HR : forall br, In br (positions rs) -> In (snd br) rs) by (intros [i x]; apply positions_in). assert (PL : P k (snd al)) by (rewrite Forall_forall in F; apply F, HP; left; reflexivity).
    clear - El HR R0 HS PL. induction El as [|br o ps os E _ IH]; [constructor|]. cbn [concat]. apply Forall_app. split; [|apply IH; intros x Hx; apply HR; right; exact Hx]. apply (HS k _ _ _ _ rs _ R0 (HR br (or_introl eq_refl)) PL E). }
  pose proof (HM (Datatypes.S k) ts out ltac:(cbn in HL; lia) (CP _ _ _ F1 E2) E3) as F3. pose proof (CP _ _ _ F3 E4) as F4.
  intros [|j] L HJ; [cbn [nth_error] in HJ; injection HJ as <-; rewrite Nat.add_0_r; exact F3|]. cbn [nth_error] in HJ. replace (k + Datatypes.S j) with (Datatypes.S k + j) by lia. apply (IH (Datatypes.S k) lp' outs'); try assumption.
  - intros i. specialize (HT (Datatypes.S i)). cbn [nth_error] in HT. rewrite HT. f_equal. lia.
  - cbn in HL. lia.
Qed.

Definition fits (N : nat) (u : Qc) (t : term) : Prop := member series_tensors N u t /\ usable t.
Lemma fits_copy N u t t' : fits N u t -> from_term t = Ok t' -> fits N u t'.
Proof.
  intros [[M1 M2 M3 M4] US] E. destruct (from_term_closed t t' N M1 M2 E) as (C1 & C2 & C3 & C4 & C5). split; [|exact (usable_perm _ _ C4 US)]. constructor; [exact C1|exact C2| |rewrite C3; exact M4].
  destruct M3 as [M3 M3']. split; [apply (standard_type _ (regular_standard _ C1))|]. intros y Hy. apply M3'. exact (Permutation_in _ C4 Hy).
Qed.
Lemma fits_combine N u l out : Qcle tiny (Qc_abs u) -> Forall (fits N u) l -> combine_terms l = Ok out -> Forall (fits N u) out.
Proof.
  intros VU F H. destruct (member_combine Qc_alg three_orbitals half_filled series_tensors series_names (fun _ => N) (fun _ => u) 0 l out VU) as [F1 _]; [|exact H|].
  - eapply Forall_impl; [|exact F]. intros t [Q _]. exact Q.
  - pose proof (combine_all usable usable_set l out) as F2. specialize (F2 ltac:(eapply Forall_impl; [|exact F]; intros t [_ Q]; exact Q) H). rewrite Forall_forall in *. intros t Ht. split; auto.
Qed.
Lemma fits_step w1 w2 l r mc mx mn f fc n h out N N' u w u' : sound w1 -> sound w2 -> fits N u l -> factor_ok series_tensors N N' w r -> usable r -> u' = Qcmult f (Qcmult u w) -> Qcle tiny (Qc_abs u') ->
  single_commutator w1 w2 l r mc mx mn f fc true n h = Ok out -> Forall (fits N' u') out.
Proof.
  intros S1 S2 [M UL] FO UR Eu VU H.
  destruct (step Qc_alg three_orbitals half_filled half_filled_physical half_filled_active half_filled_antisymmetric half_filled_holes series_tensors series_names w1 w2 l r mc mx mn f fc true n h out N N' u w u' (fun _ => half_filled_hermitian) S1 S2 M FO Eu VU H) as [F1 _].
  assert (F2 : Forall usable out).
  { destruct M as [Rl [L1 L2] Cl Ml], FO as [Rr Cr Mr NR RM]. apply (commutator_usable w1 w2 l r mc mx mn f fc n h out S1 S2 (regular_standard _ Rl) (regular_standard _ Rr)); try assumption.
    - intros i Hi Q. specialize (L1 i Hi). specialize (NR i Q). lia.
    - exact (pair_consistent series_tensors series_names l r Cl Cr).
    - cbv zeta. apply visible_abs. apply (multiple_visible u' _ VU). destruct Ml as [a Ea], Mr as [b Eb]. exists (a * b)%Z. rewrite Ea, Eb, Eu, Qc_of_Z_mul. ring. }
  rewrite Forall_forall in *. intros t Ht. split; auto.
Qed.
Definition start_usable (t : term) : bool := match ttensors t with [] => false | _ => forallb (fun x => match tcls x with THole => false | _ => true end) (ttensors t) end.
Lemma start_usable_spec t : start_usable t = true -> usable t.
Proof.
  unfold start_usable, usable, hole_free, filled. intros H. destruct (ttensors t) as [|x xs]; [discriminate|]. split; [|discriminate]. rewrite forallb_forall in H. apply Forall_forall. intros y Hy E. specialize (H y Hy). rewrite E in H. discriminate.
Qed.
Lemma start_fits l : bch_start = Ok l -> Forall (fits 4 quarter) l.
Proof.
  intros H. pose proof (start_members l H) as M. destruct start_checked as (l' & H' & C). rewrite H in H'. injection H' as <-. rewrite forallb_forall in C. rewrite Forall_forall in *. intros t Ht. split; [auto|]. specialize (C t Ht). unfold start_check in C. rewrite !andb_true_iff in C. destruct C as [_ X].
  destruct (ttensors t) as [|x [|]] eqn:Ex; try discriminate X. rewrite !andb_true_iff in X. destruct X as (((((X1 & _) & _) & _) & _) & _). apply start_usable_spec. unfold start_usable. rewrite Ex. clear - X1. cbn [forallb]. destruct (tcls x); (reflexivity || discriminate X1).
Qed.
Lemma cluster_usable k start ex name sg hl pl ty t : cluster_operator k start ex name sg hl pl ty = Ok t -> usable t.
Proof.
  intros H. destruct (cluster_ok _ _ _ _ _ _ _ _ _ H) as (_ & _ & F3 & _). apply start_usable_spec. unfold start_usable. rewrite F3. reflexivity.
Qed.
Lemma operators_usable levels start unitary sr ts : cluster_operators levels start unitary sr = Ok ts -> Forall usable ts.
Proof.
  unfold cluster_operators. cbv zeta. intros H. destruct (pymap (fun k => cluster_operator k start true _ _ _ _ _) levels) as [amps|] eqn:E1; [|discriminate]. cbn [pybind] in H.
  assert (G : forall (f : nat -> pyres term) l ts', (forall k t, f k = Ok t -> usable t) -> pymap f l = Ok ts' -> Forall usable ts').
  { intros f l ts' Hf E. apply pymap_results in E. induction E; constructor; eauto. }
  destruct unitary.
  - destruct (pymap (fun k => cluster_operator k start false _ _ _ _ _) levels) as [damps|] eqn:E2; [|discriminate]. cbn [pybind] in H. injection H as <-. apply Forall_app. split; [eapply G; [|exact E1]|eapply G; [|exact E2]]; intros k t; apply cluster_usable.
  - injection H as <-. eapply G; [|exact E1]. intros k t; apply cluster_usable.
Qed.
Theorem bch_printable ws n cl cu os fc sr un np h outs : (forall i a b, sound (fst (ws i a b)) /\ sound (snd (ws i a b))) ->
  (4 * Z.of_nat (fact n) * Z.of_nat (fact (list_max cl)) ^ (2 * Z.of_nat n) <= 1000000000)%Z ->
  bch_cc_rsc ws n cl cu os fc true sr un np h = Ok outs -> forall i, Forall printable (nth i outs []).
Proof.
  intros WS B H. unfold bch_cc_rsc in H.
  destruct (per_level n cu) as [levels|] eqn:E1; [|discriminate]. cbn [pybind] in H. destruct (per_level n os) as [opens|] eqn:E2; [|discriminate]. cbn [pybind] in H. destruct cl as [|c0 cl0]; [discriminate|]. set (cl := c0 :: cl0) in *.
  destruct (pymap _ (seq 0 n)) as [amps|] eqn:E3; [|discriminate]. cbn [pybind] in H. destruct bch_start as [hl|] eqn:E4; [|discriminate]. cbn [pybind] in H. destruct (commutator_loop _ _ 1 hl amps) as [outs'|] eqn:E5; [|discriminate]. cbn [pybind] in H. injection H as <-.
  set (m := list_max cl) in *. set (N := fun k => k * (m * 2) + 4). rewrite <- denominator_closed in B.
  assert (LA : length amps = n) by (apply pymap_results in E3; apply Forall2_len in E3; rewrite seq_length in E3; symmetry; exact E3).
  assert (AM : forall i rs, nth_error amps i = Some rs -> i < n /\ cluster_operators cl (N i) un sr = Ok rs).
  { intros i rs Hi. assert (Li : i < n) by (rewrite <- LA; apply nth_error_Some; congruence). split; [exact Li|]. apply pymap_results in E3. assert (G : forall l l' k x y, Forall2 (fun i t => bch_amplitudes cl un sr i = Ok t) l l' -> nth_error l k = Some x -> nth_error l' k = Some y -> bch_amplitudes cl un sr x = Ok y).
    { clear. intros l l' k x y F. revert k. induction F as [|a b l l' Q _ IH]; intros [|k] X Y; try discriminate; cbn in X, Y; [congruence|eapply IH; eassumption]. }
    assert (Q : nth_error (seq 0 n) i = Some i) by (rewrite (nth_error_nth' _ 0) by (rewrite seq_length; exact Li); rewrite seq_nth by exact Li; reflexivity). exact (G _ _ _ _ _ E3 Q Hi). }
  assert (DB : forall k, k <= n -> (0 < series_denominator m k <= 1000000000)%Z) by (intros k Hk; split; [apply denominator_pos|]; etransitivity; [apply denominator_mono, Hk|exact B]).
  assert (VU : forall k, k <= n -> Qcle tiny (Qc_abs (series_unit m k))).
  { intros k Hk. rewrite unit_denominator. apply inverse_visible. destruct (DB k Hk) as [D1 D2]. split; [exact D1|]. etransitivity; [exact D2|]. vm_compute. discriminate. }
  pose proof (start_fits hl E4) as F0.
  assert (FT : forall i, i <= n -> Forall (fits (N i) (series_unit m i)) (nth i (hl :: outs') [])).
  { intros [|i] Hi; [exact F0|]. cbn [nth]. destruct (nth_error outs' i) as [L|] eqn:EL; [|apply nth_error_None in EL; rewrite nth_overflow by exact EL; constructor]. rewrite (nth_error_nth _ _ _ EL).
    apply (loop_members (fun k => fits (N k) (series_unit m k)) from_term (commutator_at ws levels opens inv_nat fc true np h) amps) with (tail := amps) (k := 0) (lp := hl) (outs := outs'); try assumption; try reflexivity.
    - intros k t t'. apply fits_copy.
    - intros k l out Hk. apply fits_combine, VU. lia.
    - intros j a b l r rs out Hj Hr FL E. destruct (AM j rs Hj) as [Lj Q]. unfold commutator_at, at_level in E. replace (Datatypes.S j - 1) with j in E by lia. destruct (nth j opens (0%Z, 0%Z)) as [mn mx]. destruct (WS (Datatypes.S j) a b) as [W1 W2].
      pose proof (operators_usable _ _ _ _ _ Q) as UR. apply operators_factors in Q. rewrite Forall_forall in Q, UR. specialize (Q r Hr). fold m in Q. replace (N j + m * 2) with (N (Datatypes.S j)) in Q by (unfold N; lia).
      exact (fits_step _ _ l r _ _ _ _ fc np h out _ _ _ _ _ W1 W2 FL Q (UR r Hr) eq_refl (VU (Datatypes.S j) Lj) E). }
  intros i. destruct (le_lt_dec i n) as [Hi|Hi].
  - eapply Forall_impl; [|exact (FT i Hi)]. intros t [[M1 _ M3 M4] US]. rewrite unit_denominator in M4. exact (printable_term _ t (DB i Hi) M1 (conj M3 M4) US).
  - rewrite nth_overflow; [constructor|]. cbn [length]. enough (length outs' = n) by lia. clear - E5 LA. revert E5. rewrite <- LA. generalize 1 as k. intros k E5. clear LA. revert k hl outs' E5. induction amps as [|rs amps IH]; intros k lp outs H; cbn [commutator_loop] in H; [injection H as <-; reflexivity|].
    repeat (match type of H with pybind ?a _ = _ => destruct a as [?|] eqn:?E; cbn [pybind] in H; [|discriminate] end). injection H as <-. cbn [length]. f_equal. eapply IH. eassumption.
Qed.

(** ** nested_commutator_cc *)
Lemma within_some terms : exists N, within N terms.
Proof.
  exists (length (all_indices terms) + list_max (map snd (flat_map tindices terms)) + 1). split; [lia|]. intros t i Ht Hi. assert (In (snd i) (map snd (flat_map tindices terms))) by (apply in_map, in_flat_map; eauto). apply list_max_in in H. lia.
Qed.
Theorem nested_printable ws order n levels mc mx mn fc sr un np h out : (forall k, sound (ws k)) -> (forall p, Permutation (order p) p) -> 1 <= n -> ~ In 0 levels ->
  (4 * Z.of_nat (fact n) * Z.of_nat (fact (list_max levels)) ^ (2 * Z.of_nat n) <= 1000000000)%Z ->
  nested_commutator_cc ws order n levels mc mx mn fc true sr un np h = Ok out -> Forall printable out.
Proof.
  intros SW PO Hn NZ BD H. assert (BD' : (4 * Z.of_nat (fact n) * Z.of_nat (fact (list_max levels)) ^ (2 * Z.of_nat n) <= 10 ^ 15)%Z) by (etransitivity; [exact BD|vm_compute; discriminate]).
  destruct (C48_products order n levels un sr PO Hn) as (tasks & E & F & _). rewrite E in H. destruct (pymap _ (positions tasks)) as [outs|] eqn:EO; [|discriminate]. cbn [pybind] in H.
  set (m := list_max levels) in *. assert (VU : Qcle tiny (Qc_abs (series_unit m n))) by exact (unit_visible m n BD').
  assert (DB : (0 < series_denominator m n <= 1000000000)%Z) by (split; [apply denominator_pos|rewrite denominator_closed; exact BD]).
  assert (G : Forall (fun t => (regular t /\ usable t) /\ good series_tensors (series_unit m n) t) (concat outs)).
  { apply pymap_results in EO. rewrite <- (positions_snd tasks) in F. rewrite Forall_map in F. clear E H. induction EO as [|kt o ts outs EO _ IH]; [constructor|]. cbn [concat]. apply Forall_app. split; [|exact (IH (Forall_inv_tail F))].
    destruct (Forall_inv F) as (F1 & F2 & F3 & F4). pose proof (task_product levels sr n (snd kt) NZ F1 F2 F3 F4) as PK. pose proof (product_good mc mx mn h true np m n BD' _ _ _ _ (SW (fst kt)) PK EO) as G. destruct F4 as (l & h0 & r & E & (k & K & EH) & FA).
    assert (RU : Forall (fun t => regular t /\ usable t) (snd (snd kt))).
    { rewrite E. assert (X : Forall (fun t => regular t /\ usable t) (l ++ r)).
      { eapply Forall_impl; [|exact FA]. intros t (j & st & ex & Hj & Ej). split; [|exact (cluster_usable _ _ _ _ _ _ _ _ _ Ej)]. apply (amplitude_ingredient j st ex sr t m); [apply list_max_in, Hj|intros ->; contradiction|exact Ej]. }
      apply Forall_app in X as [X1 X2]. apply Forall_app. split; [exact X1|]. constructor; [|exact X2]. split; [apply (hamiltonian_ingredient k h0 K EH)|]. apply start_usable_spec. clear - EH K. destruct K as [-> | ->]; vm_compute in EH; injection EH as <-; reflexivity. }
    destruct PK as [P1 P2 P3 P4 P5 P6]. pose proof (multiple_visible _ _ VU P5) as VC. destruct (SW (fst kt)) as (U & I & D). destruct (within_some (snd (snd kt))) as [N WN].
    assert (RG : Forall regular (snd (snd kt))) by (eapply Forall_impl; [|exact RU]; intros t [Q _]; exact Q). assert (US : Forall usable (snd (snd kt))) by (eapply Forall_impl; [|exact RU]; intros t [_ Q]; exact Q).
    pose proof (contract_closed _ _ _ _ _ _ _ _ _ _ _ N U I D RG P2 (list_consistent _ P3) WN EO) as R. pose proof (contract_usable _ _ _ _ _ _ _ _ _ _ U I P1 P2 (list_consistent _ P3) (visible_abs _ VC) US EO) as US'.
    rewrite Forall_forall in *. intros t Ht. split; [split; [apply (R t Ht)|auto]|auto]. }
  assert (G1 : Forall (good series_tensors (series_unit m n)) (concat outs)) by (eapply Forall_impl; [|exact G]; intros t [_ Q]; exact Q).
  destruct (good_combine series_tensors series_names (series_unit m n) (or_intror VU) (concat outs) G1) as (out' & E' & GO & _). rewrite H in E'. injection E' as <-.
  pose proof (combine_all (fun t => regular t /\ usable t) (fun t c Q => conj (set_coeff_regular t c (proj1 Q)) (proj2 Q)) (concat outs) out) as R. specialize (R ltac:(eapply Forall_impl; [|exact G]; intros t [Q _]; exact Q) H).
  rewrite Forall_forall in *. intros t Ht. specialize (GO t Ht). rewrite unit_denominator in GO. destruct (R t Ht) as [R1 R2]. exact (printable_term _ t DB R1 GO R2).
Qed.
