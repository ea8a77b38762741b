(** Commutators with excitations between core and virtual orbitals have no cumulants. *)
From Coq Require Import Ascii String ZArith QArith Qcanon Sorting.Sorted Lia Bool Ring_theory Ring.
From Verif Require BacktrackProofs SortProofs.
From Verif Require Import PyBase OrderSpec OrderProofs ParitySpec SpaceModel IndexModel IndexProofs IndicesModel IterProofs IndicesProofs SpaceProofs ElemModel ElemSpec CompatSpec MacroModel WickModel WickSpec WickProofs TermModel BchSpec ValueSpec ValueProofs TermSpec SumProofs TermProofs RenameProofs
  DriverProofs ConnectedProofs CommProofs OperatorProofs SimplifyProofs SimplifyValue SymmetryModel SymmetrySpec SympyValue SympyShape CombineModel BchModel CombineSpec CombineProofs CombineValue PropSimplify PropWick PropCanon ScheduleProofs ContractSpec ContractValue PropContract LoopSpec BchLoop LevelSpec ClosureProofs LevelProofs
  PropOperator SeriesProofs SeriesOperator NestedOperator PropBch PropLevels TaskProofs SeriesSpec PipelineTerms PipelineLevels.
Local Close Scope Q_scope.
Local Close Scope Qc_scope.
Local Open Scope nat_scope.
Local Notation length := List.length.

(** H or T with one to nine upper and as many lower indices *)
Definition writable (x : tensor) : Prop := length (tlower x) = length (tupper x) /\ 1 <= length (tupper x) <= 9 /\ (tname x = "H"%string \/ tname x = "T"%string).
Definition writables (t : term) : Prop := Forall writable (ttensors t).
Lemma writable_alike x y : alike x y -> writable x -> writable y.
Proof. intros [_ _ A3 _ A5 A6] (W1 & W2 & W3). unfold writable. rewrite A3, A5, A6. auto. Qed.
Lemma writables_set t c : writables t -> writables (set_coeff t c).
Proof. exact (fun H => H). Qed.
Lemma writables_perm t t' : Permutation (ttensors t') (ttensors t) -> writables t -> writables t'.
Proof. intros P H. unfold writables in *. exact (Permutation_Forall (Permutation_sym P) H). Qed.

(** ** simplify drops Kronecker deltas and one-body cumulants of core orbitals *)
Lemma downgrade_loop_kept core xs : forall st ys st', downgrade_loop core xs st = Ok (ys, st') -> forall y, In y ys -> tcls y = TKronecker \/ (In y xs /\ core_delta core y = false).
Proof.
  induction xs as [|x xs IH]; intros st ys st' H y I; cbn [downgrade_loop] in H; [injection H as <- _; destruct I|].
  destruct (downgrade_step core x st) as [[y0 st1]|] eqn:E1; [|discriminate]. cbn [pybind snd fst] in H. destruct (downgrade_loop core xs st1) as [[ys' st2]|] eqn:E2; [|discriminate]. cbn [pybind snd fst] in H. injection H as <- <-.
  destruct I as [<-|I]; [|destruct (IH _ _ _ E2 y I) as [K|[K1 K2]]; [left; exact K|right; split; [right|]; assumption]].
  unfold downgrade_step in E1. destruct (tcls x) eqn:Ec; try (injection E1 as <- _; right; split; [left; reflexivity|unfold core_delta; rewrite Ec; reflexivity]). destruct (length (tupper x) =? 1) eqn:L1.
  - destruct (tupper x) as [|u [|? ?]] eqn:Eu; try discriminate. destruct (tlower x) as [|l [|? ?]] eqn:El; try discriminate. destruct (downgrade_cumulant u l) as [s|] eqn:Ed; [|discriminate]. destruct (_ && _) eqn:Es.
    + destruct (check_tensor _) as [k|] eqn:Ek; [|discriminate]. apply check_tensor_ok in Ek as ->. injection E1 as <- _. left. reflexivity.
    + injection E1 as <- _. right. split; [left; reflexivity|]. unfold core_delta. rewrite Ec, Eu, El, Ed. exact Es.
  - injection E1 as <- _. right. split; [left; reflexivity|]. unfold core_delta. rewrite Ec. destruct (tupper x) as [|u [|? ?]]; try reflexivity. discriminate.
Qed.
Lemma replace_tensor_alike r x y : replace_tensor r x = Ok y -> alike x y.
Proof.
  unfold replace_tensor, replace. intros H. repeat (match type of H with pybind ?a _ = _ => destruct a as [?|] eqn:?E; cbn [pybind] in H; [|discriminate] end). unfold from_indices in H. apply check_tensor_ok in H as ->.
  repeat (match goal with Q : make_typed _ _ = Ok _ |- _ => apply make_typed_ok in Q as [-> _] end). repeat (match goal with Q : pymap _ _ = Ok _ |- _ => apply pymap_results, Forall2_len in Q end). constructor; cbn; congruence.
Qed.
Lemma simplify_kept core ra t t' : simplify core ra t = Ok t' -> forall y, In y (ttensors t') -> exists x, In x (ttensors t) /\ is_delta core x = false /\ alike x y.
Proof.
  intros H y I. unfold simplify in H.
  destruct (downgrade_loop core _ _) as [[xs1 [[rcu next1] rd1]]|] eqn:E1; [|discriminate]. cbn [pybind] in H.
  destruct (delta_loop xs1 _) as [[xs2 [[rde next2] rd2]]|] eqn:E2; [|discriminate]. cbn [pybind] in H.
  destruct (diagonal_loop _ _ _ _ _) as [[r next3]|]; [|discriminate]. cbn [pybind] in H.
  destruct (replace_op_indices _ _ _) as [o|]; [|discriminate]. cbn [pybind] in H.
  destruct (if ra then _ else _) as [active|]; [|discriminate]. cbn [pybind] in H. destruct active; [injection H as <-; destruct I|].
  destruct (replace_tensors_indices xs2 r) as [xs3|] eqn:E3; [|discriminate]. cbn [pybind] in H.
  destruct (pymap _ (tdiag t)) as [d|]; [|discriminate]. cbn [pybind] in H. injection H as <-. cbn [ttensors] in I.
  unfold replace_tensors_indices in E3. destruct xs2 as [|x0 xs2']; [discriminate|]. set (xs2 := x0 :: xs2') in *. clearbody xs2.
  apply pymap_forall2 in E3. assert (G : exists x, In x xs2 /\ replace_tensor r x = Ok y).
  { clear - E3 I. induction E3 as [|x z l m Hxz _ IH]; [destruct I|]. destruct I as [<-|I]; [exists x; split; [left; reflexivity|exact Hxz]|]. destruct (IH I) as (x' & I' & E'). exists x'. split; [right|]; assumption. }
  destruct G as (x & Ix & Ex). destruct (delta_loop_kinds _ _ _ _ E2 x Ix) as [Ix1 NK]. destruct (downgrade_loop_kept _ _ _ _ _ E1 x Ix1) as [K|[K1 K2]]; [contradiction|]. exists x. split; [exact K1|]. split; [|exact (replace_tensor_alike _ _ _ Ex)].
  unfold is_delta. rewrite K2, orb_false_r. destruct (tcls x); try reflexivity. contradiction.
Qed.

(** ** Contractions with at most one operator that is not made of core and virtual indices *)
Definition excitation (o : op) : Prop := Forall (fun i => core_or_virtual i = true) (op_indices o).
Definition mostly (ops : list op) : Prop := exists k0, forall k o, nth_error ops k = Some o -> k <> k0 -> excitation o.
Lemma core_pair u l : alpha u -> alpha l -> core_or_virtual u = true \/ core_or_virtual l = true -> cumulant_nonzero u l -> exists s, downgrade_cumulant u l = Some s /\ lsp s = Sc.
Proof.
  destruct u as [[bu su] nu], l as [[bl sl] nl]. unfold alpha, core_or_virtual, space_is, cumulant_nonzero, share_space, downgrade_cumulant. cbn [fst lbeta lsp]. intros -> -> C (s & N & H1 & H2).
  destruct su, sl; cbn in C, H1, H2; try (destruct C; discriminate); (exists (Lab false Sc); split; [|reflexivity]); try reflexivity; exfalso; (destruct H1 as [<-|H1]; repeat (try destruct H1 as [<-|H1]); try contradiction); (repeat (destruct H2 as [H2|H2]; try discriminate H2; try contradiction); try contradiction; try congruence).
Qed.
Lemma virtual_pair u l : alpha u -> alpha l -> core_or_virtual u = true \/ core_or_virtual l = true -> hole_nonzero u l -> virtual_head [u] || virtual_head [l] = true.
Proof.
  destruct u as [[bu su] nu], l as [[bl sl] nl]. unfold alpha, core_or_virtual, space_is, hole_nonzero, share_space, virtual_head. cbn [fst lbeta lsp]. intros -> -> C (s & N & H1 & H2).
  destruct su, sl; cbn in C, H1, H2 |- *; try reflexivity; try (destruct C; discriminate); exfalso; (repeat (try destruct H1 as [<-|H1]; try contradiction)); (repeat (destruct H2 as [H2|H2]; try discriminate H2; try contradiction); try contradiction; try congruence).
Qed.
Lemma legs_in pure p : In p (legs pure) -> exists o, nth_error pure (fst p) = Some o /\ In (snd p) o.
Proof.
  unfold legs. intros H. apply in_flat_map in H as ([k o] & H1 & H2). apply in_map_iff in H2 as (i & <- & Hi). cbn [fst snd] in *. exists o. split; [|exact Hi].
  assert (G : forall (l : list (list idx)) s, In (k, o) (enumerate s l) -> s <= k /\ nth_error l (k - s) = Some o).
  { clear. induction l as [|x l IH]; intros s H; [destruct H|]. cbn [enumerate] in H. destruct H as [[= <- <-]|H]; [rewrite Nat.sub_diag; split; [lia|reflexivity]|]. apply IH in H as [L H]. split; [lia|]. replace (k - s) with (Datatypes.S (k - Datatypes.S s)) by lia. exact H. }
  apply G in H1 as [_ H1]. rewrite Nat.sub_0_r in H1. exact H1.
Qed.
Lemma active_legs ops k0 (f : op -> list idx) c p : (forall o i, In i (f o) -> In i (op_indices o)) -> (forall k o, nth_error ops k = Some o -> k <> k0 -> excitation o) -> incl c (legs (map (fun o => filter active_like (f o)) ops)) -> In p (map fst c) -> p = k0.
Proof.
  intros Hf M I H. apply in_map_iff in H as ([k i] & <- & H). apply I, legs_in in H as (l & H1 & H2). cbn [fst snd] in *. rewrite nth_error_map in H1. destruct (nth_error ops k) as [o|] eqn:E; [|discriminate]. cbn in H1. injection H1 as <-. apply filter_In in H2 as [H2 A].
  destruct (Nat.eq_dec k k0) as [Q|Q]; [exact Q|]. exfalso. specialize (M k o E Q). unfold excitation in M. rewrite Forall_forall in M. specialize (M i (Hf o i H2)). unfold active_like in A. unfold core_or_virtual, space_is in M. destruct i as [[b s] n]. destruct b, s; cbn in A, M; discriminate.
Qed.
(** what is left after simplify *)
Definition vanishing (d : density) : Prop := is_delta true (tensor_of d) = true.
Lemma allowed_pairs ops K e : mostly ops -> Forall op_alpha ops -> allowed ops K e ->
  exists u l, upper e = [u] /\ lower e = [l] /\ alpha u /\ alpha l /\ (core_or_virtual u = true \/ core_or_virtual l = true) /\ (if hole e then hole_nonzero u l else cumulant_nonzero u l).
Proof.
  intros [k0 M] AL [key P|k c a Hk Hc Ha Lc La NO ->].
  - assert (G : forall i j left right, i < j -> nth_error ops i = Some left -> nth_error ops j = Some right -> (op_alpha left /\ op_alpha right) /\ (excitation left \/ excitation right)).
    { intros i j left right L A B. rewrite Forall_forall in AL. split; [split; apply AL; eapply nth_error_In; eassumption|]. destruct (Nat.eq_dec i k0) as [->|Q]; [right; apply (M j right B); lia|left; exact (M i left A Q)]. }
    assert (X : forall o i, excitation o -> In i (cre o) \/ In i (ann o) -> core_or_virtual i = true) by (intros o i E H; unfold excitation in E; rewrite Forall_forall in E; apply E; unfold op_indices; apply in_or_app; exact H).
    destruct P as [i j left right u l L A B U V N|i j left right u l L A B U V N]; destruct (G i j left right L A B) as [[[C1 C2] [C3 C4]] EX]; rewrite Forall_forall in C1, C2, C3, C4; exists u, l; cbn [upper lower hole]; repeat (split; [solve [reflexivity|auto]|]); (split; [|exact N]); destruct EX as [EX|EX]; eauto.
  - exfalso. apply NO. intros x y Hx Hy. assert (SU : forall (c l : list (nat * idx)), subseq c l -> incl c l) by (intros c0 l0 S; induction S; intros z Hz; [destruct Hz|..]; firstorder).
    assert (Q : forall z, In z (map fst c ++ map fst a) -> z = k0).
    { intros z Hz. apply in_app_or in Hz as [Hz|Hz]; [apply (active_legs ops k0 cre c z)|apply (active_legs ops k0 ann a z)]; try assumption; try (apply SU; assumption); intros o i Hi; unfold op_indices; apply in_or_app; auto. }
    rewrite (Q x Hx), (Q y Hy). reflexivity.
Qed.
Lemma expand_vanishing cons z l :
  Forall (fun e => exists u l, upper e = [u] /\ lower e = [l] /\ alpha u /\ alpha l /\ (core_or_virtual u = true \/ core_or_virtual l = true) /\ (if hole e then hole_nonzero u l else cumulant_nonzero u l)) cons ->
  In (z, l) (expand_hole_densities (map density_of cons)) -> Forall vanishing l.
Proof.
  intros F H. unfold expand_hole_densities in H.
  assert (G : forall bad e, (forall d, In d bad -> virtual_head (dupper d) || virtual_head (dlower d) = true) -> In e (iproduct (map expand_hole_density bad)) -> Forall vanishing e).
  { clear. induction bad as [|d bad IH]; cbn [map iproduct]; intros e V H; [destruct H as [<-|[]]; constructor|].
    apply in_flat_map in H as (y0 & Hy0 & H). apply in_map_iff in H as (e' & <- & H). constructor; [|apply IH; [intros; apply V; right; assumption|exact H]]. unfold expand_hole_density in Hy0. rewrite (V d (or_introl eq_refl)) in Hy0. destruct Hy0 as [<-|[]]. reflexivity. }
  assert (VH : forall d, In d (filter is_hole (map density_of cons)) -> virtual_head (dupper d) || virtual_head (dlower d) = true).
  { intros d Hd. apply filter_In in Hd as [Hd Hh]. apply in_map_iff in Hd as (e & <- & He). rewrite Forall_forall in F. destruct (F e He) as (u & l0 & E1 & E2 & A1 & A2 & C & N). unfold is_hole, density_of in Hh. unfold density_of. cbn [dupper dlower kind] in *. destruct (hole e); [|discriminate]. rewrite E1, E2. exact (virtual_pair u l0 A1 A2 C N). }
  assert (K : Forall vanishing (filter (fun d => negb (is_hole d)) (map density_of cons))).
  { apply Forall_forall. intros d Hd. apply filter_In in Hd as [Hd Hh]. apply in_map_iff in Hd as (e & <- & He). rewrite Forall_forall in F. destruct (F e He) as (u & l0 & E1 & E2 & A1 & A2 & C & N). unfold is_hole, density_of in Hh. unfold vanishing, tensor_of, density_of. cbn [dupper dlower kind] in *. destruct (hole e); [discriminate|]. rewrite E1, E2.
    unfold is_delta, core_delta. cbn [tcls tupper tlower]. destruct (core_pair u l0 A1 A2 C N) as (s & -> & ->). reflexivity. }
  destruct (map expand_hole_density (filter is_hole (map density_of cons))) as [|x xs] eqn:E.
  - destruct H as [[= <- <-]|[]]. destruct (filter is_hole (map density_of cons)) eqn:B; [|discriminate]. rewrite Forall_forall in *. intros d Hd. apply K. apply filter_In. split; [exact Hd|]. destruct (is_hole d) eqn:Q; [|reflexivity]. assert (I : In d (filter is_hole (map density_of cons))) by (apply filter_In; auto). rewrite B in I. destruct I.
  - rewrite <- E in *. apply in_map_iff in H as (e & [= _ <-] & H). apply Forall_app. split; [exact K|exact (G _ _ VH H)].
Qed.
Lemma entry_vanishing ops (P : list econ -> Prop) K lo hi r z ds sq : mostly ops -> Forall op_alpha ops -> (forall s, P s -> wick_set ops K lo hi s) -> wick_sum ops true P r -> In (z, ds, sq) (concat r) -> Forall vanishing ds.
Proof.
  intros M AL Hp (sets & blocks & (O & _) & F & E) H. rewrite E in H. apply in_concat in H as [b [Hb H]]. destruct (Forall2_in_r _ _ _ _ F Hb) as [s [Hs Es]].
  pose proof (ws_allowed _ _ _ _ _ (Hp s (proj2 (O s Hs)))) as A. destruct Es as (cons & sign & sq' & PC & _ & ->). apply in_map_iff in H as [[z' ds'] [[= _ <- _] H]]. cbn [fst snd] in *.
  apply (expand_vanishing cons z' ds'); [|exact H]. apply Forall_forall. intros e He. apply (allowed_pairs ops K e M AL). rewrite Forall_forall in A. apply A. exact (Permutation_in _ PC He).
Qed.

(** ** Canonical forms *)
Lemma writable_movable h : movable h (fun _ xs => Forall writable xs).
Proof.
  constructor.
  - auto.
  - intros _ l1 x x' l2 F A _. apply Forall_app in F as [F1 F2]. inversion F2; subst. apply Forall_app. split; [assumption|]. constructor; [eapply writable_alike; eassumption|assumption].
  - intros _ l1 x y x' y' l2 F A B _ _ _ _ _. apply Forall_app in F as [F1 F2]. inversion F2 as [|? ? X F3]; subst. inversion F3; subst. apply Forall_app. split; [assumption|]. constructor; [exact (writable_alike _ _ A X)|]. constructor; [eapply writable_alike; eassumption|assumption].
  - intros _ xs tau F _ _. rewrite Forall_map. eapply Forall_impl; [|exact F]. intros x. unfold writable, rename_tensor. cbn [tupper tlower tname]. rewrite !map_length. auto.
Qed.
Lemma canonical_writable w terms hermitian c z ds sq tm : admissible (w_sympy w) -> Forall regular terms -> ForallOrdPairs apart_terms terms -> consistent_names (flat_map ttensors terms) ->
  Permutation (written_string (map tsq terms)) (flat_map density_legs ds ++ open_string sq) -> Forall density_shape ds -> Forall (crosses terms) ds -> Forall writables terms -> Forall vanishing ds ->
  canonicalize_contraction w (flat_map ttensors terms) c hermitian (z, ds, sq) = Ok tm -> writables tm.
Proof.
  intros AD RG AP CN PL SH CR WT VN H. unfold canonicalize_contraction in H. destruct (make_term _ _ _ _) as [t0|] eqn:M; [|discriminate]. cbn [pybind] in H.
  assert (exists t', simplify true true t0 = Ok t') as [t' HS]. { unfold canonicalize_sympy in H. destruct (simplify true true t0) as [t'|]; [eauto|discriminate]. }
  destruct (simplified_shape terms RG AP CN ds sq PL SH CR _ t0 t' M HS) as (S1 & S2 & S3 & S4 & S5 & S6).
  assert (W' : Forall writable (ttensors t')).
  { apply Forall_forall. intros y Hy. destruct (simplify_kept _ _ _ _ HS y Hy) as (x & Hx & ND & A). apply (writable_alike x y A). destruct (make_term_fields _ _ _ _ _ M) as (_ & F2 & _). apply (Permutation_in _ F2) in Hx. apply in_app_or in Hx as [Hx|Hx].
    - apply in_flat_map in Hx as (t & Ht & Hx). rewrite Forall_forall in WT. specialize (WT t Ht). unfold writables in WT. rewrite Forall_forall in WT. auto.
    - exfalso. apply in_map_iff in Hx as (d & <- & Hd). rewrite Forall_forall in VN. specialize (VN d Hd). unfold vanishing in VN. congruence. }
  destruct (sympy_shape _ (w_sympy w) true true hermitian t0 t' tm (writable_movable hermitian) AD HS H) as [[_ ->]|(ys & o & c' & dummy & M' & P & _)]; try assumption.
  - rewrite S1. exact S2.
  - constructor.
  - unfold writables. destruct (make_term_fields _ _ _ _ _ M') as (_ & F2 & _). exact (Permutation_Forall (Permutation_sym F2) P).
Qed.
Theorem contract_writable w terms max_cu max_o min_o sc fc n hermitian out :
  unordered w -> (forall l, Permutation (w_iter w l) l) -> admissible (w_sympy w) -> Forall regular terms -> ForallOrdPairs apart_terms terms -> consistent_names (flat_map ttensors terms) ->
  (exists a t b, terms = a ++ t :: b /\ Forall (fun t => excitation (tsq t)) (a ++ b)) -> Forall writables terms ->
  contract_terms w terms max_cu max_o min_o sc fc true n hermitian = Ok out -> Forall writables out.
Proof.
  intros UN IT AD RG AP CN MO WT H. pose proof (regular_all terms RG) as ST. unfold contract_terms in H. destruct terms as [|t0 ts]; [discriminate|]. assert (H0 : In t0 (t0 :: ts)) by (left; reflexivity). set (terms := t0 :: ts) in *. clearbody terms. cbv zeta in H.
  assert (ST' := ST). rewrite Forall_forall in ST'.
  assert (SE : forall ty o c t, make_term ty (flat_map ttensors terms) o c = Ok t -> writables t).
  { intros ty o c t M. destruct (make_term_fields _ _ _ _ _ M) as (_ & F2 & _). unfold writables. apply Forall_forall. intros x Hx. apply (Permutation_in _ F2), in_flat_map in Hx as (t1 & H1 & Hx). rewrite Forall_forall in WT. specialize (WT t1 H1). unfold writables in WT. rewrite Forall_forall in WT. auto. }
  destruct (filter (fun t => negb (op_is_empty (tsq t))) terms) as [|t1 [|t2 tc]] eqn:F.
  - destruct (make_term _ _ _ _) as [t|] eqn:M; [|discriminate]. cbn [pybind] in H. injection H as <-. constructor; [exact (SE _ _ _ _ M)|constructor].
  - destruct (make_term _ _ _ _) as [t|] eqn:M; [|discriminate]. cbn [pybind] in H. injection H as <-. constructor; [exact (SE _ _ _ _ M)|constructor].
  - clear SE. rewrite <- F in *. set (ops := map tsq (filter (fun t => negb (op_is_empty (tsq t))) terms)) in *.
    destruct (forallb _ (filter _ terms)) in H; [|discriminate]. pose proof (standard_alpha terms ST) as Hal. pose proof (standard_distinct terms ST AP) as D. fold ops in Hal, D, H.
    assert (MS : mostly ops).
    { destruct MO as (a & t & b & E & FE). set (p := fun t => negb (op_is_empty (tsq t))) in *. exists (length (filter p a)). intros k o Ho Hk. unfold ops in Ho. rewrite nth_error_map, E, filter_app in Ho. cbn [filter] in Ho. destruct (nth_error _ k) as [tk|] eqn:Ek; [|discriminate]. cbn in Ho. injection Ho as <-.
      assert (I : In tk (a ++ b)); [|rewrite Forall_forall in FE; exact (FE tk I)]. destruct (lt_eq_lt_dec k (length (filter p a))) as [[L|L]|L]; [|contradiction|].
      - rewrite nth_error_app1 in Ek by exact L. apply nth_error_In, filter_In in Ek. apply in_or_app. left. apply Ek.
      - rewrite nth_error_app2 in Ek by lia. apply in_or_app. right. destruct (p t).
        + destruct (k - length (filter p a)) as [|k'] eqn:Q; [lia|]. cbn [nth_error] in Ek. apply nth_error_In, filter_In in Ek. apply Ek.
        + apply nth_error_In, filter_In in Ek. apply Ek. }
    assert (G : exists result (P : list econ -> Prop), compute_operator_contractions (w_pick w) (w_pick_connected w) (w_iter w) fc ops max_cu max_o min_o true = Ok result /\ wick_sum ops true P result /\
      (forall s, P s -> wick_set ops (cumulant_level ops max_cu) min_o max_o s)).
    { destruct fc.
      - destruct (connected_driver_ok (w_pick_connected w) ops max_cu max_o min_o true Hal D) as (r & P & E & W & P1 & P2). exists r, P. split; [exact E|]. split; [exact W|]. intros s Hs. destruct (P1 s Hs) as (Q1 & _). exact Q1.
      - destruct (C32_entry_point (w_pick w) (w_pick_connected w) (w_iter w) ops max_cu max_o min_o true Hal IT D) as (r & E & W). exists r, (wick_set ops (cumulant_level ops max_cu) min_o max_o). split; [exact E|]. split; [exact W|]. auto. }
    destruct G as (r & P & E & W & P1). rewrite E in H. cbn [pybind] in H. destruct (batch_loop w _ _ _ _ _ _ _ _ _ _) as [fin|] eqn:EL; [|discriminate]. cbn [pybind] in H.
    assert (AP' : ForallOrdPairs apart_terms (filter (fun t => negb (op_is_empty (tsq t))) terms)).
    { clear -AP. induction AP as [|x l F _ IH]; cbn [filter]; [constructor|]. destruct (negb _); [|exact IH]. constructor; [|exact IH]. rewrite Forall_forall in *. intros y Hy. apply filter_In in Hy. apply F, Hy. }
    assert (ST2 : Forall standard (filter (fun t => negb (op_is_empty (tsq t))) terms)) by (apply Forall_forall; intros t Ht; apply filter_In in Ht; apply ST', Ht).
    apply (combine_all writables writables_set fin out); [|exact H]. apply (loop_all writables writables_set w UN _ _ hermitian _ _ r 0 0 [] [] fin) with (3 := EL); [|constructor].
    intros [[z ds] sq] t He Ht. cbn [app] in He. destruct (result_legs ops true P _ _ _ r z ds sq P1 W He) as (L1 & L2 & _). unfold ops in L1. rewrite filter_empty_ops in L1.
    match type of Ht with canonicalize_contraction _ _ ?cc _ _ = _ => apply (canonical_writable w terms hermitian cc z ds sq t AD RG AP CN L1) end; [exact (entry_shapes ops true P _ _ _ r z ds sq P1 W He)| |exact WT|exact (entry_vanishing ops P _ _ _ r z ds sq MS Hal P1 W He)|exact Ht].
    pose proof (entry_crosses _ true P _ _ _ r z ds sq ST2 AP' P1 W He) as CR. rewrite Forall_forall in *. intros d Hd. apply crosses_all; [apply Forall_forall; exact ST'| |apply CR, Hd|exact AP].
    intros i Hi. apply (leg_in terms ds sq L1). apply in_flat_map. exists (tensor_of d). split; [apply in_map, Hd|]. unfold tensor_indices. destruct (tensor_of_sides d) as (-> & -> & _). exact Hi.
Qed.
Lemma commutator_writable w1 w2 a b max_cu max_o min_o sc fc n h out : sound w1 -> sound w2 -> regular a -> regular b -> apart_terms a b -> consistent_names (ttensors a ++ ttensors b) ->
  excitation (tsq b) -> writables a -> writables b -> single_commutator w1 w2 a b max_cu max_o min_o sc fc true n h = Ok out -> Forall writables out.
Proof.
  intros (U1 & I1 & A1) (U2 & I2 & A2) Ra Rb AP CN EX Wa Wb H. unfold single_commutator in H. destruct (fc && _); [injection H as <-; constructor|].
  destruct (contract_terms w1 _ _ _ _ _ _ _ _ _) as [oa|] eqn:E1; [|discriminate]. cbn [pybind] in H. destruct (contract_terms w2 _ _ _ _ _ _ _ _ _) as [ob|] eqn:E2; [|discriminate]. cbn [pybind] in H.
  apply (combine_all writables writables_set (oa ++ ob) out); [|exact H]. apply Forall_app. split.
  - apply (contract_writable w1 [a; b] max_cu max_o min_o sc fc n h oa U1 I1 A1) in E1; [exact E1|auto|constructor; [constructor; [exact AP|constructor]|constructor; [constructor|constructor]]|cbn [flat_map]; rewrite app_nil_r; exact CN| |auto]. exists [], a, [b]. split; [reflexivity|cbn; auto].
  - apply (contract_writable w2 [b; a] max_cu max_o min_o (Qcopp sc) fc n h ob U2 I2 A2) in E2; [exact E2|auto|constructor; [constructor; [intros i Hi Q; exact (AP i Q Hi)|constructor]|constructor; [constructor|constructor]]| | |auto].
    + cbn [flat_map]. rewrite app_nil_r. destruct CN as [C1 C2]. split; [apply Forall_app; apply Forall_app in C1; tauto|]. intros x y Hx Hy. apply C2; rewrite !in_app_iff in *; tauto.
    + exists [b], a, []. split; [reflexivity|cbn; auto].
Qed.

(** ** The operators of the series *)
Lemma cluster_single k start ex name sg ty t : 1 <= k <= 9 -> name = "T"%string -> cluster_operator k start ex name sg (Lab false Sc) (Lab false Sv) ty = Ok t -> writables t /\ excitation (tsq t).
Proof.
  intros Hk -> H. destruct (cluster_ok _ _ _ _ _ _ _ _ _ H) as (_ & _ & F3 & F4 & _). split.
  - unfold writables. rewrite F3. constructor; [|constructor]. unfold writable. cbn [tupper tlower tname]. unfold is_range, indices_range. rewrite !map_length, !seq_length. auto.
  - unfold excitation. apply Forall_forall. intros i Hi. rewrite F4 in Hi. unfold op_indices in Hi. assert (Q : In i (is_range (Lab false Sc) start k) \/ In i (is_range (Lab false Sv) start k)) by (destruct ex; cbn [cre ann] in Hi; apply in_app_or in Hi; tauto).
    unfold core_or_virtual, space_is. destruct Q as [Q|Q]; apply is_range_in in Q as [-> _]; reflexivity.
Qed.
Lemma operators_single levels start unitary ts : (forall k, In k levels -> 1 <= k <= 9) -> cluster_operators levels start unitary true = Ok ts -> Forall (fun t => writables t /\ excitation (tsq t)) ts.
Proof.
  intros HL. unfold cluster_operators. cbv zeta. intros H. destruct (pymap (fun k => cluster_operator k start true _ _ _ _ _) levels) as [amps|] eqn:E1; [|discriminate]. cbn [pybind] in H.
  assert (G : forall (f : nat -> pyres term) l ts', (forall k t, In k l -> f k = Ok t -> writables t /\ excitation (tsq t)) -> pymap f l = Ok ts' -> Forall (fun t => writables t /\ excitation (tsq t)) ts').
  { intros f l ts' Hf E. apply pymap_results in E. induction E; constructor; [apply (Hf _ _ (or_introl eq_refl)); assumption|]. apply IHE. intros k t Hk. apply Hf. right. exact Hk. }
  destruct unitary.
  - destruct (pymap (fun k => cluster_operator k start false _ _ _ _ _) levels) as [damps|] eqn:E2; [|discriminate]. cbn [pybind] in H. injection H as <-. apply Forall_app. split; [eapply G; [|exact E1]|eapply G; [|exact E2]]; intros k t Hk; apply cluster_single; auto.
  - injection H as <-. eapply G; [|exact E1]. intros k t Hk. apply cluster_single; auto.
Qed.
Definition writableb (x : tensor) : bool := (length (tlower x) =? length (tupper x)) && (1 <=? length (tupper x)) && (length (tupper x) <=? 9) && (String.eqb (tname x) "H" || String.eqb (tname x) "T").
Lemma writableb_spec x : writableb x = true -> writable x.
Proof.
  unfold writableb, writable. rewrite !andb_true_iff, orb_true_iff, Nat.eqb_eq, !Nat.leb_le, !String.eqb_eq. tauto.
Qed.
Lemma start_writable l : bch_start = Ok l -> Forall writables l.
Proof.
  assert (H : match bch_start with Ok l => forallb (fun t => forallb writableb (ttensors t)) l | Raise _ => true end = true) by (vm_compute; reflexivity).
  intros E. rewrite E in H. clear E. rewrite forallb_forall in H. apply Forall_forall. intros t Ht. specialize (H t Ht). rewrite forallb_forall in H. unfold writables. apply Forall_forall. intros x Hx. apply writableb_spec, H, Hx.
Qed.
Lemma hamiltonian_writable k t : k = 1 \/ k = 2 -> hamiltonian_operator k 0 SpinOrbital = Ok t -> writables t.
Proof.
  intros K H. unfold writables. apply Forall_forall. intros x Hx. apply writableb_spec. revert x Hx. apply forallb_forall. destruct K as [-> | ->]; vm_compute in H; injection H as <-; reflexivity.
Qed.
Lemma small_target N t : regular t -> small N t -> 2 * length (ann (tsq t)) <= N.
Proof.
  intros R [_ S2]. pose proof (regular_standard _ R) as ST. pose proof (rg_balanced _ R) as B. pose proof (td_legs _ _ (rg_tidy _ R)) as ND. apply NoDup_app_remove_r in ND.
  assert (L : length (op_indices (tsq t)) <= length (tindices t)) by (apply NoDup_incl_length; [exact ND|]; intros i Hi; apply standard_indices; [exact ST|]; unfold content_indices; apply in_or_app; auto).
  unfold op_indices in L. rewrite app_length, B in L. lia.
Qed.
Theorem bch_single ws n cl cu os fc un np h outs : (forall i a b, sound (fst (ws i a b)) /\ sound (snd (ws i a b))) -> (forall k, In k cl -> 1 <= k <= 9) ->
  (4 * Z.of_nat (fact n) * Z.of_nat (fact (list_max cl)) ^ (2 * Z.of_nat n) <= 1000000000)%Z ->
  bch_cc_rsc ws n cl cu os fc true true un np h = Ok outs -> forall i, Forall (fun t => writables t /\ length (ann (tsq t)) <= i * list_max cl + 2) (nth i outs []).
Proof.
  intros WS HL B H. unfold bch_cc_rsc in H.
  destruct (per_level n cu) as [levels|] eqn:E1; [|discriminate]. cbn [pybind] in H. destruct (per_level n os) as [opens|] eqn:E2; [|discriminate]. cbn [pybind] in H. destruct cl as [|c0 cl0]; [discriminate|]. set (cl := c0 :: cl0) in *.
  destruct (pymap _ (seq 0 n)) as [amps|] eqn:E3; [|discriminate]. cbn [pybind] in H. destruct bch_start as [hl|] eqn:E4; [|discriminate]. cbn [pybind] in H. destruct (commutator_loop _ _ 1 hl amps) as [outs'|] eqn:E5; [|discriminate]. cbn [pybind] in H. injection H as <-.
  set (m := list_max cl) in *. set (N := fun k => k * (m * 2) + 4). rewrite <- denominator_closed in B.
  assert (LA : length amps = n) by (apply pymap_results in E3; apply Forall2_len in E3; rewrite seq_length in E3; symmetry; exact E3).
  assert (AM : forall i rs, nth_error amps i = Some rs -> i < n /\ cluster_operators cl (N i) un true = Ok rs).
  { intros i rs Hi. assert (Li : i < n) by (rewrite <- LA; apply nth_error_Some; congruence). split; [exact Li|]. apply pymap_results in E3. assert (G : forall l l' k x y, Forall2 (fun i t => bch_amplitudes cl un true i = Ok t) l l' -> nth_error l k = Some x -> nth_error l' k = Some y -> bch_amplitudes cl un true x = Ok y).
    { clear. intros l l' k x y F. revert k. induction F as [|a b l l' Q _ IH]; intros [|k] X Y; try discriminate; cbn in X, Y; [congruence|eapply IH; eassumption]. }
    assert (Q : nth_error (seq 0 n) i = Some i) by (rewrite (nth_error_nth' _ 0) by (rewrite seq_length; exact Li); rewrite seq_nth by exact Li; reflexivity). exact (G _ _ _ _ _ E3 Q Hi). }
  assert (DB : forall k, k <= n -> (0 < series_denominator m k <= 1000000000)%Z) by (intros k Hk; split; [apply denominator_pos|]; etransitivity; [apply denominator_mono, Hk|exact B]).
  assert (VU : forall k, k <= n -> Qcle tiny (Qc_abs (series_unit m k))).
  { intros k Hk. rewrite unit_denominator. apply inverse_visible. destruct (DB k Hk) as [D1 D2]. split; [exact D1|]. etransitivity; [exact D2|]. vm_compute. discriminate. }
  pose proof (start_fits hl E4) as F0. pose proof (start_writable hl E4) as W0.
  set (P := fun k t => fits (N k) (series_unit m k) t /\ writables t).
  assert (FT : forall i, Forall (P i) (nth i (hl :: outs') [])).
  { intros [|i]; [rewrite Forall_forall in *; intros t Ht; split; auto|]. cbn [nth]. destruct (nth_error outs' i) as [L|] eqn:EL; [|apply nth_error_None in EL; rewrite nth_overflow by exact EL; constructor]. rewrite (nth_error_nth _ _ _ EL).
    apply (loop_members P from_term (commutator_at ws levels opens inv_nat fc true np h) amps) with (tail := amps) (k := 0) (lp := hl) (outs := outs'); try assumption; try reflexivity.
    - intros k t t' [F W] E. split; [exact (fits_copy _ _ t t' F E)|]. destruct F as [[M1 M2 _ _] _]. destruct (from_term_closed t t' (N k) M1 M2 E) as (_ & _ & _ & C4 & _). exact (writables_perm _ _ C4 W).
    - intros k l out Hk F E. assert (Fa : Forall (fits (N k) (series_unit m k)) l) by (eapply Forall_impl; [|exact F]; intros t [Q _]; exact Q). assert (Fb : Forall writables l) by (eapply Forall_impl; [|exact F]; intros t [_ Q]; exact Q).
      pose proof (fits_combine _ _ l out (VU k ltac:(lia)) Fa E) as Ga. pose proof (combine_all writables writables_set l out Fb E) as Gb. rewrite Forall_forall in *. intros t Ht. split; auto.
    - intros j a b l r rs out Hj Hr [FL WL] E. destruct (AM j rs Hj) as [Lj Q]. unfold commutator_at, at_level in E. replace (Datatypes.S j - 1) with j in E by lia. destruct (nth j opens (0%Z, 0%Z)) as [mn mx]. destruct (WS (Datatypes.S j) a b) as [W1 W2].
      pose proof (operators_usable _ _ _ _ _ Q) as UR. pose proof (operators_single _ _ _ _ HL Q) as SR. apply operators_factors in Q. rewrite Forall_forall in Q, UR, SR. specialize (Q r Hr). destruct (SR r Hr) as [WR XR]. fold m in Q. replace (N j + m * 2) with (N (Datatypes.S j)) in Q by (unfold N; lia).
      pose proof (fits_step _ _ l r _ _ _ _ fc np h out _ _ _ _ _ W1 W2 FL Q (UR r Hr) eq_refl (VU (Datatypes.S j) Lj) E) as GF. destruct FL as [[Rl [L1 L2] Cl Ml] UL], Q as [Rr Cr Mr NR RM].
      assert (APR : apart_terms l r) by (intros i' Hi Q; specialize (L1 i' Hi); specialize (NR i' Q); lia).
      pose proof (commutator_writable _ _ l r _ _ _ _ fc np h out W1 W2 Rl Rr APR (pair_consistent series_tensors series_names l r Cl Cr) XR WL WR E) as GW. rewrite Forall_forall in *. intros t Ht. split; auto.
    - rewrite Forall_forall in *. intros t Ht. split; auto. }
  intros i. eapply Forall_impl; [|exact (FT i)]. intros t [[[M1 M2 _ _] _] W]. split; [exact W|]. pose proof (small_target _ _ M1 M2) as Q. unfold N in Q. lia.
Qed.

Theorem nested_single ws order n levels mc mx mn fc un np h out : (forall k, sound (ws k)) -> (forall p, Permutation (order p) p) -> 1 <= n -> (forall k, In k levels -> 1 <= k <= 9) ->
  (4 * Z.of_nat (fact n) * Z.of_nat (fact (list_max levels)) ^ (2 * Z.of_nat n) <= 1000000000)%Z ->
  nested_commutator_cc ws order n levels mc mx mn fc true true un np h = Ok out -> Forall writables out.
Proof.
  intros SW PO Hn HL BD H. assert (NZ : ~ In 0 levels) by (intros Q; specialize (HL 0 Q); lia). assert (BD' : (4 * Z.of_nat (fact n) * Z.of_nat (fact (list_max levels)) ^ (2 * Z.of_nat n) <= 10 ^ 15)%Z) by (etransitivity; [exact BD|vm_compute; discriminate]).
  destruct (C48_products order n levels un true PO Hn) as (tasks & E & F & _). rewrite E in H. destruct (pymap _ (positions tasks)) as [outs|] eqn:EO; [|discriminate]. cbn [pybind] in H.
  apply (combine_all writables writables_set (concat outs) out); [|exact H]. clear H.
  apply pymap_results in EO. rewrite <- (positions_snd tasks) in F. rewrite Forall_map in F. clear E. induction EO as [|kt o ts outs EO _ IH]; [constructor|]. cbn [concat]. apply Forall_app. split; [|exact (IH (Forall_inv_tail F))].
  destruct (Forall_inv F) as (F1 & F2 & F3 & F4). pose proof (task_product levels true n (snd kt) NZ F1 F2 F3 F4) as PK. destruct F4 as (l & h0 & r & E & (k & K & EH) & FA).
  assert (X : Forall (fun t => regular t /\ writables t /\ excitation (tsq t)) (l ++ r)).
  { eapply Forall_impl; [|exact FA]. intros t (j & st & ex & Hj & Ej). split; [apply (amplitude_ingredient j st ex true t (list_max levels)); [apply list_max_in, Hj|intros ->; contradiction|exact Ej]|]. exact (cluster_single _ _ _ _ _ _ _ (HL j Hj) eq_refl Ej). }
  destruct PK as [P1 P2 P3 P4 P5 P6]. destruct (SW (fst kt)) as (U & I & D).
  apply (contract_writable _ _ _ _ _ _ _ _ _ _ U I D) with (6 := EO); [|exact P2|exact (list_consistent _ P3)| |].
  - rewrite E. apply Forall_app in X as [X1 X2]. apply Forall_app. split; [eapply Forall_impl; [|exact X1]; intros t (Q & _); exact Q|]. constructor; [apply (hamiltonian_ingredient k h0 K EH)|]. eapply Forall_impl; [|exact X2]; intros t (Q & _); exact Q.
  - exists l, h0, r. split; [exact E|]. eapply Forall_impl; [|exact X]. intros t (_ & _ & Q). exact Q.
  - rewrite E. apply Forall_app in X as [X1 X2]. apply Forall_app. split; [eapply Forall_impl; [|exact X1]; intros t (_ & Q & _); exact Q|]. constructor; [exact (hamiltonian_writable k h0 K EH)|]. eapply Forall_impl; [|exact X2]; intros t (_ & Q & _); exact Q.
Qed.
