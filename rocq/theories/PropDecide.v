(** Canonical forms decide whether two terms are the same up to names of dummy indices and the symmetries of the tensors. *)
From Coq Require Import Ascii String ZArith QArith Qcanon Sorting.Sorted Lia Bool Ring_theory Ring.
From Verif Require BacktrackProofs SortProofs.
From Verif Require Import PyBase OrderSpec OrderProofs ParitySpec SpaceModel IndexModel IndexProofs IndicesModel IterProofs IndicesProofs SpaceProofs ElemModel ElemSpec CompatSpec MacroModel WickModel WickSpec WickProofs TermModel BchSpec ValueSpec ValueProofs TermSpec SumProofs TermProofs RenameProofs
  DriverProofs ConnectedProofs CommProofs OperatorProofs SimplifyProofs SimplifyValue SymmetryModel SymmetrySpec SympyValue SympyShape CombineModel BchModel CombineSpec CombineProofs CombineValue PropSimplify PropWick PropCanon PropSchedule ScheduleProofs ContractSpec ContractValue PropContract LoopSpec BchLoop LevelSpec ClosureProofs LevelProofs
  PropOperator SeriesProofs SeriesOperator NestedOperator PropBch PropLevels PropFock FockSpec ExtensionProofs FockTerms PropSeries PropNested TaskProofs SeriesSpec LinearModel MergeSpec MergeWords MergeProofs MergeClosed MergeSeries PropMerge MergeDecide PropTerm.
Local Close Scope Q_scope.
Local Close Scope Qc_scope.
Local Open Scope nat_scope.
Local Notation length := List.length.

(** The canonical form of a term is the same term up to symmetry, with the coefficient up to a sign, and it can be used as input again. *)
Theorem C89_canonical_is_same : forall sympy core remove_active hermitian t u,
  admissible sympy -> regular t -> names_agree (ttensors t) -> Forall even_cumulant (ttensors t) ->
  canonicalize sympy core remove_active hermitian t = Ok u -> is_void u = false ->
  same_up_to_symmetry hermitian t u /\ (tcoeff u = tcoeff t \/ tcoeff u = Qcopp (tcoeff t)) /\ regular u /\ names_agree (ttensors u) /\ Forall even_cumulant (ttensors u).
Proof.
  intros sympy core ra h t u AD R N E H V. destruct (canonical_parts _ _ _ _ _ _ AD R N E H V) as (s & HS & VS & HC & SF & P & RU). split; [exact P|]. split; [|split; [exact RU|split; [exact (parts_names h _ _ _ _ P N)|exact (even_parts h _ _ _ _ P E)]]].
  exact (canonical_coefficient sympy core ra h t u AD R N E H V).
Qed.
Print Assumptions C89_canonical_is_same.

(** Two terms are the same up to symmetry if, and only if, their canonical forms have the same operator and the same list of tensors. *)
Theorem C89_canonical_decides : forall sympy core remove_active hermitian t t' u u',
  admissible sympy -> canonical sympy -> regular t -> regular t' -> names_agree (ttensors t) -> names_agree (ttensors t') -> Forall even_cumulant (ttensors t) -> Forall even_cumulant (ttensors t') ->
  canonicalize sympy core remove_active hermitian t = Ok u -> canonicalize sympy core remove_active hermitian t' = Ok u' -> is_void u = false -> is_void u' = false ->
  (same_content u u' <-> same_up_to_symmetry hermitian t t').
Proof.
  intros sympy core ra h t t' u u' AD CA R R' N N' E E' H H' V V'. split; [|apply (canonical_unique sympy core ra h t t' u u'); assumption].
  intros [Q1 Q2]. destruct (canonical_parts _ _ _ _ _ _ AD R N E H V) as (_ & _ & _ & _ & _ & P & _). destruct (canonical_parts _ _ _ _ _ _ AD R' N' E' H' V') as (_ & _ & _ & _ & _ & P' & _).
  rewrite Q1, Q2 in P. exact (same_parts_trans h _ _ _ _ _ _ P (same_parts_sym h _ _ _ _ P')).
Qed.
Print Assumptions C89_canonical_decides.

(** Canonical forms are their own canonical forms. *)
Theorem C89_canonical_twice : forall sympy core remove_active hermitian t u,
  admissible sympy -> canonical sympy -> regular t -> names_agree (ttensors t) -> Forall even_cumulant (ttensors t) ->
  canonicalize sympy core remove_active hermitian t = Ok u -> is_void u = false -> in_canonical_form sympy core remove_active hermitian u.
Proof. intros sympy core ra h t u. apply canonical_fixed. Qed.
Print Assumptions C89_canonical_twice.

(** The terms of contractions, commutators and commutator series are in canonical form. *)
Lemma results_fixed sympy h out : admissible sympy -> canonical sympy -> Forall (formed sympy h) out -> Forall (fun t => is_void t = false) out -> Forall (in_canonical_form sympy true true h) out.
Proof. intros AD CA F V. rewrite Forall_forall in *. intros t Ht. apply (formed_fixed sympy h t AD CA); auto. Qed.
Lemma contract_live w terms mc mx mn sf fc eh np h out : 2 <= length (filter (fun t => negb (op_is_empty (tsq t))) terms) -> contract_terms w terms mc mx mn sf fc eh np h = Ok out -> Forall (fun t => is_void t = false) out.
Proof.
  intros L H. unfold contract_terms in H. destruct terms as [|t0 ts]; [discriminate|]. set (terms := t0 :: ts) in *. clearbody terms. cbv zeta in H.
  destruct (filter (fun t => negb (op_is_empty (tsq t))) terms) as [|t1 [|t2 tc]]; [cbn in L; lia|cbn in L; lia|]. destruct (forallb _ _) in H; [|discriminate]. destruct (compute_operator_contractions _ _ _ _ _ _ _ _ _) as [r|]; [|discriminate]. cbn [pybind] in H.
  destruct (batch_loop w _ _ _ _ _ _ _ _ _ _) as [fin|]; [|discriminate]. cbn [pybind] in H. exact (combine_live _ _ H).
Qed.
Theorem C89_contraction : forall w terms max_cu max_n_open min_n_open scale_factor for_commutator expand_hole n_process hermitian out,
  sound w -> canonical (w_sympy w) -> Forall regular terms -> ForallOrdPairs apart_terms terms -> consistent_names (flat_map ttensors terms) -> 2 <= length (proper_ops terms) ->
  contract_terms w terms max_cu max_n_open min_n_open scale_factor for_commutator expand_hole n_process hermitian = Ok out -> Forall (in_canonical_form (w_sympy w) true true hermitian) out.
Proof.
  intros w terms mc mx mn sf fc eh np h out (U & I & D) CA RG AP CN LN H. unfold proper_ops in LN. rewrite map_length in LN. apply (results_fixed (w_sympy w) h out D CA); [apply (contract_merged w terms mc mx mn sf fc eh np h out U I D CA RG AP CN LN H)|exact (contract_live w terms mc mx mn sf fc eh np h out LN H)].
Qed.
Print Assumptions C89_contraction.
Theorem C89_commutator : forall w1 w2 left right max_cu max_n_open min_n_open scale_factor for_commutator expand_hole n_process hermitian out,
  sound w1 -> sound w2 -> w_sympy w1 = w_sympy w2 -> canonical (w_sympy w1) -> regular left -> regular right -> apart_terms left right -> consistent_names (ttensors left ++ ttensors right) ->
  (for_commutator = true \/ (op_is_empty (tsq left) = false /\ op_is_empty (tsq right) = false)) ->
  single_commutator w1 w2 left right max_cu max_n_open min_n_open scale_factor for_commutator expand_hole n_process hermitian = Ok out -> Forall (in_canonical_form (w_sympy w1) true true hermitian) out.
Proof.
  intros w1 w2 a b mc mx mn sf fc eh np h out S1 S2 E CA Ra Rb AP CN NE H. assert (AD : admissible (w_sympy w1)) by exact (proj2 (proj2 S1)). apply (results_fixed (w_sympy w1) h out AD CA); [apply (commutator_merged w1 w2 (w_sympy w1) a b mc mx mn sf fc eh np h out S1 S2 eq_refl (eq_sym E) CA Ra Rb AP CN NE H)|].
  unfold single_commutator in H. destruct (fc && _); [injection H as <-; constructor|]. destruct (contract_terms w1 _ _ _ _ _ _ _ _ _) as [oa|]; [|discriminate]. cbn [pybind] in H. destruct (contract_terms w2 _ _ _ _ _ _ _ _ _) as [ob|]; [|discriminate]. exact (combine_live _ _ H).
Qed.
Print Assumptions C89_commutator.
Theorem C89_linear : forall ws sympy left_terms right_terms scale_factor min_n_open max_n_open max_cu n_process hermitian out,
  canonical sympy -> (forall l r, sound (fst (ws l r)) /\ sound (snd (ws l r))) -> (forall l r, w_sympy (fst (ws l r)) = sympy /\ w_sympy (snd (ws l r)) = sympy) ->
  Forall regular left_terms -> Forall regular right_terms -> (forall l r, In l left_terms -> In r right_terms -> apart_terms l r /\ consistent_names (ttensors l ++ ttensors r)) ->
  linear_commutator_py ws left_terms right_terms scale_factor min_n_open max_n_open max_cu n_process true hermitian = Ok out -> Forall (in_canonical_form sympy true true hermitian) out.
Proof.
  intros ws sympy ls rs sf mn mx mc np h out CA SW SY RL RR AP H. rewrite Forall_forall in RL, RR. assert (AD : admissible sympy) by (destruct (SW ex_left ex_left) as [(_ & _ & D) _]; destruct (SY ex_left ex_left) as [<- _]; exact D). unfold linear_commutator_py in H. apply (results_fixed sympy h out AD CA).
  - apply (linear_merged sympy h _ ls rs out AD CA) with (2 := H). intros l r o Hl Hr E. destruct (SW l r) as [S1 S2], (SY l r) as [Y1 Y2]. destruct (AP l r Hl Hr) as [A1 A2].
    destruct (ws l r) as [w1 w2]. cbn [fst snd] in *. eapply (commutator_merged w1 w2 sympy l r) with (11 := E); auto.
  - unfold linear_commutator in H. destruct (pymap _ ls) as [lls|]; [|discriminate]. exact (combine_live _ _ H).
Qed.
Print Assumptions C89_linear.
Theorem C89_bch : forall sympy ws n cluster_levels cu_levels n_opens expand_hole single_reference unitary n_process hermitian outs,
  canonical sympy -> (forall i a b, sound (fst (ws i a b)) /\ sound (snd (ws i a b))) -> (forall i a b, w_sympy (fst (ws i a b)) = sympy /\ w_sympy (snd (ws i a b)) = sympy) ->
  (4 * Z.of_nat (fact n) * Z.of_nat (fact (list_max cluster_levels)) ^ (2 * Z.of_nat n) <= 10 ^ 15)%Z ->
  bch_cc_rsc ws n cluster_levels cu_levels n_opens true expand_hole single_reference unitary n_process hermitian = Ok outs ->
  forall i out, nth_error outs (Datatypes.S i) = Some out -> Forall (in_canonical_form sympy true true hermitian) out.
Proof.
  intros sympy ws n cl cu os eh sr un np h outs CA SW SY B H i out Hi. assert (AD : admissible sympy) by (destruct (SW 0 0 0) as [(_ & _ & D) _]; destruct (SY 0 0 0) as [<- _]; exact D).
  destruct (bch_merged sympy AD CA ws n cl cu os eh sr un np h outs SW SY B H i out Hi) as (_ & F & V). exact (results_fixed sympy h out AD CA F V).
Qed.
Print Assumptions C89_bch.
Theorem C89_nested : forall sympy ws order n levels max_cu max_n_open min_n_open for_commutator expand_hole single_reference unitary n_process hermitian out,
  canonical sympy -> (forall k, sound (ws k)) -> (forall k, w_sympy (ws k) = sympy) -> (forall p, Permutation (order p) p) -> 1 <= n -> ~ In 0 levels ->
  nested_commutator_cc ws order n levels max_cu max_n_open min_n_open for_commutator expand_hole single_reference unitary n_process hermitian = Ok out -> Forall (in_canonical_form sympy true true hermitian) out.
Proof.
  intros sympy ws order n levels mc mx mn fc eh sr un np h out CA SW SY PO Hn NZ H. assert (AD : admissible sympy) by (destruct (SW 0) as (_ & _ & D); rewrite (SY 0) in D; exact D).
  destruct (nested_merged sympy AD CA ws order n levels mc mx mn fc eh sr un np h out SW SY PO Hn NZ H) as (_ & F). apply (results_fixed sympy h out AD CA F).
  destruct (C48_products order n levels un sr PO Hn) as (tasks & E & _). rewrite E in H. destruct (pymap _ (positions tasks)) as [outs|]; [|discriminate]. exact (combine_live _ _ H).
Qed.
Print Assumptions C89_nested.

(** Two writings of one term, and another term. *)
Definition ex_written (upper : list idx) : term :=
  match make_term SpinOrbital [Ten THamiltonian SpinOrbital "H" 0 upper [xi Sg 0; xi Sg 1]; Ten TCluster SpinOrbital "T" 1 [xi Sv 0] [xi Sv 1]] (Op [xi Sg 0; xi Sg 1] [xi Sg 2; xi Sv 0]) (Q2Qc 1) with Ok t => t | Raise _ => void_term SpinOrbital (fun _ => 0) end.
Lemma written_regular upper : upper = [xi Sv 1; xi Sg 2] \/ upper = [xi Sg 2; xi Sv 1] -> regular (ex_written upper).
Proof.
  intros H. apply (made_regular [Ten THamiltonian SpinOrbital "H" 0 upper [xi Sg 0; xi Sg 1]; Ten TCluster SpinOrbital "T" 1 [xi Sv 0] [xi Sv 1]] (Op [xi Sg 0; xi Sg 1] [xi Sg 2; xi Sv 0]) (Q2Qc 1)).
  - destruct H as [->| ->]; reflexivity.
  - constructor.
    + vm_compute. repeat (constructor; [intros Q; cbn in Q; intuition discriminate|]). constructor.
    + intros x [<-|[<-|[]]]; destruct H as [->| ->]; vm_compute; repeat (constructor; [intros Q; cbn in Q; intuition discriminate|]); constructor.
    + intros x [<-|[<-|[]]]; (split; [discriminate|]; intros Q; discriminate Q).
  - split; repeat constructor.
  - destruct H as [->| ->]; repeat constructor; cbn; try tauto; try discriminate.
  - reflexivity.
Qed.
Lemma written_names upper : upper = [xi Sv 1; xi Sg 2] \/ upper = [xi Sg 2; xi Sv 1] -> names_agree (ttensors (ex_written upper)) /\ Forall even_cumulant (ttensors (ex_written upper)).
Proof.
  intros [->| ->]; (split; [intros x y X Y E; vm_compute in X, Y; intuition (subst; cbn in *; try discriminate; auto)|vm_compute; repeat constructor; intros Q; discriminate Q]).
Qed.
Example C89_example : let t := ex_written [xi Sv 1; xi Sg 2] in let t' := ex_written [xi Sg 2; xi Sv 1] in
  admissible ex_sympy /\ canonical ex_sympy /\ regular t /\ regular t' /\ regular ex_shift /\ t <> t' /\ (exists u u', canonicalize ex_sympy true true true t = Ok u /\ canonicalize ex_sympy true true true t' = Ok u' /\ is_void u = false /\ is_void u' = false /\ same_content u u' /\ tcoeff u' = Qcopp (tcoeff u)) /\
  same_up_to_symmetry true t t' /\ ~ same_up_to_symmetry true t ex_shift /\ (exists u, canonicalize ex_sympy true false true ex_shift = Ok u /\ is_void u = false) /\
  (exists out u u', contract_terms ex_table [ex_pair; ex_shift] 1 4 4 (Q2Qc 1) true true 1 true = Ok [out] /\ canonicalize ex_sympy true true true out = Ok u /\ same_content u out /\ canonicalize ex_sympy true true true t' = Ok u' /\ same_content u' u).
Proof.
  intros t t'. assert (R : regular t) by (apply written_regular; auto). assert (R' : regular t') by (apply written_regular; auto).
  assert (AD : admissible ex_sympy) by exact (proj2 (proj2 table_sound)). destruct (written_names [xi Sv 1; xi Sg 2] (or_introl eq_refl)) as [N E]. destruct (written_names [xi Sg 2; xi Sv 1] (or_intror eq_refl)) as [N' E'].
  split; [exact AD|]. split; [exact table_canonical|]. split; [exact R|]. split; [exact R'|]. split; [exact shift_regular|]. split; [discriminate|].
  assert (X : exists u u', canonicalize ex_sympy true true true t = Ok u /\ canonicalize ex_sympy true true true t' = Ok u' /\ is_void u = false /\ is_void u' = false /\ same_content u u' /\ tcoeff u' = Qcopp (tcoeff u)).
  { do 2 eexists. split; [vm_compute; reflexivity|]. split; [vm_compute; reflexivity|]. split; [reflexivity|]. split; [reflexivity|]. split; [split; reflexivity|]. apply Qc_is_canon. reflexivity. }
  split; [exact X|]. destruct X as (u & u' & H & H' & V & V' & S & _).
  split; [apply (C89_canonical_decides ex_sympy true true true t t' u u'); try assumption; exact table_canonical|].
  split; [|split; [eexists; split; [vm_compute; reflexivity|reflexivity]|do 3 eexists; split; [vm_compute; reflexivity|]; split; [vm_compute; reflexivity|]; split; [split; reflexivity|]; split; [vm_compute; reflexivity|split; reflexivity]]].
  intros (rho & _ & _ & _ & _ & ys & PY & F). apply Permutation_length in PY. cbn in F. inversion F as [|? y ? l _ F']; subst. inversion F'; subst. discriminate PY.
Qed.

(** The two indices of a one-body cumulant have to be of one space: simplify replaces them by indices of the common space. *)
Definition ex_uneven : term :=
  match make_term SpinOrbital [Ten THamiltonian SpinOrbital "H" 0 [xi Sh 0] [xi Sa 0]; Ten TCumulant SpinOrbital "L" 3 [xi Sa 0] [xi Sh 0]] (Op [] []) (Q2Qc 1) with Ok t => t | Raise _ => void_term SpinOrbital (fun _ => 0) end.
Theorem C89_uneven_refuted : exists sympy t u, admissible sympy /\ regular t /\ names_agree (ttensors t) /\ canonicalize sympy true true true t = Ok u /\ is_void u = false /\ ~ same_up_to_symmetry true t u.
Proof.
  exists (w_sympy ex_serial), ex_uneven. eexists. split; [exact (proj2 (proj2 serial_sound))|]. split.
  { apply (made_regular [Ten THamiltonian SpinOrbital "H" 0 [xi Sh 0] [xi Sa 0]; Ten TCumulant SpinOrbital "L" 3 [xi Sa 0] [xi Sh 0]] (Op [] []) (Q2Qc 1)).
    - reflexivity.
    - constructor.
      + vm_compute. repeat (constructor; [intros Q; cbn in Q; intuition discriminate|]). constructor.
      + intros x [<-|[<-|[]]]; vm_compute; repeat (constructor; [intros Q; cbn in Q; intuition discriminate|]); constructor.
      + intros x [<-|[<-|[]]]; (split; [discriminate|]); intros Q; [discriminate Q|]. intros i [<-|[<-|[]]]; [left; reflexivity|right; split; reflexivity].
    - split; constructor.
    - repeat constructor; cbn; try tauto; try discriminate.
    - reflexivity. }
  split; [intros x y X Y E; vm_compute in X, Y; intuition (subst; cbn in *; try discriminate; auto)|]. split; [vm_compute; reflexivity|]. split; [reflexivity|].
  intros (rho & HL & _ & PC & PA & ys & PY & F). pose proof (parts_content true rho _ _ ys _ _ PC PA PY F) as PW.
  assert (HI : In (xi Sh 0) (content_indices (ttensors ex_uneven) (tsq ex_uneven))) by (vm_compute; tauto). specialize (HL _ HI). apply (in_map rho) in HI. rewrite PW in HI. cbn in HI. cbn in HL. destruct HI as [Q|[Q|[Q|[Q|[]]]]]; rewrite <- Q in HL; discriminate HL.
Qed.
Print Assumptions C89_uneven_refuted.
