(** Terms that are the same up to names of dummy indices and the symmetries of the tensors are merged. *)
From Coq Require Import Ascii String ZArith QArith Qcanon Sorting.Sorted Lia Bool Ring_theory Ring.
From Verif Require BacktrackProofs SortProofs.
From Verif Require Import PyBase OrderSpec OrderProofs ParitySpec SpaceModel IndexModel IndexProofs IndicesModel IterProofs IndicesProofs SpaceProofs ElemModel ElemSpec CompatSpec MacroModel WickModel WickSpec WickProofs TermModel BchSpec ValueSpec ValueProofs TermSpec SumProofs TermProofs RenameProofs
  DriverProofs ConnectedProofs CommProofs OperatorProofs SimplifyProofs SimplifyValue SymmetryModel SymmetrySpec SympyValue SympyShape CombineModel BchModel CombineSpec CombineProofs CombineValue PropSimplify PropWick PropCanon PropSchedule ScheduleProofs ContractSpec ContractValue PropContract LoopSpec BchLoop LevelSpec ClosureProofs LevelProofs
  PropOperator SeriesProofs SeriesOperator NestedOperator PropBch PropLevels PropFock FockSpec ExtensionProofs FockTerms PropSeries PropNested TaskProofs SeriesSpec LinearModel MergeSpec MergeWords MergeProofs MergeClosed MergeSeries.
Local Close Scope Q_scope.
Local Close Scope Qc_scope.
Local Open Scope nat_scope.
Local Notation length := List.length.

Lemma merged_different h out : merged_list h out -> all_different h out.
Proof.
  intros M. assert (G : forall i j t t', nth_error out i = Some t -> nth_error out j = Some t' -> i < j -> ~ same_up_to_symmetry h t t').
  { induction M as [|x l F _ IH]; intros [|i] [|j] t t' Hi Hj L; try lia; try discriminate; cbn in Hi, Hj.
    - injection Hi as <-. apply nth_error_In in Hj. rewrite Forall_forall in F. apply F, Hj.
    - apply (IH i j t t'); [assumption|assumption|lia]. }
  intros i j t t' Hi Hj S. destruct (lt_eq_lt_dec i j) as [[L|E]|L]; [|exact E|]; exfalso.
  - exact (G i j t t' Hi Hj L S).
  - apply (G j i t' t Hj Hi L). exact (same_parts_sym h _ _ _ _ S).
Qed.

(** The relation is an equivalence. *)
Theorem C88_equivalence : forall hermitian t t' t'',
  same_up_to_symmetry hermitian t t /\ (same_up_to_symmetry hermitian t t' -> same_up_to_symmetry hermitian t' t) /\
  (same_up_to_symmetry hermitian t t' -> same_up_to_symmetry hermitian t' t'' -> same_up_to_symmetry hermitian t t'').
Proof.
  intros h t t' t''. split; [|split].
  - exact (same_parts_perm h (ttensors t) (tsq t) (ttensors t) (Permutation_refl _)).
  - exact (same_parts_sym h _ _ _ _).
  - exact (same_parts_trans h _ _ _ _ _ _).
Qed.
Print Assumptions C88_equivalence.

(** Products of operators: at least two of the operators are not empty. *)
Theorem C88_contraction : forall w terms max_cu max_n_open min_n_open scale_factor for_commutator expand_hole n_process hermitian out,
  sound w -> canonical (w_sympy w) -> Forall regular terms -> ForallOrdPairs apart_terms terms -> consistent_names (flat_map ttensors terms) -> 2 <= length (proper_ops terms) ->
  contract_terms w terms max_cu max_n_open min_n_open scale_factor for_commutator expand_hole n_process hermitian = Ok out -> all_different hermitian out.
Proof.
  intros w terms mc mx mn sf fc eh np h out (U & I & D) CA RG AP CN LN H. unfold proper_ops in LN. rewrite map_length in LN. apply merged_different. apply (contract_merged w terms mc mx mn sf fc eh np h out U I D CA RG AP CN LN H).
Qed.
Print Assumptions C88_contraction.

Theorem C88_commutator : forall w1 w2 left right max_cu max_n_open min_n_open scale_factor for_commutator expand_hole n_process hermitian out,
  sound w1 -> sound w2 -> w_sympy w1 = w_sympy w2 -> canonical (w_sympy w1) -> regular left -> regular right -> apart_terms left right -> consistent_names (ttensors left ++ ttensors right) ->
  (for_commutator = true \/ (op_is_empty (tsq left) = false /\ op_is_empty (tsq right) = false)) ->
  single_commutator w1 w2 left right max_cu max_n_open min_n_open scale_factor for_commutator expand_hole n_process hermitian = Ok out -> all_different hermitian out.
Proof.
  intros w1 w2 a b mc mx mn sf fc eh np h out S1 S2 E CA Ra Rb AP CN NE H. apply merged_different. apply (commutator_merged w1 w2 (w_sympy w1) a b mc mx mn sf fc eh np h out S1 S2 eq_refl (eq_sym E) CA Ra Rb AP CN NE H).
Qed.
Print Assumptions C88_commutator.

(** All commutators of two lists, in one sum. *)
Theorem C88_linear : forall ws sympy left_terms right_terms scale_factor min_n_open max_n_open max_cu n_process hermitian out,
  canonical sympy -> (forall l r, sound (fst (ws l r)) /\ sound (snd (ws l r))) -> (forall l r, w_sympy (fst (ws l r)) = sympy /\ w_sympy (snd (ws l r)) = sympy) ->
  Forall regular left_terms -> Forall regular right_terms -> (forall l r, In l left_terms -> In r right_terms -> apart_terms l r /\ consistent_names (ttensors l ++ ttensors r)) ->
  linear_commutator_py ws left_terms right_terms scale_factor min_n_open max_n_open max_cu n_process true hermitian = Ok out -> all_different hermitian out.
Proof.
  intros ws sympy ls rs sf mn mx mc np h out CA SW SY RL RR AP H. rewrite Forall_forall in RL, RR. assert (AD : admissible sympy) by (destruct (SW ex_left ex_left) as [(_ & _ & D) _]; destruct (SY ex_left ex_left) as [<- _]; exact D). apply merged_different. unfold linear_commutator_py in H.
  apply (linear_merged sympy h _ ls rs out AD CA) with (2 := H). intros l r o Hl Hr E. destruct (SW l r) as [S1 S2], (SY l r) as [Y1 Y2]. destruct (AP l r Hl Hr) as [A1 A2].
  destruct (ws l r) as [w1 w2]. cbn [fst snd] in *. eapply (commutator_merged w1 w2 sympy l r) with (11 := E); auto.
Qed.
Print Assumptions C88_linear.

(** The BCH series, at every level after the bare Hamiltonian. *)
Theorem C88_bch : forall sympy ws n cluster_levels cu_levels n_opens expand_hole single_reference unitary n_process hermitian outs,
  canonical sympy -> (forall i a b, sound (fst (ws i a b)) /\ sound (snd (ws i a b))) -> (forall i a b, w_sympy (fst (ws i a b)) = sympy /\ w_sympy (snd (ws i a b)) = sympy) ->
  (4 * Z.of_nat (fact n) * Z.of_nat (fact (list_max cluster_levels)) ^ (2 * Z.of_nat n) <= 10 ^ 15)%Z ->
  bch_cc_rsc ws n cluster_levels cu_levels n_opens true expand_hole single_reference unitary n_process hermitian = Ok outs ->
  forall i out, nth_error outs (Datatypes.S i) = Some out -> all_different hermitian out.
Proof.
  intros sympy ws n cl cu os eh sr un np h outs CA SW SY B H i out Hi. apply merged_different. assert (AD : admissible sympy) by (destruct (SW 0 0 0) as [(_ & _ & D) _]; destruct (SY 0 0 0) as [<- _]; exact D).
  exact (proj1 (bch_merged sympy AD CA ws n cl cu os eh sr un np h outs SW SY B H i out Hi)).
Qed.
Print Assumptions C88_bch.

Theorem C88_nested : forall sympy ws order n levels max_cu max_n_open min_n_open for_commutator expand_hole single_reference unitary n_process hermitian out,
  canonical sympy -> (forall k, sound (ws k)) -> (forall k, w_sympy (ws k) = sympy) -> (forall p, Permutation (order p) p) -> 1 <= n -> ~ In 0 levels ->
  nested_commutator_cc ws order n levels max_cu max_n_open min_n_open for_commutator expand_hole single_reference unitary n_process hermitian = Ok out -> all_different hermitian out.
Proof.
  intros sympy ws order n levels mc mx mn fc eh sr un np h out CA SW SY PO Hn NZ H. apply merged_different. assert (AD : admissible sympy) by (destruct (SW 0) as (_ & _ & D); rewrite (SY 0) in D; exact D).
  exact (proj1 (nested_merged sympy AD CA ws order n levels mc mx mn fc eh sr un np h out SW SY PO Hn NZ H)).
Qed.
Print Assumptions C88_nested.

(** ** Concrete cases *)
(** the two-body Hamiltonian, and an amplitude with two virtual indices *)
Local Notation xi s k := (Lab false s, k) (only parsing).
Definition ex_pair : term := the_term (hamiltonian_operator 2 0 SpinOrbital).
Definition ex_shift : term := the_term (make_term SpinOrbital [Ten TCluster SpinOrbital "T" 1 [xi Sv 5] [xi Sv 4]] (Op [xi Sv 4] [xi Sv 5]) (Q2Qc 1)).
(** answers to the questions asked below: the second product is the first with two upper indices of H exchanged *)
Definition ex_runs : list (list (list nat) * nat) :=
  [([[1; 0; 2; 3; 5; 4]; [0; 1; 3; 2; 5; 4]], 1); ([[1; 0; 2; 3; 5; 4]; [0; 1; 3; 2; 5; 4]; [2; 3; 0; 1; 4; 5]], 1); ([[1; 0; 2; 3]], 1)].
Definition runs_dec (a b : list (list (list nat) * nat)) : {a = b} + {a <> b}.
Proof. decide equality. decide equality; [apply Nat.eq_dec|]. apply list_eq_dec. apply list_eq_dec. apply Nat.eq_dec. Defined.
Definition ex_sympy : sympy_oracle := fun g _ runs =>
  if list_eq_dec Nat.eq_dec g [4; 6; 0; 2; 1; 3; 8; 5; 9; 7; 10; 11] then Ok (Some g)
  else if list_eq_dec Nat.eq_dec g [4; 6; 0; 2; 1; 3; 5; 8; 9; 7; 10; 11] then
    if runs_dec runs ex_runs then Ok (Some [4; 6; 0; 2; 1; 3; 8; 5; 9; 7; 11; 10]) else Raise ValueError
  else if list_eq_dec Nat.eq_dec g [2; 0; 1; 3; 4; 5] then Ok (Some g)
  else Raise ValueError.
Definition ex_table : world := World ex_sympy (fun _ l => hd 0 l) (fun _ _ l => hd 0 l) (fun l => l) 1 (fun _ l => l).
Lemma table_sound : sound ex_table.
Proof.
  split; [intros k l; reflexivity|]. split; [intros l; reflexivity|]. intros g ranges runs gc. cbn [w_sympy ex_table]. unfold ex_sympy. cbv zeta.
  destruct (list_eq_dec _ g [4; 6; 0; 2; 1; 3; 8; 5; 9; 7; 10; 11]); [intros E; injection E as <-; constructor|].
  destruct (list_eq_dec _ g [4; 6; 0; 2; 1; 3; 5; 8; 9; 7; 10; 11]) as [->|].
  - destruct (runs_dec runs ex_runs) as [->|]; [|discriminate]. intros E. injection E as <-.
    change [4; 6; 0; 2; 1; 3; 8; 5; 9; 7; 11; 10] with (compose [4; 6; 0; 2; 1; 3; 5; 8; 9; 7; 10; 11] [0; 1; 2; 3; 4; 5; 7; 6; 8; 9; 11; 10]). apply ef_slot; [constructor|]. vm_compute. tauto.
  - destruct (list_eq_dec _ g [2; 0; 1; 3; 4; 5]); [intros E; injection E as <-; constructor|discriminate].
Qed.
Lemma table_canonical : canonical ex_sympy.
Proof.
  intros g g' ranges runs gc gc' H H' L. cbv zeta. intros _. unfold ex_sympy in *. revert H H'.
  destruct (list_eq_dec _ g [4; 6; 0; 2; 1; 3; 8; 5; 9; 7; 10; 11]) as [->|_]; [|destruct (list_eq_dec _ g [4; 6; 0; 2; 1; 3; 5; 8; 9; 7; 10; 11]) as [->|_]; [destruct (runs_dec runs ex_runs); [|discriminate]|destruct (list_eq_dec _ g [2; 0; 1; 3; 4; 5]) as [->|_]; [|discriminate]]];
  (destruct (list_eq_dec _ g' [4; 6; 0; 2; 1; 3; 8; 5; 9; 7; 10; 11]) as [->|_]; [|destruct (list_eq_dec _ g' [4; 6; 0; 2; 1; 3; 5; 8; 9; 7; 10; 11]) as [->|_]; [try (destruct (runs_dec runs ex_runs); [|discriminate])|destruct (list_eq_dec _ g' [2; 0; 1; 3; 4; 5]) as [->|_]; [|discriminate]]]);
  intros H H'; injection H as <-; injection H' as <-; try reflexivity; discriminate L.
Qed.
Lemma shift_regular : regular ex_shift.
Proof.
  apply (made_regular [Ten TCluster SpinOrbital "T" 1 [xi Sv 5] [xi Sv 4]] (Op [xi Sv 4] [xi Sv 5]) (Q2Qc 1)).
  - reflexivity.
  - constructor.
    + vm_compute. repeat (constructor; [intros Q; cbn in Q; intuition discriminate|]). constructor.
    + intros x [<-|[]]. vm_compute. repeat (constructor; [intros Q; cbn in Q; intuition discriminate|]). constructor.
    + intros x [<-|[]]. split; [discriminate|]. intros Q. discriminate Q.
  - split; repeat constructor.
  - repeat constructor; cbn; try tauto; try discriminate.
  - reflexivity.
Qed.
(** Contraction of either upper index of H gives the same term: there are two contractions and one term, and the two are only merged by SymPy's help. *)
Example C88_example :
  sound ex_table /\ canonical (w_sympy ex_table) /\ Forall regular [ex_pair; ex_shift] /\ ForallOrdPairs apart_terms [ex_pair; ex_shift] /\ consistent_names (flat_map ttensors [ex_pair; ex_shift]) /\ length (proper_ops [ex_pair; ex_shift]) = 2 /\
  (exists out, contract_terms ex_table [ex_pair; ex_shift] 1 4 4 (Q2Qc 1) true true 1 true = Ok out /\ length out = 1) /\
  (exists out, contract_terms ex_serial [ex_pair; ex_shift] 1 4 4 (Q2Qc 1) true true 1 true = Ok out /\ length out = 2).
Proof.
  split; [exact table_sound|]. split; [exact table_canonical|]. split; [constructor; [apply (hamiltonian_ingredient 2); [right; reflexivity|reflexivity]|constructor; [exact shift_regular|constructor]]|].
  split. { constructor; [constructor; [|constructor]|constructor; [constructor|constructor]]. intros i Hi Q. vm_compute in Hi, Q. intuition (subst; discriminate). }
  split. { split; [vm_compute; repeat constructor; intros H; cbn in H; intuition discriminate|]. intros x y X Y E. vm_compute in X, Y. intuition (subst; cbn in *; try discriminate; auto). }
  split; [reflexivity|]. split; eexists; (split; [vm_compute; reflexivity|reflexivity]).
Qed.
Example C88_series_example :
  (exists outs out, bch_cc_rsc (fun _ _ _ => (ex_table, ex_table)) 1 [1] (inl 1%Z) (inl (0, 0)%Z) true true true false 1 true = Ok outs /\ nth_error outs 1 = Some out /\ length out = 1) /\
  (exists out, nested_commutator_cc (fun _ => ex_table) (fun p => p) 1 [1] 1 0 0 true true true false 1 true = Ok out /\ length out = 1) /\
  (exists ts out, cluster_operators [1] 4 false true = Ok ts /\ linear_commutator_py (fun _ _ => (ex_table, ex_table)) [ex_h; ex_pair] ts (Q2Qc 1) 0 0 1 1 true true = Ok out /\ length out = 1).
Proof.
  split; [|split].
  - do 2 eexists. split; [vm_compute; reflexivity|]. split; reflexivity.
  - eexists. split; [vm_compute; reflexivity|reflexivity].
  - do 2 eexists. split; [vm_compute; reflexivity|]. split; [vm_compute; reflexivity|reflexivity].
Qed.

(** Without a canonical answer the two are not merged: [sound] alone is not enough. *)
Theorem C88_not_canonical_refuted : exists w terms out,
  sound w /\ Forall regular terms /\ ForallOrdPairs apart_terms terms /\ consistent_names (flat_map ttensors terms) /\ 2 <= length (proper_ops terms) /\
  contract_terms w terms 1 4 4 (Q2Qc 1) true true 1 true = Ok out /\ ~ all_different true out.
Proof.
  destruct C88_example as (_ & _ & RG & AP & CN & LP & _). exists ex_serial, [ex_pair; ex_shift]. eexists. split; [exact serial_sound|]. split; [exact RG|]. split; [exact AP|]. split; [exact CN|]. split; [rewrite LP; lia|]. split; [vm_compute; reflexivity|].
  intros H. specialize (H 0 1 _ _ eq_refl eq_refl). enough (0 = 1) by discriminate. apply H. clear H. exists (fun i => i). rewrite !map_id. cbn [ttensors tsq cre ann].
  split; [reflexivity|]. split; [auto|]. split; [reflexivity|]. split; [reflexivity|]. eexists. split; [reflexivity|]. repeat constructor; cbn [tupper tlower map]; try (left; split; (reflexivity || (constructor; fail) || apply perm_swap)).
Qed.
Print Assumptions C88_not_canonical_refuted.
