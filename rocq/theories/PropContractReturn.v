(** C73: contractions and series of commutators raise nothing of their own. *)
From Coq Require Import Ascii String ZArith QArith Qcanon Sorting.Sorted Lia.
From Verif Require BacktrackProofs SortProofs.
From Verif Require Import PyBase OrderSpec OrderProofs ParitySpec SpaceModel IndexModel IndicesModel IterProofs IndicesProofs SpaceProofs ElemModel ElemSpec CompatSpec MacroModel WickModel WickSpec WickProofs TermModel ValueSpec ValueProofs TermSpec SumProofs TermProofs RenameProofs
  DriverProofs ConnectedProofs CommProofs OperatorProofs SimplifyProofs SimplifyValue SymmetryModel SymmetrySpec SympyValue SympyShape CombineModel BchModel CombineSpec CombineProofs CombineValue PropSimplify PropWick PropCanon ScheduleProofs BchLoop ContractSpec ContractValue ClosureProofs LevelProofs
  PropOperator LevelProofs SeriesProofs ReturnSpec ReturnProofs SimplifyReturns ContractReturns ContractReturnSpec SeriesReturns PropSchedule PropContract PropLevels.
Local Close Scope Q_scope.
Local Close Scope Qc_scope.
Local Open Scope nat_scope.
Local Notation length := List.length.

(** the exceptions of the SymPy of one of two worlds, and of one of the worlds of a series *)
Definition fails_either (ws : world * world) (e : pyexn) : Prop := sympy_fails (w_sympy (fst ws)) e \/ sympy_fails (w_sympy (snd ws)) e.
Definition fails_somewhere (ws : worlds) (e : pyexn) : Prop := exists i a b, fails_either (ws i a b) e.
(** SymPy gives an answer other than 0 to every question *)
Definition answers (sympy : sympy_oracle) : Prop := forall g ranges runs, exists a, sympy g ranges runs = Ok (Some a).
Lemma answers_never sympy e : answers sympy -> ~ sympy_fails sympy e.
Proof. intros A (g & r & u & F). destruct (A g r u) as [a E]. rewrite E in F. destruct F as [F|[F _]]; discriminate. Qed.
(** an argument given once, or one for every level *)
Definition fits_levels {X} (n : nat) (x : X + list X) : Prop := match x with inl _ => True | inr l => length l = n end.
Lemma fits_per_level {X} n (x : X + list X) : fits_levels n x -> exists l, per_level n x = Ok l.
Proof. destruct x as [a|l]; cbn; [eauto|]. intros ->. rewrite Nat.eqb_refl. eauto. Qed.

(** a bound of everything *)
Lemma bounded terms : exists N, within N terms /\ Forall (small N) terms /\ length (flat_map tindices terms) <= N.
Proof.
  set (N := length (all_indices terms) + list_max (map (@snd label nat) (flat_map tindices terms)) + S (length (flat_map tindices terms))). exists N.
  assert (B : forall t i, In t terms -> In i (tindices t) -> snd i < N).
  { intros t i Ht Hi. assert (I : In i (flat_map tindices terms)) by (apply in_flat_map; eauto). pose proof (list_max_in _ _ (in_map (@snd label nat) _ _ I)). unfold N. lia. }
  split; [split; [unfold N; lia|exact B]|]. split; [|unfold N; lia]. apply Forall_forall. intros t Ht. split; [intros i Hi; exact (B t i Ht Hi)|].
  apply in_split in Ht as (l1 & l2 & E). assert (Q : length (flat_map tindices terms) = length (flat_map tindices l1) + (length (tindices t) + length (flat_map tindices l2))) by (rewrite E, flat_map_app; cbn [flat_map]; rewrite !app_length; reflexivity). unfold N. lia.
Qed.

(** ** C73 *)
(** contract_terms of any number of terms raises no exception but those of SymPy, and it returns terms of the same kind. *)
Theorem C73_contract_terms :
  forall w terms max_cu max_o min_o scale for_commutator expand_hole n_process hermitian,
  sound w -> terms <> [] -> Forall contractible terms -> ForallOrdPairs apart_terms terms -> consistent_names (flat_map ttensors terms) ->
  raises_only (sympy_fails (w_sympy w)) (contract_terms w terms max_cu max_o min_o scale for_commutator expand_hole n_process hermitian) /\
  (forall out, contract_terms w terms max_cu max_o min_o scale for_commutator expand_hole n_process hermitian = Ok out -> Forall contractible out).
Proof.
  intros w terms mc mx mn sc fc eh n h (U & I & AD) NE CT AP CN. destruct (bounded terms) as (N & W & F & _).
  assert (WK : Forall (workable (flat_map ttensors terms) N) terms).
  { rewrite Forall_forall in *. intros t Ht. apply contractible_workable; auto. intros x Hx. apply in_flat_map. eauto. }
  destruct (contract_only (flat_map ttensors terms) w terms mc mx mn sc fc eh n h N U I AD CN WK AP NE N W) as [R C]. split; [exact R|]. intros out H. eapply Forall_impl; [|exact (C out H)]. intros t. apply workable_contractible.
Qed.
Print Assumptions C73_contract_terms.
Theorem C73_contract_returns :
  forall w terms max_cu max_o min_o scale for_commutator expand_hole n_process hermitian,
  sound w -> answers (w_sympy w) -> terms <> [] -> Forall contractible terms -> ForallOrdPairs apart_terms terms -> consistent_names (flat_map ttensors terms) ->
  exists out, contract_terms w terms max_cu max_o min_o scale for_commutator expand_hole n_process hermitian = Ok out.
Proof.
  intros w terms mc mx mn sc fc eh n h WS AN NE CT AP CN. apply only_false. eapply only_weaken; [|exact (proj1 (C73_contract_terms w terms mc mx mn sc fc eh n h WS NE CT AP CN))]. intros e. apply answers_never, AN.
Qed.
Print Assumptions C73_contract_returns.

(** The same for single commutators *)
Lemma commutator_general base w1 w2 a b mc mx mn sc fc eh n h : sound w1 -> sound w2 -> consistent_names base -> incl (ttensors a) base -> incl (ttensors b) base -> contractible a -> contractible b -> apart_terms a b ->
  raises_only (fails_either (w1, w2)) (single_commutator w1 w2 a b mc mx mn sc fc eh n h) /\
  exists N, forall out, single_commutator w1 w2 a b mc mx mn sc fc eh n h = Ok out -> Forall (workable base N) out.
Proof.
  intros (U1 & I1 & A1) (U2 & I2 & A2) CN Ia Ib Ca Cb AP. destruct (bounded [a; b]) as (N & [_ W2] & F & W1). inversion F as [|? ? Sa F']; subst. inversion F' as [|? ? Sb _]; subst.
  cbn [flat_map] in W1. rewrite app_nil_r, app_length in W1.
  destruct (commutator_only base w1 w2 a b mc mx mn sc fc eh n h N N U1 U2 I1 I2 A1 A2 CN (contractible_workable a base N Ca Ia Sa) (contractible_workable b base N Cb Ib Sb) AP W1) as [R C].
  - intros i Hi. apply (W2 a); [left; reflexivity|exact Hi].
  - intros i Hi. apply (W2 b); [right; left; reflexivity|exact Hi].
  - split; [exact R|]. exists N. exact C.
Qed.
Theorem C73_single_commutator :
  forall w1 w2 left right max_cu max_o min_o scale for_commutator expand_hole n_process hermitian,
  sound w1 -> sound w2 -> contractible left -> contractible right -> apart_terms left right -> consistent_names (ttensors left ++ ttensors right) ->
  raises_only (fails_either (w1, w2)) (single_commutator w1 w2 left right max_cu max_o min_o scale for_commutator expand_hole n_process hermitian) /\
  (forall out, single_commutator w1 w2 left right max_cu max_o min_o scale for_commutator expand_hole n_process hermitian = Ok out -> Forall contractible out).
Proof.
  intros w1 w2 a b mc mx mn sc fc eh n h S1 S2 Ca Cb AP CN. destruct (commutator_general (ttensors a ++ ttensors b) w1 w2 a b mc mx mn sc fc eh n h S1 S2 CN) as [R (N & C)]; try assumption; [intros x Hx; apply in_or_app; auto|intros x Hx; apply in_or_app; auto|].
  split; [exact R|]. intros out H. eapply Forall_impl; [|exact (C out H)]. intros t. apply workable_contractible.
Qed.
Print Assumptions C73_single_commutator.
(** and for sums of them *)
Theorem C73_linear_commutator :
  forall (ws : term -> term -> world * world) lefts rights max_cu max_o min_o scale for_commutator expand_hole n_process hermitian,
  (forall l r, sound (fst (ws l r)) /\ sound (snd (ws l r))) -> Forall contractible (lefts ++ rights) -> (forall l r, In l lefts -> In r rights -> apart_terms l r) -> consistent_names (flat_map ttensors (lefts ++ rights)) ->
  raises_only (fun e => exists l r, fails_either (ws l r) e)
    (linear_commutator (fun l r => single_commutator (fst (ws l r)) (snd (ws l r)) l r max_cu max_o min_o scale for_commutator expand_hole n_process hermitian) lefts rights).
Proof.
  intros ws ls rs mc mx mn sc fc eh n h WS CT AP CN. rewrite Forall_forall in CT. set (base := flat_map ttensors (ls ++ rs)) in *. set (f := fun l r => single_commutator _ _ l r _ _ _ _ _ _ _ _).
  assert (G : forall l r, In l ls -> In r rs -> raises_only (fails_either (ws l r)) (f l r) /\ exists N, forall out, f l r = Ok out -> Forall (workable base N) out).
  { intros l r Hl Hr. destruct (WS l r) as [S1 S2]. replace (ws l r) with (fst (ws l r), snd (ws l r)) at 1 by (destruct (ws l r); reflexivity). apply commutator_general; auto using in_or_app; intros x Hx; apply in_flat_map; eauto using in_or_app. }
  unfold linear_commutator. apply only_bind.
  - apply only_map. intros l Hl. apply only_bind; [|intros; apply only_ok]. apply only_map. intros r Hr. eapply only_weaken; [|exact (proj1 (G l r Hl Hr))]. eauto.
  - intros lls E. apply combine_only. apply Forall_forall. intros t Ht. apply in_concat in Ht as (ts & Hts & Ht). apply pymap_results in E. destruct (Forall2_in_r _ _ _ _ E Hts) as (l & Hl & E1). destruct (pymap _ rs) as [lr|] eqn:E2; [|discriminate]. cbn [pybind] in E1. injection E1 as <-. apply in_concat in Ht as (ts' & Hts' & Ht). apply pymap_results in E2. destruct (Forall2_in_r _ _ _ _ E2 Hts') as (r & Hr & E3).
    destruct (G l r Hl Hr) as [_ (N & C)]. specialize (C ts' E3). rewrite Forall_forall in C. exact (proj1 (wk_clean _ _ _ (C t Ht))).
Qed.
Print Assumptions C73_linear_commutator.

(** recursive_single_commutator: every term has index numbers of its own, with room for as many indices as it has *)
Theorem C73_recursive :
  forall ws terms max_cu n_opens for_commutator expand_hole n_process hermitian (N : nat -> nat),
  (forall i a b, sound (fst (ws i a b)) /\ sound (snd (ws i a b))) -> consistent_names (flat_map ttensors terms) -> 2 <= length terms ->
  fits_levels (length terms - 1) max_cu -> fits_levels (length terms - 1) n_opens ->
  (forall k t, nth_error terms k = Some t -> contractible t /\ (forall i, In i (tindices t) -> N k <= snd i < N (S k)) /\ N k + length (tindices t) <= N (S k)) ->
  raises_only (fails_somewhere ws) (recursive_single_commutator ws terms max_cu n_opens for_commutator expand_hole n_process hermitian).
Proof.
  intros ws terms mc mo fc eh np h N WS CN L F1 F2 HT. destruct terms as [|t0 [|t1 rest]]; [cbn in L; lia..|]. unfold recursive_single_commutator. set (base := flat_map ttensors (t0 :: t1 :: rest)) in *.
  destruct (fits_per_level _ _ F1) as [levels ->]. destruct (fits_per_level _ _ F2) as [opens ->]. cbn [pybind tl].
  assert (IN : forall t, In t (t0 :: t1 :: rest) -> incl (ttensors t) base) by (intros t Ht x Hx; apply in_flat_map; eauto).
  apply (levels_only base CN ws levels opens (fun _ => Q2Qc 1) fc eh np h WS (fun k => N (S k)) (fun t => Ok t)) with (k := 0).
  - intros k t W. exists t. auto.
  - constructor; [|constructor]. destruct (HT 0 t0 eq_refl) as (C0 & N0 & R0). apply contractible_workable; [exact C0|apply IN; left; reflexivity|]. split; [intros i Hi; apply N0, Hi|lia].
  - intros j rs r Hj Hr. rewrite nth_error_map in Hj. destruct (nth_error (t1 :: rest) j) as [t|] eqn:E; [|discriminate]. injection Hj as <-. destruct Hr as [<-|[]]. destruct (HT (S j) t E) as (C0 & N0 & R0). cbn [Nat.add]. constructor; [|exact N0|exact R0].
    apply contractible_workable; [exact C0|apply IN; right; exact (nth_error_In _ _ E)|]. split; [intros i Hi; apply N0, Hi|lia].
Qed.
Print Assumptions C73_recursive.

(** bch_cc_rsc: for cluster operators of rank one at least, whatever the coefficients become *)
Theorem C73_bch :
  forall ws nested_level cluster_levels max_cu n_opens for_commutator expand_hole single_reference unitary n_process hermitian,
  (forall i a b, sound (fst (ws i a b)) /\ sound (snd (ws i a b))) -> cluster_levels <> [] -> Forall (fun k => 1 <= k) cluster_levels ->
  fits_levels nested_level max_cu -> fits_levels nested_level n_opens ->
  raises_only (fails_somewhere ws) (bch_cc_rsc ws nested_level cluster_levels max_cu n_opens for_commutator expand_hole single_reference unitary n_process hermitian).
Proof.
  intros ws n cl cu os fc eh sr un np h WS NE K F1 F2. unfold bch_cc_rsc. destruct (fits_per_level _ _ F1) as [levels ->]. destruct (fits_per_level _ _ F2) as [opens ->]. cbn [pybind]. destruct cl as [|c0 cl0]; [contradiction|]. set (cl := c0 :: cl0) in *.
  set (m := list_max cl). set (N := fun k => k * (m * 2) + 4).
  assert (G : forall l, exists amps, pymap (bch_amplitudes cl un sr) l = Ok amps /\ Forall2 (fun i rs => Forall (right_ok series_tensors (N i) (N (S i))) rs) l amps).
  { induction l as [|i l (amps & E & F)]; [exists []; split; [reflexivity|constructor]|]. destruct (operators_return cl (N i) un sr K) as (ts & Et & Ft). fold m in Ft. replace (N i + m * 2) with (N (S i)) in Ft by (unfold N; lia).
    exists (ts :: amps). cbn [pymap]. unfold bch_amplitudes at 1. fold m. change (i * (m * 2) + 4) with (N i). rewrite Et. cbn [pybind]. rewrite E. split; [reflexivity|]. constructor; assumption. }
  destruct (G (seq 0 n)) as (amps & -> & FA). cbn [pybind]. destruct start_workable as (hl & -> & FH). cbn [pybind]. apply only_bind; [|intros; apply only_ok].
  apply (levels_only series_tensors series_names ws levels opens inv_nat fc eh np h WS N from_term) with (k := 0).
  - intros k t W. apply from_term_ok, W.
  - exact FH.
  - intros j rs r Hj Hr. cbn [Nat.add].
    assert (Q : forall l amps' s, l = seq s (length l) -> Forall2 (fun i rs => Forall (right_ok series_tensors (N i) (N (S i))) rs) l amps' -> forall j rs, nth_error amps' j = Some rs -> Forall (right_ok series_tensors (N (s + j)) (N (S (s + j)))) rs).
    { clear. intros l amps' s El F. revert s El. induction F as [|i rs l amps' F _ IH]; intros s El [|j] rs' Hj; try discriminate; cbn [length seq] in El; injection El as -> El; cbn [nth_error] in Hj; [injection Hj as <-; rewrite Nat.add_0_r; exact F|]. replace (s + S j) with (S s + j) by lia. apply IH; assumption. }
    specialize (Q (seq 0 n) amps 0). rewrite seq_length in Q. specialize (Q eq_refl FA j rs Hj). rewrite Forall_forall in Q. apply Q, Hr.
Qed.
Print Assumptions C73_bch.
Theorem C73_bch_returns :
  forall ws nested_level cluster_levels max_cu n_opens for_commutator expand_hole single_reference unitary n_process hermitian,
  (forall i a b, sound (fst (ws i a b)) /\ sound (snd (ws i a b))) -> (forall i a b, answers (w_sympy (fst (ws i a b))) /\ answers (w_sympy (snd (ws i a b)))) ->
  cluster_levels <> [] -> Forall (fun k => 1 <= k) cluster_levels -> fits_levels nested_level max_cu -> fits_levels nested_level n_opens ->
  exists outs, bch_cc_rsc ws nested_level cluster_levels max_cu n_opens for_commutator expand_hole single_reference unitary n_process hermitian = Ok outs.
Proof.
  intros ws n cl cu os fc eh sr un np h WS AN NE K F1 F2. apply only_false. eapply only_weaken; [|exact (C73_bch ws n cl cu os fc eh sr un np h WS NE K F1 F2)]. intros e (i & a & b & [F|F]); destruct (AN i a b) as [A1 A2]; [exact (answers_never _ _ A1 F)|exact (answers_never _ _ A2 F)].
Qed.
Print Assumptions C73_bch_returns.

(** The operators of the package are accepted. *)
Theorem C73_hamiltonian_accepted : forall k start t, 1 <= k -> hamiltonian_operator k start SpinOrbital = Ok t -> contractible t.
Proof.
  intros k start t K H. pose proof (hamiltonian_standard k start t H) as ST. destruct (hamiltonian_ok k start SpinOrbital) as (h' & E & _ & _ & E3 & _). rewrite H in E. injection E as <-.
  constructor; [exact ST|..]; rewrite E3.
  - intros x [<-|[]]. cbn [tupper tlower]. apply NoDup_app_intro; try apply is_range_nodup. intros i Q Q'. apply is_range_in in Q, Q'. lia.
  - intros x [<-|[]]. cbn [tupper tlower]. rewrite !is_range_length. split; [reflexivity|]. intros Q. apply (f_equal (@List.length idx)) in Q. rewrite is_range_length in Q. cbn in Q. lia.
  - intros x i [<-|[]] Hi. cbn [tupper tlower] in Hi. apply in_app_or in Hi as [Hi|Hi]; apply is_range_in in Hi as [-> _]; reflexivity.
  - intros x [<-|[]]. discriminate.
  - intros x i [<-|[]]. discriminate.
  - intros x i [<-|[]]. discriminate.
Qed.
Print Assumptions C73_hamiltonian_accepted.
Theorem C73_cluster_accepted : forall k start ex name sc hl pl t, 1 <= k -> lbeta hl = false -> lbeta pl = false -> lsp hl <> Sg -> lsp pl <> Sg -> hl <> pl ->
  cluster_operator k start ex name sc hl pl SpinOrbital = Ok t -> contractible t.
Proof.
  intros k start ex name sc hl pl t K Bh Bp Gh Gp D H. pose proof (cluster_standard _ _ _ _ _ _ _ _ Bh Bp D H) as ST. destruct (cluster_fit _ _ _ _ _ _ _ _ K Bh Bp Gh Gp H) as (F1 & _ & F3). destruct (cluster_ok _ _ _ _ _ _ _ _ _ H) as (_ & _ & E3 & _). constructor; [exact ST| | | | | |exact F3].
  - intros x Hx. rewrite E3 in Hx. destruct Hx as [<-|[]]. cbn [tupper tlower]. apply NoDup_app_intro; try apply is_range_nodup. intros i Q Q'. apply is_range_in in Q, Q'. destruct Q as [Q _], Q' as [Q' _]. congruence.
  - intros x Hx. rewrite E3 in Hx. destruct Hx as [<-|[]]. cbn [tupper tlower]. rewrite !is_range_length. split; [reflexivity|]. intros Q. apply (f_equal (@List.length idx)) in Q. rewrite is_range_length in Q. cbn in Q. lia.
  - intros x i Hx Hi. apply F1. unfold content_indices. apply in_or_app. right. apply in_flat_map. exists x. auto.
  - intros x Hx. rewrite E3 in Hx. destruct Hx as [<-|[]]. discriminate.
  - intros x i Hx. rewrite E3 in Hx. destruct Hx as [<-|[]]. discriminate.
Qed.
Print Assumptions C73_cluster_accepted.

(** A tensor without indices is not accepted: the product of H, T and a number with a tensor of its own raises ValueError. *)
Definition ex_number : term := the_term (hamiltonian_operator 0 5 SpinOrbital).
Definition ex_second : term := the_term (cluster_operator 1 2 true "T" (Q2Qc 1) (Lab false Sh) (Lab false Sp) SpinOrbital).
Lemma ex_names : consistent_names (flat_map ttensors [ex_h; ex_second; ex_number]).
Proof. split; [vm_compute; repeat constructor; intros H; cbn in H; intuition discriminate|]. intros x y X Y E. vm_compute in X, Y. intuition (subst; cbn in *; try discriminate; auto). Qed.
Lemma ex_apart : ForallOrdPairs apart_terms [ex_h; ex_second; ex_number].
Proof. repeat constructor; intros i Hi Q; vm_compute in Hi, Q; intuition (subst; discriminate). Qed.
Lemma ex_answers : answers (w_sympy ex_serial).
Proof. intros g r u. exists g. reflexivity. Qed.
Theorem C73_numbers_refuted :
  exists w terms, sound w /\ answers (w_sympy w) /\ Forall standard terms /\ ForallOrdPairs apart_terms terms /\ consistent_names (flat_map ttensors terms) /\
  contract_terms w terms 2 4 0 (Q2Qc 1) false true 1 true = Raise ValueError.
Proof.
  exists ex_serial, [ex_h; ex_second; ex_number]. split; [exact serial_sound|]. split; [exact ex_answers|]. split.
  { constructor; [apply (C62_hamiltonian_standard 1 0); reflexivity|]. constructor; [apply (C62_cluster_standard 1 2 true "T" (Q2Qc 1) (Lab false Sh) (Lab false Sp)); try reflexivity; discriminate|]. constructor; [apply (C62_hamiltonian_standard 0 5); reflexivity|constructor]. }
  split; [exact ex_apart|]. split; [exact ex_names|]. vm_compute. reflexivity.
Qed.
Print Assumptions C73_numbers_refuted.

(** Without it the product is accepted; so are the terms of [ex_series] for two levels, and the arguments of bch_cc_rsc. *)
Example C73_example :
  Forall contractible [ex_h; ex_second] /\ ForallOrdPairs apart_terms [ex_h; ex_second] /\ consistent_names (flat_map ttensors [ex_h; ex_second]) /\
  (forall k t, nth_error ex_series k = Some t -> contractible t /\ (forall i, In i (tindices t) -> 2 * k <= snd i < 2 * S k) /\ 2 * k + length (tindices t) <= 2 * S k) /\
  fits_levels 2 (inr [(0, 4); (0, 2)]%Z) /\ exists out, contract_terms ex_serial [ex_h; ex_second] 2 4 0 (Q2Qc 1) false true 1 true = Ok out /\ 2 <= length out.
Proof.
  assert (CL : forall start ex t, cluster_operator 1 start ex "T" (Q2Qc 1) (Lab false Sh) (Lab false Sp) SpinOrbital = Ok t -> contractible t) by (intros start ex t; apply C73_cluster_accepted; try reflexivity; try discriminate; lia).
  assert (CH : contractible ex_h) by (apply (C73_hamiltonian_accepted 1 0); [lia|reflexivity]).
  split. { constructor; [exact CH|]. constructor; [apply (CL 2 true); reflexivity|constructor]. }
  split. { pose proof ex_apart as A. inversion A as [|? ? A1 A2]; subst. inversion A1; subst. repeat constructor; assumption. }
  split. { split; [vm_compute; repeat constructor; intros H; cbn in H; intuition discriminate|]. intros x y X Y E. vm_compute in X, Y. intuition (subst; cbn in *; try discriminate; auto). }
  split.
  { intros k t Hk. destruct k as [|[|[|k]]]; cbn [nth_error ex_series] in Hk; [| | |destruct k; discriminate]; injection Hk as <-; (split; [first [exact CH|apply (CL 2 false); reflexivity|apply (CL 4 true); reflexivity]|]; split; [intros i Hi; vm_compute in Hi; intuition (subst; cbn; lia)|vm_compute; lia]). }
  split; [reflexivity|]. eexists. split; [vm_compute; reflexivity|]. cbn. lia.
Qed.
