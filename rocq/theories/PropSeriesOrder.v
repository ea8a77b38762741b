(** C91: a series of commutators does not depend on the processes, on the order of the cluster levels, nor on the order of SymPy's summands. *)
From Coq Require Import Ascii String ZArith QArith Qcanon Sorting.Sorted Lia.
From Verif Require Import PyBase SpaceModel IndexModel IndicesModel ElemModel MacroModel WickModel TermModel
  SymmetryModel CombineModel BchModel LinearModel CombineSpec CombineProofs ScheduleProofs BilinearProofs LoopSpec SeriesOrder NestedOrder RecursiveOrder PropTerm PropSchedule PropBilinear.
Local Close Scope Q_scope.
Local Close Scope Qc_scope.
Local Open Scope nat_scope.
Local Notation length := List.length.

(** every contraction is run with the decisions of [w] (SymPy's answers and the orders of sets, as functions of what is asked), but with any processes *)
Definition decided_by (w : world) (ws : worlds) : Prop :=
  forall i a b, same_but_scheduling (fst (ws i a b)) w /\ unordered (fst (ws i a b)) /\ same_but_scheduling (snd (ws i a b)) w /\ unordered (snd (ws i a b)).
Definition in_line (w : world) : world := World (w_sympy w) (w_pick w) (w_pick_connected w) (w_iter w) 1 (fun _ l => l).
Lemma in_line_same w w' : same_but_scheduling w' w -> unordered w' -> same_worlds w' (in_line w).
Proof. intros S1 U. split; [exact S1|]. split; [exact U|]. intros k l. reflexivity. Qed.

(** bch_cc_rsc with other numbers of processes and processors, the workers finishing in another order. The decisions may differ from place to place. *)
Theorem C91_bch_processes : forall ws ws' n cluster_levels max_cu_levels n_opens for_commutator expand_hole single_reference unitary n_process n_process' hermitian outs,
  (forall i a b, same_but_scheduling (fst (ws i a b)) (fst (ws' i a b)) /\ unordered (fst (ws i a b)) /\ unordered (fst (ws' i a b))) ->
  (forall i a b, same_but_scheduling (snd (ws i a b)) (snd (ws' i a b)) /\ unordered (snd (ws i a b)) /\ unordered (snd (ws' i a b))) ->
  (4 * Z.of_nat (fact n) * Z.of_nat (fact (list_max cluster_levels)) ^ (2 * Z.of_nat n) <= 10 ^ 15)%Z ->
  bch_cc_rsc ws n cluster_levels max_cu_levels n_opens for_commutator expand_hole single_reference unitary n_process hermitian = Ok outs ->
  exists outs', bch_cc_rsc ws' n cluster_levels max_cu_levels n_opens for_commutator expand_hole single_reference unitary n_process' hermitian = Ok outs' /\
    map (map view) outs' = map (map view) outs.
Proof. intros ws ws' n cl cu os fc eh sr un np np' h outs S1 S2 B H. apply (bch_schedule n cl cl cu os fc eh sr un h np np' ws ws' outs B eq_refl); [|exact H]. intros i a b. split; [apply S1|apply S2]. Qed.
Print Assumptions C91_bch_processes.

(** bch_cc_rsc with the cluster levels in another order, and other processes *)
Theorem C91_bch_levels : forall w ws ws' n cluster_levels cluster_levels' max_cu_levels n_opens for_commutator expand_hole single_reference unitary n_process n_process' hermitian outs,
  decided_by w ws -> decided_by w ws' -> Permutation cluster_levels cluster_levels' ->
  (4 * Z.of_nat (fact n) * Z.of_nat (fact (list_max cluster_levels)) ^ (2 * Z.of_nat n) <= 10 ^ 15)%Z ->
  bch_cc_rsc ws n cluster_levels max_cu_levels n_opens for_commutator expand_hole single_reference unitary n_process hermitian = Ok outs ->
  exists outs', bch_cc_rsc ws' n cluster_levels' max_cu_levels n_opens for_commutator expand_hole single_reference unitary n_process' hermitian = Ok outs' /\
    map (map view) outs' = map (map view) outs.
Proof.
  intros w ws ws' n cl cl' cu os fc eh sr un np np' h outs D D' P B H. assert (Q : forall ws, decided_by w ws -> forall i a b, same_worlds (fst (ws i a b)) (in_line w) /\ same_worlds (snd (ws i a b)) (in_line w)) by (intros ws0 D0 i a b; destruct (D0 i a b) as (S1 & U1 & S2 & U2); split; apply in_line_same; assumption).
  exact (bch_order n cl cl' cu os fc eh sr un h np np' ws ws' outs B (in_line w) P (Q ws D) (Q ws' D') H).
Qed.
Print Assumptions C91_bch_levels.

(** nested_commutator_cc with SymPy listing the products in another order, the cluster levels in another order, and other processes *)
Theorem C91_nested : forall w ws ws' order order' n cluster_levels cluster_levels' max_cu max_n_open min_n_open for_commutator expand_hole single_reference unitary n_process n_process' hermitian out,
  (forall k, same_but_scheduling (ws k) w /\ unordered (ws k)) -> (forall k, same_but_scheduling (ws' k) w /\ unordered (ws' k)) ->
  (forall p, Permutation (order p) p) -> (forall p, Permutation (order' p) p) -> Permutation cluster_levels cluster_levels' -> 1 <= n -> ~ In 0 cluster_levels ->
  (4 * Z.of_nat (fact n) * Z.of_nat (fact (list_max cluster_levels)) ^ (2 * Z.of_nat n) <= 10 ^ 15)%Z ->
  nested_commutator_cc ws order n cluster_levels max_cu max_n_open min_n_open for_commutator expand_hole single_reference unitary n_process hermitian = Ok out ->
  exists out', nested_commutator_cc ws' order' n cluster_levels' max_cu max_n_open min_n_open for_commutator expand_hole single_reference unitary n_process' hermitian = Ok out' /\
    map view out' = map view out.
Proof.
  intros w ws ws' order order' n cl cl' mc mx mn fc eh sr un np np' h out D D' O O' P Hn NZ B H.
  apply (nested_order ws ws' (in_line w) order order' n cl cl' mc mx mn fc eh sr un np np' h out); try assumption; intros k; apply in_line_same; first [apply D|apply D'].
Qed.
Print Assumptions C91_nested.

(** linear_commutator_amp with the cluster levels in another order *)
Theorem C91_amplitudes : forall ws left_terms cluster_levels cluster_levels' scale_factor u v min_n_open max_n_open start n_process unitary max_cu for_commutator single_reference hermitian out,
  unordered_all ws -> Permutation cluster_levels cluster_levels' ->
  (forall amps, cluster_operators cluster_levels start unitary single_reference = Ok amps -> summable left_terms amps scale_factor u v) ->
  linear_commutator_amp ws left_terms cluster_levels scale_factor min_n_open max_n_open start n_process unitary max_cu for_commutator single_reference hermitian = Ok out ->
  exists out', linear_commutator_amp ws left_terms cluster_levels' scale_factor min_n_open max_n_open start n_process unitary max_cu for_commutator single_reference hermitian = Ok out' /\
    map view out' = map view out.
Proof.
  intros ws ls cl cl' sf u v mn mx st np un mc fc sr h out UO P SM H. unfold linear_commutator_amp in *. destruct (cluster_operators cl st un sr) as [am|] eqn:E; [|discriminate]. cbn [pybind] in H. destruct (operators_perm _ _ _ _ _ _ P E) as (am' & -> & Q). cbn [pybind].
  exact (C90_order ws ls am ls am' sf u v mn mx mc np fc h out UO (SM am eq_refl) (Permutation_refl _) Q H).
Qed.
Print Assumptions C91_amplitudes.

(** recursive_single_commutator of any given terms, with other processes; the running products of the coefficients are 0 or not below the threshold at which terms are dropped *)
Theorem C91_recursive : forall ws ws' terms max_cu_levels n_opens for_commutator expand_hole n_process n_process' hermitian outs,
  (forall i a b, same_but_scheduling (fst (ws i a b)) (fst (ws' i a b)) /\ unordered (fst (ws i a b)) /\ unordered (fst (ws' i a b))) ->
  (forall i a b, same_but_scheduling (snd (ws i a b)) (snd (ws' i a b)) /\ unordered (snd (ws i a b)) /\ unordered (snd (ws' i a b))) ->
  consistent_names (flat_map ttensors terms) -> (forall t, In t terms -> ttype t = SpinOrbital /\ forall x, In x (ttensors t) -> titype x = SpinOrbital) ->
  (forall k, 2 <= k <= length terms -> let c := fold_right Qcmult (Q2Qc 1) (map tcoeff (firstn k terms)) in c = Q2Qc 0 \/ Qcle tiny (Qc_abs c)) ->
  recursive_single_commutator ws terms max_cu_levels n_opens for_commutator expand_hole n_process hermitian = Ok outs ->
  exists outs', recursive_single_commutator ws' terms max_cu_levels n_opens for_commutator expand_hole n_process' hermitian = Ok outs' /\
    map (map view) outs' = map (map view) outs.
Proof. intros ws ws' ts cu os fc eh np np' h outs S1 S2 CN TY V H. apply (recursive_schedule ws ws' ts cu os fc eh np np' h outs); try assumption. intros i a b. split; [apply S1|apply S2]. Qed.
Print Assumptions C91_recursive.

(** Example: one commutator with T1 and T2 in both orders, by one process and by several whose results arrive backwards. *)
Example C91_example :
  decided_by ex_serial (fun _ _ _ => (ex_serial, ex_serial)) /\ decided_by ex_serial (fun _ _ _ => (ex_parallel, ex_parallel)) /\ Permutation [1; 2] [2; 1] /\
  (4 * Z.of_nat (fact 1) * Z.of_nat (fact (list_max [1%nat; 2%nat])) ^ (2 * Z.of_nat 1) <= 10 ^ 15)%Z /\
  (exists outs, bch_cc_rsc (fun _ _ _ => (ex_serial, ex_serial)) 1 [1; 2] (inl 1%Z) (inl (0%Z, 2%Z)) true true true false 1 true = Ok outs /\ map (@List.length term) outs = [20; 61]) /\
  (forall p : poly, Permutation (rev p) p) /\
  exists out, nested_commutator_cc (fun _ => ex_parallel) (@rev _) 1 [2; 1] 1 2 0 true true true false 4 true = Ok out /\ List.length out = 31.
Proof.
  split; [intros i a b; split; [repeat split|split; [intros k l; reflexivity|split; [repeat split|intros k l; reflexivity]]]|].
  split; [intros i a b; split; [repeat split|split; [intros k l; symmetry; apply Permutation_rev|split; [repeat split|intros k l; symmetry; apply Permutation_rev]]]|]. split; [constructor|]. split; [vm_compute; discriminate|].
  split; [eexists; split; [vm_compute; reflexivity|reflexivity]|]. split; [intros p; symmetry; apply Permutation_rev|]. eexists. split; [vm_compute; reflexivity|reflexivity].
Qed.
(** For the amplitudes: the hypotheses of C91_amplitudes hold for the one-body Hamiltonian with T1 and T2. *)
Example C91_example_amplitudes :
  (exists out, linear_commutator_amp (fun _ _ => (ex_serial, ex_serial)) [ex_left] [1; 2] (Q2Qc 1) 0 4 4 1 false 1 true true true = Ok out /\ List.length out = 11) /\
  forall amps, cluster_operators [1; 2] 4 false true = Ok amps -> summable [ex_left] amps (Q2Qc 1) (Q2Qc 1) (Q2Qc (1 # 4)).
Proof.
  split; [eexists; split; [vm_compute; reflexivity|reflexivity]|]. intros amps H. vm_compute in H. injection H as <-. split; [|split; [|split; [|split]]].
  - split; [repeat constructor; intros H; cbn in H; intuition discriminate|]. intros x y X Y E. cbn in X, Y. intuition (subst; cbn in *; try discriminate; auto).
  - intros t H. cbn in H. intuition (subst; reflexivity).
  - constructor; [exists 1%Z; apply Qc_is_canon; reflexivity|constructor].
  - constructor; [exists 4%Z; apply Qc_is_canon; reflexivity|constructor; [exists 1%Z; apply Qc_is_canon; reflexivity|constructor]].
  - vm_compute. discriminate.
Qed.
(** For recursive_single_commutator: [[H, T], T] of the one-body H and T, by one process and by several. *)
Definition ex_third : term := MkTerm SpinOrbital [Ten TCluster SpinOrbital "T" 1 [xi Sp 40] [xi Sh 40]] (Op [xi Sh 40] [xi Sp 40]) (Q2Qc (1 # 2)) [xi Sp 40; xi Sh 40] (fun _ => 1) [].
Example C91_example_recursive :
  consistent_names (flat_map ttensors [ex_left; ex_right; ex_third]) /\
  (forall t, In t [ex_left; ex_right; ex_third] -> ttype t = SpinOrbital /\ forall x, In x (ttensors t) -> titype x = SpinOrbital) /\
  (forall k, 2 <= k <= 3 -> let c := fold_right Qcmult (Q2Qc 1) (map tcoeff (firstn k [ex_left; ex_right; ex_third])) in c = Q2Qc 0 \/ Qcle tiny (Qc_abs c)) /\
  exists outs, recursive_single_commutator (fun _ _ _ => (ex_serial, ex_serial)) [ex_left; ex_right; ex_third] (inl 2%Z) (inl (0%Z, 4%Z)) true true 1 true = Ok outs /\ map (@List.length term) outs = [4; 6].
Proof.
  split; [split; [repeat constructor; intros H; cbn in H; intuition discriminate|]; intros x y X Y E; cbn in X, Y; intuition (subst; cbn in *; try discriminate; auto)|].
  split; [intros t H; cbn in H; intuition (subst; cbn in *; intuition (subst; reflexivity))|].
  split; [intros k K; right; assert (k = 2 \/ k = 3) as [-> | ->] by lia; vm_compute; discriminate|]. eexists. split; [vm_compute; reflexivity|]. vm_compute. reflexivity.
Qed.
