(** C28-C34: contraction drivers. *)
From Verif Require Import PyBase OrderSpec OrderProofs ParitySpec ParityProofs SpaceModel IndicesModel IndicesProofs IterProofs HalfProofs ElemModel ElemSpec CumulantProofs CompatSpec CodeModel
  WickModel WickSpec WickProofs DriverProofs ConnectedProofs ValueSpec ValueProofs CommProofs PropElem.
From Coq Require Import ZArith QArith Qcanon Sorting.Sorted Relations.
Local Close Scope Q_scope.
Local Close Scope Qc_scope.
Local Open Scope nat_scope.

(** Example: two one-body operators with active indices; set.pop() returns the first element. *)
Definition ex_a (n : nat) : idx := (Lab false Sa, n).
Definition ex_A : op := Op [ex_a 0] [ex_a 1].
Definition ex_B : op := Op [ex_a 2] [ex_a 3].
Definition ex_pop : popper := fun _ l => hd 0 l.
Example wick_hypotheses : Forall op_alpha [ex_A; ex_B] /\ distinct_legs [ex_A; ex_B].
Proof.
  split; unfold distinct_legs; cbn; repeat (first [apply Forall_cons|apply Forall_nil|apply NoDup_cons|apply NoDup_nil|split]); simpl; intuition (congruence || discriminate).
Qed.

(** C28. The contractions of a set listed in any order, with the sets of legs iterated in any
    order: same sign, same open operator, densities in the order of the list. *)
Theorem C28_sign_order_independent :
  forall ops K lo hi s s' us ls us' ls',
  Forall op_alpha ops -> distinct_legs ops -> wick_set ops K lo hi s -> Permutation s s' ->
  Permutation us (upper_indices_set ops) -> Permutation ls (lower_indices_set ops) ->
  Permutation us' (upper_indices_set ops) -> Permutation ls' (lower_indices_set ops) ->
  exists sign sq,
    finish_composite s (n_open ops s) false (base_order_map ops) us ls = Ok [(sign, map density_of s, sq)] /\
    finish_composite s' (n_open ops s') false (base_order_map ops) us' ls' = Ok [(sign, map density_of s', sq)].
Proof.
  intros ops K lo hi s s' us ls us' ls' Hal D W P Pu Pl Pu' Pl'. pose proof (wick_set_from ops K lo hi s Hal D W) as F.
  assert (F' : Forall (from_ops ops) s') by (rewrite <- P; exact F).
  destruct (finish_ok ops us ls s false Hal D Pu Pl F (ws_disjoint _ _ _ _ _ W)) as (sign & sq & T & E). exists sign, sq.
  assert (Dj : ForallOrdPairs disjoint_con s') by (apply (pairs_perm disjoint_con s s' disjoint_con_sym P), W).
  destruct (finish_ok ops us' ls' s' false Hal D Pu' Pl' F' Dj) as (sign' & sq' & T' & E').
  destruct (wick_term_unique ops s' sign sq sign' sq' D (wick_term_perm ops s s' sign sq F P T) T') as [<- <-].
  rewrite E, E'. unfold entries_list. cbn [map fst snd]. rewrite Z.mul_1_r. auto.
Qed.
Print Assumptions C28_sign_order_independent.

Definition ex_pairs : list econ := [Con false [ex_a 0] [ex_a 3]; Con true [ex_a 2] [ex_a 1]].
Example C28_hypotheses : wick_set [ex_A; ex_B] 1 0 4 ex_pairs.
Proof.
  constructor.
  - repeat constructor.
    + apply (allowed_pair _ _ _ [0; 1]), (pc_cumulant _ 0 1 ex_A ex_B); try (cbn; auto; lia). exists Sa. repeat split; try discriminate; cbn; auto.
    + apply (allowed_pair _ _ _ [1; 0]), (pc_hole _ 0 1 ex_A ex_B); try (cbn; auto; lia). exists Sa. repeat split; try discriminate; cbn; auto.
  - apply FOP_cons; [apply Forall_cons; [|apply Forall_nil]|apply FOP_cons; [apply Forall_nil|apply FOP_nil]]. split; cbn; intros i [<-|[]] [H|[]]; discriminate.
  - cbn. lia.
Qed.
Example C28_example :
  map (fun s => finish_composite s 0 false (base_order_map [ex_A; ex_B]) (upper_indices_set [ex_A; ex_B]) (lower_indices_set [ex_A; ex_B]))
    [ex_pairs; rev ex_pairs] = [Ok [(1%Z, map density_of ex_pairs, Op [] [])]; Ok [(1%Z, map density_of (rev ex_pairs), Op [] [])]].
Proof. reflexivity. Qed.

(** C29. The sign is the parity of the reordering of the written string into contracted order. *)
Theorem C29_sign_is_parity :
  forall ops K lo hi s us ls,
  Forall op_alpha ops -> distinct_legs ops -> wick_set ops K lo hi s ->
  Permutation us (upper_indices_set ops) -> Permutation ls (lower_indices_set ops) ->
  exists sign sq, finish_composite s (n_open ops s) false (base_order_map ops) us ls = Ok [(sign, map density_of s, sq)] /\
    reorder_sign (written_string ops) (flat_map group s ++ open_string sq) sign /\
    forall f, alternating f -> f (written_string ops) = (sign * f (flat_map group s ++ open_string sq))%Z.
Proof.
  intros ops K lo hi s us ls Hal D W Pu Pl. pose proof (wick_set_from ops K lo hi s Hal D W) as F.
  destruct (finish_ok ops us ls s false Hal D Pu Pl F (ws_disjoint _ _ _ _ _ W)) as (sign & sq & T & E). exists sign, sq.
  split; [rewrite E; unfold entries_list; cbn [map fst snd]; rewrite Z.mul_1_r; reflexivity|]. split; [apply T|].
  intros f Hf. destruct (wt_sign _ _ _ _ T) as (n & S & ->). apply swaps_alternating; assumption.
Qed.
Print Assumptions C29_sign_is_parity.

(** Repeated legs: nothing is returned. *)
Theorem C29_duplicates_rejected :
  forall pick iter ops max_cu max_n min_n expand,
  Forall op_alpha ops -> (forall l, Permutation (iter l) l) -> ~ distinct_legs ops ->
  compute_general pick iter ops max_cu max_n min_n expand = Raise ValueError \/ compute_general pick iter ops max_cu max_n min_n expand = Ok [].
Proof. exact general_driver_dup. Qed.
Print Assumptions C29_duplicates_rejected.

Example C29_example :
  finish_composite [Con false [ex_a 0] [ex_a 3]] 2 false (base_order_map [ex_A; ex_B]) (upper_indices_set [ex_A; ex_B]) (lower_indices_set [ex_A; ex_B]) =
  Ok [((-1)%Z, [Den KCumulant [ex_a 0] [ex_a 3]], Op [ex_a 2] [ex_a 1])].
Proof. reflexivity. Qed.
Example C29_duplicates_example :
  ~ distinct_legs [ex_A; ex_A] /\ compute_general ex_pop (fun l => l) [ex_A; ex_A] 1 4 0 false = Raise ValueError.
Proof. split; [|reflexivity]. unfold distinct_legs. cbn. intros N. inversion N as [|? ? H _]. apply H. cbn. auto. Qed.

(** C30. Leg accounting. *)
Definition density_legs (d : density) : list leg := map (pair true) (dupper d) ++ map (pair false) (dlower d).

Lemma expand_legs ds z l : In (z, l) (expand_hole_densities ds) -> Permutation (flat_map density_legs l) (flat_map density_legs ds) /\ (z = 1 \/ z = -1)%Z.
Proof.
  unfold expand_hole_densities. set (good := filter (fun d => negb (is_hole d)) ds). set (bad := filter is_hole ds).
  assert (P : Permutation ds (good ++ bad)).
  { unfold good, bad. clear. induction ds as [|d ds IH]; cbn [filter]; [constructor|]. destruct (is_hole d); cbn [negb app]; [apply Permutation_cons_app, IH|constructor; exact IH]. }
  assert (G : forall e, In e (iproduct (map expand_hole_density bad)) -> flat_map density_legs e = flat_map density_legs bad).
  { clearbody bad. clear P good. induction bad as [|d bad IH]; cbn [map iproduct].
    - intros e [<-|[]]. reflexivity.
    - intros e H. apply in_flat_map in H as [x [Hx H]]. apply in_map_iff in H as [e' [<- H]]. cbn [flat_map]. rewrite (IH e' H). f_equal.
      unfold expand_hole_density in Hx. destruct (_ || _)%bool; destruct Hx as [<-|Hx]; try reflexivity; try destruct Hx as [<-|[]]; try reflexivity; destruct Hx. }
  destruct (map expand_hole_density bad) as [|x xs] eqn:E.
  - intros [[= <- <-]|[]]. split; [reflexivity|auto].
  - rewrite <- E in *. intros H. apply in_map_iff in H as [e [[= <- <-] H]]. split; [|apply sgn_pm]. rewrite flat_map_app, (G e H), <- flat_map_app. apply Permutation_flat_map. symmetry. exact P.
Qed.

Lemma entry_legs ops expand s b z ds sq K lo hi : wick_set ops K lo hi s -> entries_of ops expand s b -> In (z, ds, sq) b ->
  Permutation (written_string ops) (flat_map density_legs ds ++ open_string sq) /\ (z = 1 \/ z = -1)%Z /\
  StronglySorted (fun a b => plt idx_ord a b = true) (cre sq) /\ StronglySorted (fun a b => plt idx_ord a b = true) (ann sq) /\
  (lo <= Z.of_nat (length (cre sq) + length (ann sq)) <= hi)%Z.
Proof.
  intros W (cons & sign & sq' & P & [T1 T2 T3] & ->) H. apply in_map_iff in H as [[z' ds'] [[= <- <- <-] H]]. cbn [fst snd] in *.
  assert (G : Permutation (flat_map density_legs ds') (flat_map density_legs (map density_of cons)) /\ (z' = 1 \/ z' = -1)%Z).
  { destruct expand; [apply expand_legs, H|]. destruct H as [[= <- <-]|[]]. split; [reflexivity|auto]. }
  destruct G as [G Hz].
  assert (Gr : forall l, Permutation (flat_map density_legs (map density_of l)) (flat_map group l)).
  { intros l. induction l as [|e l IH]; cbn [map flat_map]; [constructor|]. apply Permutation_app; [|exact IH]. unfold density_legs, density_of, group. cbn [dupper dlower].
    destruct (hole e); [apply Permutation_app_comm|]. apply Permutation_app_head, Permutation_map, Permutation_rev. }
  pose proof (reorder_sign_perm _ _ _ T3) as Pw. split; [|split; [|split; [exact T1|split; [exact T2|]]]].
  - rewrite Pw. apply Permutation_app_tail. rewrite G. symmetry. apply Gr.
  - destruct (reorder_sign_pm _ _ _ T3) as [->| ->], Hz as [->| ->]; auto.
  - pose proof (ws_range _ _ _ _ _ W) as R. unfold n_open in R. rewrite <- (Permutation_length (Permutation_flat_map group P)) in R.
    rewrite (Permutation_length Pw), app_length in R. unfold open_string in R. rewrite app_length, !map_length, rev_length in R. lia.
Qed.
Lemma result_legs ops expand (P : list econ -> Prop) K lo hi r z ds sq : (forall s, P s -> wick_set ops K lo hi s) -> wick_sum ops expand P r -> In (z, ds, sq) (concat r) ->
  Permutation (written_string ops) (flat_map density_legs ds ++ open_string sq) /\ (z = 1 \/ z = -1)%Z /\
  StronglySorted (fun a b => plt idx_ord a b = true) (cre sq) /\ StronglySorted (fun a b => plt idx_ord a b = true) (ann sq) /\
  (lo <= Z.of_nat (length (cre sq) + length (ann sq)) <= hi)%Z.
Proof.
  intros Hp (sets & blocks & (O & _) & F & E) H. rewrite E in H. apply in_concat in H as [b [Hb H]]. destruct (Forall2_in_r _ _ _ _ F Hb) as [s [Hs Es]].
  eapply entry_legs; [apply Hp, (O s Hs)|exact Es|exact H].
Qed.

Theorem C30_general_legs_once :
  forall pick iter ops max_cu max_n min_n expand r z ds sq,
  Forall op_alpha ops -> (forall l, Permutation (iter l) l) -> distinct_legs ops ->
  compute_general pick iter ops max_cu max_n min_n expand = Ok r -> In (z, ds, sq) (concat r) ->
  Permutation (written_string ops) (flat_map density_legs ds ++ open_string sq) /\ (z = 1 \/ z = -1)%Z /\
  StronglySorted (fun a b => plt idx_ord a b = true) (cre sq) /\ StronglySorted (fun a b => plt idx_ord a b = true) (ann sq) /\
  (min_n <= Z.of_nat (length (cre sq) + length (ann sq)) <= max_n)%Z.
Proof.
  intros pick iter ops max_cu max_n min_n expand r z ds sq Hal Hit D E H.
  destruct (general_driver_ok pick iter ops max_cu max_n min_n expand Hal Hit D) as (r' & E' & W). rewrite E in E'. injection E' as <-.
  eapply result_legs; [intros s Hs; exact Hs|exact W|exact H].
Qed.
Print Assumptions C30_general_legs_once.

Theorem C30_connected_legs_once :
  forall pick ops max_cu max_n min_n expand r z ds sq,
  Forall op_alpha ops -> distinct_legs ops ->
  compute_connected pick ops max_cu max_n min_n expand = Ok r -> In (z, ds, sq) (concat r) ->
  Permutation (written_string ops) (flat_map density_legs ds ++ open_string sq) /\ (z = 1 \/ z = -1)%Z /\
  StronglySorted (fun a b => plt idx_ord a b = true) (cre sq) /\ StronglySorted (fun a b => plt idx_ord a b = true) (ann sq) /\
  (min_n <= Z.of_nat (length (cre sq) + length (ann sq)) <= max_n)%Z.
Proof.
  intros pick ops max_cu max_n min_n expand r z ds sq Hal D E H.
  destruct (connected_driver_ok pick ops max_cu max_n min_n expand Hal D) as (r' & P & E' & W & S & _). rewrite E in E'. injection E' as <-.
  eapply result_legs; [intros s Hs; apply (S s Hs)|exact W|exact H].
Qed.
Print Assumptions C30_connected_legs_once.

Example C30_example :
  exists r, compute_general ex_pop (fun l => l) [ex_A; ex_B] 2 2 0 true = Ok r /\
    In (-1, [Den KCumulant [ex_a 2] [ex_a 1]], Op [ex_a 0] [ex_a 3])%Z (concat r) /\ length (concat r) = 6.
Proof. eexists. split; [vm_compute; reflexivity|]. split; [cbn; tauto|reflexivity]. Qed.

(** C31. Hole densities may be expanded: the value does not change. *)
Theorem C31_expansion_value :
  forall (R : qalg) (v : valuation R) ds,
  holes_ok v -> (forall d, In d ds -> kind d = KHole -> exists u l, d = Den KHole [u] [l]) ->
  asum (map (fun sd => zin (fst sd) * aprod (map (vden v) (snd sd)))%alg (expand_hole_densities ds)) = aprod (map (vden v) ds).
Proof. intros R v ds Hv H. apply expand_value; [exact Hv|]. apply Forall_forall. exact H. Qed.
Print Assumptions C31_expansion_value.

(** No hole density is left. *)
Theorem C31_no_holes_left : forall ds z l d, In (z, l) (expand_hole_densities ds) -> In d l -> kind d <> KHole.
Proof.
  intros ds z l d H Hd. unfold expand_hole_densities in H.
  assert (G : forall e, In e (iproduct (map expand_hole_density (filter is_hole ds))) -> forall d, In d e -> kind d <> KHole).
  { clear. induction (filter is_hole ds) as [|x bad IH]; cbn [map iproduct].
    - intros e [<-|[]] d [].
    - intros e H d Hd. apply in_flat_map in H as [y [Hy H]]. apply in_map_iff in H as [e' [<- H]]. destruct Hd as [<-|Hd]; [|exact (IH e' H d Hd)].
      unfold expand_hole_density in Hy. destruct (_ || _)%bool; destruct Hy as [<-|Hy]; try discriminate; try destruct Hy as [<-|[]]; try discriminate; destruct Hy. }
  destruct (map expand_hole_density (filter is_hole ds)) as [|x xs] eqn:E.
  - destruct H as [[= <- <-]|[]]. intros Hk. apply map_eq_nil in E. assert (I : In d (filter is_hole ds)) by (apply filter_In; unfold is_hole; rewrite Hk; auto). rewrite E in I. destruct I.
  - rewrite <- E in *. apply in_map_iff in H as [e [[= _ <-] H]]. apply in_app_iff in Hd as [Hd|Hd]; [|exact (G e H d Hd)].
    apply filter_In in Hd as [_ Hd]. unfold is_hole in Hd. destruct (kind d); discriminate.
Qed.
Print Assumptions C31_no_holes_left.

(** For the whole result of the drivers, whatever order the sets are processed in. *)
Theorem C31_driver_value :
  forall (R : qalg) (v : valuation R) pick pick' iter iter' ops max_cu max_n min_n,
  holes_ok v -> Forall op_alpha ops -> distinct_legs ops -> (forall l, Permutation (iter l) l) -> (forall l, Permutation (iter' l) l) ->
  exists r r', compute_general pick iter ops max_cu max_n min_n true = Ok r /\ compute_general pick' iter' ops max_cu max_n min_n false = Ok r' /\
    result_value v r = result_value v r'.
Proof.
  intros R v pick pick' iter iter' ops max_cu max_n min_n Hv Hal D H1 H2.
  destruct (general_driver_ok pick iter ops max_cu max_n min_n true Hal H1 D) as (r & E & W).
  destruct (general_driver_ok pick' iter' ops max_cu max_n min_n false Hal H2 D) as (r' & E' & W'). exists r, r'. split; [exact E|]. split; [exact E'|].
  eapply wick_sum_value; [exact Hv|exact D| |exact W|exact W']. intros s Hs. eapply wick_set_from; eassumption.
Qed.
Print Assumptions C31_driver_value.

(** A valuation: hole densities 1 - g for non-virtual indices, Kronecker 1, one-body cumulants g = 3. *)
Definition ex_val : valuation Qc_alg :=
  Val Qc_alg (fun d => match d with
    | Den KHole [u] [l] => if space_eqb (lsp (fst u)) Sv || space_eqb (lsp (fst l)) Sv then Q2Qc 1 else Qcminus (Q2Qc 1) (Q2Qc 3)
    | Den KHole _ _ => Q2Qc 0
    | Den KKronecker _ _ => Q2Qc 1
    | Den KCumulant [u] [l] => Q2Qc 3
    | Den KCumulant _ _ => Q2Qc 0 end) (fun o => Q2Qc 1).
Example C31_hypotheses : holes_ok ex_val /\ cumulants_antisymmetric ex_val.
Proof.
  split; [|split].
  - intros u l. cbn [ex_val vden]. destruct (_ || _)%bool; apply Qc_is_canon; reflexivity.
  - intros [|a [|b p]] x y q l; reflexivity.
  - intros [|a [|b u]] [|c [|d p]] x y q; reflexivity.
Qed.
Example C31_example :
  expand_hole_densities [Den KHole [ex_a 0] [ex_a 1]; Den KCumulant [ex_a 2] [ex_a 3]] =
  [(1%Z, [Den KCumulant [ex_a 2] [ex_a 3]; Den KKronecker [ex_a 0] [ex_a 1]]); ((-1)%Z, [Den KCumulant [ex_a 2] [ex_a 3]; Den KCumulant [ex_a 0] [ex_a 1]])].
Proof. reflexivity. Qed.

(** C32. The general driver: the full Wick sum. *)
Theorem C32_general_is_wick_sum :
  forall pick iter ops max_cu max_n min_n expand,
  Forall op_alpha ops -> (forall l, Permutation (iter l) l) -> distinct_legs ops ->
  exists result, compute_general pick iter ops max_cu max_n min_n expand = Ok result /\
    wick_sum ops expand (wick_set ops (cumulant_level ops max_cu) min_n max_n) result.
Proof. exact general_driver_ok. Qed.
Print Assumptions C32_general_is_wick_sum.

Example C32_example :
  exists r, compute_general ex_pop (fun l => l) [ex_A; ex_B] 2 4 0 false = Ok r /\
    concat r = [(1, [], Op [ex_a 0; ex_a 2] [ex_a 1; ex_a 3]);
                (1, [Den KCumulant [ex_a 0] [ex_a 3]; Den KHole [ex_a 2] [ex_a 1]], Op [] []);
                (-1, [Den KCumulant [ex_a 0] [ex_a 3]], Op [ex_a 2] [ex_a 1]);
                (1, [Den KCumulant [ex_a 0; ex_a 2] [ex_a 1; ex_a 3]], Op [] []);
                (1, [Den KHole [ex_a 2] [ex_a 1]], Op [ex_a 0] [ex_a 3])]%Z.
Proof. eexists. split; [vm_compute; reflexivity|reflexivity]. Qed.

(** C33. The connected driver: for up to three operators exactly the connected part. *)
Theorem C33_connected_is_connected_part :
  forall pick ops max_cu max_n min_n expand,
  Forall op_alpha ops -> distinct_legs ops -> length ops <= 3 ->
  exists result, compute_connected pick ops max_cu max_n min_n expand = Ok result /\
    wick_sum ops expand (fun s => wick_set ops (cumulant_level ops max_cu) min_n max_n s /\ connects_ops ops s /\ has_pair s) result.
Proof.
  intros pick ops max_cu max_n min_n expand Hal D H3. destruct (connected_driver_ok pick ops max_cu max_n min_n expand Hal D) as (r & P & E & (sets & blocks & O & F & Eb) & S & C).
  exists r. split; [exact E|]. exists sets, blocks. split; [|auto]. revert O. apply set_once_ext. intros s _. split; [apply S|]. intros (H1 & H2 & H4). apply C; assumption.
Qed.
Print Assumptions C33_connected_is_connected_part.

(** For any number of operators: a part of it, with the right entries, each set once. *)
Theorem C33_connected_sound :
  forall pick ops max_cu max_n min_n expand,
  Forall op_alpha ops -> distinct_legs ops ->
  exists result P, compute_connected pick ops max_cu max_n min_n expand = Ok result /\ wick_sum ops expand P result /\
    forall s, P s -> wick_set ops (cumulant_level ops max_cu) min_n max_n s /\ connects_ops ops s /\ has_pair s.
Proof.
  intros pick ops max_cu max_n min_n expand Hal D. destruct (connected_driver_ok pick ops max_cu max_n min_n expand Hal D) as (r & P & E & W & S & _).
  exists r, P. auto.
Qed.
Print Assumptions C33_connected_sound.

Example C33_example :
  exists r, compute_connected (fun _ => ex_pop) [ex_A; ex_B] 2 4 0 false = Ok r /\
    concat r = [(1, [Den KCumulant [ex_a 0] [ex_a 3]; Den KHole [ex_a 2] [ex_a 1]], Op [] []);
                (-1, [Den KCumulant [ex_a 0] [ex_a 3]], Op [ex_a 2] [ex_a 1]);
                (1, [Den KHole [ex_a 2] [ex_a 1]], Op [ex_a 0] [ex_a 3])]%Z.
Proof. eexists. split; [vm_compute; reflexivity|reflexivity]. Qed.

(** C34. The value of A*B - B*A is the same for the general and for the connected driver if one of
    the operators has an even number of legs. *)
Theorem C34_dropped_terms_cancel :
  forall (R : qalg) (v : valuation R) pick pick' pick_c pick_c' iter A B max_cu max_n min_n expand,
  holes_ok v -> cumulants_antisymmetric v -> Forall op_alpha [A; B] -> distinct_legs [A; B] ->
  (exists k, length (cre A) + length (ann A) = 2 * k) -> (forall l, Permutation (iter l) l) ->
  exists gAB gBA cAB cBA,
    compute_general pick iter [A; B] max_cu max_n min_n expand = Ok gAB /\ compute_general pick' iter [B; A] max_cu max_n min_n expand = Ok gBA /\
    compute_connected pick_c [A; B] max_cu max_n min_n expand = Ok cAB /\ compute_connected pick_c' [B; A] max_cu max_n min_n expand = Ok cBA /\
    (result_value v gAB - result_value v gBA = result_value v cAB - result_value v cBA)%alg.
Proof. exact commutator_cancel. Qed.
Print Assumptions C34_dropped_terms_cancel.

(** The entry point dispatches on for_commutator: without it the full sum, with it the connected part. *)
Theorem C32_entry_point :
  forall pick pick_c iter ops max_cu max_n min_n expand,
  Forall op_alpha ops -> (forall l, Permutation (iter l) l) -> distinct_legs ops ->
  exists result, compute_operator_contractions pick pick_c iter false ops max_cu max_n min_n expand = Ok result /\
    wick_sum ops expand (wick_set ops (cumulant_level ops max_cu) min_n max_n) result.
Proof. intros pick pick_c iter ops max_cu max_n min_n expand Hal Hit D. apply (C32_general_is_wick_sum pick iter ops max_cu max_n min_n expand Hal Hit D). Qed.
Print Assumptions C32_entry_point.
Theorem C33_entry_point :
  forall pick pick_c iter ops max_cu max_n min_n expand,
  Forall op_alpha ops -> distinct_legs ops -> length ops <= 3 ->
  exists result, compute_operator_contractions pick pick_c iter true ops max_cu max_n min_n expand = Ok result /\
    wick_sum ops expand (fun s => wick_set ops (cumulant_level ops max_cu) min_n max_n s /\ connects_ops ops s /\ has_pair s) result.
Proof. intros pick pick_c iter ops max_cu max_n min_n expand Hal D H3. apply (C33_connected_is_connected_part pick_c ops max_cu max_n min_n expand Hal D H3). Qed.
Print Assumptions C33_entry_point.

Example C34_hypotheses : exists k, length (cre ex_A) + length (ann ex_A) = 2 * k.
Proof. exists 1. reflexivity. Qed.
(** ... and not if both are odd: for A = a+, B = b+ the uncontracted terms have opposite signs. *)
Example C34_odd :
  exists r r', compute_general ex_pop (fun l => l) [Op [ex_a 0] []; Op [ex_a 1] []] 1 4 0 false = Ok r /\
    compute_general ex_pop (fun l => l) [Op [ex_a 1] []; Op [ex_a 0] []] 1 4 0 false = Ok r' /\
    concat r = [(1, [], Op [ex_a 0; ex_a 1] [])]%Z /\ concat r' = [(-1, [], Op [ex_a 0; ex_a 1] [])]%Z.
Proof. eexists. eexists. split; [vm_compute; reflexivity|]. split; [vm_compute; reflexivity|]. split; reflexivity. Qed.

(** With four operators connected contractions are missed: a+_0 a+_1 (a+_2 a_4) (a_5 a_6) fully
    contracted by <0 5>, <1 4>, <2 6> is connected but not returned. *)
Definition ex_c (n : nat) : idx := (Lab false Sc, n).
Definition ex_ops4 : list op := [Op [ex_c 0] []; Op [ex_c 1] []; Op [ex_c 2] [ex_c 4]; Op [] [ex_c 5; ex_c 6]].
Definition ex_set4 : list econ := [Con false [ex_c 0] [ex_c 5]; Con false [ex_c 1] [ex_c 4]; Con false [ex_c 2] [ex_c 6]].
Theorem C33_four_operators_refuted :
  exists ops s, Forall op_alpha ops /\ distinct_legs ops /\ length ops = 4 /\
    wick_set ops (cumulant_level ops 1) 0 0 s /\ connects_ops ops s /\ has_pair s /\
    forall pick, compute_connected pick ops 1 0 0 false = Ok [].
Proof.
  exists ex_ops4, ex_set4. split; [|split; [|split; [reflexivity|split; [|split; [|split]]]]].
  - repeat (first [apply Forall_cons|apply Forall_nil|split]); simpl; intuition (congruence || discriminate).
  - unfold distinct_legs. cbn. repeat (first [apply NoDup_cons|apply NoDup_nil]); simpl; intuition (congruence || discriminate).
  - constructor.
    + apply Forall_cons; [|apply Forall_cons; [|apply Forall_cons; [|apply Forall_nil]]].
      * apply (allowed_pair _ _ _ [0; 3]), (pc_cumulant _ 0 3 (Op [ex_c 0] []) (Op [] [ex_c 5; ex_c 6])); try (cbn; auto; lia). exists Sc. repeat split; try discriminate; cbn; auto.
      * apply (allowed_pair _ _ _ [1; 2]), (pc_cumulant _ 1 2 (Op [ex_c 1] []) (Op [ex_c 2] [ex_c 4])); try (cbn; auto; lia). exists Sc. repeat split; try discriminate; cbn; auto.
      * apply (allowed_pair _ _ _ [2; 3]), (pc_cumulant _ 2 3 (Op [ex_c 2] [ex_c 4]) (Op [] [ex_c 5; ex_c 6])); try (cbn; auto; lia). exists Sc. repeat split; try discriminate; cbn; auto.
    + apply FOP_cons; [|apply FOP_cons; [|apply FOP_cons; [apply Forall_nil|apply FOP_nil]]].
      * apply Forall_cons; [|apply Forall_cons; [|apply Forall_nil]]; split; cbn; intros i [<-|[]] [H|[]]; discriminate.
      * apply Forall_cons; [|apply Forall_nil]; split; cbn; intros i [<-|[]] [H|[]]; discriminate.
    + cbn. lia.
  - assert (L : forall k e o i, In e ex_set4 -> nth_error ex_ops4 k = Some o -> In i (upper e) -> In i (cre o) -> has_leg ex_ops4 k e) by (intros k e o i _ H1 H2 H3; exists o; split; [exact H1|left; exists i; auto]).
    assert (L' : forall k e o i, In e ex_set4 -> nth_error ex_ops4 k = Some o -> In i (lower e) -> In i (ann o) -> has_leg ex_ops4 k e) by (intros k e o i _ H1 H2 H3; exists o; split; [exact H1|right; exists i; auto]).
    assert (S : forall i j, con_linked ex_ops4 ex_set4 i j -> con_linked ex_ops4 ex_set4 j i) by (intros i j (e & H1 & H2 & H3); exists e; auto).
    assert (L03 : con_linked ex_ops4 ex_set4 0 3).
    { exists (Con false [ex_c 0] [ex_c 5]). split; [cbn; auto|]. split; [eapply L|eapply L']; try reflexivity; cbn; auto. }
    assert (L12 : con_linked ex_ops4 ex_set4 1 2).
    { exists (Con false [ex_c 1] [ex_c 4]). split; [cbn; auto|]. split; [eapply L|eapply L']; try reflexivity; cbn; auto. }
    assert (L23 : con_linked ex_ops4 ex_set4 2 3).
    { exists (Con false [ex_c 2] [ex_c 6]). split; [cbn; auto|]. split; [eapply L|eapply L']; try reflexivity; cbn; auto. }
    assert (To : forall k, k < 4 -> clos_refl_trans nat (con_linked ex_ops4 ex_set4) k 3).
    { intros k Hk. destruct k as [|[|[|[|k]]]]; [apply rt_step, L03| |apply rt_step, L23|apply rt_refl|lia]. eapply rt_trans; apply rt_step; [exact L12|exact L23]. }
    assert (From : forall k, k < 4 -> clos_refl_trans nat (con_linked ex_ops4 ex_set4) 3 k).
    { intros k Hk. destruct k as [|[|[|[|k]]]]; [apply rt_step, S, L03| |apply rt_step, S, L23|apply rt_refl|lia]. eapply rt_trans; apply rt_step; [exact (S _ _ L23)|exact (S _ _ L12)]. }
    intros i j Hi Hj. eapply rt_trans; [apply To, Hi|apply From, Hj].
  - exists (Con false [ex_c 0] [ex_c 5]). split; [cbn; auto|reflexivity].
  - intros pick. vm_compute. reflexivity.
Qed.
Print Assumptions C33_four_operators_refuted.
