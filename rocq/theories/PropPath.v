(** Contraction paths (Term.contraction_paths, Term.optimal_contraction_cost): C45, C46. *)
From Coq Require Import Ascii String ZArith QArith Qcanon Permutation Lia Factorial.
From Verif Require Import PyBase SpaceModel IndexModel IndicesModel ElemModel TermModel PathModel PathSpec OrderSpec OrderProofs SpaceProofs TermProofs PathProofs.
Local Close Scope Q_scope.
Local Close Scope Qc_scope.
Local Open Scope nat_scope.
Local Notation length := List.length.

(** With at least two tensors nothing is raised and there is exactly one entry for every sequence of pairwise merges. The path of an
    entry is the tree built by its sequence, every tensor occurs in it once, and the costs are the largest among its contractions. *)
Theorem C45_one_entry_per_sequence : forall t, 2 <= length (ttensors t) ->
  exists ps sqs, contraction_paths t = Ok ps /\ NoDup sqs /\ (forall sq, In sq sqs <-> merge_sequence (length (ttensors t)) sq) /\
    Forall2 (fun sq e => exists T, merged (map Leaf (ttensors t)) sq = Some T /\ Permutation (leaves T) (ttensors t) /\ entry_of T e) sqs ps.
Proof.
  intros t L. destruct (paths_entries t L) as (ps & sqs & E & D & M & F & _). exists ps, sqs. split; [exact E|]. split; [exact D|]. split; [exact M|].
  assert (A : Forall (fun sq => merge_sequence (length (ttensors t)) sq) sqs) by (apply Forall_forall; intros sq H; apply M, H). clear - F A.
  induction F as [|sq e sqs ps (T & H1 & H2) _ IH]; constructor; inversion A as [|? ? A1 A2]; subst; [|apply IH, A2]. exists T. split; [exact H1|]. split; [exact (merged_all _ sq T A1 H1)|exact H2].
Qed.
Print Assumptions C45_one_entry_per_sequence.

(** The number of entries for n tensors is n! (n-1)! / 2^(n-1), and the division is exact. *)
Theorem C45_count : forall t ps, 1 <= length (ttensors t) -> contraction_paths t = Ok ps ->
  length ps = fact (length (ttensors t)) * fact (length (ttensors t) - 1) / 2 ^ (length (ttensors t) - 1) /\
  length ps * 2 ^ (length (ttensors t) - 1) = fact (length (ttensors t)) * fact (length (ttensors t) - 1).
Proof.
  intros t ps L E. assert (Q : length ps * 2 ^ (length (ttensors t) - 1) = fact (length (ttensors t)) * fact (length (ttensors t) - 1)).
  { destruct (Nat.eq_dec (length (ttensors t)) 1) as [E1|N].
    - unfold contraction_paths in E. destruct (ttensors t) as [|x [|]]; cbn in E1; try lia. destruct (space_counter_ok (indices_set x)) as (c & Ec & _). rewrite Ec in E. cbn in E. injection E as <-. reflexivity.
    - destruct (paths_entries t) as (ps' & sqs & E' & _ & _ & _ & C); [lia|]. assert (ps' = ps) by congruence. subst. exact C. }
  split; [|exact Q]. rewrite <- Q. symmetry. apply Nat.div_mul. apply Nat.pow_nonzero. lia.
Qed.
Print Assumptions C45_count.

(** Every way to contract the tensors pairwise, up to the order of the two factors, is among the paths. *)
Theorem C45_every_tree : forall t ps T, 2 <= length (ttensors t) -> contraction_paths t = Ok ps -> Permutation (leaves T) (ttensors t) ->
  exists e T', In e ps /\ same_tree T T' /\ entry_of T' e.
Proof.
  intros t ps T L E P. destruct (paths_entries t L) as (ps' & sqs & E' & _ & M & F & _). assert (ps' = ps) by congruence. subst. exact (every_tree t ps sqs T P M F).
Qed.
Print Assumptions C45_every_tree.

(** A single tensor: one entry without a path, both costs count the indices of the tensor. No tensor: no entry. *)
Theorem C45_single : forall t x, ttensors t = [x] ->
  exists c, contraction_paths t = Ok [(c, c, None)] /\ counter_key c = scaling (dedup (tensor_indices x)).
Proof.
  intros t x E. unfold contraction_paths. rewrite E. destruct (space_counter_ok (indices_set x)) as (c & -> & K). exists c. split; [reflexivity|exact K].
Qed.
Print Assumptions C45_single.
Theorem C45_none : forall t, ttensors t = [] -> contraction_paths t = Ok [].
Proof. intros t E. unfold contraction_paths. rewrite E. reflexivity. Qed.
Print Assumptions C45_none.

(** The reported compute (storage) cost belongs to the reported path, which contracts every tensor once, and no way to contract the
    tensors has a smaller one. *)
Theorem C46_optimal : forall t, 2 <= length (ttensors t) ->
  exists cc cs Tc Ts, optimal_contraction_cost t = Ok (Some (cc, Some Tc), Some (cs, Some Ts)) /\
    Permutation (leaves Tc) (ttensors t) /\ Permutation (leaves Ts) (ttensors t) /\
    is_largest (counter_key cc) (map compute_of (nodes Tc)) /\ is_largest (counter_key cs) (map storage_of (nodes Ts)) /\
    forall T k, Permutation (leaves T) (ttensors t) ->
      (is_largest k (map compute_of (nodes T)) -> ple scaling_ord (counter_key cc) k = true) /\
      (is_largest k (map storage_of (nodes T)) -> ple scaling_ord (counter_key cs) k = true).
Proof. exact optimal_ok. Qed.
Print Assumptions C46_optimal.

(** The comparison of costs is a total order, so "smallest" and "largest" are unique. *)
Theorem C46_total_order : forall a b c : Z * list Z,
  ple scaling_ord a a = true /\ (ple scaling_ord a b = true \/ ple scaling_ord b a = true) /\
  (ple scaling_ord a b = true -> ple scaling_ord b a = true -> a = b) /\
  (ple scaling_ord a b = true -> ple scaling_ord b c = true -> ple scaling_ord a c = true).
Proof.
  intros a b c. split; [apply (SortProofs.ple_refl _ scaling_lawful)|]. split.
  - destruct (ple scaling_ord a b) eqn:E; [left; reflexivity|right]. apply (SortProofs.ple_iff _ scaling_lawful). destruct (plt scaling_ord a b) eqn:F; [|reflexivity]. rewrite (lw_le _ scaling_lawful), F in E. discriminate.
  - split; [apply (SortProofs.ple_antisym _ scaling_lawful); apply pair_ext; [apply Z_ext|apply list_ext, Z_ext]|apply (SortProofs.ple_trans _ scaling_lawful)].
Qed.
Print Assumptions C46_total_order.
(** ... and it compares the total number of indices first, then the virtual, core and active ones. *)
Theorem C46_order_meaning : forall s1 s2, plt scaling_ord (scaling s1) (scaling s2) = true <->
  length s1 < length s2 \/
  (length s1 = length s2 /\ (how_many is_virtual s1 < how_many is_virtual s2 \/
     (how_many is_virtual s1 = how_many is_virtual s2 /\ (how_many is_core s1 < how_many is_core s2 \/
        (how_many is_core s1 = how_many is_core s2 /\ how_many is_active s1 < how_many is_active s2)))))%Z.
Proof.
  intros s1 s2. unfold scaling_ord, scaling. cbn [pair_ord plt]. unfold pair_op. cbn [pair_ord plt pair_op list_ord list_op peq Z_ord fst snd].
  repeat match goal with |- context [Z.eqb ?a ?b] => destruct (Z.eqb_spec a b) end; rewrite ?Z.ltb_lt; cbn [List.length Nat.ltb Nat.leb]; try lia.
Qed.
Print Assumptions C46_order_meaning.

(** Example: three tensors, V^{ab}_{mn} T^{m}_{a} T^{n}_{b}: three paths, the best one needs three indices for each step. *)
Definition ex_i (s : space) (n : nat) : idx := (Lab false s, n).
Definition ex_T m a : tensor := Ten TCluster SpinOrbital "T" 1 [ex_i Sv a] [ex_i Sc m].
Definition ex_V : tensor := Ten THamiltonian SpinOrbital "V" 0 [ex_i Sc 0; ex_i Sc 1] [ex_i Sv 0; ex_i Sv 1].
Definition ex_term : term := MkTerm SpinOrbital [ex_V; ex_T 0 0; ex_T 1 1] (Op [] []) (Q2Qc 1) [] (fun _ => 0) [].
Example C45_C46_example : exists ps cc cs,
  contraction_paths ex_term = Ok ps /\ map (fun e => (counter_key (fst (fst e)), counter_key (snd (fst e)), snd e)) ps =
    [((4, [2; 2; 0]), (2, [1; 1; 0]), Some (Node (Leaf (ex_T 1 1)) (Node (Leaf ex_V) (Leaf (ex_T 0 0))))); ((4, [2; 2; 0]), (2, [1; 1; 0]), Some (Node (Leaf (ex_T 0 0)) (Node (Leaf ex_V) (Leaf (ex_T 1 1))))); ((4, [2; 2; 0]), (4, [2; 2; 0]), Some (Node (Leaf ex_V) (Node (Leaf (ex_T 0 0)) (Leaf (ex_T 1 1)))))]%Z /\
  optimal_contraction_cost ex_term = Ok (Some (cc, Some (Node (Leaf (ex_T 1 1)) (Node (Leaf ex_V) (Leaf (ex_T 0 0))))), Some (cs, Some (Node (Leaf (ex_T 1 1)) (Node (Leaf ex_V) (Leaf (ex_T 0 0)))))) /\
  counter_key cc = (4, [2; 2; 0])%Z /\ counter_key cs = (2, [1; 1; 0])%Z.
Proof. do 3 eexists. split; [vm_compute; reflexivity|]. split; [vm_compute; reflexivity|]. split; [vm_compute; reflexivity|]. split; reflexivity. Qed.
