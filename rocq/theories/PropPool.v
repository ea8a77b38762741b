(** C82: the contraction drivers with several processes. *)
From Coq Require Import ZArith Lia.
From Verif Require Import PyBase SpaceModel IndicesModel ElemModel ElemSpec IterProofs CompatSpec CodeModel MacroModel WickModel WickSpec WickProofs DriverProofs ConnectedProofs PoolModel PoolProofs PropWick.
Local Open Scope nat_scope.

(** The pool finishes every chunk once, in any order. *)
Definition schedule (order : nat -> list nat) : Prop := forall n, Permutation (order n) (seq 0 n).
(** The entries of every set satisfying [P], each set once, in any order. *)
Definition wick_sum_any_order (ops : list op) (expand_hole : bool) (P : list econ -> Prop) (result : list (list entry)) : Prop :=
  exists sets blocks, lists_each_set_once P sets /\ Forall2 (entries_of ops expand_hole) sets blocks /\ Permutation (concat result) (concat blocks).
(** [r] is an outcome of one process, [r'] of the pool *)
Definition same_outcome (r r' : pyres (list (list entry))) : Prop :=
  (forall x, r = Ok x -> exists y, r' = Ok y /\ Permutation x y) /\ (forall y, r' = Ok y -> exists x, r = Ok x /\ Permutation x y).

Lemma forall2_same_length {X Y} (R : X -> Y -> Prop) l m : Forall2 R l m -> length l = length m.
Proof. induction 1; cbn [length]; congruence. Qed.
Lemma same_refl r : same_outcome r r.
Proof. split; intros x E; exists x; auto. Qed.
Lemma same_bind {X} (a : pyres X) f g : (forall x, same_outcome (f x) (g x)) -> same_outcome (pybind a f) (pybind a g).
Proof. intros H. destruct a as [x|e]; [apply H|split; discriminate]. Qed.

Lemma general_same order cpus n size pick iter ops max_cu max_n min_n expand : schedule order -> (0 <= size)%Z ->
  same_outcome (compute_general pick iter ops max_cu max_n min_n expand) (compute_general_pool order cpus n size pick iter ops max_cu max_n min_n expand).
Proof.
  intros Ho Hs. unfold compute_general, compute_general_pool. cbv zeta. apply same_bind. intros first. apply same_bind. intros el. apply same_bind. intros [[ys av] av'].
  cbn [fst]. set (size' := if (size =? 0)%Z then _ else _). assert (Hs' : (1 <= size')%Z) by (unfold size', estimate_batch_size; destruct (Z.eqb_spec size 0); lia). clearbody size'.
  set (f := fun con => process_composite_contractions con _ _ _ _ _ _).
  assert (E : pymap (fun con => f (iter con)) ys = pymap f (map iter ys)) by (symmetry; apply pymap_map_in). unfold f in E. cbv beta in E. rewrite E. fold f. clear E. split.
  - intros x E. destruct (pymap f (map iter ys)) as [r|] eqn:Er; [|discriminate]. injection E as <-. destruct (imap_serial order Ho f _ _ r Hs' Er) as (r' & E' & P). rewrite E'. eexists. split; [reflexivity|]. apply Permutation_app_head, P.
  - intros y E. destruct (imap_unordered order f (map iter ys) size') as [r'|] eqn:Er; [|discriminate]. injection E as <-. destruct (imap_back order Ho f _ _ r' Hs' Er) as (r & E' & P). rewrite E'. eexists. split; [reflexivity|]. apply Permutation_app_head, P.
Qed.
Lemma connected_same order cpus n size pick ops max_cu max_n min_n expand : schedule order -> (0 <= size)%Z ->
  same_outcome (compute_connected pick ops max_cu max_n min_n expand) (compute_connected_pool order cpus n size pick ops max_cu max_n min_n expand).
Proof.
  intros Ho Hs. unfold compute_connected, compute_connected_pool. cbv zeta. apply same_bind. intros el. destruct el as [|e el]; [apply same_refl|]. apply same_bind. intros E. apply same_bind. intros comp. apply same_bind. intros cs.
  set (size' := if (size =? 0)%Z then _ else _). assert (Hs' : (1 <= size')%Z) by (unfold size'; destruct (Z.eqb_spec size 0); lia). clearbody size'.
  set (f := fun com_cat => process_composite_categorized _ _ _ _ _ _ _ _ _). split; intros x Ex; [exact (imap_serial order Ho f _ _ x Hs' Ex)|exact (imap_back order Ho f _ _ x Hs' Ex)].
Qed.

(** Any number of processes, any chunk size from 1 or the automatic one, any order of completion: the batches are those of
    one process, in another order; and an exception is raised if and only if one process raises one. *)
Theorem C82_same_batches :
  forall order cpus n_process batch_size pick pick_c iter for_commutator ops max_cu max_n min_n expand,
  schedule order -> (0 <= batch_size)%Z ->
  same_outcome (compute_operator_contractions pick pick_c iter for_commutator ops max_cu max_n min_n expand)
    (compute_operator_contractions_pool order cpus n_process batch_size pick pick_c iter for_commutator ops max_cu max_n min_n expand).
Proof.
  intros order cpus n size pick pick_c iter b ops max_cu max_n min_n expand Ho Hs. unfold compute_operator_contractions_pool. destruct (n =? 1); [apply same_refl|].
  unfold compute_operator_contractions. destruct b; [apply connected_same|apply general_same]; assumption.
Qed.
Print Assumptions C82_same_batches.

Lemma any_order ops expand P r r' : wick_sum ops expand P r -> Permutation r r' -> wick_sum_any_order ops expand P r'.
Proof. intros (s & b & O & F & E) Q. exists s, b. split; [exact O|]. split; [exact F|]. rewrite <- E. symmetry. apply perm_concat, Q. Qed.

(** Hence the pools return Wick's theorem and its connected part. *)
Theorem C82_pool_is_wick_sum :
  forall order cpus n_process batch_size pick pick_c iter ops max_cu max_n min_n expand,
  schedule order -> (0 <= batch_size)%Z -> Forall op_alpha ops -> (forall l, Permutation (iter l) l) -> distinct_legs ops ->
  exists result, compute_operator_contractions_pool order cpus n_process batch_size pick pick_c iter false ops max_cu max_n min_n expand = Ok result /\
    wick_sum_any_order ops expand (wick_set ops (cumulant_level ops max_cu) min_n max_n) result.
Proof.
  intros order cpus n size pick pick_c iter ops max_cu max_n min_n expand Ho Hs Hal Hit D.
  destruct (C82_same_batches order cpus n size pick pick_c iter false ops max_cu max_n min_n expand Ho Hs) as [S _].
  destruct (C32_entry_point pick pick_c iter ops max_cu max_n min_n expand Hal Hit D) as (r & E & W). destruct (S r E) as (r' & E' & P). exists r'. split; [exact E'|]. eapply any_order; eassumption.
Qed.
Print Assumptions C82_pool_is_wick_sum.

Theorem C82_pool_is_connected_part :
  forall order cpus n_process batch_size pick pick_c iter ops max_cu max_n min_n expand,
  schedule order -> (0 <= batch_size)%Z -> Forall op_alpha ops -> distinct_legs ops -> length ops <= 3 ->
  exists result, compute_operator_contractions_pool order cpus n_process batch_size pick pick_c iter true ops max_cu max_n min_n expand = Ok result /\
    wick_sum_any_order ops expand (fun s => wick_set ops (cumulant_level ops max_cu) min_n max_n s /\ connects_ops ops s /\ has_pair s) result.
Proof.
  intros order cpus n size pick pick_c iter ops max_cu max_n min_n expand Ho Hs Hal D L.
  destruct (C82_same_batches order cpus n size pick pick_c iter true ops max_cu max_n min_n expand Ho Hs) as [S _].
  destruct (C33_entry_point pick pick_c iter ops max_cu max_n min_n expand Hal D L) as (r & E & W). destruct (S r E) as (r' & E' & P). exists r'. split; [exact E'|]. eapply any_order; eassumption.
Qed.
Print Assumptions C82_pool_is_connected_part.

(** The uncontracted term comes first. *)
Theorem C82_uncontracted_first :
  forall order cpus n_process batch_size pick pick_c iter ops max_cu max_n min_n expand first rest,
  schedule order -> (0 <= batch_size)%Z -> distinct_legs ops -> (min_n <= Z.of_nat (length (written_string ops)) <= max_n)%Z ->
  compute_operator_contractions pick pick_c iter false ops max_cu max_n min_n expand = Ok (first :: rest) ->
  exists rest', compute_operator_contractions_pool order cpus n_process batch_size pick pick_c iter false ops max_cu max_n min_n expand = Ok (first :: rest') /\
    Permutation rest rest'.
Proof.
  intros order cpus n size pick pick_c iter ops max_cu max_n min_n expand first rest Ho Hs D R E. unfold compute_operator_contractions_pool. destruct (n =? 1); [exists rest; auto|].
  unfold compute_operator_contractions in E. assert (Lb : length (base_order_map ops) = length (written_string ops)) by (rewrite base_map_length, (Permutation_length (leg_set_perm _ D)); reflexivity).
  unfold compute_general in E. unfold compute_general_pool. cbv zeta in *. rewrite Lb in *.
  assert (((min_n <=? Z.of_nat (length (written_string ops))) && (Z.of_nat (length (written_string ops)) <=? max_n))%Z%bool = true) as Eb by (apply andb_true_intro; split; apply Z.leb_le; lia). rewrite Eb in *.
  destruct (uncontracted ops) as [b|]; [|discriminate]. cbn [pybind] in *. destruct (elementary_list ops (check_max_cu ops max_cu)) as [el|]; [|discriminate]. cbn [pybind] in *.
  destruct (composite_backtrack _ _ _ _ _ _ _ _ _) as [[[ys av] av']|]; [|discriminate]. cbn [pybind fst] in *.
  set (size' := if (size =? 0)%Z then _ else _). assert (Hs' : (1 <= size')%Z) by (unfold size', estimate_batch_size; destruct (Z.eqb_spec size 0); lia). clearbody size'.
  set (f := fun con => process_composite_contractions con _ _ _ _ _ _).
  assert (Em : pymap (fun con => f (iter con)) ys = pymap f (map iter ys)) by (symmetry; apply pymap_map_in). unfold f in Em. cbv beta in Em. rewrite Em in E. fold f in E. clear Em.
  destruct (pymap f (map iter ys)) as [r|] eqn:Er; [|discriminate]. cbn [pybind app] in E. injection E as <- <-. destruct (imap_serial order Ho f _ _ r Hs' Er) as (r' & E' & P). rewrite E'. exists r'. split; [reflexivity|exact P].
Qed.
Print Assumptions C82_uncontracted_first.

(** One chunk for everything: also the order is that of one process. *)
Theorem C82_one_chunk :
  forall order cpus n_process batch_size pick pick_c iter for_commutator ops max_cu max_n min_n expand r,
  schedule order -> (1 <= batch_size)%Z -> (Z.of_nat (length r) <= batch_size)%Z ->
  compute_operator_contractions pick pick_c iter for_commutator ops max_cu max_n min_n expand = Ok r ->
  compute_operator_contractions_pool order cpus n_process batch_size pick pick_c iter for_commutator ops max_cu max_n min_n expand = Ok r.
Proof.
  intros order cpus n size pick pick_c iter b ops max_cu max_n min_n expand r Ho Hs L E. unfold compute_operator_contractions_pool. destruct (n =? 1); [exact E|].
  assert (Ez : (size =? 0)%Z = false) by (apply Z.eqb_neq; lia). unfold compute_operator_contractions in E. destruct b.
  - unfold compute_connected in E. unfold compute_connected_pool. cbv zeta in *. rewrite Ez. destruct (elementary_categorized _ _) as [el|]; [|discriminate]. cbn [pybind] in *. destruct el as [|e el]; [exact E|].
    destruct (make_ecc _ _) as [EE|]; [|discriminate]. cbn [pybind] in *. destruct (compatible_categorized EE) as [comp|]; [|discriminate]. cbn [pybind] in *. destruct (connected_combinations _ _ _ _) as [cs|]; [|discriminate]. cbn [pybind] in *.
    rewrite imap_one_chunk; [exact E|exact Ho|exact Hs|]. apply RenameProofs.pymap_forall2, forall2_same_length in E. lia.
  - unfold compute_general in E. unfold compute_general_pool. cbv zeta in *. rewrite Ez. match type of E with pybind ?a _ = _ => destruct a as [first|]; [|discriminate] end. cbn [pybind] in *.
    destruct (elementary_list ops (check_max_cu ops max_cu)) as [el|]; [|discriminate]. cbn [pybind] in *.
    destruct (composite_backtrack _ _ _ _ _ _ _ _ _) as [[[ys av] av']|]; [|discriminate]. cbn [pybind fst] in *.
    set (f := fun con => process_composite_contractions con _ _ _ _ _ _).
    assert (Em : pymap (fun con => f (iter con)) ys = pymap f (map iter ys)) by (symmetry; apply pymap_map_in). unfold f in Em. cbv beta in Em. rewrite Em in E. fold f in E. clear Em.
    destruct (pymap f (map iter ys)) as [q|] eqn:Eq; [|discriminate]. cbn [pybind] in E. injection E as <-. rewrite imap_one_chunk; [rewrite Eq; reflexivity|exact Ho|exact Hs|].
    apply RenameProofs.pymap_forall2, forall2_same_length in Eq. rewrite app_length in L. lia.
Qed.
Print Assumptions C82_one_chunk.

(** Negative chunk sizes: one process ignores them, the pools return no entry. *)
Theorem C82_negative_chunks :
  forall order cpus n_process batch_size pick pick_c iter for_commutator ops max_cu max_n min_n expand,
  (batch_size < 0)%Z -> n_process <> 1 ->
  (forall r, compute_operator_contractions_pool order cpus n_process batch_size pick pick_c iter for_commutator ops max_cu max_n min_n expand = Ok r ->
    for_commutator = true /\ r = []) /\
  (forall r, compute_operator_contractions pick pick_c iter false ops max_cu max_n min_n expand = Ok r ->
    compute_operator_contractions_pool order cpus n_process batch_size pick pick_c iter false ops max_cu max_n min_n expand = Raise ValueError).
Proof.
  intros order cpus n size pick pick_c iter b ops max_cu max_n min_n expand Hs N. assert (Ez : (size =? 0)%Z = false) by (apply Z.eqb_neq; lia). assert (El : (size <? 1)%Z = true) by (apply Z.ltb_lt; lia).
  unfold compute_operator_contractions_pool. apply Nat.eqb_neq in N. rewrite N. split.
  - intros r E. destruct b.
    + unfold compute_connected_pool in E. cbv zeta in E. rewrite Ez in E. destruct (elementary_categorized _ _) as [el|]; [|discriminate]. cbn [pybind] in *. destruct el as [|e el]; [injection E as <-; auto|].
      destruct (make_ecc _ _) as [EE|]; [|discriminate]. cbn [pybind] in *. destruct (compatible_categorized EE) as [comp|]; [|discriminate]. cbn [pybind] in *. destruct (connected_combinations _ _ _ _) as [cs|]; [|discriminate]. cbn [pybind] in *.
      unfold imap_unordered in E. rewrite El in E. discriminate.
    + unfold compute_general_pool in E. cbv zeta in E. rewrite Ez in E. match type of E with pybind ?a _ = _ => destruct a as [first|]; [|discriminate] end. cbn [pybind] in *.
      destruct (elementary_list ops (check_max_cu ops max_cu)) as [el|]; [|discriminate]. cbn [pybind] in *. destruct (composite_backtrack _ _ _ _ _ _ _ _ _) as [[[ys av] av']|]; [|discriminate]. cbn [pybind fst] in *.
      unfold imap_unordered in E. rewrite El in E. discriminate.
  - intros r E. unfold compute_operator_contractions, compute_general in E. unfold compute_general_pool. cbv zeta in *. rewrite Ez. match type of E with pybind ?a _ = _ => destruct a as [first|]; [|discriminate] end. cbn [pybind] in *.
    destruct (elementary_list ops (check_max_cu ops max_cu)) as [el|]; [|discriminate]. cbn [pybind] in *. destruct (composite_backtrack _ _ _ _ _ _ _ _ _) as [[[ys av] av']|]; [|discriminate]. cbn [pybind fst] in *.
    unfold imap_unordered. rewrite El. reflexivity.
Qed.
Print Assumptions C82_negative_chunks.

(** The automatic size of the general driver: the square root of N/n rounded up, where N counts the pairs of a choice of
    creators and a choice of equally many annihilators, with half of the allowed numbers of contracted indices. *)
Theorem C82_estimate :
  forall (us ls : list leg) min_con max_con n_process pairs,
  0 < n_process -> NoDup us -> NoDup ls -> NoDup pairs ->
  (forall u v, In (u, v) pairs <-> subseq u us /\ subseq v ls /\ length u = length v /\ (min_con / 2 <= Z.of_nat (length u) <= max_con / 2)%Z) ->
  let k := estimate_batch_size (length us) (length ls) max_con min_con n_process in
  1 <= k /\ n_process * ((k - 1) * (k - 1)) <= length pairs < n_process * (k * k).
Proof.
  intros us ls lo hi n pairs Hn Nu Nl Np Hp k.
  assert (E : rough_size (length us) (length ls) hi lo = length pairs).
  { rewrite rough_pairs. apply Permutation_length, NoDup_Permutation; [apply pairs_nodup; assumption|exact Np|]. intros [u v]. rewrite pairs_in, Hp. reflexivity. }
  unfold k, estimate_batch_size. rewrite E. set (N := length pairs). pose proof (Nat.sqrt_spec' (N / n)) as [S1 S2]. pose proof (Nat.div_mod N n ltac:(lia)) as DM. pose proof (Nat.mod_upper_bound N n ltac:(lia)) as UB.
  set (q := Nat.sqrt (N / n)) in *. replace (q + 1 - 1) with q by lia. split; [lia|]. split.
  - transitivity (n * (N / n)); [apply Nat.mul_le_mono_l; exact S1|lia].
  - apply Nat.lt_le_trans with (n * (N / n) + n); [lia|]. replace (n * (N / n) + n) with (n * (N / n + 1)) by lia. apply Nat.mul_le_mono_l. replace (q + 1) with (S q) by lia. lia.
Qed.
Print Assumptions C82_estimate.

(** The automatic sizes, chosen with batch_size = 0. General driver: as in [C82_estimate] for the creators and annihilators
    of the product. *)
Definition creators (ops : list op) : list leg := filter fst (written_string ops).
Definition annihilators (ops : list op) : list leg := filter (fun x => negb (fst x)) (written_string ops).
Theorem C82_automatic_general :
  forall order cpus n_process pick pick_c iter ops max_cu max_n min_n expand pairs k,
  distinct_legs ops -> 0 < n_process -> 0 < cpus -> NoDup pairs ->
  (forall u v, In (u, v) pairs <-> subseq u (creators ops) /\ subseq v (annihilators ops) /\ length u = length v /\
    ((Z.of_nat (length (written_string ops)) - max_n) / 2 <= Z.of_nat (length u) <= (Z.of_nat (length (written_string ops)) - min_n) / 2)%Z) ->
  1 <= k -> Nat.min n_process cpus * ((k - 1) * (k - 1)) <= length pairs < Nat.min n_process cpus * (k * k) ->
  compute_operator_contractions_pool order cpus n_process 0 pick pick_c iter false ops max_cu max_n min_n expand =
  compute_operator_contractions_pool order cpus n_process (Z.of_nat k) pick pick_c iter false ops max_cu max_n min_n expand.
Proof.
  intros order cpus n pick pick_c iter ops max_cu max_n min_n expand pairs k D Hn Hc Np Hp Hk R. unfold compute_operator_contractions_pool. destruct (n =? 1); [reflexivity|].
  unfold compute_general_pool. cbv zeta. assert (Ez : (Z.of_nat k =? 0)%Z = false) by (apply Z.eqb_neq; lia). rewrite Ez. cbn [Z.eqb].
  assert (Lb : length (base_order_map ops) = length (written_string ops)) by (rewrite base_map_length, (Permutation_length (leg_set_perm _ D)); reflexivity). rewrite Lb.
  assert (Lu : length (upper_indices_set ops) = length (creators ops)).
  { apply Permutation_length, NoDup_Permutation; [apply leg_set_nodup|apply NoDup_filter, D|]. intros x. rewrite in_upper_set. unfold creators. rewrite filter_In. tauto. }
  assert (Ll : length (lower_indices_set ops) = length (annihilators ops)).
  { apply Permutation_length, NoDup_Permutation; [apply leg_set_nodup|apply NoDup_filter, D|]. intros x. rewrite in_lower_set. unfold annihilators. rewrite filter_In, negb_true_iff. tauto. }
  rewrite Lu, Ll.
  assert (Ek : estimate_batch_size (length (creators ops)) (length (annihilators ops)) (snd (Z.of_nat (length (written_string ops)) - max_n, Z.of_nat (length (written_string ops)) - min_n))%Z
    (fst (Z.of_nat (length (written_string ops)) - max_n, Z.of_nat (length (written_string ops)) - min_n))%Z (Nat.min n cpus) = k); [|rewrite Ek; reflexivity].
  cbn [fst snd]. destruct (C82_estimate (creators ops) (annihilators ops) _ _ (Nat.min n cpus) pairs ltac:(lia) (NoDup_filter _ D) (NoDup_filter _ D) Np Hp) as (H1 & H2 & H3).
  set (q := estimate_batch_size _ _ _ _ _) in *. clearbody q. set (m := Nat.min n cpus) in *. destruct R as [R1 R2].
  destruct (Nat.lt_trichotomy q k) as [L|[L|L]]; [exfalso| exact L|exfalso].
  - assert (q * q <= (k - 1) * (k - 1)) by (apply Nat.mul_le_mono; lia). pose proof (Nat.mul_le_mono_l _ _ m H). lia.
  - assert (k * k <= (q - 1) * (q - 1)) by (apply Nat.mul_le_mono; lia). pose proof (Nat.mul_le_mono_l _ _ m H). lia.
Qed.
Print Assumptions C82_automatic_general.
(** Connected driver: with L combinations (batches of one process), 1 + sqrt(L) / n rounded down. *)
Theorem C82_automatic_connected :
  forall order cpus n_process pick pick_c iter ops max_cu max_n min_n expand r k,
  compute_operator_contractions pick pick_c iter true ops max_cu max_n min_n expand = Ok r -> 0 < n_process -> 0 < cpus ->
  1 <= k -> (Nat.min n_process cpus * (k - 1)) ^ 2 <= length r < (Nat.min n_process cpus * k) ^ 2 ->
  compute_operator_contractions_pool order cpus n_process 0 pick pick_c iter true ops max_cu max_n min_n expand =
  compute_operator_contractions_pool order cpus n_process (Z.of_nat k) pick pick_c iter true ops max_cu max_n min_n expand.
Proof.
  intros order cpus n pick pick_c iter ops max_cu max_n min_n expand r k E Hn Hc Hk R. unfold compute_operator_contractions_pool. destruct (n =? 1); [reflexivity|].
  assert (Ez : (Z.of_nat k =? 0)%Z = false) by (apply Z.eqb_neq; lia). unfold compute_operator_contractions, compute_connected in E. unfold compute_connected_pool. cbv zeta in *. rewrite Ez. cbn [Z.eqb].
  destruct (elementary_categorized _ _) as [el|]; [|reflexivity]. cbn [pybind] in *. destruct el as [|e el]; [reflexivity|].
  destruct (make_ecc _ _) as [EE|]; [|reflexivity]. cbn [pybind] in *. destruct (compatible_categorized EE) as [comp|]; [|reflexivity]. cbn [pybind] in *. destruct (connected_combinations _ _ _ _) as [cs|]; [|reflexivity]. cbn [pybind] in *.
  apply RenameProofs.pymap_forall2, forall2_same_length in E.
  assert (Ek : Nat.sqrt (length cs) / Nat.min n cpus + 1 = k); [|rewrite Ek; reflexivity].
  assert (El : length cs = length r) by exact E. rewrite El. clear E El. set (m := Nat.min n cpus) in *. assert (Hm : 0 < m) by (unfold m; lia). set (L := length r) in *. clearbody L m.
  pose proof (Nat.sqrt_spec' L) as [S1 S2]. set (s := Nat.sqrt L) in *. clearbody s. rewrite !Nat.pow_2_r in R. destruct R as [R1 R2].
  assert (A1 : m * (k - 1) <= s) by nia. assert (A2 : s < m * k) by nia.
  assert (Eq : k - 1 = s / m); [|lia]. apply (Nat.div_unique s m (k - 1) (s - m * (k - 1))); [|lia]. replace (m * k) with (m * (k - 1) + m) in A2 by nia. lia.
Qed.
Print Assumptions C82_automatic_connected.

(** Last chunk first, chunks of one and of two tasks. *)
Definition ex_order (n : nat) : list nat := rev (seq 0 n).
Example C82_hypotheses : schedule ex_order /\ Forall op_alpha [ex_A; ex_B] /\ distinct_legs [ex_A; ex_B].
Proof. split; [|exact wick_hypotheses]. intros n. symmetry. apply Permutation_rev. Qed.
Definition ex_pool (size : Z) (b : bool) := compute_operator_contractions_pool ex_order 8 4 size ex_pop (fun _ => ex_pop) (fun l => l) b [ex_A; ex_B] 2 4 0 false.
Definition ex_cu : entry := ((-1)%Z, [Den KCumulant [ex_a 0] [ex_a 3]], Op [ex_a 2] [ex_a 1]).
Definition ex_hole : entry := (1%Z, [Den KHole [ex_a 2] [ex_a 1]], Op [ex_a 0] [ex_a 3]).
Definition ex_both : entry := (1%Z, [Den KCumulant [ex_a 0] [ex_a 3]; Den KHole [ex_a 2] [ex_a 1]], Op [] []).
Example C82_example :
  compute_operator_contractions ex_pop (fun _ => ex_pop) (fun l => l) true [ex_A; ex_B] 2 4 0 false = Ok [[ex_both]; [ex_cu]; [ex_hole]] /\
  ex_pool 1 true = Ok [[ex_hole]; [ex_cu]; [ex_both]] /\ ex_pool 2 true = Ok [[ex_hole]; [ex_both]; [ex_cu]] /\ ex_pool 0 true = ex_pool 1 true /\
  ex_pool 3 true = Ok [[ex_both]; [ex_cu]; [ex_hole]] /\ ex_pool (-1) true = Raise ValueError /\
  (exists r, ex_pool 1 false = Ok r /\ length r = 5) /\ ex_pool (-1) false = Raise ValueError /\ ex_pool 0 false = ex_pool 2 false.
Proof. repeat split. eexists; split; reflexivity. Qed.
Example C82_estimate_example : length (choice_pairs (creators [ex_A; ex_B]) (annihilators [ex_A; ex_B]) 0 4) = 6 /\ estimate_batch_size 2 2 4 0 4 = 2 /\ 4 * (1 * 1) <= 6 < 4 * (2 * 2).
Proof. repeat split; cbn; lia. Qed.
