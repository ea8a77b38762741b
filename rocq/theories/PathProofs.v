(** Proofs for C45 and C46: contraction paths. *)
From Coq Require Import Ascii String ZArith QArith Qcanon Factorial.
From Verif Require Import PyBase OrderSpec OrderProofs SpaceModel SpaceProofs IndexModel IndicesModel IterProofs IndicesProofs ElemModel ElemProofs SortProofs TermModel TermProofs PathModel PathSpec.
Local Close Scope Q_scope.
Local Close Scope Qc_scope.
Local Open Scope nat_scope.
Local Notation length := List.length.

(** ** Counters *)
Lemma key_total_incr p c d : key_total p (char_incr c d) = (key_total p d + if p (to_lower c) then 1 else 0)%Z.
Proof.
  unfold key_total. induction d as [|[k n] d IH]; cbn [char_incr filter map fst snd fold_right].
  - destruct (p (to_lower c)); reflexivity.
  - destruct (Ascii.eqb_spec c k) as [->|D]; cbn [filter map fst snd fold_right]; [destruct (p (to_lower k)); cbn [map fst snd fold_right]; lia|]. destruct (p (to_lower k)); cbn [map fst snd fold_right]; rewrite IH; lia.
Qed.
Lemma key_total_fold p l d : key_total p (fold_left (fun d c => char_incr c d) l d) = (key_total p d + Z.of_nat (length (filter (fun c => p (to_lower c)) l)))%Z.
Proof.
  revert d. induction l as [|c l IH]; intros d; cbn [fold_left filter length]; [lia|]. rewrite IH, key_total_incr. destruct (p (to_lower c)); cbn [length]; lia.
Qed.
Lemma char_incr_keys f c d : forallb (fun kv => f (fst kv)) (char_incr c d) = forallb (fun kv => f (fst kv)) d && f c || (forallb (fun kv => f (fst kv)) d && existsb (fun kv => Ascii.eqb c (fst kv)) d).
Proof.
  induction d as [|[k n] d IH]; cbn [char_incr forallb existsb fst]; [destruct (f c); reflexivity|]. destruct (Ascii.eqb_spec c k) as [->|D]; cbn [forallb fst].
  - destruct (f k), (forallb _ d); reflexivity.
  - rewrite IH. destruct (f k), (forallb _ d), (f c), (existsb _ d); reflexivity.
Qed.
Lemma char_counter_keys f l d : forallb (fun kv => f (fst kv)) d = true -> forallb f l = true -> forallb (fun kv : ascii * Z => f (fst kv)) (fold_left (fun d c => char_incr c d) l d) = true.
Proof.
  revert d. induction l as [|c l IH]; intros d Hd Hl; cbn [fold_left]; [exact Hd|]. cbn [forallb] in Hl. apply andb_true_iff in Hl as [H1 H2]. apply IH; [|exact H2]. rewrite char_incr_keys, Hd, H1. reflexivity.
Qed.
Lemma lower_lower l : to_lower (to_lower (label_char l)) = space_char (lsp l).
Proof. destruct l as [[] []]; reflexivity. Qed.
Lemma count_spaces (p : ascii -> bool) f s : (forall x, p (space_char x) = f x) -> Z.of_nat (length (filter (fun c => p (to_lower c)) (lower_spaces s))) = how_many f s.
Proof.
  intros H. unfold how_many, lower_spaces. f_equal. induction s as [|i s IH]; [reflexivity|]. cbn [map filter]. rewrite lower_lower, H. destruct (f (lsp (fst i))); cbn [length]; rewrite IH; reflexivity.
Qed.
Lemma how_many_sum s : (how_many is_virtual s + (how_many is_core s + (how_many is_active s + 0)) = Z.of_nat (length s))%Z.
Proof. unfold how_many. induction s as [|i s IH]; [reflexivity|]. cbn [filter length]. destruct (lsp (fst i)); cbn [is_virtual is_core is_active length]; lia. Qed.
Lemma space_counter_ok s : exists c, space_counter s = Ok c /\ counter_key c = scaling s.
Proof.
  unfold space_counter. destruct (make_counter (char_counter (lower_spaces s))) as [c|e] eqn:E.
  - exists c. split; [reflexivity|]. apply counter_fields in E as [E1 E2]. unfold counter_key, scaling. rewrite E2, E1. cbn [fold_right]. unfold char_counter. rewrite !key_total_fold.
    pose proof (count_spaces (fun k => Ascii.eqb k "v" || Ascii.eqb k "g" || Ascii.eqb k "p")%char%bool is_virtual s ltac:(intros []; reflexivity)) as H1. cbv beta in H1.
    pose proof (count_spaces (fun k => Ascii.eqb k "c" || Ascii.eqb k "h")%char%bool is_core s ltac:(intros []; reflexivity)) as H2. cbv beta in H2.
    pose proof (count_spaces (fun k => Ascii.eqb k "a")%char%bool is_active s ltac:(intros []; reflexivity)) as H3. cbv beta in H3.
    cbv beta. rewrite H1, H2, H3. unfold key_total. cbn [filter map fold_right]. rewrite !Z.add_0_l, <- how_many_sum. reflexivity.
  - exfalso. unfold make_counter in E. destruct (forallb _ (char_counter _)) eqn:F; [destruct (parse_counter _ _ _ _) as [[? ?] ?]; discriminate|].
    unfold char_counter in F. rewrite (char_counter_keys (fun k => existsb (Ascii.eqb (to_lower k)) (map space_char so_space))) in F; [discriminate|reflexivity|]. unfold lower_spaces. apply forallb_forall. intros c H. apply in_map_iff in H as (i & <- & _). rewrite lower_lower. destruct (lsp (fst i)); reflexivity.
Qed.

(** ** Scalings *)
Lemma filter_perm {B} (f : B -> bool) l l' : Permutation l l' -> Permutation (filter f l) (filter f l').
Proof.
  induction 1 as [|x l l' P IH|x y l|]; cbn [filter]; [constructor|destruct (f x); [apply perm_skip|]; exact IH| |etransitivity; eassumption]. destruct (f x), (f y); [apply perm_swap|reflexivity..].
Qed.
Lemma scaling_perm s s' : Permutation s s' -> scaling s = scaling s'.
Proof. intros P. unfold scaling, how_many. rewrite (Permutation_length P), !(Permutation_length (filter_perm _ s s' P)). reflexivity. Qed.
Lemma scaling_same s s' : NoDup s -> NoDup s' -> (forall i, In i s <-> In i s') -> scaling s = scaling s'.
Proof. intros N N' H. apply scaling_perm, NoDup_Permutation; assumption. Qed.
Lemma scaling_lawful : lawful scaling_ord.
Proof. apply pair_lawful; [apply Z_lawful|apply list_lawful, Z_lawful]. Qed.
Lemma scaling_0 s : ple scaling_ord (scaling []) (scaling s) = true.
Proof.
  destruct s as [|i s]; [reflexivity|]. unfold scaling, scaling_ord. cbn [ple pair_ord]. unfold pair_op. cbn [fst snd]. change (peq Z_ord) with Z.eqb. cbn [ple Z_ord]. destruct (Z.eqb_spec (Z.of_nat (length (@nil idx))) (Z.of_nat (length (i :: s)))) as [E|E]; [cbn [length] in E; lia|]. apply Z.leb_le. cbn [length]. lia.
Qed.

(** ** Open indices *)
Lemma times_on_app i xs ys : times_on i (xs ++ ys) = times_on i xs + times_on i ys.
Proof. unfold times_on. rewrite filter_app, app_length. reflexivity. Qed.
Lemma times_on_perm i xs ys : Permutation xs ys -> times_on i xs = times_on i ys.
Proof. intros P. unfold times_on. apply Permutation_length, filter_perm, P. Qed.
Lemma open_on_in i xs : In i (open_on xs) <-> Nat.odd (times_on i xs) = true.
Proof.
  unfold open_on. rewrite filter_In, dedup_in. split; [tauto|]. intros H. split; [|exact H]. apply in_flat_map. unfold times_on in H. destruct (filter (fun x => mem_idx i (tensor_indices x)) xs) as [|x l] eqn:E; [discriminate|].
  assert (Q : In x (x :: l)) by (left; reflexivity). rewrite <- E in Q. apply filter_In in Q as [Q1 Q2]. exists x. split; [exact Q1|]. apply mem_idx_in, Q2.
Qed.
Lemma open_on_nodup xs : NoDup (open_on xs).
Proof. apply NoDup_filter, dedup_nodup. Qed.
Lemma open_on_perm i xs ys : Permutation xs ys -> In i (open_on xs) <-> In i (open_on ys).
Proof. intros P. rewrite !open_on_in, (times_on_perm i xs ys P). reflexivity. Qed.

Definition set_of (p : ptree) (s : list idx) : Prop := NoDup s /\ forall i, In i s <-> In i (open_on (leaves p)).
Lemma set_of_leaf x : set_of (Leaf x) (indices_set x).
Proof.
  split; [apply dedup_nodup|]. intros i. unfold indices_set. rewrite dedup_in, open_on_in. cbn [leaves]. unfold times_on. cbn [filter]. destruct (mem_idx i (tensor_indices x)) eqn:E; cbn [length].
  - apply mem_idx_in in E. tauto.
  - apply mem_idx_notin in E. split; [tauto|discriminate].
Qed.
Lemma sym_diff_in i s1 s2 : In i (sym_diff s1 s2) <-> (In i s1 /\ ~ In i s2) \/ (In i s2 /\ ~ In i s1).
Proof. unfold sym_diff. rewrite in_app_iff, !filter_In, !negb_true_iff, !mem_idx_notin. reflexivity. Qed.
Lemma NoDup_app_disjoint {B} (l m : list B) : NoDup l -> NoDup m -> (forall x, In x l -> ~ In x m) -> NoDup (l ++ m).
Proof. induction l as [|x l IH]; intros N M H; [exact M|]. inversion N; subst. cbn. constructor; [rewrite in_app_iff; intros [Q|Q]; [contradiction|exact (H x (or_introl eq_refl) Q)]|apply IH; auto]. intros y Hy. apply H. right. exact Hy. Qed.
Lemma sym_diff_nodup s1 s2 : NoDup s1 -> NoDup s2 -> NoDup (sym_diff s1 s2).
Proof.
  intros N1 N2. unfold sym_diff. apply NoDup_app_disjoint; [apply NoDup_filter, N1|apply NoDup_filter, N2|]. intros i. rewrite !filter_In, !negb_true_iff, !mem_idx_notin. tauto.
Qed.
Lemma union_in i s1 s2 : In i (set_union s1 s2) <-> In i s1 \/ In i s2.
Proof. unfold set_union. rewrite in_app_iff, filter_In, negb_true_iff, mem_idx_notin. destruct (in_dec idx_eq_dec i s1); tauto. Qed.
Lemma union_nodup s1 s2 : NoDup s1 -> NoDup s2 -> NoDup (set_union s1 s2).
Proof. intros N1 N2. unfold set_union. apply NoDup_app_disjoint; [exact N1|apply NoDup_filter, N2|]. intros i H. rewrite filter_In, negb_true_iff, mem_idx_notin. tauto. Qed.
Lemma set_of_node a b sa sb : set_of a sa -> set_of b sb -> set_of (Node a b) (sym_diff sa sb).
Proof.
  intros [Na Ha] [Nb Hb]. split; [apply sym_diff_nodup; assumption|]. intros i. rewrite sym_diff_in, Ha, Hb, !open_on_in. cbn [leaves]. rewrite times_on_app, Nat.odd_add. destruct (Nat.odd (times_on i (leaves a))), (Nat.odd (times_on i (leaves b))); cbn; intuition congruence.
Qed.
Lemma cost_ok a b sa sb : set_of a sa -> set_of b sb -> exists c s, contraction_cost sa sb = Ok (c, s, sym_diff sa sb) /\ counter_key c = compute_of (a, b) /\ counter_key s = storage_of (a, b).
Proof.
  intros Ha Hb. pose proof (set_of_node _ _ _ _ Ha Hb) as [Nn Hn]. destruct Ha as [Na Ha], Hb as [Nb Hb]. unfold contraction_cost. destruct (space_counter_ok (set_union sb sa)) as (c & -> & Kc). destruct (space_counter_ok (sym_diff sa sb)) as (s & -> & Ks). cbn [pybind]. exists c, s. split; [reflexivity|]. split.
  - rewrite Kc. unfold compute_of. cbn [fst snd]. apply scaling_same; [apply union_nodup; assumption|apply dedup_nodup|]. intros i. rewrite union_in, dedup_in, in_app_iff, Ha, Hb. tauto.
  - rewrite Ks. unfold storage_of. cbn [fst snd]. apply scaling_same; [exact Nn|apply open_on_nodup|exact Hn].
Qed.

(** ** Largest *)
Lemma largest_perm k l l' : Permutation l l' -> is_largest k l -> is_largest k l'.
Proof. intros P [H1 H2]. split; [exact (Permutation_in _ P H1)|]. intros k' H. apply H2. exact (Permutation_in _ (Permutation_sym P) H). Qed.
Lemma largest_snoc (gt : counter -> counter -> bool) c0 c l : (forall a b, gt a b = plt scaling_ord (counter_key b) (counter_key a)) -> is_largest (counter_key c0) l ->
  is_largest (counter_key (if gt c c0 then c else c0)) (l ++ [counter_key c]).
Proof.
  intros G [H1 H2]. rewrite G. destruct (plt scaling_ord (counter_key c0) (counter_key c)) eqn:E.
  - split; [apply in_or_app; right; left; reflexivity|]. intros k' Q. apply in_app_or in Q as [Q|[<-|[]]]; [|apply (ple_refl _ scaling_lawful)]. apply (ple_trans _ scaling_lawful) with (counter_key c0); [apply H2, Q|]. rewrite (lw_le _ scaling_lawful), E. reflexivity.
  - split; [apply in_or_app; left; exact H1|]. intros k' Q. apply in_app_or in Q as [Q|[<-|[]]]; [apply H2, Q|]. apply (ple_iff _ scaling_lawful). exact E.
Qed.
Lemma largest_one (gt : counter -> counter -> bool) c0 c s : (forall a b, gt a b = plt scaling_ord (counter_key b) (counter_key a)) -> counter_key c0 = scaling [] -> counter_key c = scaling s ->
  is_largest (counter_key (if gt c c0 then c else c0)) [counter_key c].
Proof.
  intros G H0 H. rewrite G. destruct (plt scaling_ord (counter_key c0) (counter_key c)) eqn:E.
  - split; [left; reflexivity|]. intros k' [<-|[]]. apply (ple_refl _ scaling_lawful).
  - assert (EQ : counter_key c0 = counter_key c).
    { apply (ple_antisym _ scaling_lawful); [apply pair_ext; [apply Z_ext|apply list_ext, Z_ext]| |apply (ple_iff _ scaling_lawful), E]. rewrite H0, H. apply scaling_0. }
    rewrite EQ. split; [left; reflexivity|]. intros k' [<-|[]]. apply (ple_refl _ scaling_lawful).
Qed.
Lemma counter_gt a b : pgt counter_ord a b = plt scaling_ord (counter_key b) (counter_key a).
Proof. change (pgt counter_ord a b) with (pgt counter_key_ord a b). rewrite (lw_gt _ counter_key_lawful). reflexivity. Qed.

(** ** Positions *)
Lemma split_two {B} (l : list B) i j : i < j < length l -> exists l1 x l2 y l3, l = l1 ++ x :: l2 ++ y :: l3 /\ length l1 = i /\ length l2 = j - i - 1.
Proof.
  intros H. destruct (nth_error l i) as [x|] eqn:E; [|apply nth_error_None in E; lia]. apply nth_error_split in E as (l1 & m & -> & L1). rewrite app_length in H. cbn [length] in H.
  destruct (nth_error m (j - i - 1)) as [y|] eqn:E; [|apply nth_error_None in E; lia]. apply nth_error_split in E as (l2 & l3 & -> & L2). exists l1, x, l2, y, l3. auto.
Qed.
Lemma enumerate_keep {B} (f : nat -> bool) (l : list B) n : (forall k, n <= k < n + length l -> f k = true) -> map snd (filter (fun nx => f (fst nx)) (enumerate n l)) = l.
Proof. revert n. induction l as [|x l IH]; intros n H; [reflexivity|]. cbn [enumerate filter fst]. rewrite (H n) by (cbn [length]; lia). cbn [map snd]. rewrite IH; [reflexivity|]. intros k Hk. apply H. cbn [length]. lia. Qed.
Lemma enumerate_split {B} (l m : list B) n : enumerate n (l ++ m) = enumerate n l ++ enumerate (n + length l) m.
Proof. revert n. induction l as [|x l IH]; intros n; cbn [app enumerate length]; [rewrite Nat.add_0_r; reflexivity|]. rewrite IH. do 2 f_equal. f_equal. lia. Qed.
Lemma without_split {B} (l1 l2 l3 : list B) x y i j : length l1 = i -> length l2 = j - i - 1 -> i < j -> without i j (l1 ++ x :: l2 ++ y :: l3) = l1 ++ l2 ++ l3.
Proof.
  intros L1 L2 H. unfold without. rewrite enumerate_split. cbn [enumerate]. rewrite enumerate_split. cbn [enumerate]. rewrite !filter_app, !map_app.
  set (f := fun k => negb (k =? i) && negb (k =? j)). change (filter (fun nx => negb (fst nx =? i) && negb (fst nx =? j))) with (filter (fun nx : nat * B => f (fst nx))).
  rewrite (enumerate_keep f l1) by (intros k Hk; unfold f; destruct (Nat.eqb_spec k i), (Nat.eqb_spec k j); cbn; lia). f_equal. cbn [filter fst]. replace (f (0 + length l1)) with false by (unfold f; rewrite Nat.add_0_l, L1, Nat.eqb_refl; reflexivity).
  rewrite filter_app, map_app. rewrite (enumerate_keep f l2) by (intros k Hk; unfold f; destruct (Nat.eqb_spec k i), (Nat.eqb_spec k j); cbn; lia). f_equal. cbn [filter fst].
  replace (f (S (0 + length l1) + length l2)) with false by (unfold f; replace (S (0 + length l1) + length l2) with j by lia; rewrite Nat.eqb_refl, andb_false_r; reflexivity).
  apply enumerate_keep. intros k Hk. unfold f. destruct (Nat.eqb_spec k i), (Nat.eqb_spec k j); cbn; lia.
Qed.
Lemma pairs_below_in n i j : In (i, j) (pairs_below n) <-> i < j < n.
Proof.
  unfold pairs_below. rewrite in_flat_map. split.
  - intros (k & Hk & H). apply in_map_iff in H as (m & E & H). injection E as -> ->. apply in_seq in Hk, H. lia.
  - intros H. exists i. split; [apply in_seq; lia|]. apply in_map_iff. exists j. split; [reflexivity|]. apply in_seq. lia.
Qed.
Lemma pairs_below_nodup n : NoDup (pairs_below n).
Proof.
  unfold pairs_below. assert (G : forall l, NoDup l -> NoDup (flat_map (fun i => map (fun j => (i, j)) (seq (i + 1) (n - (i + 1)))) l)).
  { induction l as [|i l IH]; intros N; cbn [flat_map]; [constructor|]. inversion N; subst. apply NoDup_app_disjoint; [apply FinFun.Injective_map_NoDup; [intros a b E; congruence|apply seq_NoDup]|apply IH; assumption|].
    intros [a b] Q R. apply in_map_iff in Q as (j & E & _). apply in_flat_map in R as (k & Hk & R). apply in_map_iff in R as (j' & E' & _). congruence. }
  apply G, seq_NoDup.
Qed.
Lemma list_sum_seq (f : nat -> nat) k n : length (flat_map (fun i => map (fun j => (i, j)) (seq (i + 1) (n - (i + 1)))) (seq k (n - k))) * 2 = (n - k) * (n - k - 1).
Proof.
  remember (n - k) as m eqn:E. revert k E. induction m as [|m IH]; intros k E; [reflexivity|]. cbn [seq flat_map]. rewrite app_length, map_length, seq_length, Nat.mul_add_distr_r, (IH (S k)) by lia. replace (n - (k + 1)) with m by lia. destruct m as [|m]; [reflexivity|]. replace (S m - 1) with m by lia. replace (S (S m) - 1) with (S m) by lia. nia.
Qed.
Lemma pairs_below_length n : length (pairs_below n) * 2 = n * (n - 1).
Proof. pose proof (list_sum_seq (fun x => x) 0 n) as H. rewrite Nat.sub_0_r in H. exact H. Qed.

(** ** One step *)
Lemma perm_mid {B} (a b c x y : list B) : Permutation (a ++ b ++ c ++ x ++ y) (a ++ x ++ b ++ y ++ c).
Proof.
  apply Permutation_app_head. transitivity (b ++ x ++ y ++ c).
  - apply Permutation_app_head. rewrite (app_assoc x y c). apply Permutation_app_comm.
  - rewrite !app_assoc. do 2 apply Permutation_app_tail. apply Permutation_app_comm.
Qed.
Definition forest_nodes (left : list (list idx * ptree)) : list (ptree * ptree) := flat_map nodes (map snd left).
Record inv (left : list (list idx * ptree)) (so : pstate) : Prop := {
  in_sets : Forall (fun e => set_of (snd e) (fst e)) left;
  in_state : match snd so with
             | None => forest_nodes left = [] /\ counter_key (fst (fst so)) = scaling [] /\ counter_key (snd (fst so)) = scaling []
             | Some p => is_largest (counter_key (fst (fst so))) (map compute_of (forest_nodes left)) /\ is_largest (counter_key (snd (fst so))) (map storage_of (forest_nodes left)) /\
                         (forall s q, left = [(s, q)] -> p = q)
             end }.
Lemma step_ok left so i j : inv left so -> i < j < length left -> exists a b left' so',
  path_step left so (i, j) = Ok (left', so') /\ inv left' so' /\ snd so' <> None /\ nth_error (map snd left) i = Some a /\ nth_error (map snd left) j = Some b /\
  map snd left' = without i j (map snd left) ++ [Node a b] /\ length left' = length left - 1.
Proof.
  intros [IS IT] H. destruct (split_two left i j H) as (l1 & [sx px] & l2 & [sy py] & l3 & E & L1 & L2). unfold path_step.
  assert (Gi : nth_error left i = Some (sx, px)). { rewrite E, nth_error_app2 by lia. replace (i - length l1) with 0 by lia. reflexivity. }
  assert (Gj : nth_error left j = Some (sy, py)). { rewrite E, nth_error_app2 by lia. replace (j - length l1) with (S (length l2)) by lia. cbn [nth_error]. rewrite nth_error_app2 by lia. rewrite Nat.sub_diag. reflexivity. }
  unfold get_item. rewrite Gi, Gj. cbn [pybind fst snd].
  assert (Sx : set_of px sx /\ set_of py sy /\ Forall (fun e => set_of (snd e) (fst e)) (l1 ++ l2 ++ l3)).
  { rewrite E in IS. apply Forall_app in IS as [I1 IS]. inversion IS as [|? ? I2 I3]; subst. apply Forall_app in I3 as [I3 I4]. inversion I4 as [|? ? I5 I6]; subst. split; [exact I2|]. split; [exact I5|]. apply Forall_app; split; [exact I1|]. apply Forall_app; split; assumption. }
  destruct Sx as (Sx & Sy & Sl). destruct (cost_ok px py sx sy Sx Sy) as (c & s & -> & Kc & Ks). cbn [pybind]. destruct so as [[mc ms] path]. cbn [fst snd] in *.
  assert (W : without i j left = l1 ++ l2 ++ l3) by (rewrite E; apply without_split; lia).
  assert (M : map snd (l1 ++ l2 ++ l3) = without i j (map snd left)).
  { rewrite E, !map_app. cbn [map snd]. rewrite !map_app. cbn [map snd]. rewrite without_split by (rewrite ?map_length; lia). reflexivity. }
  assert (LL : length left = length l1 + length l2 + length l3 + 2) by (rewrite E, app_length; cbn [length]; rewrite app_length; cbn [length]; lia).
  assert (FN : Permutation (forest_nodes left ++ [(px, py)]) (forest_nodes (without i j left ++ [(sym_diff sx sy, Node px py)]))).
  { rewrite W, E. unfold forest_nodes. repeat (rewrite ?map_app, ?flat_map_app; cbn [map snd flat_map nodes]). rewrite !app_nil_r.
    symmetry. rewrite !app_assoc. apply Permutation_app_tail. rewrite <- !app_assoc. apply perm_mid. }
  exists px, py. do 2 eexists. split; [reflexivity|]. split; [|split; [|split; [|split; [|split]]]].
  - constructor.
    + rewrite W. apply Forall_app. split; [exact Sl|]. constructor; [|constructor]. apply set_of_node; assumption.
    + assert (PL : forall s' q, without i j left ++ [(sym_diff sx sy, Node px py)] = [(s', q)] -> length left = 2 /\ Node px py = q).
      { intros s' q Q. rewrite W in Q. assert (LQ := f_equal (@length _) Q). rewrite !app_length in LQ. cbn [length] in LQ. split; [lia|]. destruct l1, l2, l3; cbn [length] in LQ; try lia. cbn [app] in Q. congruence. }
      assert (LC : is_largest (counter_key (if pgt counter_ord c mc then c else mc)) (map compute_of (forest_nodes left ++ [(px, py)]))).
      { rewrite map_app. cbn [map]. rewrite <- Kc. destruct path as [p|]; [apply largest_snoc; [apply counter_gt|apply IT]|]. destruct IT as (F0 & K0 & _). rewrite F0. cbn [map app]. apply (largest_one _ mc c _ counter_gt K0 Kc). }
      assert (LS : is_largest (counter_key (if pgt counter_ord s ms then s else ms)) (map storage_of (forest_nodes left ++ [(px, py)]))).
      { rewrite map_app. cbn [map]. rewrite <- Ks. destruct path as [p|]; [apply largest_snoc; [apply counter_gt|apply IT]|]. destruct IT as (F0 & _ & K0). rewrite F0. cbn [map app]. apply (largest_one _ ms s _ counter_gt K0 Ks). }
      apply (largest_perm _ _ _ (Permutation_map compute_of FN)) in LC. apply (largest_perm _ _ _ (Permutation_map storage_of FN)) in LS. cbn [fst snd].
      destruct path as [p|]; [destruct (Nat.eqb_spec (length left) 2) as [E2|E2]|]; (split; [exact LC|split; [exact LS|]]); intros s' q Q; apply PL in Q as [Q1 Q2]; congruence.
  - cbn [snd]. destruct path as [p|]; [destruct (length left =? 2)|]; discriminate.
  - rewrite nth_error_map, Gi. reflexivity.
  - rewrite nth_error_map, Gj. reflexivity.
  - rewrite map_app, W, M. reflexivity.
  - rewrite app_length, W, !app_length. cbn [length]. lia.
Qed.

(** ** All paths *)
Definition reaches (left : list (list idx * ptree)) (sq : list (nat * nat)) (e : pstate) : Prop :=
  exists s T, merged (map snd left) sq = Some T /\ inv [(s, T)] e /\ (sq <> [] -> snd e = Some T).
Definition all_paths (n : nat) (left : list (list idx * ptree)) (so : pstate) (ps : list pstate) : Prop :=
  exists sqs, NoDup sqs /\ (forall sq, In sq sqs <-> merge_sequence n sq) /\ Forall2 (reaches left) sqs ps /\ length ps * 2 ^ (n - 1) = fact n * fact (n - 1).
Lemma Forall2_length' {B C} (R : B -> C -> Prop) l m : Forall2 R l m -> length l = length m.
Proof. induction 1; cbn; congruence. Qed.
Lemma paths_ok fuel : forall left so, 1 <= length left <= fuel -> inv left so -> exists ps, contraction_path fuel left so = Ok ps /\ all_paths (length left) left so ps.
Proof.
  induction fuel as [|fuel IH]; intros left so L I; [lia|]. cbn [contraction_path]. set (n := length left) in *.
  destruct (Nat.eqb_spec n 1) as [E1|E1].
  - rewrite E1. cbn. exists [so]. split; [reflexivity|]. exists [[]]. split; [constructor; [intros []|constructor]|]. split; [|split; [|reflexivity]].
    + intros [|[i j] sq]; cbn; [tauto|]. split; [intros [Q|[]]; discriminate|]. intros [Q _]. lia.
    + constructor; [|constructor]. unfold n in E1. destruct left as [|[s T] [|]]; cbn in E1; try lia. exists s, T. split; [reflexivity|]. split; [exact I|]. congruence.
  - assert (G : forall prs, NoDup prs -> (forall ij, In ij prs -> fst ij < snd ij < n) ->
      exists rs sqs, pymap (fun ij => pybind (path_step left so ij) (fun st => contraction_path fuel (fst st) (snd st))) prs = Ok rs /\ NoDup sqs /\
        (forall sq, In sq sqs <-> exists ij sq', sq = ij :: sq' /\ In ij prs /\ merge_sequence (n - 1) sq') /\ Forall2 (reaches left) sqs (concat rs) /\
        length (concat rs) * 2 ^ (n - 2) = length prs * (fact (n - 1) * fact (n - 2))).
    { induction prs as [|[i j] prs IHp]; intros N V; cbn [pymap].
      - exists [], []. split; [reflexivity|]. split; [constructor|]. split; [intros sq; split; [intros []|intros (? & ? & _ & [] & _)]|]. split; [constructor|reflexivity].
      - inversion N as [|? ? N1 N2]; subst. destruct (IHp N2) as (rs & sqs & -> & D & M & F & C); [intros; apply V; right; assumption|]. pose proof (V (i, j) (or_introl eq_refl)) as Vij. cbn [fst snd] in Vij.
        destruct (step_ok left so i j I Vij) as (a & b & left' & so' & -> & I' & NN & Na & Nb & ML & LL). cbn [pybind fst snd]. destruct (IH left' so') as (ps & -> & sqs' & D' & M' & F' & C'); [lia|exact I'|]. cbn [pybind].
        replace (length left') with (n - 1) in * by lia. exists (ps :: rs), (map (cons (i, j)) sqs' ++ sqs). split; [reflexivity|]. split; [|split; [|split]].
        + apply NoDup_app_disjoint; [apply FinFun.Injective_map_NoDup; [intros x y Q; congruence|exact D']|exact D|]. intros sq Q R. apply in_map_iff in Q as (sq' & <- & _). apply M in R as (ij & sq'' & E & Hij & _). injection E as <- _. contradiction.
        + intros sq. rewrite in_app_iff, in_map_iff, M. split.
          * intros [(sq' & <- & Q)|(ij & sq' & -> & Q & R)]; [exists (i, j), sq'; split; [reflexivity|]; split; [left; reflexivity|apply M', Q]|exists ij, sq'; split; [reflexivity|]; split; [right; exact Q|exact R]].
          * intros (ij & sq' & -> & [<-|Q] & R); [left; exists sq'; split; [reflexivity|apply M', R]|right; exists ij, sq'; auto].
        + cbn [concat]. apply Forall2_app; [|exact F]. clear - F' Na Nb ML I' NN. assert (K : forall sq e, reaches left' sq e -> reaches left ((i, j) :: sq) e).
          { intros sq e (s & T & E & It & S). exists s, T. cbn [merged]. rewrite Na, Nb, <- ML. split; [exact E|]. split; [exact It|]. intros _. destruct It as [_ It]. destruct (snd e) as [p|] eqn:Ep; [f_equal; destruct It as (_ & _ & It); exact (It s T eq_refl)|].
            destruct sq as [|ij sq]; [|apply S; discriminate]. exfalso. destruct It as (F0 & _). cbn [merged] in E. rewrite ML in E. destruct (without i j (map snd left)) as [|x w]; cbn [app] in E; [injection E as <-; cbn in F0; destruct (nodes a), (nodes b); discriminate|destruct w; discriminate]. }
          induction F' as [|sq e sqs' ps R _ IHF]; cbn [map]; constructor; auto.
        + cbn [concat length]. rewrite app_length, Nat.mul_add_distr_r, C. replace (n - 2) with (n - 1 - 1) by lia. rewrite C'. cbn [Nat.mul]. reflexivity. }
    destruct (G (pairs_below n) (pairs_below_nodup n)) as (rs & sqs & -> & D & M & F & C); [intros [i j] Q; apply pairs_below_in in Q; exact Q|]. cbn [pybind app]. exists (concat rs). split; [reflexivity|]. exists sqs. split; [exact D|]. split; [|split; [exact F|]].
    + intros sq. rewrite M. split.
      * intros ([i j] & sq' & -> & Q & R). apply pairs_below_in in Q. split; assumption.
      * destruct sq as [|[i j] sq]; [cbn; lia|]. intros [Q R]. exists (i, j), sq. split; [reflexivity|]. split; [apply pairs_below_in, Q|exact R].
    + assert (n >= 2) by lia. destruct n as [|[|m]]; [lia|lia|]. replace (S (S m) - 1) with (S m) in * by lia. replace (S (S m) - 2) with m in * by lia. pose proof (pairs_below_length (S (S m))) as P. replace (S (S m) - 1) with (S m) in P by lia.
      rewrite Nat.pow_succ_r'. change (fact (S (S m))) with (S (S m) * fact (S m)). change (fact (S m)) with (S m * fact m) at 2.
      transitivity ((length (concat rs) * 2 ^ m) * 2); [lia|]. rewrite C. transitivity ((length (pairs_below (S (S m))) * 2) * (fact (S m) * fact m)); [lia|]. rewrite P. lia.
Qed.

(** ** Trees up to exchange of factors *)
Lemma same_refl T : same_tree T T.
Proof. induction T; constructor; assumption. Qed.
Lemma same_leaves T T' : same_tree T T' -> Permutation (leaves T) (leaves T').
Proof.
  induction 1; cbn [leaves]; [apply Permutation_refl|apply Permutation_app; assumption|].
  etransitivity; [apply Permutation_app; eassumption|apply Permutation_app_comm].
Qed.
Lemma compute_same a b a' b' : Permutation (leaves a) (leaves a') -> Permutation (leaves b) (leaves b') -> compute_of (a, b) = compute_of (a', b').
Proof.
  intros P Q. unfold compute_of. cbn [fst snd]. apply scaling_same; [apply dedup_nodup|apply dedup_nodup|]. intros i. rewrite !dedup_in, !in_app_iff, (open_on_perm i _ _ P), (open_on_perm i _ _ Q). reflexivity.
Qed.
Lemma compute_swap a b : compute_of (a, b) = compute_of (b, a).
Proof. unfold compute_of. cbn [fst snd]. apply scaling_same; [apply dedup_nodup|apply dedup_nodup|]. intros i. rewrite !dedup_in, !in_app_iff. tauto. Qed.
Lemma storage_same a b a' b' : Permutation (leaves a ++ leaves b) (leaves a' ++ leaves b') -> storage_of (a, b) = storage_of (a', b').
Proof. intros P. unfold storage_of. cbn [fst snd]. apply scaling_same; [apply open_on_nodup|apply open_on_nodup|]. intros i. apply open_on_perm, P. Qed.
Lemma same_compute T T' : same_tree T T' -> Permutation (map compute_of (nodes T)) (map compute_of (nodes T')).
Proof.
  induction 1 as [x|a b a' b' H1 I1 H2 I2|a b a' b' H1 I1 H2 I2]; cbn [nodes]; [apply Permutation_refl| |]; rewrite !map_app; cbn [map].
  - rewrite (compute_same a b a' b') by (apply same_leaves; assumption). apply Permutation_app; [exact I1|]. apply Permutation_app_tail; exact I2.
  - rewrite (compute_same a b a' b'), (compute_swap a' b') by (apply same_leaves; assumption). rewrite !app_assoc. apply Permutation_app_tail. etransitivity; [apply Permutation_app; eassumption|apply Permutation_app_comm].
Qed.
Lemma same_storage T T' : same_tree T T' -> Permutation (map storage_of (nodes T)) (map storage_of (nodes T')).
Proof.
  induction 1 as [x|a b a' b' H1 I1 H2 I2|a b a' b' H1 I1 H2 I2]; cbn [nodes]; [apply Permutation_refl| |]; rewrite !map_app; cbn [map].
  - rewrite (storage_same a b a' b') by (apply Permutation_app; apply same_leaves; assumption). apply Permutation_app; [exact I1|]. apply Permutation_app_tail; exact I2.
  - rewrite (storage_same a b b' a'). 2:{ etransitivity; [apply Permutation_app; apply same_leaves; eassumption|apply Permutation_app_comm]. }
    rewrite !app_assoc. apply Permutation_app_tail. etransitivity; [apply Permutation_app; eassumption|apply Permutation_app_comm].
Qed.

(** T can be built from the trees F, up to exchange of factors *)
Inductive cover : list ptree -> ptree -> Prop :=
| cov_one f T : same_tree T f -> cover [f] T
| cov_node F F1 F2 a b : Permutation F (F1 ++ F2) -> cover F1 a -> cover F2 b -> cover F (Node a b).
Lemma cover_perm F F' T : Permutation F F' -> cover F T -> cover F' T.
Proof.
  intros P C. destruct C as [f T S|F F1 F2 a b Q C1 C2].
  - apply Permutation_length_1_inv in P. subst. constructor; exact S.
  - econstructor; [|eassumption|eassumption]. etransitivity; [symmetry; exact P|exact Q].
Qed.
Lemma cover_leaves T : forall xs, Permutation (leaves T) xs -> cover (map Leaf xs) T.
Proof.
  induction T as [x|a IHa b IHb]; intros xs P; cbn [leaves] in P.
  - apply Permutation_length_1_inv in P. subst. constructor. constructor.
  - apply (cover_perm (map Leaf (leaves a ++ leaves b))); [apply Permutation_map, P|]. rewrite map_app. econstructor; [apply Permutation_refl|apply IHa; reflexivity|apply IHb; reflexivity].
Qed.
Lemma cover_pos F T : cover F T -> 1 <= length F.
Proof. induction 1 as [|F F1 F2 a b P C1 I1 C2 I2]; [cbn; lia|]. rewrite (Permutation_length P), app_length. lia. Qed.
Lemma two_front {B} (f g : B) l R : Permutation (l ++ f :: g :: R) (f :: g :: l ++ R).
Proof. etransitivity; [symmetry; apply Permutation_middle|]. constructor. symmetry. apply Permutation_middle. Qed.
Lemma cover_merge F T : cover F T -> 2 <= length F -> exists f g R, Permutation F (f :: g :: R) /\ cover (R ++ [Node f g]) T /\ cover (R ++ [Node g f]) T.
Proof.
  induction 1 as [f T S|F F1 F2 a b P C1 I1 C2 I2]; [cbn; lia|]. intros L. pose proof (cover_pos _ _ C1) as L1. pose proof (cover_pos _ _ C2) as L2.
  destruct (Nat.eq_dec (length F1) 1) as [E1|E1]; [destruct (Nat.eq_dec (length F2) 1) as [E2|E2]|].
  - destruct F1 as [|f [|]]; cbn in E1; try lia. destruct F2 as [|g [|]]; cbn in E2; try lia. exists f, g, []. split; [exact P|]. cbn [app].
    assert (S1 : same_tree a f). { inversion C1 as [? ? S|? G1 G2 ? ? Q D1 D2]; subst; [exact S|]. apply Permutation_length in Q. rewrite app_length in Q. cbn in Q. apply cover_pos in D1, D2. lia. }
    assert (S2 : same_tree b g). { inversion C2 as [? ? S|? G1 G2 ? ? Q D1 D2]; subst; [exact S|]. apply Permutation_length in Q. rewrite app_length in Q. cbn in Q. apply cover_pos in D1, D2. lia. }
    split; constructor; [apply st_node|apply st_swap]; assumption.
  - destruct I2 as (f & g & R & Q & D1 & D2); [lia|]. exists f, g, (F1 ++ R). split; [|split].
    + etransitivity; [exact P|]. etransitivity; [apply Permutation_app_head, Q|]. apply two_front.
    + econstructor; [|exact C1|exact D1]. rewrite app_assoc. apply Permutation_refl.
    + econstructor; [|exact C1|exact D2]. rewrite app_assoc. apply Permutation_refl.
  - destruct I1 as (f & g & R & Q & D1 & D2); [lia|]. exists f, g, (F2 ++ R). split; [|split].
    + etransitivity; [exact P|]. etransitivity; [apply Permutation_app_comm|]. etransitivity; [apply Permutation_app_head, Q|]. apply two_front.
    + econstructor; [|exact D1|exact C2]. etransitivity; [|apply Permutation_app_comm]. rewrite app_assoc. apply Permutation_refl.
    + econstructor; [|exact D2|exact C2]. etransitivity; [|apply Permutation_app_comm]. rewrite app_assoc. apply Permutation_refl.
Qed.
Lemma two_at {B} (l : list B) f g R : Permutation l (f :: g :: R) -> exists i j x y, i < j < length l /\ nth_error l i = Some x /\ nth_error l j = Some y /\ ((x = f /\ y = g) \/ (x = g /\ y = f)) /\ Permutation (without i j l) R.
Proof.
  intros P. assert (In f l) as Hf by (eapply Permutation_in; [symmetry; exact P|left; reflexivity]). apply in_split in Hf as (l1 & l2 & ->).
  assert (Q : Permutation (l1 ++ l2) (g :: R)) by (apply (Permutation_cons_inv (a := f)); etransitivity; [apply Permutation_middle|exact P]).
  assert (In g (l1 ++ l2)) as Hg by (eapply Permutation_in; [symmetry; exact Q|left; reflexivity]). apply in_app_iff in Hg as [Hg|Hg]; apply in_split in Hg as (k1 & k2 & ->).
  - exists (length k1), (length k1 + 1 + length k2), g, f. assert (E : (k1 ++ g :: k2) ++ f :: l2 = k1 ++ g :: k2 ++ f :: l2) by (rewrite <- app_assoc; reflexivity). rewrite E. split; [rewrite app_length; cbn [length]; rewrite app_length; cbn [length]; lia|].
    split; [rewrite nth_error_app2, Nat.sub_diag by lia; reflexivity|]. split. { rewrite nth_error_app2 by lia. replace (length k1 + 1 + length k2 - length k1) with (S (length k2)) by lia. cbn [nth_error]. rewrite nth_error_app2, Nat.sub_diag by lia. reflexivity. }
    split; [right; split; reflexivity|]. rewrite without_split by lia. apply (Permutation_cons_inv (a := g)). rewrite <- Q. rewrite <- app_assoc. cbn [app]. apply Permutation_middle.
  - exists (length l1), (length l1 + 1 + length k1), f, g. split; [rewrite app_length; cbn [length]; rewrite app_length; cbn [length]; lia|].
    split; [rewrite nth_error_app2, Nat.sub_diag by lia; reflexivity|]. split. { rewrite nth_error_app2 by lia. replace (length l1 + 1 + length k1 - length l1) with (S (length k1)) by lia. cbn [nth_error]. rewrite nth_error_app2, Nat.sub_diag by lia. reflexivity. }
    split; [left; split; reflexivity|]. rewrite without_split by lia. apply (Permutation_cons_inv (a := g)). rewrite <- Q. rewrite (app_assoc l1 k1 (g :: k2)), (app_assoc l1 k1 k2). apply Permutation_middle.
Qed.
Lemma cover_sequence n : forall F T, length F = n -> cover F T -> exists sq T', merge_sequence n sq /\ merged F sq = Some T' /\ same_tree T T'.
Proof.
  induction n as [|n IH]; intros F T L C; [apply cover_pos in C; lia|]. destruct (Nat.eq_dec n 0) as [->|N].
  - destruct F as [|f [|]]; cbn in L; try lia. exists [], f. split; [reflexivity|]. split; [reflexivity|]. inversion C as [? ? S|? G1 G2 ? ? Q D1 D2]; subst; [exact S|]. apply Permutation_length in Q. rewrite app_length in Q. cbn in Q. apply cover_pos in D1, D2. lia.
  - destruct (cover_merge F T C) as (f & g & R & P & C1 & C2); [lia|]. destruct (two_at F f g R P) as (i & j & x & y & B & Hi & Hj & XY & W).
    assert (D : cover (without i j F ++ [Node x y]) T). { apply (cover_perm (R ++ [Node x y])); [apply Permutation_app_tail; symmetry; exact W|]. destruct XY as [[-> ->]|[-> ->]]; assumption. }
    destruct (IH (without i j F ++ [Node x y]) T) with (2 := D) as (sq & T' & M & E & ST). { rewrite app_length. cbn [length]. rewrite (Permutation_length W). apply Permutation_length in P. cbn [length] in P. lia. }
    exists ((i, j) :: sq), T'. split; [split; [lia|]; replace (S n - 1) with n by lia; exact M|]. split; [|exact ST]. cbn [merged]. rewrite Hi, Hj. exact E.
Qed.
Lemma merged_leaves n : forall F sq T, length F = n -> merge_sequence n sq -> merged F sq = Some T -> Permutation (leaves T) (flat_map leaves F).
Proof.
  induction n as [|n IH]; intros F sq T L M E.
  - destruct F; cbn in L; try lia. destruct sq as [|[i j] sq]; cbn in E; [discriminate|]. destruct i; discriminate.
  - destruct sq as [|[i j] sq].
    + cbn in E. destruct F as [|f [|]]; try discriminate. injection E as ->. cbn. rewrite app_nil_r. apply Permutation_refl.
    + destruct M as [B M]. replace (S n - 1) with n in M by lia. cbn [merged] in E. rewrite <- L in B. destruct (split_two F i j B) as (l1 & x & l2 & y & l3 & EF & L1 & L2).
      assert (Gi : nth_error F i = Some x). { rewrite EF, nth_error_app2 by lia. replace (i - length l1) with 0 by lia. reflexivity. }
      assert (Gj : nth_error F j = Some y). { rewrite EF, nth_error_app2 by lia. replace (j - length l1) with (S (length l2)) by lia. cbn [nth_error]. rewrite nth_error_app2 by lia. rewrite Nat.sub_diag. reflexivity. }
      rewrite Gi, Gj in E. assert (W : without i j F = l1 ++ l2 ++ l3) by (rewrite EF; apply without_split; lia). rewrite W in E. apply IH in E; [|rewrite app_length; cbn [length]; apply (f_equal (@length _)) in EF; rewrite !app_length in *; cbn [length] in EF; rewrite app_length in EF; cbn [length] in EF; lia|exact M].
      rewrite E, EF. repeat (rewrite ?flat_map_app; cbn [flat_map leaves]). rewrite !app_nil_r, <- !app_assoc. apply perm_mid.
Qed.

(** ** Entry points *)
Lemma start_inv xs cost : counter_key cost = scaling [] -> inv (map (fun x => (indices_set x, Leaf x)) xs) (cost, cost, None).
Proof.
  intros K. constructor.
  - apply Forall_forall. intros e H. apply in_map_iff in H as (x & <- & _). apply set_of_leaf.
  - cbn [fst snd]. split; [|split; assumption]. unfold forest_nodes. rewrite map_map. cbn [snd]. induction xs; [reflexivity|assumption].
Qed.
Lemma zero_counter : exists c, make_counter [("v"%char, 0%Z); ("c"%char, 0%Z)] = Ok c /\ counter_key c = scaling [].
Proof. eexists. split; reflexivity. Qed.
Lemma many_paths t : 2 <= length (ttensors t) -> exists ps, contraction_paths t = Ok ps /\ exists so, all_paths (length (ttensors t)) (map (fun x => (indices_set x, Leaf x)) (ttensors t)) so ps.
Proof.
  intros L. unfold contraction_paths. destruct zero_counter as (c & Ec & K). set (xs := ttensors t) in *. assert (E : (match xs with [x] => space_counter (indices_set x) | _ => make_counter [("v"%char, 0%Z); ("c"%char, 0%Z)] end) = Ok c) by (destruct xs as [|x [|]]; cbn in L; try lia; exact Ec).
  rewrite E. cbn [pybind]. destruct (paths_ok (S (length xs)) (map (fun x => (indices_set x, Leaf x)) xs) (c, c, None)) as (ps & Q & A); [rewrite map_length; lia|apply start_inv, K|]. exists ps. split; [exact Q|]. exists (c, c, None). rewrite map_length in A. exact A.
Qed.
Lemma paths_entries t : 2 <= length (ttensors t) -> exists ps sqs, contraction_paths t = Ok ps /\ NoDup sqs /\ (forall sq, In sq sqs <-> merge_sequence (length (ttensors t)) sq) /\
  Forall2 (fun sq e => exists T, merged (map Leaf (ttensors t)) sq = Some T /\ entry_of T e) sqs ps /\
  length ps * 2 ^ (length (ttensors t) - 1) = fact (length (ttensors t)) * fact (length (ttensors t) - 1).
Proof.
  intros L. destruct (many_paths t L) as (ps & E & so & sqs & D & M & F & C). exists ps, sqs. split; [exact E|]. split; [exact D|]. split; [exact M|]. split; [|exact C].
  assert (N : Forall (fun sq => sq <> []) sqs). { apply Forall_forall. intros sq H. apply M in H. intros ->. cbn in H. lia. }
  clear - F N. induction F as [|sq e sqs ps R _ IH]; constructor; inversion N as [|? ? N1 N2]; subst; [|apply IH, N2].
  destruct R as (s & T & E & I & S). rewrite map_map in E. cbn [snd] in E. exists T. split; [exact E|]. specialize (S N1). destruct I as [_ I]. rewrite S in I. unfold forest_nodes in I. cbn [map snd flat_map] in I. rewrite app_nil_r in I. split; [exact S|]. split; apply I.
Qed.
Lemma counter_lt a b : plt counter_ord a b = plt scaling_ord (counter_key a) (counter_key b).
Proof. reflexivity. Qed.
Lemma best_fold (f : pstate -> counter) ps : forall o, let r := fold_left (fun o e => best (plt counter_ord) o (f e) (snd e)) ps o in
  match o with Some (c0, p0) => exists c p, r = Some (c, p) /\ ple scaling_ord (counter_key c) (counter_key c0) = true /\ ((c, p) = (c0, p0) \/ exists e, In e ps /\ c = f e /\ p = snd e) /\ forall e, In e ps -> ple scaling_ord (counter_key c) (counter_key (f e)) = true
             | None => ps <> [] -> exists c p, r = Some (c, p) /\ (exists e, In e ps /\ c = f e /\ p = snd e) /\ forall e, In e ps -> ple scaling_ord (counter_key c) (counter_key (f e)) = true end.
Proof.
  assert (S : forall ps c0 p0, exists c p, fold_left (fun o e => best (plt counter_ord) o (f e) (snd e)) ps (Some (c0, p0)) = Some (c, p) /\ ple scaling_ord (counter_key c) (counter_key c0) = true /\ ((c, p) = (c0, p0) \/ exists e, In e ps /\ c = f e /\ p = snd e) /\ forall e, In e ps -> ple scaling_ord (counter_key c) (counter_key (f e)) = true).
  { clear ps. induction ps as [|e ps IH]; intros c0 p0; cbn [fold_left].
    - exists c0, p0. split; [reflexivity|]. split; [apply ple_refl, scaling_lawful|]. split; [left; reflexivity|intros e []].
    - cbn [best]. pose proof (counter_lt (f e) c0) as G. destruct (plt counter_ord (f e) c0) eqn:Lt.
      + assert (Lk : ple scaling_ord (counter_key (f e)) (counter_key c0) = true) by (rewrite (lw_le _ scaling_lawful), <- G, ?Lt; reflexivity).
        destruct (IH (f e) (snd e)) as (c & p & E & L & W & A). exists c, p. split; [exact E|]. split; [apply (ple_trans _ scaling_lawful) with (counter_key (f e)); assumption|]. split.
        * right. destruct W as [W|(e' & H & W)]; [exists e; split; [left; reflexivity|]; split; congruence|exists e'; split; [right; exact H|exact W]].
        * intros e' [<-|H]; [exact L|apply A, H].
      + assert (Lk : ple scaling_ord (counter_key c0) (counter_key (f e)) = true) by (apply (ple_iff _ scaling_lawful); rewrite <- G; reflexivity).
        destruct (IH c0 p0) as (c & p & E & L & W & A). exists c, p. split; [exact E|]. split; [exact L|]. split.
        * destruct W as [W|(e' & H & W)]; [left; exact W|right; exists e'; split; [right; exact H|exact W]].
        * intros e' [<-|H]; [apply (ple_trans _ scaling_lawful) with (counter_key c0); assumption|apply A, H]. }
  intros [[c0 p0]|] r; subst r; [apply S|]. destruct ps as [|e ps]; [congruence|]. intros _. cbn [fold_left best]. destruct (S ps (f e) (snd e)) as (c & p & E & L & W & A). exists c, p. split; [exact E|]. split.
  - destruct W as [W|(e' & H & W)]; [exists e; split; [left; reflexivity|]; split; congruence|exists e'; split; [right; exact H|exact W]].
  - intros e' [<-|H]; [exact L|apply A, H].
Qed.
Lemma opt_split ps o1 o2 : fold_left (fun opt e => let '(compute_cost, storage_cost, path) := e in
    (best (plt counter_ord) (fst opt) compute_cost path, best (plt counter_ord) (snd opt) storage_cost path)) ps (o1, o2) =
  (fold_left (fun o e => best (plt counter_ord) o (fst (fst e)) (snd e)) ps o1, fold_left (fun o e => best (plt counter_ord) o (snd (fst e)) (snd e)) ps o2).
Proof. revert o1 o2. induction ps as [|[[c s] p] ps IH]; intros; [reflexivity|]. cbn [fold_left fst snd]. apply IH. Qed.
Lemma Forall2_pick {B C} (R : B -> C -> Prop) l m x : Forall2 R l m -> In x l -> exists y, In y m /\ R x y.
Proof. induction 1 as [|a b l m H _ IH]; [intros []|]. intros [->|Q]; [exists b; split; [left; reflexivity|exact H]|]. destruct (IH Q) as (y & Hy & Ry). exists y. split; [right; exact Hy|exact Ry]. Qed.
Lemma Forall2_back {B C} (R : B -> C -> Prop) l m y : Forall2 R l m -> In y m -> exists x, In x l /\ R x y.
Proof. induction 1 as [|a b l m H _ IH]; [intros []|]. intros [->|Q]; [exists a; split; [left; reflexivity|exact H]|]. destruct (IH Q) as (x & Hx & Rx). exists x. split; [right; exact Hx|exact Rx]. Qed.
Lemma merged_all xs sq T : merge_sequence (length xs) sq -> merged (map Leaf xs) sq = Some T -> Permutation (leaves T) xs.
Proof.
  intros M E. apply merged_leaves with (n := length xs) in E; [|apply map_length|exact M]. rewrite E. clear. induction xs; cbn; [constructor|constructor; assumption].
Qed.
Lemma every_tree t ps sqs T : Permutation (leaves T) (ttensors t) -> (forall sq, In sq sqs <-> merge_sequence (length (ttensors t)) sq) ->
  Forall2 (fun sq e => exists T, merged (map Leaf (ttensors t)) sq = Some T /\ entry_of T e) sqs ps -> exists e T', In e ps /\ same_tree T T' /\ entry_of T' e.
Proof.
  intros P M F. destruct (cover_sequence (length (ttensors t)) (map Leaf (ttensors t)) T) as (sq & T' & Q & E & ST); [apply map_length|apply cover_leaves, P|].
  apply M in Q. destruct (Forall2_pick _ _ _ _ F Q) as (e & He & T'' & E' & R). rewrite E in E'. injection E' as <-. exists e, T'. auto.
Qed.
Lemma optimal_ok t : 2 <= length (ttensors t) -> exists cc cs Tc Ts, optimal_contraction_cost t = Ok (Some (cc, Some Tc), Some (cs, Some Ts)) /\
  Permutation (leaves Tc) (ttensors t) /\ Permutation (leaves Ts) (ttensors t) /\ is_largest (counter_key cc) (map compute_of (nodes Tc)) /\ is_largest (counter_key cs) (map storage_of (nodes Ts)) /\
  forall T k, Permutation (leaves T) (ttensors t) -> (is_largest k (map compute_of (nodes T)) -> ple scaling_ord (counter_key cc) k = true) /\ (is_largest k (map storage_of (nodes T)) -> ple scaling_ord (counter_key cs) k = true).
Proof.
  intros L. destruct (paths_entries t L) as (ps & sqs & E & _ & M & F & C). unfold optimal_contraction_cost.
  assert (U : forall (X : Type) (f : tensor -> X) (g : X), match ttensors t with [x] => f x | _ => g end = g) by (intros; destruct (ttensors t) as [|x [|]]; cbn in L; try lia; reflexivity).
  rewrite U, E. cbn [pybind]. rewrite opt_split. change (counter * counter * option ptree)%type with pstate. assert (NE : ps <> []). { intros ->. pose proof (fact_neq_0 (length (ttensors t))). pose proof (fact_neq_0 (length (ttensors t) - 1)). cbn [length Nat.mul] in C. nia. }
  pose proof (best_fold (fun e => fst (fst e)) ps None) as BF1. pose proof (best_fold (fun e => snd (fst e)) ps None) as BF2. cbv beta zeta in BF1, BF2.
  destruct (BF1 NE) as (cc & pc & -> & (e1 & H1 & -> & ->) & B1). destruct (BF2 NE) as (cs & pq & -> & (e2 & H2 & -> & ->) & B2).
  destruct (Forall2_back _ _ _ _ F H1) as (sq1 & Q1 & T1 & M1 & S1 & K1 & _). destruct (Forall2_back _ _ _ _ F H2) as (sq2 & Q2 & T2 & M2 & S2 & _ & K2).
  rewrite S1, S2. do 4 eexists. split; [reflexivity|]. split; [apply (merged_all _ sq1); [apply M, Q1|exact M1]|]. split; [apply (merged_all _ sq2); [apply M, Q2|exact M2]|]. split; [exact K1|]. split; [exact K2|].
  assert (UL : forall k k' l, is_largest k l -> is_largest k' l -> ple scaling_ord k k' = true) by (intros k k' l [I _] [_ A]; apply A, I).
  intros T k P. destruct (every_tree t ps sqs T P M F) as (e & T' & He & ST & _ & R1 & R2). split; intros K.
  - apply (ple_trans _ scaling_lawful) with (counter_key (fst (fst e))); [apply B1, He|]. apply (UL _ _ _ R1). exact (largest_perm _ _ _ (same_compute _ _ ST) K).
  - apply (ple_trans _ scaling_lawful) with (counter_key (snd (fst e))); [apply B2, He|]. apply (UL _ _ _ R2). exact (largest_perm _ _ _ (same_storage _ _ ST) K).
Qed.

