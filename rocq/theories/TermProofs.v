(** Construction of terms, fresh indices, operators. *)
From Coq Require Import Ascii String ZArith QArith Qcanon Sorting.Sorted.
From Verif Require Import PyBase OrderSpec OrderProofs SpaceModel IndicesModel IterProofs IndicesProofs SpinProofs SpaceProofs SortProofs ElemModel ElemSpec ElemProofs MacroModel TermModel ValueSpec TermSpec.
Local Close Scope Q_scope.
Local Close Scope Qc_scope.
Local Open Scope nat_scope.
Local Notation length := List.length.

Lemma itype_eqb_eq a b : itype_eqb a b = true <-> a = b.
Proof. destruct a, b; cbn; split; congruence. Qed.
Lemma itype_eqb_refl a : itype_eqb a a = true.
Proof. apply itype_eqb_eq. reflexivity. Qed.
Lemma tclass_eqb_eq a b : tclass_eqb a b = true <-> a = b.
Proof. destruct a, b; cbn; split; congruence. Qed.

Lemma visible_void c : zero_or_visible c -> is_void_coeff c = true -> c = Q2Qc 0.
Proof.
  unfold is_void_coeff. intros [H|H] V; [exact H|]. exfalso. destruct (Qclt_le_dec (Qc_abs c) tiny) as [Q|_]; [|discriminate]. clear V.
  unfold Qc_abs, tiny in Q. destruct H as [H|H].
  - destruct (Qclt_le_dec c (Q2Qc 0)) as [N|N]; [|exact (Qclt_not_le _ _ Q H)]. apply (Qclt_not_le _ _ N). eapply Qcle_trans; [|exact H]. apply Qle_bool_iff. reflexivity.
  - destruct (Qclt_le_dec c (Q2Qc 0)) as [N|N].
    + apply Qcopp_le_compat in H. apply (Qclt_not_le _ _ Q). eapply Qcle_trans; [|exact H]. apply Qle_bool_iff. reflexivity.
    + apply (Qcle_trans _ _ _ N) in H. apply Qle_bool_iff in H. vm_compute in H. discriminate.
Qed.

(** ** make_term *)
Lemma occurrences_times i l : occurrences i l = idx_times i l.
Proof.
  unfold occurrences, idx_times. induction l as [|j l IH]; [reflexivity|]. cbn [filter count_occ]. destruct (idx_eq_dec j i) as [->|N].
  - rewrite idx_eqb_refl. cbn. rewrite IH. reflexivity.
  - destruct (idx_eqb i j) eqn:E; [apply idx_eqb_eq in E; congruence|exact IH].
Qed.
Lemma idx_times_app i l m : idx_times i (l ++ m) = idx_times i l + idx_times i m.
Proof. apply count_occ_app. Qed.
Lemma idx_times_in i l : In i l <-> 0 < idx_times i l.
Proof. unfold idx_times. rewrite (count_occ_In idx_eq_dec). lia. Qed.
Lemma content_times i xs o : idx_times i (content_indices xs o) = total_times i xs o.
Proof.
  unfold content_indices, op_indices, total_times. rewrite !idx_times_app. f_equal. induction xs as [|x xs IH]; [reflexivity|].
  cbn [flat_map map]. rewrite idx_times_app, IH. unfold tensor_indices. rewrite idx_times_app. reflexivity.
Qed.
Lemma dedup_fold l acc : NoDup acc -> NoDup (fold_left (fun s i => if mem_idx i s then s else s ++ [i]) l acc) /\
  (forall i, In i (fold_left (fun s i => if mem_idx i s then s else s ++ [i]) l acc) <-> In i acc \/ In i l).
Proof.
  revert acc. induction l as [|x l IH]; intros acc N; cbn [fold_left].
  - split; [exact N|]. intros i. cbn. tauto.
  - destruct (mem_idx x acc) eqn:E.
    + destruct (IH acc N) as [H1 H2]. split; [exact H1|]. intros i. rewrite H2. cbn. apply mem_idx_in in E. split; [tauto|]. intros [H|[<-|H]]; tauto.
    + assert (N' : NoDup (acc ++ [x])). { apply NoDup_app_intro; [exact N|repeat constructor; intros []|]. intros y Hy [<-|[]]. apply mem_idx_notin in E. contradiction. }
      destruct (IH _ N') as [H1 H2]. split; [exact H1|]. intros i. rewrite H2, in_app_iff. cbn. tauto.
Qed.
Lemma dedup_nodup l : NoDup (dedup l).
Proof. apply (dedup_fold l []). constructor. Qed.
Lemma dedup_in l i : In i (dedup l) <-> In i l.
Proof. unfold dedup. rewrite (proj2 (dedup_fold l [] (NoDup_nil _)) i). cbn. tauto. Qed.

Lemma filter_mem_in i (a b : list idx) : In i (filter (fun i => mem_idx i b) a) <-> In i a /\ In i b.
Proof. rewrite filter_In, mem_idx_in. tauto. Qed.
Lemma content_diagonal_in i xs o : In i (content_diagonal xs o) <-> diagonal_in i xs o.
Proof.
  unfold content_diagonal, diagonal_in, op_diagonal. rewrite dedup_in, in_app_iff, filter_mem_in, in_flat_map. unfold tensor_diagonal.
  split; (intros [H|(x & Hx & H)]; [left; exact H|right; exists x; split; [exact Hx|]]); [apply filter_mem_in; exact H|]. apply filter_mem_in; exact H.
Qed.
Lemma next_numbers_fold l s : forall m, m <= fold_left (fun m i => if label_eqb (fst i) s then Nat.max m (snd i + 1) else m) l m /\
  (forall i, In i l -> fst i = s -> snd i < fold_left (fun m i => if label_eqb (fst i) s then Nat.max m (snd i + 1) else m) l m) /\
  (forall n, n < fold_left (fun m i => if label_eqb (fst i) s then Nat.max m (snd i + 1) else m) l m -> m <= n -> exists i, In i l /\ fst i = s /\ n <= snd i).
Proof.
  induction l as [|x l IH]; intros m; cbn [fold_left].
  - split; [lia|]. split; [intros i []|intros n H1 H2; lia].
  - set (m' := if label_eqb (fst x) s then Nat.max m (snd x + 1) else m). destruct (IH m') as (H1 & H2 & H3).
    assert (Hm : m <= m') by (unfold m'; destruct (label_eqb _ _); lia). split; [lia|]. split.
    + intros i [<-|Hi] E; [|apply H2; assumption]. assert (snd x < m') by (unfold m'; rewrite (proj2 (label_ext _ _) E); lia). lia.
    + intros n Hn Hmn. destruct (le_lt_dec m' n) as [L|L].
      * destruct (H3 n Hn L) as (i & Hi & E). exists i. split; [right; exact Hi|exact E].
      * exists x. split; [left; reflexivity|]. unfold m' in L. destruct (label_eqb (fst x) s) eqn:E; [|lia]. apply label_ext in E. split; [exact E|lia].
Qed.

Lemma make_term_inv t xs o c tm : make_term t xs o c = Ok tm ->
  Forall (fun x => titype x = t) xs /\ connected xs o /\
  tm = MkTerm t (sort_by (plt tensor_ord) xs) o c (dedup (content_indices xs o)) (next_numbers (dedup (content_indices xs o)))
        (map (fun i => (i, total_times i xs o)) (content_diagonal xs o)).
Proof.
  unfold make_term. destruct (forallb _ xs) eqn:E1; [|discriminate].
  destruct (existsb _ (dedup _)) eqn:E2; [discriminate|]. destruct (existsb _ (content_diagonal _ _)) eqn:E3; [discriminate|].
  intros H. injection H as <-. split; [|split].
  - apply Forall_forall. intros x Hx. rewrite forallb_forall in E1. apply itype_eqb_eq, E1, Hx.
  - intros i Hi. rewrite <- content_times in *. pose proof (proj2 (idx_times_in i _) Hi) as Hin. split.
    + intros D. apply content_diagonal_in in D. destruct (Nat.even (idx_times i (content_indices xs o))) eqn:E; [reflexivity|].
      exfalso. rewrite <- not_true_iff_false in E3. apply E3. apply existsb_exists. exists i. split; [exact D|]. rewrite occurrences_times. unfold Nat.odd. rewrite E. reflexivity.
    + intros D. destruct (Nat.eqb_spec (idx_times i (content_indices xs o)) 2) as [E|E]; [exact E|]. exfalso. rewrite <- not_true_iff_false in E2. apply E2.
      apply existsb_exists. exists i. split; [apply dedup_in, Hin|]. rewrite occurrences_times, andb_true_iff, !negb_true_iff. split; [|apply Nat.eqb_neq; exact E].
      apply not_true_iff_false. intros M. apply mem_idx_in, content_diagonal_in in M. contradiction.
  - f_equal. apply map_ext. intros i. rewrite occurrences_times, content_times. reflexivity.
Qed.
Lemma make_term_ok t xs o c : Forall (fun x => titype x = t) xs -> connected xs o -> exists tm, make_term t xs o c = Ok tm.
Proof.
  intros F C. unfold make_term. replace (forallb _ xs) with true.
  2: { symmetry. apply forallb_forall. intros x Hx. rewrite Forall_forall in F. apply itype_eqb_eq, F, Hx. }
  destruct (existsb _ (dedup _)) eqn:E2.
  { exfalso. apply existsb_exists in E2 as (i & Hi & E). apply (proj1 (dedup_in _ _)) in Hi. apply andb_true_iff in E as [E1 E2]. rewrite negb_true_iff in E1, E2.
    rewrite occurrences_times in E2. apply idx_times_in in Hi. rewrite content_times in *. destruct (C i Hi) as [_ C2]. rewrite C2 in E2; [discriminate|].
    intros D. apply content_diagonal_in, mem_idx_in in D. congruence. }
  destruct (existsb _ (content_diagonal _ _)) eqn:E3; [|eauto].
  exfalso. apply existsb_exists in E3 as (i & Hi & E). apply content_diagonal_in in Hi. rewrite occurrences_times, content_times in E.
  destruct (Nat.eq_dec (total_times i xs o) 0) as [Z|Z]; [rewrite Z in E; discriminate|]. destruct (C i ltac:(lia)) as [C1 _]. unfold Nat.odd in E. rewrite (C1 Hi) in E. discriminate.
Qed.
Lemma make_term_raises t xs o c e : make_term t xs o c = Raise e -> e = ValueError \/ e = TypeError.
Proof. unfold make_term. repeat (match goal with |- context [if ?b then _ else _] => destruct b end); intros H; inversion H; auto. Qed.

Lemma tensor_ord_lawful : lawful tensor_ord.
Proof.
  pose proof tensor_key_lawful as L. destruct L as [H1 H2 H3 H4 H5 H6 H7 H8]. unfold tensor_ord, key_ord. constructor; cbn [peq plt ple pgt pge]; eauto.
Qed.

Lemma make_term_fields t xs o c tm : make_term t xs o c = Ok tm ->
  ttype tm = t /\ Permutation (ttensors tm) xs /\ le_sorted tensor_ord (ttensors tm) /\ tsq tm = o /\ tcoeff tm = c /\
  NoDup (tindices tm) /\ (forall i, In i (tindices tm) <-> 0 < total_times i xs o) /\
  (forall s n, n < tnext tm s <-> exists i, In i (tindices tm) /\ fst i = s /\ n <= snd i) /\
  NoDup (map fst (tdiag tm)) /\ (forall i n, In (i, n) (tdiag tm) <-> diagonal_in i xs o /\ n = total_times i xs o).
Proof.
  intros H. apply make_term_inv in H as (F & C & ->). cbn [ttype ttensors tsq tcoeff tindices tnext tdiag].
  split; [reflexivity|]. split; [apply sort_by_perm|]. split; [apply sort_by_sorted, tensor_ord_lawful|]. split; [reflexivity|]. split; [reflexivity|].
  split; [apply dedup_nodup|]. split. { intros i. rewrite dedup_in, idx_times_in, content_times. tauto. } split; [|split].
  - intros s n. unfold next_numbers. destruct (next_numbers_fold (dedup (content_indices xs o)) s 0) as (_ & H2 & H3). split.
    + intros Hn. destruct (H3 n Hn (Nat.le_0_l _)) as (i & Hi & E). exists i. tauto.
    + intros (i & Hi & E & L). specialize (H2 i Hi E). lia.
  - rewrite map_map. cbn [fst]. rewrite map_id. apply dedup_nodup.
  - intros i n. rewrite in_map_iff. split.
    + intros (j & E & Hj). injection E as -> <-. split; [apply content_diagonal_in, Hj|reflexivity].
    + intros [D ->]. exists i. split; [reflexivity|]. apply content_diagonal_in, D.
Qed.

(** ** fresh indices *)
Lemma bump_same next s : bump next s s = S (next s).
Proof. unfold bump. rewrite (proj2 (label_ext s s) eq_refl). reflexivity. Qed.
Lemma bump_other next s s' : s <> s' -> bump next s s' = next s'.
Proof. intros N. unfold bump. destruct (label_eqb s s') eqn:E; [apply label_ext in E; contradiction|reflexivity]. Qed.
Lemma bump_le next s s' : next s' <= bump next s s'.
Proof. unfold bump. destruct (label_eqb s s'); lia. Qed.

Lemma generates_spec next l next' : generates next l next' ->
  NoDup l /\ (forall s, next s <= next' s) /\ (forall s n, In (s, n) l <-> next s <= n < next' s).
Proof.
  induction 1 as [next|next s i l next1 next2 E G IH].
  - split; [constructor|]. split; [lia|]. intros s n. cbn. split; [tauto|lia].
  - unfold generate_next_index in E. injection E as <- <-. destruct IH as (N & M & H). split; [|split].
    + constructor; [|exact N]. intros Hin. apply H in Hin. rewrite bump_same in Hin. lia.
    + intros s'. specialize (M s'). pose proof (bump_le next s s'). lia.
    + intros s' n. cbn [In]. rewrite H. destruct (label_eqb s s') eqn:E.
      * apply label_ext in E as <-. specialize (M s). rewrite bump_same in *. split.
        -- intros [E|?]; [injection E as <-; lia|lia].
        -- intros [L1 L2]. destruct (Nat.eq_dec (next s) n) as [->|]; [left; reflexivity|right; lia].
      * assert (N' : s <> s') by (intros ->; rewrite (proj2 (label_ext s' s') eq_refl) in E; discriminate). rewrite bump_other by exact N'. split; [|tauto].
        intros [E'|?]; [congruence|tauto].
Qed.
Lemma generates_app a l b m c : generates a l b -> generates b m c -> generates a (l ++ m) c.
Proof. induction 1; intros H2; cbn [app]; [exact H2|]. econstructor; eauto. Qed.
Lemma generates_one s next : generates next [(s, next s)] (bump next s).
Proof. econstructor; [reflexivity|constructor]. Qed.
