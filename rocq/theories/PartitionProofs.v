(** The ZS1 algorithm visits all partitions in reverse lexicographic order. *)
From Verif Require Import PyBase PartitionModel PartitionSpec IterProofs.
From Coq Require Import ZArith Sorting.Sorted.
Local Open Scope Z_scope.

(** ** arrays *)
Lemma py_pos_in n i : 0 <= i < Z.of_nat n -> py_pos n i = Some (Z.to_nat i).
Proof.
  intros H. unfold py_pos. destruct (Z.leb_spec 0 i); [|lia]. destruct (Z.ltb_spec i (Z.of_nat n)); [reflexivity|lia].
Qed.

Lemma list_set_mid {A} (b : list A) y c v : list_set (b ++ y :: c) (length b) v = b ++ v :: c.
Proof. induction b as [|x b IH]; simpl; [reflexivity|]. rewrite IH. reflexivity. Qed.

Lemma nth_error_mid {A} (b : list A) y c : nth_error (b ++ y :: c) (length b) = Some y.
Proof. induction b as [|x b IH]; simpl; auto. Qed.

Lemma py_get_mid {A} (b : list A) y c i : i = Z.of_nat (length b) -> py_get (b ++ y :: c) i = Ok y.
Proof.
  intros ->. unfold py_get. rewrite py_pos_in, Nat2Z.id, nth_error_mid; [reflexivity|].
  rewrite app_length. simpl. lia.
Qed.

Lemma py_set_mid {A} (b : list A) y c v i : i = Z.of_nat (length b) -> py_set (b ++ y :: c) i v = Ok (b ++ v :: c).
Proof.
  intros ->. unfold py_set. rewrite py_pos_in, Nat2Z.id, list_set_mid; [reflexivity|].
  rewrite app_length. simpl. lia.
Qed.

Lemma zsum_app p q : zsum (p ++ q) = zsum p + zsum q.
Proof. induction p as [|a p IH]; simpl; [reflexivity|]. rewrite IH. lia. Qed.

Lemma zsum_repeat a n : zsum (repeat a n) = Z.of_nat n * a.
Proof. induction n as [|n IH]; [reflexivity|]. cbn [repeat zsum fold_right]. unfold zsum in IH. rewrite IH. lia. Qed.

Lemma zsum_lower b p : Forall (fun a => b <= a) p -> Z.of_nat (length p) * b <= zsum p.
Proof. induction 1 as [|a p Ha H IH]; [simpl; lia|]. cbn [length zsum fold_right]. unfold zsum in IH. lia. Qed.

Lemma repeat_app_plus {A} (a : A) n m : repeat a (n + m) = repeat a n ++ repeat a m.
Proof. apply repeat_app. Qed.

Lemma repeat_snoc {A} (a : A) n : a :: repeat a n = repeat a n ++ [a].
Proof. apply repeat_cons. Qed.

(** ** the successor *)
Definition greedy (t r : Z) : list Z :=
  repeat r (Z.to_nat (t / r)) ++ (if t mod r =? 0 then [] else [t mod r]).

Lemma zsum_greedy t r : 0 <= t -> 1 <= r -> zsum (greedy t r) = t.
Proof.
  intros Ht Hr. unfold greedy. rewrite zsum_app, zsum_repeat, Z2Nat.id by (apply Z.div_pos; lia).
  pose proof (Z.div_mod t r ltac:(lia)). destruct (Z.eqb_spec (t mod r) 0); simpl; lia.
Qed.

Lemma greedy_step t r : 1 <= r <= t -> greedy t r = r :: greedy (t - r) r.
Proof.
  intros H. unfold greedy.
  replace (t / r) with ((t - r) / r + 1)
    by (replace t with ((t - r) + 1 * r) at 2 by lia; rewrite Z.div_add by lia; reflexivity).
  replace (t mod r) with ((t - r) mod r)
    by (replace t with ((t - r) + 1 * r) at 2 by lia; rewrite Z.mod_add by lia; reflexivity).
  rewrite Z2Nat.inj_add by (try apply Z.div_pos; lia). rewrite Nat.add_comm. reflexivity.
Qed.

Lemma greedy_small t r : 0 < t < r -> greedy t r = [t].
Proof.
  intros H. unfold greedy. rewrite Z.div_small, Z.mod_small by lia. destruct (Z.eqb_spec t 0); [lia|reflexivity].
Qed.

Lemma greedy_zero r : 1 <= r -> greedy 0 r = [].
Proof. intros H. unfold greedy. rewrite Z.div_0_l, Z.mod_0_l by lia. reflexivity. Qed.

Lemma greedy_one t : 0 <= t -> greedy t 1 = repeat 1 (Z.to_nat t).
Proof. intros H. unfold greedy. rewrite Z.div_1_r, Z.mod_1_r. apply app_nil_r. Qed.

(** lexicographic order *)
Lemma lex_lt_irr p : ~ lex_lt p p.
Proof. induction p as [|a p IH]; simpl; [tauto|]. intros [H|[_ H]]; [lia|auto]. Qed.

Lemma lex_lt_trans p q r : lex_lt p q -> lex_lt q r -> lex_lt p r.
Proof.
  revert q r; induction p as [|a p IH]; intros [|b q] [|c r]; simpl; try tauto.
  intros [H|[-> H]] [G|[-> G]]; try (left; lia). right; split; [reflexivity|]. eapply IH; eassumption.
Qed.

Lemma lex_lt_app a p q : lex_lt (a ++ p) (a ++ q) <-> lex_lt p q.
Proof.
  induction a as [|x a IH]; simpl; [reflexivity|]. rewrite IH. split; [intros [H|[_ H]]; [lia|exact H]|auto].
Qed.

Definition lex_le (p q : list Z) : Prop := p = q \/ lex_lt p q.

Lemma lex_le_cons a p q : lex_le p q -> lex_le (a :: p) (a :: q).
Proof. intros [->|H]; [left; reflexivity|right; simpl; auto]. Qed.

Lemma lex_le_app a p q : lex_le p q -> lex_le (a ++ p) (a ++ q).
Proof. intros [->|H]; [left; reflexivity|right; apply lex_lt_app, H]. Qed.

(** The greedy filling is the largest list with parts at most r and sum t. *)
Lemma greedy_max r p t :
  1 <= r -> Forall (fun a => 1 <= a <= r) p -> zsum p = t -> lex_le p (greedy t r).
Proof.
  intros Hr. revert t. induction p as [|a p IH]; intros t F E.
  - simpl in E. subst t. rewrite greedy_zero by lia. left; reflexivity.
  - inversion F as [|a' p' Ha Hp]; subst. cbn [zsum fold_right].
    pose proof (zsum_lower 1 p (Forall_impl _ (fun a H => proj1 H) Hp)) as Hs. unfold zsum in *.
    set (s := fold_right Z.add 0 p) in *.
    destruct (Z_le_gt_dec r (a + s)) as [G|G].
    + rewrite greedy_step by lia. destruct (Z.eq_dec a r) as [->|N].
      * apply lex_le_cons. replace (r + s - r) with s by lia. apply IH; [exact Hp|reflexivity].
      * right. simpl. left. lia.
    + rewrite greedy_small by lia. destruct p as [|b p].
      * left. f_equal. subst s. simpl. lia.
      * right. simpl. left. inversion Hp; subst. subst s. cbn [fold_right].
        pose proof (zsum_lower 1 p (Forall_impl _ (fun a H => proj1 H) ltac:(eassumption))). unfold zsum in *. lia.
Qed.

(** Nothing is smaller than a list of ones. *)
Lemma ones_min p t :
  Forall (fun a => 1 <= a) p -> zsum p = t -> ~ lex_lt p (repeat 1 (Z.to_nat t)).
Proof.
  revert t; induction p as [|a p IH]; intros t F E.
  - simpl in E. subst. simpl. tauto.
  - inversion F as [|a' p' Ha Hp]; subst. cbn [zsum fold_right].
    pose proof (zsum_lower 1 p Hp) as Hs. unfold zsum in *. set (s := fold_right Z.add 0 p) in *.
    replace (Z.to_nat (a + s)) with (S (Z.to_nat (a + s - 1))) by lia. cbn [repeat lex_lt].
    intros [G|[-> G]]; [lia|]. apply (IH s Hp eq_refl). replace (1 + s - 1) with s in G by lia. exact G.
Qed.

Lemma sorted_bound x p : StronglySorted (fun a b => b <= a) (x :: p) -> Forall (fun a => a <= x) p.
Proof. inversion 1; assumption. Qed.

Definition succ_of (a : list Z) (s : Z) (k : nat) : list Z := a ++ (s - 1) :: greedy (Z.of_nat k + 1) (s - 1).

(** No partition lies strictly between a partition and its successor. *)
Lemma succ_adjacent n a s k q :
  2 <= s -> zsum (a ++ s :: repeat 1 k) = n ->
  is_partition n q -> lex_lt q (a ++ s :: repeat 1 k) -> lex_le q (succ_of a s k).
Proof.
  intros Hs En [Fq [Sq Eq]]. unfold succ_of. rewrite <- Eq in En. clear Eq n.
  revert q En Fq Sq; induction a as [|x a IH]; intros q En Fq Sq H.
  - cbn [app] in *. destruct q as [|b q]; [exfalso; change (s :: repeat 1 k) with ([s] ++ repeat 1 k) in En; rewrite zsum_app, zsum_repeat in En; simpl in En; lia|].
    cbn [lex_lt] in H. inversion Fq as [|? ? Hb Fq']; subst.
    assert (Eb : s + Z.of_nat k = b + zsum q).
    { change (s :: repeat 1 k) with ([s] ++ repeat 1 k) in En. rewrite zsum_app, zsum_repeat in En. change (b :: q) with ([b] ++ q) in En. rewrite zsum_app in En. simpl in En. lia. }
    destruct H as [H|[-> H]].
    + destruct (Z.eq_dec b (s - 1)) as [->|N].
      * apply lex_le_cons. apply greedy_max; [lia| |lia].
        apply sorted_bound in Sq. rewrite Forall_forall in *. intros y Hy. split; [apply Fq'; exact Hy|apply Sq, Hy].
      * right. simpl. left. lia.
    + exfalso. replace k with (Z.to_nat (Z.of_nat k)) in H by lia.
      revert H. apply ones_min; [exact Fq'|lia].
  - cbn [app] in *. destruct q as [|b q].
    + right. exact I.
    + inversion Fq as [|? ? Hb Fq']; subst. inversion Sq as [|? ? Sq' Gq]; subst.
      cbn [lex_lt] in H. destruct H as [H|[-> H]].
      * right. simpl. left. exact H.
      * apply lex_le_cons. apply IH; auto. cbn [zsum fold_right] in En. unfold zsum. lia.
Qed.

Lemma succ_smaller a s k : lex_lt (succ_of a s k) (a ++ s :: repeat 1 k).
Proof. unfold succ_of. apply lex_lt_app. simpl. left. lia. Qed.

(** ** the loop *)
Lemma fill_loop_ok fuel b c h t r :
  h = Z.of_nat (length b) -> 1 <= r -> 0 <= t -> (Z.to_nat t <= fuel)%nat -> t / r <= Z.of_nat c ->
  fill_loop fuel (b ++ repeat 1 c) h t r =
  Ok (b ++ repeat r (Z.to_nat (t / r)) ++ repeat 1 (c - Z.to_nat (t / r)), h + t / r, t mod r).
Proof.
  revert b c h t; induction fuel as [|fuel IH]; intros b c h t Hh Hr Ht Hf Hc.
  - assert (t = 0) by lia. subst t. cbn [fill_loop]. destruct (Z.leb_spec r 0); [lia|].
    rewrite Z.div_0_l, Z.mod_0_l by lia. simpl. rewrite Nat.sub_0_r, Z.add_0_r. reflexivity.
  - cbn [fill_loop]. destruct (Z.leb_spec r t) as [G|G].
    + assert (E : t / r = (t - r) / r + 1)
        by (replace t with ((t - r) + 1 * r) at 1 by lia; rewrite Z.div_add by lia; reflexivity).
      assert (E' : t mod r = (t - r) mod r)
        by (replace t with ((t - r) + 1 * r) at 1 by lia; rewrite Z.mod_add by lia; reflexivity).
      assert (P : 0 <= (t - r) / r) by (apply Z.div_pos; lia).
      destruct c as [|c]; [simpl in Hc; lia|]. cbn [repeat].
      rewrite (py_set_mid b 1 (repeat 1 c) r) by lia. cbn [pybind].
      replace (b ++ r :: repeat 1 c) with ((b ++ [r]) ++ repeat 1 c) by (rewrite <- app_assoc; reflexivity).
      rewrite IH; try lia.
      * rewrite E, E'. rewrite Z2Nat.inj_add by lia. change (Z.to_nat 1) with 1%nat.
        rewrite Nat.add_comm. cbn [Nat.add repeat Nat.sub]. rewrite <- app_assoc. cbn [app].
        f_equal. f_equal. f_equal. lia.
      * rewrite app_length. simpl. lia.
    + rewrite Z.div_small, Z.mod_small by lia. simpl. rewrite Nat.sub_0_r, Z.add_0_r. reflexivity.
Qed.

(** State of the loop: the parts above 1, then ones. *)
Definition ip_inv (n : nat) (a : list Z) (x : list Z) (m h : Z) : Prop :=
  x = a ++ repeat 1 (n - length a) /\ h = Z.of_nat (length a) /\
  Forall (fun y => 2 <= y) a /\ StronglySorted (fun y z => z <= y) a /\
  zsum a <= Z.of_nat n /\ m = h + (Z.of_nat n - zsum a).

Definition current (n : nat) (a : list Z) : list Z := a ++ repeat 1 (Z.to_nat (Z.of_nat n - zsum a)).

Lemma inv_length n a x m h : ip_inv n a x m h -> Z.of_nat (length a) * 2 <= zsum a /\ zsum a <= Z.of_nat n.
Proof. intros [_ [_ [F [_ [Hs _]]]]]. split; [apply zsum_lower, F|exact Hs]. Qed.

Lemma current_prefix n a x m h : ip_inv n a x m h -> py_prefix x m = current n a.
Proof.
  intros I. pose proof (inv_length _ _ _ _ _ I) as [L1 L2]. destruct I as [-> [-> [F [S [Hs ->]]]]].
  unfold py_prefix, current. rewrite Z2Nat.inj_add, Nat2Z.id by lia. rewrite firstn_app_2. f_equal.
  set (k := Z.to_nat (Z.of_nat n - zsum a)).
  assert (k <= n - length a)%nat by lia.
  replace (n - length a)%nat with (k + (n - length a - k))%nat by lia.
  rewrite repeat_app_plus, firstn_app, repeat_length, Nat.sub_diag, app_nil_r.
  rewrite <- (repeat_length 1 k) at 1. apply firstn_all.
Qed.

Lemma current_partition n a x m h : ip_inv n a x m h -> is_partition (Z.of_nat n) (current n a).
Proof.
  intros I. destruct I as [-> [-> [F [S [Hs ->]]]]]. unfold current. split; [|split].
  - apply Forall_app. split; [eapply Forall_impl; [|exact F]; simpl; intros; lia|].
    apply Forall_forall. intros y Hy. apply repeat_spec in Hy. lia.
  - clear Hs. set (k := Z.to_nat (Z.of_nat n - zsum a)). clearbody k.
    induction S as [|y a S IH G]; cbn [app].
    + induction k as [|k IHk]; cbn [repeat]; constructor; [exact IHk|].
      apply Forall_forall. intros z Hz. apply repeat_spec in Hz. lia.
    + inversion F; subst. constructor; [apply IH; assumption|]. apply Forall_app. split; [exact G|].
      apply Forall_forall. intros z Hz. apply repeat_spec in Hz. lia.
  - rewrite zsum_app, zsum_repeat. lia.
Qed.

Lemma sorted_snoc a x : StronglySorted (fun y z => z <= y) (a ++ [x]) <->
  StronglySorted (fun y z => z <= y) a /\ Forall (fun y => x <= y) a.
Proof.
  induction a as [|b a IH]; cbn [app].
  - split; [intros _; split; constructor|intros _; repeat constructor].
  - split.
    + inversion 1 as [|? ? S F]; subst. apply IH in S as [S1 S2]. apply Forall_app in F as [F1 F2].
      inversion F2; subst. split; constructor; assumption.
    + intros [S F]. inversion S; inversion F; subst. constructor; [apply IH; split; assumption|].
      apply Forall_app. split; [assumption|]. constructor; [assumption|constructor].
Qed.

Lemma sorted_app_intro a b : StronglySorted (fun y z : Z => z <= y) a -> StronglySorted (fun y z => z <= y) b ->
  (forall x y, In x a -> In y b -> y <= x) -> StronglySorted (fun y z => z <= y) (a ++ b).
Proof.
  induction 1 as [|x a S IH F]; intros Sb H; cbn [app]; [exact Sb|]. constructor.
  - apply IH; [exact Sb|]. intros u v Hu Hv. apply H; simpl; auto.
  - apply Forall_app. split; [exact F|]. apply Forall_forall. intros v Hv. apply H; simpl; auto.
Qed.

Lemma sorted_repeat (r : Z) k : StronglySorted (fun y z => z <= y) (repeat r k).
Proof.
  induction k as [|k IH]; cbn [repeat]; constructor; [exact IH|].
  apply Forall_forall. intros z Hz. apply repeat_spec in Hz. lia.
Qed.

Lemma ip_body_ok n a' s x m h :
  ip_inv n (a' ++ [s]) x m h ->
  exists a2 x2 m2 h2, ip_body x m h = Ok (x2, m2, h2) /\ ip_inv n a2 x2 m2 h2 /\
    current n a2 = succ_of a' s (Z.to_nat (Z.of_nat n - zsum (a' ++ [s]))).
Proof.
  intros I. pose proof (inv_length _ _ _ _ _ I) as [L1 L2]. destruct I as [-> [-> [F [S [Hs ->]]]]].
  rewrite zsum_app in *. cbn [zsum fold_right] in *. fold (zsum a') in *. rewrite app_length in *. cbn [length] in *.
  apply Forall_app in F as [F Fs]. inversion Fs as [|? ? Hs2 _]; subst. apply sorted_snoc in S as [S Ss].
  pose proof (zsum_lower 2 a' F) as L3.
  set (k := Z.to_nat (Z.of_nat n - (zsum a' + (s + 0)))).
  assert (Hk : Z.of_nat k = Z.of_nat n - zsum a' - s) by lia.
  unfold ip_body. rewrite <- app_assoc. cbn [app].
  rewrite (py_get_mid a' s) by lia. cbn [pybind].
  destruct (Z.eqb_spec s 2) as [->|N].
  - rewrite (py_set_mid a' 2) by lia. cbn [pybind].
    exists a'. do 3 eexists. split; [reflexivity|]. split.
    + split; [|split; [lia|split; [exact F|split; [exact S|split; lia]]]].
      f_equal. change (1 :: repeat 1 (n - (length a' + 1))) with (repeat 1 (Datatypes.S (n - (length a' + 1)))). f_equal. lia.
    + unfold current, succ_of. f_equal. change (2 - 1) with 1. rewrite greedy_one by lia.
      change (1 :: repeat 1 (Z.to_nat (Z.of_nat k + 1))) with (repeat 1 (Datatypes.S (Z.to_nat (Z.of_nat k + 1)))). f_equal. lia.
  - rewrite (py_set_mid a' s) by lia. cbn [pybind].
    set (t := Z.of_nat (length a' + 1) + (Z.of_nat n - (zsum a' + (s + 0))) - Z.of_nat (length a' + 1) + 1).
    assert (Ht : t = Z.of_nat k + 1) by lia.
    set (r := s - 1). assert (Hr : 2 <= r) by lia.
    assert (Hdiv : t / r <= Z.of_nat (n - (length a' + 1))).
    { transitivity t; [apply Z.div_le_upper_bound; nia|]. lia. }
    replace (a' ++ r :: repeat 1 (n - (length a' + 1))) with ((a' ++ [r]) ++ repeat 1 (n - (length a' + 1)))
      by (rewrite <- app_assoc; reflexivity).
    rewrite fill_loop_ok; try lia; [|rewrite app_length; reflexivity]. cbn [pybind].
    set (d := t / r) in *. assert (Hd : 0 <= d) by (apply Z.div_pos; lia).
    pose proof (Z.div_mod t r ltac:(lia)) as Hdm. fold d in Hdm.
    pose proof (Z.mod_pos_bound t r ltac:(lia)) as Hmb.
    set (e := t mod r) in *.
    assert (Sr : StronglySorted (fun y z => z <= y) (a' ++ [r] ++ repeat r (Z.to_nat d))).
    { apply sorted_app_intro; [exact S|apply (sorted_repeat r (Datatypes.S (Z.to_nat d)))|].
      intros y z Hy Hz. rewrite Forall_forall in Ss. specialize (Ss y Hy).
      assert (z = r) by (destruct Hz as [<-|Hz]; [reflexivity|apply repeat_spec in Hz; exact Hz]). lia. }
    assert (Fr : Forall (fun y => 2 <= y) (a' ++ [r] ++ repeat r (Z.to_nat d))).
    { apply Forall_app. split; [exact F|]. constructor; [exact Hr|]. apply Forall_forall. intros y Hy. apply repeat_spec in Hy. lia. }
    assert (Zr : zsum (a' ++ [r] ++ repeat r (Z.to_nat d)) = zsum a' + r + d * r).
    { rewrite !zsum_app, zsum_repeat. cbn. lia. }
    assert (Lr : length (a' ++ [r] ++ repeat r (Z.to_nat d)) = (length a' + 1 + Z.to_nat d)%nat).
    { rewrite !app_length, repeat_length. simpl. lia. }
    rewrite <- app_assoc. rewrite !(app_assoc a' [r]), !(app_assoc (a' ++ [r])), <- !(app_assoc a' [r]).
    set (b := a' ++ [r] ++ repeat r (Z.to_nat d)) in *.
    unfold succ_of, greedy. fold r. rewrite <- Ht. fold d e.
    assert (Eb : forall l, a' ++ r :: repeat r (Z.to_nat d) ++ l = b ++ l) by (intros l; unfold b; rewrite <- app_assoc; reflexivity).
    destruct (Z.eqb_spec e 0) as [E0|E0].
    + exists b. do 3 eexists. split; [reflexivity|]. split.
      * split; [f_equal; f_equal; lia|]. split; [lia|]. split; [exact Fr|]. split; [exact Sr|]. split; lia.
      * unfold current. rewrite Eb. f_equal. replace (Z.to_nat (Z.of_nat n - zsum b)) with 0%nat by lia. reflexivity.
    + destruct (Z.ltb_spec 1 e) as [E1|E1].
      * destruct (n - (length a' + 1) - Z.to_nat d)%nat as [|c] eqn:Ec.
        { exfalso. nia. }
        cbn [repeat]. rewrite (py_set_mid b 1 (repeat 1 c) e) by lia. cbn [pybind].
        exists (b ++ [e]). do 3 eexists. split; [reflexivity|]. split.
        -- assert (Lbe : length (b ++ [e]) = Datatypes.S (length b)) by (rewrite app_length; simpl; lia).
           assert (Zbe : zsum (b ++ [e]) = zsum b + e) by (rewrite zsum_app; simpl; lia).
           split; [rewrite <- app_assoc; cbn [app]; f_equal; f_equal; f_equal; lia|].
           split; [lia|]. split; [apply Forall_app; split; [exact Fr|constructor; [lia|constructor]]|].
           split; [|split; lia]. apply sorted_snoc. split; [exact Sr|].
           unfold b. apply Forall_app. split; [rewrite Forall_forall in *; intros y Hy; specialize (Ss y Hy); lia|].
           apply Forall_forall. intros y Hy.
           assert (y = r) by (destruct Hy as [<-|Hy]; [reflexivity|apply repeat_spec in Hy; exact Hy]). lia.
        -- unfold current. rewrite Eb. rewrite zsum_app. cbn [zsum fold_right]. fold (zsum b).
           replace (Z.to_nat (Z.of_nat n - (zsum b + (e + 0)))) with 0%nat by lia. rewrite app_nil_r. reflexivity.
      * assert (e = 1) by lia. exists b. do 3 eexists. split; [reflexivity|]. split.
        -- split; [f_equal; f_equal; lia|]. split; [lia|]. split; [exact Fr|]. split; [exact Sr|]. split; lia.
        -- unfold current. rewrite Eb. f_equal. replace (Z.to_nat (Z.of_nat n - zsum b)) with 1%nat by lia.
           rewrite H. reflexivity.
Qed.

(** ** counting the remaining rounds *)
Definition bump (p : list Z) : list Z := match p with a :: p' => (a + 1) :: p' | [] => [] end.
Fixpoint comps (n : nat) : list (list Z) :=
  match n with
  | O => [[]]
  | Datatypes.S n' => match n' with
         | O => [[1]]
         | Datatypes.S _ => map (cons 1) (comps n') ++ map bump (comps n')
         end
  end.

Lemma comps_length n : (length (comps n) <= 2 ^ n)%nat.
Proof.
  induction n as [|[|n] IH]; [simpl; lia|simpl; lia|].
  cbn [comps] in IH |- *. rewrite app_length, !map_length. cbn [Nat.pow] in IH |- *. lia.
Qed.

Lemma comps_in n p : Forall (fun a => 1 <= a) p -> zsum p = Z.of_nat n -> In p (comps n).
Proof.
  revert p; induction n as [|[|n] IH]; intros p F E.
  - destruct p as [|a p]; [left; reflexivity|]. inversion F as [|? ? Ha Fp]; subst.
    pose proof (zsum_lower 1 p Fp). cbn in E. fold (zsum p) in E. lia.
  - destruct p as [|a p]; [simpl in E; lia|]. inversion F as [|? ? Ha Fp]; subst.
    pose proof (zsum_lower 1 p Fp). cbn in E. fold (zsum p) in E.
    destruct p as [|b p]; [simpl in E; left; f_equal; lia|cbn [length] in *; lia].
  - change (comps (Datatypes.S (Datatypes.S n))) with (map (cons 1) (comps (Datatypes.S n)) ++ map bump (comps (Datatypes.S n))).
    apply in_or_app. destruct p as [|a p]; [simpl in E; lia|]. inversion F as [|? ? Ha Fp]; subst.
    assert (E' : a + zsum p = Z.of_nat (Datatypes.S (Datatypes.S n))) by exact E.
    destruct (Z.eq_dec a 1) as [->|N].
    + left. apply in_map. apply IH; [exact Fp|lia].
    + right. replace (a :: p) with (bump ((a - 1) :: p)) by (simpl; f_equal; lia). apply in_map.
      apply IH; [constructor; [lia|exact Fp]|]. change (zsum ((a - 1) :: p)) with (a - 1 + zsum p). lia.
Qed.

Fixpoint lex_ltb (p q : list Z) : bool :=
  match p, q with
  | [], _ :: _ => true
  | a :: p', b :: q' => (a <? b) || ((a =? b) && lex_ltb p' q')
  | _, _ => false
  end.

Lemma lex_ltb_ok p q : lex_ltb p q = true <-> lex_lt p q.
Proof.
  revert q; induction p as [|a p IH]; intros [|b q]; simpl; try (split; [congruence|tauto]); try tauto.
  rewrite Bool.orb_true_iff, Bool.andb_true_iff, Z.ltb_lt, Z.eqb_eq, IH. reflexivity.
Qed.

Definition remaining (n : nat) (p : list Z) : nat := length (filter (fun q => lex_ltb q p) (comps n)).

Lemma filter_len_le {A} (f : A -> bool) l : (length (filter f l) <= length l)%nat.
Proof. induction l as [|y l IH]; simpl; [lia|]. destruct (f y); simpl; lia. Qed.

Lemma filter_length_lt {A} (f g : A -> bool) l x :
  (forall y, f y = true -> g y = true) -> In x l -> f x = false -> g x = true ->
  (length (filter f l) < length (filter g l))%nat.
Proof.
  intros Hfg. assert (Hle : forall l, (length (filter f l) <= length (filter g l))%nat).
  { induction l0 as [|y l0 IH]; simpl; [lia|]. destruct (f y) eqn:Ef; [rewrite (Hfg y Ef); simpl; lia|].
    destruct (g y); simpl; lia. }
  induction l as [|y l IH]; intros Hx Hf Hg; [destruct Hx|]. destruct Hx as [->|Hx]; simpl.
  - rewrite Hf, Hg. simpl. specialize (Hle l). lia.
  - specialize (IH Hx Hf Hg). destruct (f y) eqn:Ef; [rewrite (Hfg y Ef); simpl; lia|].
    destruct (g y); simpl; lia.
Qed.

Lemma remaining_lt n p q : Forall (fun a => 1 <= a) q -> zsum q = Z.of_nat n -> lex_lt q p ->
  (remaining n q < remaining n p)%nat.
Proof.
  intros F E H. unfold remaining. apply (filter_length_lt _ _ _ q).
  - intros y Hy. apply lex_ltb_ok. apply lex_ltb_ok in Hy. eapply lex_lt_trans; eassumption.
  - apply comps_in; assumption.
  - destruct (lex_ltb q q) eqn:Eq; [|reflexivity]. apply lex_ltb_ok, lex_lt_irr in Eq. destruct Eq.
  - apply lex_ltb_ok, H.
Qed.

(** [n] is the largest partition. *)
Lemma top_max n p : 1 <= n -> is_partition n p -> ~ lex_lt [n] p.
Proof.
  intros Hn [F [S E]] H. destruct p as [|a p]; [destruct H|]. inversion F as [|? ? Ha Fp]; subst.
  pose proof (zsum_lower 1 p Fp). assert (E' : zsum (a :: p) = a + zsum p) by reflexivity.
  cbn [lex_lt] in H. destruct H as [H|[H1 H2]]; [lia|].
  destruct p as [|b p]; [destruct H2|]. cbn [length] in *. lia.
Qed.

Lemma py_get_0 {A} (y : A) x : py_get (y :: x) 0 = Ok y.
Proof. apply (py_get_mid [] y x). reflexivity. Qed.

Lemma ip_loop_ok n fuel a x m h :
  (2 <= n)%nat -> ip_inv n a x m h -> (remaining n (current n a) <= fuel)%nat ->
  exists rest, ip_loop fuel (Z.of_nat n) x m h =
      Ok ((if list_eq_dec Z.eq_dec (current n a) [Z.of_nat n] then [current n a] else []) ++ rest) /\
    StronglySorted (fun p q => lex_lt q p) rest /\
    forall p, In p rest <-> is_partition (Z.of_nat n) p /\ lex_lt p (current n a).
Proof.
  intros Hn. revert a x m h; induction fuel as [|fuel IH]; intros a x m h I Hf.
  all: pose proof (current_partition _ _ _ _ _ I) as PI.
  all: destruct a as [|y a0] eqn:Ea;
    [exists []; destruct I as [-> [-> [F [S [Hs ->]]]]];
     split; [|split; [constructor|]]|].
  1,4: cbn [ip_loop]; replace (n - length (@nil Z))%nat with (Datatypes.S (n - 1)) by (simpl; lia); cbn [repeat app];
     rewrite py_get_0; cbn [pybind]; destruct (list_eq_dec Z.eq_dec (current n []) [Z.of_nat n]) as [C|C]; [|reflexivity];
     exfalso; unfold current in C; simpl zsum in C; replace (Z.to_nat (Z.of_nat n - 0)) with (Datatypes.S (Datatypes.S (n - 2))) in C by lia;
     discriminate.
  1,3: intros p; split; [intros []|]; intros [[Fp [Sp Ep]] Hp]; exfalso; unfold current in Hp; simpl app in Hp;
     simpl zsum in Hp; rewrite Z.sub_0_r in Hp; revert Hp; apply ones_min; assumption.
  all: rewrite <- Ea in *.
  - (* fuel 0: impossible *)
    exfalso. destruct (exists_last (l := a)) as [a' [s Es]]; [rewrite Ea; discriminate|]. rewrite Es in *.
    destruct (ip_body_ok n a' s x m h I) as [a2 [x2 [m2 [h2 [Eb [I2 C2]]]]]].
    pose proof (current_partition _ _ _ _ _ I2) as [F2 [S2 E2]].
    assert (L : lex_lt (current n a2) (current n (a' ++ [s]))).
    { rewrite C2. unfold current. rewrite <- app_assoc. cbn [app]. apply succ_smaller. }
    pose proof (remaining_lt n _ _ F2 E2 L). lia.
  - destruct (exists_last (l := a)) as [a' [s Es]]; [rewrite Ea; discriminate|].
    assert (Hy : 2 <= y /\ y <= Z.of_nat n /\ (y = Z.of_nat n <-> current n a = [Z.of_nat n])).
    { destruct I as [-> [-> [F [S [Hs ->]]]]]. rewrite Ea in F. pose proof (Forall_inv F) as Hy2. pose proof (Forall_inv_tail F) as F0.
      pose proof (zsum_lower 2 a0 F0). assert (Z1 : zsum a = y + zsum a0) by (rewrite Ea; reflexivity).
      split; [exact Hy2|]. split; [lia|]. split.
      - intros ->. destruct a0 as [|z a0]; [|cbn [length] in *; lia]. rewrite Ea. unfold current. simpl zsum.
        replace (Z.to_nat (Z.of_nat n - (Z.of_nat n + 0))) with 0%nat by lia. reflexivity.
      - intros E. rewrite Ea in E. unfold current in E. cbn [app] in E. congruence. }
    assert (Hx : exists x', x = y :: x').
    { destruct I as [-> _]. rewrite Ea. cbn [app]. eauto. }
    destruct Hx as [x' Hx].
    cbn [ip_loop]. replace (py_get x 0) with (Ok y) by (rewrite Hx; symmetry; apply py_get_0). cbn [pybind].
    destruct (Z.eqb_spec y 1); [lia|].
    assert (Ip := I). rewrite Es in Ip.
    destruct (ip_body_ok n a' s x m h Ip) as [a2 [x2 [m2 [h2 [Eb [I2 C2]]]]]].
    rewrite Eb. cbn [pybind].
    pose proof (current_partition _ _ _ _ _ I2) as PI2. destruct (PI2) as [F2 [S2 E2]].
    assert (L : lex_lt (current n a2) (current n a)).
    { rewrite C2, Es. unfold current. rewrite <- app_assoc. cbn [app]. apply succ_smaller. }
    pose proof (remaining_lt n _ _ F2 E2 L) as Hlt.
    destruct (IH a2 x2 m2 h2 I2 ltac:(lia)) as [rest [Er [Sr Hr]]]. rewrite Er. cbn [pybind].
    destruct (list_eq_dec Z.eq_dec (current n a2) [Z.of_nat n]) as [C|_].
    { exfalso. rewrite C in L. revert L. apply (top_max (Z.of_nat n)); [lia|exact PI]. }
    cbn [app]. rewrite (current_prefix _ _ _ _ _ I2).
    exists (current n a2 :: rest). split; [|split].
    + f_equal. f_equal. destruct (Z.eqb_spec y (Z.of_nat n)) as [E|E].
      * destruct (list_eq_dec Z.eq_dec (current n a) [Z.of_nat n]) as [C|C]; [|tauto]. rewrite C, Hx, E. reflexivity.
      * destruct (list_eq_dec Z.eq_dec (current n a) [Z.of_nat n]) as [C|C]; [tauto|reflexivity].
    + constructor; [exact Sr|]. apply Forall_forall. intros q Hq. apply Hr in Hq. apply Hq.
    + intros p. split.
      * intros [<-|Hp]; [split; assumption|]. apply Hr in Hp as [Hp1 Hp2]. split; [exact Hp1|].
        eapply lex_lt_trans; eassumption.
      * intros [Hp1 Hp2].
        assert (A : lex_le p (current n a2)).
        { rewrite C2. unfold current in Hp2. rewrite Es, <- app_assoc in Hp2. cbn [app] in Hp2.
          eapply succ_adjacent; [| |exact Hp1|exact Hp2].
          - destruct I as [_ [_ [F _]]]. rewrite Es in F. apply Forall_app in F as [_ F]. inversion F; assumption.
          - destruct PI as [_ [_ EP]]. unfold current in EP. rewrite Es, <- app_assoc in EP. exact EP. }
        destruct A as [->|A]; [left; reflexivity|]. right. apply Hr. split; assumption.
Qed.

Lemma sorted_nodup l : StronglySorted (fun p q => lex_lt q p) l -> NoDup l.
Proof.
  induction 1 as [|p l S IH F]; constructor; [|exact IH].
  intros Hin. rewrite Forall_forall in F. exact (lex_lt_irr _ (F _ Hin)).
Qed.

Lemma integer_partition_ok n : (2 <= n)%nat ->
  exists l, integer_partition n = Ok l /\ NoDup l /\ StronglySorted (fun p q => lex_lt q p) l /\
    forall p, In p l <-> is_partition (Z.of_nat n) p.
Proof.
  intros Hn. unfold integer_partition.
  replace (repeat 1 n) with (1 :: repeat 1 (n - 1)) by (destruct n; [lia|simpl; rewrite Nat.sub_0_r; reflexivity]).
  pose proof (py_set_mid [] 1 (repeat 1 (n - 1)) (Z.of_nat n) 0 eq_refl) as Hset. cbn [app] in Hset.
  rewrite Hset. cbn [pybind].
  assert (I : ip_inv n [Z.of_nat n] (Z.of_nat n :: repeat 1 (n - 1)) 1 1).
  { split; [reflexivity|]. split; [reflexivity|]. split; [constructor; [lia|constructor]|].
    split; [repeat constructor|]. unfold zsum; cbn [fold_right]. lia. }
  assert (Ec : current n [Z.of_nat n] = [Z.of_nat n]).
  { unfold current. simpl zsum. replace (Z.to_nat (Z.of_nat n - (Z.of_nat n + 0))) with 0%nat by lia. reflexivity. }
  destruct (ip_loop_ok n (2 ^ n) _ _ _ _ Hn I) as [rest [E [S H]]].
  { etransitivity; [|apply comps_length]. unfold remaining. apply filter_len_le. }
  rewrite E, Ec in *. destruct (list_eq_dec Z.eq_dec [Z.of_nat n] [Z.of_nat n]) as [_|N]; [|congruence].
  cbn [app].
  assert (SS : StronglySorted (fun p q => lex_lt q p) ([Z.of_nat n] :: rest)).
  { constructor; [exact S|]. apply Forall_forall. intros q Hq. apply H in Hq. apply Hq. }
  eexists. split; [reflexivity|]. split; [apply sorted_nodup, SS|]. split; [exact SS|].
  intros p. split.
  - intros [<-|Hp]; [rewrite <- Ec; eapply current_partition; exact I|]. apply H in Hp. apply Hp.
  - intros Hp. destruct (list_eq_dec Z.eq_dec p [Z.of_nat n]) as [->|N]; [left; reflexivity|].
    right. apply H. split; [exact Hp|].
    assert (G : lex_le p (greedy (Z.of_nat n) (Z.of_nat n))).
    { destruct Hp as [F [Sp Ep]]. apply greedy_max; [lia| |exact Ep].
      apply Forall_forall. intros a Ha. rewrite Forall_forall in F. split; [apply F, Ha|].
      apply in_split in Ha as [p1 [p2 ->]]. rewrite zsum_app in Ep. change (zsum (a :: p2)) with (a + zsum p2) in Ep.
      assert (zsum p1 >= 0 /\ zsum p2 >= 0).
      { split.
        - pose proof (zsum_lower 1 p1). rewrite Forall_forall in H0. specialize (H0 ltac:(intros; apply F, in_or_app; auto)). lia.
        - pose proof (zsum_lower 1 p2). rewrite Forall_forall in H0. specialize (H0 ltac:(intros; apply F, in_or_app; simpl; auto)). lia. }
      lia. }
    rewrite greedy_step in G by lia. rewrite Z.sub_diag, greedy_zero in G by lia.
    destruct G as [G|G]; [congruence|exact G].
Qed.

(** ** two-part splits *)
Lemma integer_separation_ok (n : Z) (z : bool) :
  let s := if z then 0 else 1 in
  integer_separation n z =
  map (fun k => (s + Z.of_nat k, n - (s + Z.of_nat k))) (seq 0 (Z.to_nat (n + 1 - 2 * s))).
Proof.
  intros s. unfold integer_separation, z_range, z_range_down.
  assert (G : forall (f g : nat -> Z) a b l, a = l -> b = l ->
     combine (map f (seq 0 a)) (map g (seq 0 b)) = map (fun k => (f k, g k)) (seq 0 l)).
  { intros f g a b l -> ->. generalize (seq 0 l). intros q; induction q as [|x q IH]; simpl; [reflexivity|]. rewrite IH. reflexivity. }
  rewrite (G _ _ _ _ (Z.to_nat (n + 1 - 2 * s))) by (unfold s; destruct z; lia).
  apply map_ext. intros k. unfold s. destruct z; f_equal; lia.
Qed.

Lemma integer_separation_in n z i j :
  In (i, j) (integer_separation n z) <-> i + j = n /\ (if z then 0 <= i /\ 0 <= j else 1 <= i /\ 1 <= j).
Proof.
  rewrite integer_separation_ok, in_map_iff. split.
  - intros [k [E Hk]]. apply in_seq in Hk. injection E as <- <-. destruct z; lia.
  - intros [E H]. exists (Z.to_nat (i - (if z then 0 else 1))). split.
    + f_equal; destruct z; lia.
    + apply in_seq. destruct z; lia.
Qed.

Lemma integer_separation_sorted n z : StronglySorted (fun p q => fst p < fst q) (integer_separation n z).
Proof.
  rewrite integer_separation_ok. generalize (Z.to_nat (n + 1 - 2 * (if z then 0 else 1))). intros l.
  generalize 0%nat. induction l as [|l IH]; intros b; cbn [seq map]; constructor; [apply IH|].
  apply Forall_forall. intros q Hq. apply in_map_iff in Hq as [k [<- Hk]]. apply in_seq in Hk. simpl. lia.
Qed.
