(** Theory of signs of reorderings: adjacent swaps and inversion counts. *)
From Verif Require Import PyBase ParitySpec.
From Coq Require Import ZArith.

Lemma sgn_S n : sgn (S n) = (- sgn n)%Z.
Proof. unfold sgn. rewrite Nat.even_succ, <- Nat.negb_even. destruct (Nat.even n); reflexivity. Qed.

Lemma sgn_add n m : sgn (n + m) = (sgn n * sgn m)%Z.
Proof.
  induction n as [|n IH]; cbn [Nat.add]; [change (sgn 0) with 1%Z; lia|].
  rewrite !sgn_S, IH. lia.
Qed.

Lemma sgn_sq n : (sgn n * sgn n)%Z = 1%Z.
Proof. unfold sgn. destruct (Nat.even n); reflexivity. Qed.

Lemma sgn_pm n : sgn n = 1%Z \/ sgn n = (-1)%Z.
Proof. unfold sgn. destruct (Nat.even n); auto. Qed.

Lemma sgn_double n : sgn (n + n) = 1%Z.
Proof. rewrite sgn_add. apply sgn_sq. Qed.

Section Swaps.
  Context {A : Type}.
  Implicit Types l : list A.

  Lemma swaps_trans n m l1 l2 l3 : swaps n l1 l2 -> swaps m l2 l3 -> swaps (n + m) l1 l3.
  Proof. induction 1; simpl; intros H'; [exact H'|]. constructor. auto. Qed.

  Lemma swaps_one l1 x y l2 : swaps 1 (l1 ++ x :: y :: l2) (l1 ++ y :: x :: l2).
  Proof. constructor. constructor. Qed.

  Lemma swaps_sym n l l' : swaps n l l' -> swaps n l' l.
  Proof.
    induction 1; [constructor|].
    replace (S n) with (n + 1) by lia. eapply swaps_trans; [eassumption|]. apply swaps_one.
  Qed.

  Lemma swaps_cons n x l l' : swaps n l l' -> swaps n (x :: l) (x :: l').
  Proof.
    induction 1; [constructor|].
    rewrite app_comm_cons. constructor. exact IHswaps.
  Qed.

  Lemma swaps_app_l n p l l' : swaps n l l' -> swaps n (p ++ l) (p ++ l').
  Proof. intros H; induction p; simpl; [exact H|]. apply swaps_cons; assumption. Qed.

  Lemma swaps_app_r n l l' q : swaps n l l' -> swaps n (l ++ q) (l' ++ q).
  Proof.
    induction 1; [constructor|].
    rewrite <- app_assoc. simpl. constructor. rewrite <- app_assoc in IHswaps. exact IHswaps.
  Qed.

  Lemma swaps_app n m l1 l1' l2 l2' :
    swaps n l1 l1' -> swaps m l2 l2' -> swaps (n + m) (l1 ++ l2) (l1' ++ l2').
  Proof. intros H1 H2. eapply swaps_trans; [apply swaps_app_r, H1|apply swaps_app_l, H2]. Qed.

  Lemma swaps_perm n l l' : swaps n l l' -> Permutation l l'.
  Proof.
    induction 1; [reflexivity|]. etransitivity; [|exact IHswaps].
    apply Permutation_app_head, perm_swap.
  Qed.

  Lemma perm_swaps l l' : Permutation l l' -> exists n, swaps n l l'.
  Proof.
    induction 1.
    - exists 0; constructor.
    - destruct IHPermutation as [n Hn]. exists n. apply swaps_cons, Hn.
    - exists 1. apply (swaps_one [] y x l).
    - destruct IHPermutation1 as [n Hn], IHPermutation2 as [m Hm].
      exists (n + m). eapply swaps_trans; eassumption.
  Qed.

  (** Moving one element over a block. *)
  Lemma swaps_move x l : swaps (length l) (x :: l) (l ++ [x]).
  Proof.
    induction l as [|y l IH]; simpl; [constructor|].
    apply (swaps_step (length l) [] x y l). simpl. apply swaps_cons, IH.
  Qed.

  (** Exchanging two blocks. *)
  Lemma swaps_blocks l1 l2 : swaps (length l1 * length l2) (l1 ++ l2) (l2 ++ l1).
  Proof.
    induction l1 as [|x l1 IH]; simpl; [rewrite app_nil_r; constructor|].
    rewrite Nat.add_comm. eapply swaps_trans.
    - apply swaps_cons, IH.
    - replace (l2 ++ x :: l1) with ((l2 ++ [x]) ++ l1) by (rewrite <- app_assoc; reflexivity).
      rewrite app_comm_cons. apply swaps_app_r, swaps_move.
  Qed.

  Lemma swaps_map {B} (f : A -> B) n l l' : swaps n l l' -> swaps n (map f l) (map f l').
  Proof.
    induction 1; [constructor|]. rewrite map_app in *. simpl in *. constructor. exact IHswaps.
  Qed.

  Lemma swaps_alternating f n l l' : alternating f -> swaps n l l' -> f l = (sgn n * f l')%Z.
  Proof.
    intros Hf. induction 1; [change (sgn 0) with 1%Z; lia|].
    rewrite Hf, IHswaps, sgn_S. lia.
  Qed.

  Lemma reorder_sign_refl l : reorder_sign l l 1.
  Proof. exists 0. split; [constructor|reflexivity]. Qed.
  Lemma reorder_sign_trans l1 l2 l3 s t :
    reorder_sign l1 l2 s -> reorder_sign l2 l3 t -> reorder_sign l1 l3 (s * t).
  Proof.
    intros [n [Hn ->]] [m [Hm ->]]. exists (n + m). split; [eapply swaps_trans; eassumption|].
    symmetry; apply sgn_add.
  Qed.
  Lemma reorder_sign_sym l1 l2 s : reorder_sign l1 l2 s -> reorder_sign l2 l1 s.
  Proof. intros [n [Hn ->]]. exists n. split; [apply swaps_sym, Hn|reflexivity]. Qed.
  Lemma reorder_sign_perm l1 l2 s : reorder_sign l1 l2 s -> Permutation l1 l2.
  Proof. intros [n [Hn _]]. eapply swaps_perm; eassumption. Qed.
  Lemma reorder_sign_exists l1 l2 : Permutation l1 l2 -> exists s, reorder_sign l1 l2 s.
  Proof. intros H. destruct (perm_swaps _ _ H) as [n Hn]. exists (sgn n), n. auto. Qed.
  Lemma reorder_sign_app l1 l1' l2 l2' s t :
    reorder_sign l1 l1' s -> reorder_sign l2 l2' t -> reorder_sign (l1 ++ l2) (l1' ++ l2') (s * t).
  Proof.
    intros [n [Hn ->]] [m [Hm ->]]. exists (n + m). split; [apply swaps_app; assumption|].
    symmetry; apply sgn_add.
  Qed.
  Lemma reorder_sign_blocks l1 l2 : reorder_sign (l1 ++ l2) (l2 ++ l1) (sgn (length l1 * length l2)).
  Proof. eexists; split; [apply swaps_blocks|reflexivity]. Qed.
  Lemma reorder_sign_pm l1 l2 s : reorder_sign l1 l2 s -> s = 1%Z \/ s = (-1)%Z.
  Proof. intros [n [_ ->]]. apply sgn_pm. Qed.
End Swaps.

Lemma reorder_sign_map {A B} (f : A -> B) l l' s : reorder_sign l l' s -> reorder_sign (map f l) (map f l') s.
Proof. intros [n [Hn ->]]. exists n; split; [apply swaps_map, Hn|reflexivity]. Qed.

(** ** inversions and swaps *)
Section Inversions.
  Context {A : Type} (ltb : A -> A -> bool).

  (** number of pairs (x in l1, y in l2) with y before x *)
  Fixpoint cross (l1 l2 : list A) : nat :=
    match l1 with [] => 0 | x :: l1' => length (filter (fun y => ltb y x) l2) + cross l1' l2 end.

  Lemma filter_app_length (f : A -> bool) l1 l2 :
    length (filter f (l1 ++ l2)) = length (filter f l1) + length (filter f l2).
  Proof. rewrite filter_app, app_length. reflexivity. Qed.

  Lemma inversions_app l1 l2 :
    inversions ltb (l1 ++ l2) = inversions ltb l1 + inversions ltb l2 + cross l1 l2.
  Proof.
    induction l1 as [|x l1 IH]; simpl; [lia|]. rewrite filter_app_length, IH. lia.
  Qed.

  Lemma filter_length_perm (f : A -> bool) l l' :
    Permutation l l' -> length (filter f l) = length (filter f l').
  Proof.
    induction 1; simpl; try lia.
    - destruct (f x); simpl; lia.
    - destruct (f x), (f y); simpl; lia.
  Qed.

  Lemma cross_perm_r l1 l2 l2' : Permutation l2 l2' -> cross l1 l2 = cross l1 l2'.
  Proof.
    intros H. induction l1 as [|x l1 IH]; simpl; [reflexivity|].
    rewrite IH, (filter_length_perm _ _ _ H). reflexivity.
  Qed.

  Lemma cross_perm_l l1 l1' l2 : Permutation l1 l1' -> cross l1 l2 = cross l1' l2.
  Proof. induction 1; simpl; lia. Qed.

  Definition total_on (l : list A) : Prop :=
    forall x y, In x l -> In y l -> x <> y -> ltb x y = negb (ltb y x).

  Lemma inversions_swap l1 x y l2 :
    ltb x y = negb (ltb y x) ->
    sgn (inversions ltb (l1 ++ x :: y :: l2)) = (- sgn (inversions ltb (l1 ++ y :: x :: l2)))%Z.
  Proof.
    intros H. rewrite !inversions_app.
    rewrite (cross_perm_r l1 (x :: y :: l2) (y :: x :: l2)) by apply perm_swap.
    cbn [inversions filter]. destruct (ltb y x); simpl in H; rewrite H; simpl length.
    - match goal with |- sgn ?a = (- sgn ?b)%Z => replace a with (S b) by lia end.
      rewrite sgn_S; lia.
    - match goal with |- sgn ?a = (- sgn ?b)%Z => replace b with (S a) by lia end.
      rewrite sgn_S; lia.
  Qed.

  Lemma swaps_inversions n l l' :
    NoDup l -> total_on l -> swaps n l l' -> sgn (inversions ltb l) = (sgn n * sgn (inversions ltb l'))%Z.
  Proof.
    intros ND HT HS. induction HS as [l|n l1 x y l2 l' HS IH]; [change (sgn 0) with 1%Z; lia|].
    assert (HP : Permutation (l1 ++ x :: y :: l2) (l1 ++ y :: x :: l2))
      by (apply Permutation_app_head, perm_swap).
    rewrite inversions_swap, IH, sgn_S; [lia| | |].
    - eapply Permutation_NoDup; eassumption.
    - intros a b Ha Hb. apply HT; eapply Permutation_in; try eassumption; symmetry; exact HP.
    - apply HT.
      + apply in_or_app; right; left; reflexivity.
      + apply in_or_app; right; right; left; reflexivity.
      + intros ->. apply NoDup_remove_2 in ND. apply ND, in_or_app; right; left; reflexivity.
  Qed.

  (** The sign of a reordering of distinct elements is well defined. *)
  Lemma reorder_sign_inversions l l' s :
    NoDup l -> total_on l -> reorder_sign l l' s ->
    s = (sgn (inversions ltb l) * sgn (inversions ltb l'))%Z.
  Proof.
    intros ND HT [n [Hn ->]]. rewrite (swaps_inversions n l l' ND HT Hn), <- Z.mul_assoc, sgn_sq. lia.
  Qed.

  Lemma cross_zero l1 l2 :
    cross l1 l2 = 0 <-> forall x y, In x l1 -> In y l2 -> ltb y x = false.
  Proof.
    induction l1 as [|x l1 IH]; simpl; [tauto|].
    split.
    - intros H a y [<-|Ha] Hy.
      + destruct (ltb y x) eqn:E; [|reflexivity].
        assert (In y (filter (fun y => ltb y x) l2)) by (apply filter_In; auto).
        destruct (filter (fun y => ltb y x) l2); [contradiction|simpl in H; lia].
      + apply IH; auto; lia.
    - intros H. assert (cross l1 l2 = 0) as -> by (apply IH; auto).
      rewrite Nat.add_0_r. destruct (filter (fun y => ltb y x) l2) as [|z r] eqn:E; [reflexivity|].
      assert (In z (filter (fun y => ltb y x) l2)) as Hz by (rewrite E; left; reflexivity).
      apply filter_In in Hz. rewrite (H x z) in Hz by tauto. destruct Hz; discriminate.
  Qed.

  Lemma inversions_zero l :
    inversions ltb l = 0 <-> ForallOrdPairs (fun x y => ltb y x = false) l.
  Proof.
    induction l as [|x l IH]; simpl; [split; [constructor|reflexivity]|].
    split.
    - intros H. constructor; [|apply IH; lia]. apply Forall_forall. intros y Hy.
      assert (C : cross [x] l = 0) by (simpl; lia). rewrite cross_zero in C. apply C; simpl; auto.
    - inversion 1; subst. rewrite Forall_forall in H2.
      assert (C : cross [x] l = 0) by (apply cross_zero; intros a y [<-|[]] Hy; auto).
      simpl in C. apply IH in H3. lia.
  Qed.

  Lemma inversions_ext ltb' l :
    (forall x y, In x l -> In y l -> ltb x y = ltb' x y) -> inversions ltb l = inversions ltb' l.
  Proof.
    induction l as [|x l IH]; simpl; intros H; [reflexivity|].
    rewrite IH by (intros; apply H; auto). f_equal. f_equal. apply filter_ext_in. intros y Hy. apply H; auto.
  Qed.
End Inversions.

Lemma inversions_map {A B} (ltb : B -> B -> bool) (f : A -> B) l :
  inversions ltb (map f l) = inversions (fun x y => ltb (f x) (f y)) l.
Proof.
  induction l as [|x l IH]; simpl; [reflexivity|]. rewrite IH. f_equal.
  clear IH. induction l as [|y l IH]; simpl; [reflexivity|]. destruct (ltb (f y) (f x)); simpl; lia.
Qed.

(** [inversions] counts exactly the inverted pairs of positions. *)
Lemma filter_map_comm {A B} (g : A -> B) (p : B -> bool) l :
  filter p (map g l) = map g (filter (fun a => p (g a)) l).
Proof. induction l as [|a l IH]; simpl; [reflexivity|]. destruct (p (g a)); simpl; congruence. Qed.

Lemma filter_none {A} (p : A -> bool) l : (forall x, In x l -> p x = false) -> filter p l = [].
Proof.
  induction l as [|a l IH]; simpl; intros H; [reflexivity|].
  rewrite (H a) by auto. apply IH; auto.
Qed.

Lemma list_prod_length_filter {A B} (p : A * B -> bool) l1 l2 :
  length (filter p (list_prod l1 l2)) =
  fold_right (fun a n => length (filter (fun b => p (a, b)) l2) + n) 0 l1.
Proof.
  induction l1 as [|a l1 IH]; simpl; [reflexivity|].
  rewrite filter_app, app_length, IH, filter_map_comm, map_length. reflexivity.
Qed.

Lemma filter_nth_length {A} (f : A -> bool) l k :
  length (filter (fun j => match nth_error l (j - k) with Some y => f y | None => false end)
            (seq k (length l))) = length (filter f l).
Proof.
  revert k; induction l as [|x l IH]; intros k; simpl; [reflexivity|].
  rewrite Nat.sub_diag. simpl.
  assert (E : filter (fun j => match nth_error (x :: l) (j - k) with Some y => f y | None => false end)
                (seq (S k) (length l)) =
              filter (fun j => match nth_error l (j - S k) with Some y => f y | None => false end)
                (seq (S k) (length l))).
  { apply filter_ext_in. intros j Hj. apply in_seq in Hj.
    replace (j - k) with (S (j - S k)) by lia. reflexivity. }
  destruct (f x); simpl; rewrite E, IH; reflexivity.
Qed.

Lemma inverted_pairs_length {A} (ltb : A -> A -> bool) l :
  length (inverted_pairs ltb l) = inversions ltb l.
Proof.
  unfold inverted_pairs. rewrite list_prod_length_filter. cbn [fst snd].
  assert (G : forall (pre l : list A),
    fold_right (fun a n => length (filter (fun b => (a <? b) &&
        match nth_error (pre ++ l) a, nth_error (pre ++ l) b with
        | Some x, Some y => ltb y x | _, _ => false end) (seq 0 (length (pre ++ l)))) + n) 0
      (seq (length pre) (length l)) = inversions ltb l).
  { clear l. intros pre l; revert pre. induction l as [|x l IH]; intros pre; simpl; [reflexivity|].
    specialize (IH (pre ++ [x])).
    assert (E1 : length (pre ++ [x]) = S (length pre)) by (rewrite app_length; simpl; lia).
    rewrite E1, <- app_assoc in IH. cbn [app] in IH. rewrite IH. f_equal.
    rewrite nth_error_app2 by lia. rewrite Nat.sub_diag. simpl nth_error.
    rewrite app_length. rewrite seq_app. rewrite filter_app, app_length.
    assert (Z0 : filter (fun b => (length pre <? b) &&
              match nth_error (pre ++ x :: l) b with Some y => ltb y x | None => false end)
              (seq 0 (length pre)) = []).
    { apply filter_none. intros b Hb. apply in_seq in Hb.
      destruct (Nat.ltb_spec (length pre) b); [lia|reflexivity]. }
    rewrite Z0. simpl length. rewrite <- seq_shift. simpl.
    rewrite Nat.ltb_irrefl. simpl.
    rewrite <- (filter_nth_length (fun y => ltb y x) l (S (length pre))).
    rewrite seq_shift. f_equal. apply filter_ext_in. intros b Hb. apply in_seq in Hb.
    destruct (Nat.ltb_spec (length pre) b); [|lia]. simpl.
    rewrite nth_error_app2 by lia.
    replace (b - length pre) with (S (b - S (length pre))) by lia. reflexivity. }
  specialize (G [] l). simpl in G. exact G.
Qed.
