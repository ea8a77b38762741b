(** itertools: product, combinations, permutations enumerate what they should. *)
From Verif Require Import PyBase.

(** ** general list facts *)
Lemma map_nth_seq {A} (l : list A) d : map (fun i => nth i l d) (seq 0 (length l)) = l.
Proof.
  induction l as [|x l IH]; [reflexivity|]. cbn [length seq map]. f_equal.
  rewrite <- seq_shift, map_map. exact IH.
Qed.

Lemma NoDup_app_intro {A} (l1 l2 : list A) :
  NoDup l1 -> NoDup l2 -> (forall x, In x l1 -> ~ In x l2) -> NoDup (l1 ++ l2).
Proof.
  induction 1 as [|x l1 Hx H1 IH]; simpl; intros H2 H; [exact H2|]. constructor.
  - rewrite in_app_iff. intros [G|G]; [contradiction|]. exact (H x (or_introl eq_refl) G).
  - apply IH; [exact H2|]. intros y Hy. apply H. right; exact Hy.
Qed.

Lemma NoDup_app_elim {A} (l1 l2 : list A) :
  NoDup (l1 ++ l2) -> NoDup l1 /\ NoDup l2 /\ (forall x, In x l1 -> ~ In x l2).
Proof.
  induction l1 as [|x l1 IH]; simpl; intros H; [repeat split; [constructor|exact H|tauto]|].
  inversion H as [|? ? Hx H']; subst. destruct (IH H') as [H1 [H2 H3]]. rewrite in_app_iff in Hx.
  repeat split.
  - constructor; tauto.
  - exact H2.
  - intros y [<-|Hy]; [tauto|auto].
Qed.

Lemma NoDup_map_in {A B} (f : A -> B) l :
  (forall x y, In x l -> In y l -> f x = f y -> x = y) -> NoDup l -> NoDup (map f l).
Proof.
  intros H ND. induction ND as [|x l Hx ND IH]; simpl; constructor.
  - rewrite in_map_iff. intros [y [E Hy]]. apply H in E; simpl; auto. subst; contradiction.
  - apply IH. intros a b Ha Hb. apply H; right; assumption.
Qed.

Lemma NoDup_flat_map {A B} (f : A -> list B) l :
  NoDup l -> (forall x, In x l -> NoDup (f x)) ->
  (forall x y z, In x l -> In y l -> In z (f x) -> In z (f y) -> x = y) -> NoDup (flat_map f l).
Proof.
  intros ND. induction ND as [|x l Hx ND IH]; simpl; intros H1 H2; [constructor|].
  apply NoDup_app_intro.
  - apply H1; auto.
  - apply IH; [auto|]. intros a b z Ha Hb. apply H2; auto.
  - intros z Hz G. apply in_flat_map in G as [y [Hy Hzy]].
    assert (x = y) by (eapply H2; eauto). subst; contradiction.
Qed.

Lemma NoDup_filter' {A} (f : A -> bool) l : NoDup l -> NoDup (filter f l).
Proof.
  induction 1 as [|x l Hx ND IH]; simpl; [constructor|]. destruct (f x); [|exact IH].
  constructor; [rewrite filter_In; tauto|exact IH].
Qed.

Lemma flat_map_length_const {A B} (f : A -> list B) l n :
  (forall x, In x l -> length (f x) = n) -> length (flat_map f l) = length l * n.
Proof.
  induction l as [|x l IH]; simpl; intros H; [reflexivity|].
  rewrite app_length, (H x), IH by auto. reflexivity.
Qed.

Lemma Forall2_len {A B} (R : A -> B -> Prop) l l' : Forall2 R l l' -> length l = length l'.
Proof. induction 1; simpl; congruence. Qed.

(** ** product *)
Lemma in_iproduct {A} (ls : list (list A)) s : In s (iproduct ls) <-> Forall2 (@In A) s ls.
Proof.
  revert s; induction ls as [|l ls IH]; intros s; simpl.
  - split; [intros [<-|[]]; constructor|]. inversion 1; auto.
  - rewrite in_flat_map. split.
    + intros [x [Hx Hs]]. apply in_map_iff in Hs as [t [<- Ht]]. constructor; [exact Hx|apply IH, Ht].
    + inversion 1; subst. exists x; split; [assumption|]. apply in_map. apply IH. assumption.
Qed.

Lemma nodup_iproduct {A} (ls : list (list A)) : Forall (@NoDup A) ls -> NoDup (iproduct ls).
Proof.
  induction 1 as [|l ls Hl H IH]; simpl; [repeat constructor; simpl; tauto|].
  apply NoDup_flat_map; [exact Hl| |].
  - intros x _. apply NoDup_map_in; [congruence|exact IH].
  - intros x y z _ _ Hx Hy. apply in_map_iff in Hx as [a [<- _]]. apply in_map_iff in Hy as [b [E _]].
    congruence.
Qed.

Lemma iproduct_length {A} (ls : list (list A)) :
  length (iproduct ls) = fold_right (fun l n => length l * n) 1 ls.
Proof.
  induction ls as [|l ls IH]; simpl; [reflexivity|].
  rewrite (flat_map_length_const _ _ (length (iproduct ls))); [rewrite IH; reflexivity|].
  intros; apply map_length.
Qed.

(** ** combinations *)
Inductive subseq {A} : list A -> list A -> Prop :=
| subseq_nil : subseq [] []
| subseq_keep x c l : subseq c l -> subseq (x :: c) (x :: l)
| subseq_skip x c l : subseq c l -> subseq c (x :: l).

Lemma subseq_nil_l {A} (l : list A) : subseq [] l.
Proof. induction l; constructor; assumption. Qed.

Lemma subseq_refl {A} (l : list A) : subseq l l.
Proof. induction l; constructor; assumption. Qed.

Lemma subseq_incl {A} (c l : list A) : subseq c l -> incl c l.
Proof.
  induction 1; intros y; simpl; [tauto| |].
  - intros [<-|Hy]; [left; reflexivity|right; apply IHsubseq, Hy].
  - intros Hy; right; apply IHsubseq, Hy.
Qed.

Lemma subseq_filter {A} (f : A -> bool) l : subseq (filter f l) l.
Proof. induction l as [|x l IH]; simpl; [constructor|]. destruct (f x); constructor; exact IH. Qed.

Lemma subseq_NoDup {A} (c l : list A) : subseq c l -> NoDup l -> NoDup c.
Proof.
  induction 1; intros ND; [constructor| |]; inversion ND; subst; auto.
  constructor; [|auto]. intros G. apply subseq_incl in H. apply H in G. contradiction.
Qed.

Lemma subseq_length {A} (c l : list A) : subseq c l -> length c <= length l.
Proof. induction 1; simpl; lia. Qed.

Lemma subseq_is_filter {A} (memb : A -> list A -> bool) (Hm : forall x l, memb x l = true <-> In x l) (c l : list A) :
  subseq c l -> NoDup l -> c = filter (fun x => memb x c) l.
Proof.
  induction 1 as [|x c l H IH|x c l H IH]; intros ND; simpl; [reflexivity| |]; inversion ND; subst.
  - assert (E : memb x (x :: c) = true) by (apply Hm; left; reflexivity). rewrite E. f_equal.
    rewrite IH at 1 by assumption. apply filter_ext_in. intros y Hy.
    apply eq_true_iff_eq. rewrite !Hm. simpl. split; [auto|]. intros [->|]; [contradiction|assumption].
  - assert (E : memb x c = false).
    { apply not_true_iff_false. rewrite Hm. intros G. apply (subseq_incl _ _ H) in G. contradiction. }
    rewrite E. apply IH. assumption.
Qed.

Lemma in_combinations {A} (l : list A) r c : In c (combinations l r) <-> subseq c l /\ length c = r.
Proof.
  revert r c; induction l as [|x l IH]; intros r c.
  - destruct r; simpl; split.
    + intros [<-|[]]; split; [constructor|reflexivity].
    + intros [H _]; inversion H; auto.
    + tauto.
    + intros [H G]; inversion H; subst; discriminate.
  - destruct r; simpl.
    + split; [intros [<-|[]]; split; [apply subseq_nil_l|reflexivity]|].
      intros [_ H]; destruct c; [auto|discriminate].
    + rewrite in_app_iff, in_map_iff, IH. split.
      * intros [[d [<- Hd]]|[H E]].
        -- apply IH in Hd as [H E]. split; [constructor; exact H|simpl; congruence].
        -- split; [constructor; exact H|exact E].
      * intros [H E]. inversion H; subst.
        -- left. exists c0. split; [reflexivity|]. apply IH. split; [assumption|]. simpl in E; congruence.
        -- right; split; assumption.
Qed.

Lemma nodup_combinations {A} (l : list A) r : NoDup l -> NoDup (combinations l r).
Proof.
  intros ND; revert r; induction ND as [|x l Hx ND IH]; intros [|r]; simpl; try (repeat constructor; simpl; tauto).
  apply NoDup_app_intro; [apply NoDup_map_in; [congruence|apply IH]|apply IH|].
  intros c Hc G. apply in_map_iff in Hc as [d [<- _]]. apply in_combinations in G as [G _].
  apply subseq_incl in G. apply Hx, G. left; reflexivity.
Qed.

Fixpoint binomial (n k : nat) : nat :=
  match n, k with
  | _, 0 => 1
  | 0, S _ => 0
  | S n', S k' => binomial n' k' + binomial n' k
  end.

Lemma combinations_length {A} (l : list A) r : length (combinations l r) = binomial (length l) r.
Proof.
  revert r; induction l as [|x l IH]; intros [|r]; simpl; try reflexivity.
  rewrite app_length, map_length, !IH. reflexivity.
Qed.

(** Pascal's recursion is the usual n! / (k! (n-k)!). *)
Lemma binomial_gt n k : n < k -> binomial n k = 0.
Proof. revert k; induction n as [|n IH]; intros [|k] H; simpl; try lia. rewrite !IH by lia. reflexivity. Qed.
Lemma binomial_diag n : binomial n n = 1.
Proof. induction n as [|n IH]; simpl; [reflexivity|]. rewrite IH, binomial_gt; lia. Qed.
Lemma binomial_fact n k : k <= n -> binomial n k * (fact k * fact (n - k)) = fact n.
Proof.
  revert k; induction n as [|n IH]; intros [|k] H; try (simpl; lia).
  change (binomial (S n) (S k)) with (binomial n k + binomial n (S k)).
  destruct (Nat.eq_dec k n) as [->|N].
  - rewrite binomial_diag, binomial_gt by lia. rewrite Nat.sub_diag. change (fact 0) with 1. lia.
  - replace (S n - S k) with (n - k) by lia.
    pose proof (IH k ltac:(lia)) as E1. pose proof (IH (S k) ltac:(lia)) as E2.
    replace (n - k) with (S (n - S k)) in * by lia.
    change (fact (S n)) with (S n * fact n). change (fact (S k)) with (S k * fact k) in *.
    change (fact (S (n - S k))) with (S (n - S k) * fact (n - S k)) in *.
    set (a := binomial n k) in *. set (b := binomial n (S k)) in *. set (p := fact k) in *.
    set (q := fact (n - S k)) in *. set (f := fact n) in *.
    replace ((a + b) * (S k * p * (S (n - S k) * q)))
      with (S k * (a * (p * (S (n - S k) * q))) + S (n - S k) * (b * (S k * p * q))) by ring.
    rewrite E1, E2. rewrite <- Nat.mul_add_distr_r. f_equal. lia.
Qed.

(** ** permutations *)
Lemma in_picks {A} (l : list A) x r :
  In (x, r) (picks l) <-> exists l1 l2, l = l1 ++ x :: l2 /\ r = l1 ++ l2.
Proof.
  revert r; induction l as [|y l IH]; intros r; simpl.
  - split; [tauto|]. intros [[|? ?] [l2 [E _]]]; discriminate.
  - split.
    + intros [E|H].
      * injection E as -> ->. exists [], r. split; reflexivity.
      * apply in_map_iff in H as [[z s] [E H]]. simpl in E. injection E as -> <-.
        apply IH in H as [l1 [l2 [-> ->]]]. exists (y :: l1), l2. split; reflexivity.
    + intros [[|z l1] [l2 [E ->]]]; simpl in E; injection E as -> ->.
      * left; reflexivity.
      * right. apply in_map_iff. exists (x, l1 ++ l2). split; [reflexivity|].
        apply IH. exists l1, l2. split; reflexivity.
Qed.

Lemma picks_fst {A} (l : list A) : map fst (picks l) = l.
Proof.
  induction l as [|x l IH]; simpl; [reflexivity|]. f_equal. rewrite map_map. simpl. exact IH.
Qed.

Lemma picks_length_snd {A} (l : list A) p : In p (picks l) -> S (length (snd p)) = length l.
Proof.
  destruct p as [x r]. rewrite in_picks. intros [l1 [l2 [-> ->]]]. simpl. rewrite !app_length. simpl. lia.
Qed.

Lemma in_permutations_fuel {A} n (l p : list A) :
  length l = n -> (In p (permutations_fuel n l) <-> Permutation l p).
Proof.
  revert l p; induction n as [|n IH]; intros l p Hn.
  - destruct l; [|discriminate]. simpl. split; [intros [<-|[]]; constructor|].
    intros H. apply Permutation_nil in H. auto.
  - destruct l as [|y l]; [discriminate|]. cbn [permutations_fuel].
    rewrite in_flat_map. split.
    + intros [[x r] [Hp H]]. apply in_map_iff in H as [q [<- Hq]]. cbn [fst snd] in *.
      assert (Hr : length r = n) by (apply picks_length_snd in Hp; cbn [snd] in Hp; simpl in Hn; simpl in Hp; lia).
      apply IH in Hq; [|exact Hr]. apply in_picks in Hp as [l1 [l2 [E ->]]]. rewrite E.
      rewrite <- Permutation_middle. constructor. exact Hq.
    + intros P. destruct p as [|x q]; [symmetry in P; apply Permutation_nil in P; discriminate|].
      assert (Hx : In x (y :: l)) by (eapply Permutation_in; [symmetry; exact P|left; reflexivity]).
      apply in_split in Hx as [l1 [l2 E]]. exists (x, l1 ++ l2). split.
      * apply in_picks. exists l1, l2. split; [exact E|reflexivity].
      * simpl. apply in_map. apply IH.
        -- apply (f_equal (@length A)) in E. rewrite app_length in *. simpl in *. lia.
        -- rewrite E in P. apply (Permutation_cons_inv (a := x)). rewrite <- P.
           apply Permutation_middle.
Qed.

Lemma in_permutations {A} (l p : list A) : In p (permutations l) <-> Permutation l p.
Proof. apply in_permutations_fuel. reflexivity. Qed.

Lemma nodup_permutations_fuel {A} n (l : list A) :
  length l = n -> NoDup l -> NoDup (permutations_fuel n l).
Proof.
  revert l; induction n as [|n IH]; intros l Hn ND; [repeat constructor; simpl; tauto|].
  destruct l as [|y l]; [repeat constructor; simpl; tauto|]. cbn [permutations_fuel].
  apply NoDup_flat_map.
  - apply (NoDup_map_inv fst). rewrite picks_fst. exact ND.
  - intros [x r] Hp. apply NoDup_map_in; [congruence|]. apply IH.
    + apply picks_length_snd in Hp. simpl in *. lia.
    + apply in_picks in Hp as [l1 [l2 [E ->]]]. rewrite E in ND. eapply NoDup_remove_1, ND.
  - intros [x r] [x' r'] z Hp Hp' Hz Hz'. apply in_map_iff in Hz as [q [<- _]].
    apply in_map_iff in Hz' as [q' [E' _]]. simpl in E'. injection E' as -> _.
    apply in_picks in Hp as [l1 [l2 [E1 ->]]]. apply in_picks in Hp' as [l1' [l2' [E2 ->]]].
    rewrite E1 in E2. rewrite E1 in ND. clear -E2 ND. f_equal.
    revert l1' E2 ND. induction l1 as [|a l1 IH]; intros [|b l1'] E2 ND; simpl in *.
    + congruence.
    + injection E2 as <- ->. inversion ND; subst. exfalso. apply H1. rewrite in_app_iff. simpl. auto.
    + injection E2 as -> E2. inversion ND; subst. exfalso. apply H1. rewrite in_app_iff. simpl. auto.
    + injection E2 as <- E2. f_equal. apply IH; [exact E2|]. inversion ND; assumption.
Qed.

Lemma nodup_permutations {A} (l : list A) : NoDup l -> NoDup (permutations l).
Proof. apply nodup_permutations_fuel. reflexivity. Qed.

Lemma permutations_length {A} (l : list A) : length (permutations l) = fact (length l).
Proof.
  unfold permutations. remember (length l) as n eqn:Hn. revert l Hn.
  induction n as [|n IH]; intros l Hn; [reflexivity|].
  destruct l as [|y l]; [discriminate|]. cbn [permutations_fuel].
  rewrite (flat_map_length_const _ _ (fact n)).
  - rewrite <- (map_length fst), picks_fst, <- Hn. reflexivity.
  - intros p Hp. rewrite map_length. apply IH. apply picks_length_snd in Hp. simpl in *. lia.
Qed.
