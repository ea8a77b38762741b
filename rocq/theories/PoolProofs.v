(** Process pools: order and chunks of tasks. *)
From Coq Require Import ZArith Lia.
From Verif Require Import PyBase ElemModel IterProofs RenameProofs PrintProofs WickModel PoolModel.
Local Open Scope nat_scope.

Lemma pymap_perm {X Y} (f : X -> pyres Y) a b : Permutation a b -> forall r, pymap f a = Ok r -> exists r', pymap f b = Ok r' /\ Permutation r r'.
Proof.
  induction 1 as [|x a b P IH|x y a|a b c P1 IH1 P2 IH2]; intros r E.
  - exists r. split; [exact E|reflexivity].
  - cbn [pymap] in *. destruct (f x) as [z|]; [|discriminate]. cbn [pybind] in *. destruct (pymap f a) as [zs|]; [|discriminate]. injection E as <-.
    destruct (IH zs eq_refl) as (r' & -> & P'). exists (z :: r'). split; [reflexivity|constructor; exact P'].
  - cbn [pymap] in *. destruct (f y) as [v|]; [|discriminate]. destruct (f x) as [u|]; [|discriminate]. cbn [pybind] in *. destruct (pymap f a) as [zs|]; [|discriminate]. injection E as <-.
    exists (u :: v :: zs). split; [reflexivity|constructor].
  - destruct (IH1 r E) as (r1 & E1 & Q1). destruct (IH2 r1 E1) as (r2 & E2 & Q2). exists r2. split; [exact E2|]. rewrite Q1. exact Q2.
Qed.
Lemma chunks_concat {X} (size : nat) : 0 < size -> forall fuel (l : list X), length l <= fuel -> concat (chunks fuel size l) = l.
Proof.
  intros Hs. induction fuel as [|fuel IH]; intros [|x l] Hl; cbn [chunks concat length] in *; try reflexivity; [lia|].
  rewrite IH; [apply firstn_skipn|]. rewrite skipn_length. cbn [length]. lia.
Qed.
Lemma chunks_one {X} fuel size (l : list X) : l <> [] -> length l <= size -> length l <= fuel -> chunks fuel size l = [l].
Proof.
  intros N Hs Hf. destruct l as [|x l]; [contradiction|]. destruct fuel as [|fuel]; [cbn [length] in Hf; lia|]. cbn [chunks].
  rewrite firstn_all2, skipn_all2 by exact Hs. destruct fuel; reflexivity.
Qed.
Lemma get_items_seq {X} (l : list X) : pymap (get_item l) (seq 0 (length l)) = Ok l.
Proof.
  assert (G : forall b a : list X, pymap (get_item (a ++ b)) (seq (length a) (length b)) = Ok b).
  { induction b as [|x b IH]; intros a; cbn [length seq pymap]; [reflexivity|]. unfold get_item at 1. rewrite nth_error_app2, Nat.sub_diag by lia. cbn [nth_error pybind].
    specialize (IH (a ++ [x])). rewrite <- app_assoc, app_length in IH. cbn [app length] in IH. replace (length a + 1) with (S (length a)) in IH by lia. rewrite IH. reflexivity. }
  exact (G l []).
Qed.
Lemma perm_concat {X} (a b : list (list X)) : Permutation a b -> Permutation (concat a) (concat b).
Proof. induction 1; cbn [concat]; [constructor|apply Permutation_app_head; assumption|rewrite !app_assoc; apply Permutation_app_tail, Permutation_app_comm|etransitivity; eassumption]. Qed.

Section pool.
  Context (order : nat -> list nat) (Ho : forall n, Permutation (order n) (seq 0 n)).
  Context {X Y : Type} (f : X -> pyres Y).

  Lemma imap_done tasks size : (1 <= size)%Z -> exists sched, imap_unordered order f tasks size = pymap f sched /\ Permutation tasks sched /\
    ((Z.of_nat (length tasks) <= size)%Z -> sched = tasks).
  Proof.
    intros Hs. unfold imap_unordered. assert ((size <? 1)%Z = false) as -> by (apply Z.ltb_ge; lia). cbv zeta.
    set (cs := chunks _ _ _). destruct (pymap_perm (get_item cs) (seq 0 (length cs)) (order (length cs)) (Permutation_sym (Ho _)) cs (get_items_seq cs)) as (done & E & P).
    assert (Hc : concat cs = tasks) by (apply chunks_concat; lia).
    exists (concat done). rewrite E. cbn [pybind]. split; [reflexivity|]. split; [rewrite <- Hc at 1; apply perm_concat, P|].
    intros L. destruct tasks as [|x tasks'].
    - cbn [chunks length] in cs. subst cs. apply Permutation_nil in P. subst. reflexivity.
    - assert (Ec : cs = [x :: tasks']) by (apply chunks_one; [discriminate|lia|lia]). rewrite Ec in P. apply Permutation_length_1_inv in P. subst done. cbn [concat]. apply app_nil_r.
  Qed.
  Lemma imap_serial tasks size r : (1 <= size)%Z -> pymap f tasks = Ok r -> exists r', imap_unordered order f tasks size = Ok r' /\ Permutation r r'.
  Proof. intros Hs E. destruct (imap_done tasks size Hs) as (s & -> & P & _). exact (pymap_perm f tasks s P r E). Qed.
  Lemma imap_back tasks size r' : (1 <= size)%Z -> imap_unordered order f tasks size = Ok r' -> exists r, pymap f tasks = Ok r /\ Permutation r r'.
  Proof. intros Hs E. destruct (imap_done tasks size Hs) as (s & Es & P & _). rewrite Es in E. destruct (pymap_perm f s tasks (Permutation_sym P) r' E) as (r & E1 & Q). exists r. split; [exact E1|symmetry; exact Q]. Qed.
  Lemma imap_one_chunk tasks size : (1 <= size)%Z -> (Z.of_nat (length tasks) <= size)%Z -> imap_unordered order f tasks size = pymap f tasks.
  Proof. intros Hs L. destruct (imap_done tasks size Hs) as (s & -> & _ & E). rewrite (E L). reflexivity. Qed.
End pool.

Lemma pymap_map_in {X Y Z'} (f : Y -> pyres Z') (g : X -> Y) l : pymap f (map g l) = pymap (fun x => f (g x)) l.
Proof. induction l as [|x l IH]; cbn [map pymap]; [reflexivity|]. rewrite IH. reflexivity. Qed.

Lemma pascal_binomial n k : pascal n k = binomial n k.
Proof. reflexivity. Qed.
Lemma range_in from to z : In z (py_range from to) <-> (from <= z < to)%Z.
Proof.
  unfold py_range. rewrite in_map_iff. split.
  - intros (k & <- & H). apply in_seq in H. lia.
  - intros H. exists (Z.to_nat (z - from)). split; [lia|]. apply in_seq. lia.
Qed.
Lemma range_nodup from to : NoDup (py_range from to).
Proof. unfold py_range. apply NoDup_map_in; [intros; lia|apply seq_NoDup]. Qed.

Definition choice_pairs {X} (us ls : list X) (min max : Z) : list (list X * list X) :=
  flat_map (fun i => if (i <? 0)%Z then [] else list_prod (combinations us (Z.to_nat i)) (combinations ls (Z.to_nat i))) (py_range (min / 2) (max / 2 + 1)).
Lemma rough_pairs {X} (us ls : list X) min max : rough_size (length us) (length ls) max min = length (choice_pairs us ls min max).
Proof.
  unfold rough_size, choice_pairs. generalize (py_range (min / 2) (max / 2 + 1)) as l. intros l.
  assert (G : forall s, fold_left (fun s i => s + sympy_binomial (length us) i * sympy_binomial (length ls) i) l s =
    s + length (flat_map (fun i => if (i <? 0)%Z then [] else list_prod (combinations us (Z.to_nat i)) (combinations ls (Z.to_nat i))) l)); [|apply (G 0)].
  induction l as [|i l IH]; intros s; cbn [fold_left flat_map length]; [lia|]. rewrite IH, app_length. unfold sympy_binomial. destruct (i <? 0)%Z; [cbn [length]; lia|].
  rewrite prod_length, !combinations_length, !pascal_binomial. symmetry. apply Nat.add_assoc.
Qed.
Lemma pairs_in {X} (us ls : list X) min max u v : In (u, v) (choice_pairs us ls min max) <->
  subseq u us /\ subseq v ls /\ length u = length v /\ (min / 2 <= Z.of_nat (length u) <= max / 2)%Z.
Proof.
  unfold choice_pairs. rewrite in_flat_map. split.
  - intros (i & Hi & H). apply range_in in Hi. destruct (Z.ltb_spec i 0); [destruct H|]. apply in_prod_iff in H as [H1 H2]. apply in_combinations in H1 as [S1 L1]. apply in_combinations in H2 as [S2 L2].
    repeat split; try assumption; lia.
  - intros (S1 & S2 & L & R). exists (Z.of_nat (length u)). split; [apply range_in; lia|]. destruct (Z.ltb_spec (Z.of_nat (length u)) 0); [lia|].
    apply in_prod_iff. rewrite !in_combinations, Nat2Z.id. auto.
Qed.
Lemma nodup_prod {X Y} (a : list X) (b : list Y) : NoDup a -> NoDup b -> NoDup (list_prod a b).
Proof.
  intros Na Nb. induction Na as [|x a Hx Na IH]; cbn [list_prod]; [constructor|]. apply NoDup_app_intro; [apply NoDup_map_in; [congruence|exact Nb]|exact IH|].
  intros [p q] H1 H2. apply in_map_iff in H1 as (y & [= <- <-] & _). apply in_prod_iff in H2 as [H2 _]. contradiction.
Qed.
Lemma pairs_nodup {X} (us ls : list X) min max : NoDup us -> NoDup ls -> NoDup (choice_pairs us ls min max).
Proof.
  intros Nu Nl. unfold choice_pairs. assert (B : forall i, In i (py_range (min / 2) (max / 2 + 1)) -> True) by auto. pose proof (range_nodup (min / 2) (max / 2 + 1)) as N. clear B.
  induction N as [|i l Hi N IH]; cbn [flat_map]; [constructor|]. apply NoDup_app_intro; [destruct (i <? 0)%Z; [constructor|apply nodup_prod; apply nodup_combinations; assumption]|exact IH|].
  intros [u v] H1 H2. destruct (Z.ltb_spec i 0) as [|Pi]; [destruct H1|]. apply in_prod_iff in H1 as [H1 _]. apply in_combinations in H1 as [_ L1].
  apply in_flat_map in H2 as (j & Hj & H2). destruct (Z.ltb_spec j 0) as [|Pj]; [destruct H2|]. apply in_prod_iff in H2 as [H2 _]. apply in_combinations in H2 as [_ L2].
  apply Hi. replace i with j by lia. exact Hj.
Qed.
