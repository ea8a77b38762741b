(** The half-cumulant enumeration lists all k-subsets of the legs. *)
From Verif Require Import PyBase SpaceModel IndicesModel IndicesProofs PartitionModel PartitionSpec PartitionProofs
  ElemModel ElemSpec ElemProofs IterProofs.
From Coq Require Import ZArith Sorting.Sorted.

(** ** multiset permutations *)
Lemma z_insert_perm x l : Permutation (z_insert x l) (x :: l).
Proof.
  induction l as [|y l IH]; simpl; [reflexivity|]. destruct (x <=? y)%Z; [reflexivity|].
  rewrite IH. apply perm_swap.
Qed.
Lemma z_sort_perm l : Permutation (z_sort l) l.
Proof. induction l as [|x l IH]; simpl; [reflexivity|]. rewrite z_insert_perm, IH. reflexivity. Qed.
Lemma remove_one_perm x l : In x l -> Permutation l (x :: remove_one x l).
Proof.
  induction l as [|y l IH]; simpl; [tauto|]. intros H. destruct (Z.eqb_spec x y) as [->|N]; [reflexivity|].
  destruct H as [->|H]; [congruence|]. rewrite (IH H) at 1. apply perm_swap.
Qed.
Lemma in_distinct x l : In x (nodup Z.eq_dec (z_sort l)) <-> In x l.
Proof.
  rewrite nodup_In. split; apply Permutation_in; [|symmetry]; apply z_sort_perm.
Qed.

Lemma in_multiset_perms n l p : length l = n -> (In p (multiset_perms n l) <-> Permutation l p).
Proof.
  revert l p; induction n as [|n IH]; intros l p Hn.
  - destruct l; [|discriminate]. simpl. split.
    + intros [<-|[]]. reflexivity.
    + intros H. apply Permutation_nil in H. left. congruence.
  - destruct l as [|x l]; [discriminate|]. cbn [multiset_perms]. rewrite in_flat_map. split.
    + intros [k [Hk H]]. rewrite in_distinct in Hk. apply in_map_iff in H as [q [<- Hq]].
      pose proof (remove_one_perm k _ Hk) as P. apply IH in Hq.
      * rewrite P, Hq. reflexivity.
      * apply Permutation_length in P. simpl in *. lia.
    + intros P. destruct p as [|k q]; [symmetry in P; apply Permutation_nil in P; discriminate|].
      assert (Hk : In k (x :: l)) by (eapply Permutation_in; [symmetry; exact P|left; reflexivity]).
      exists k. split; [apply in_distinct, Hk|]. apply in_map.
      pose proof (remove_one_perm k _ Hk) as Q. apply IH.
      * apply Permutation_length in Q. simpl in *. lia.
      * rewrite Q in P. apply Permutation_cons_inv in P. exact P.
Qed.
Lemma nodup_multiset_perms n l : NoDup (multiset_perms n l).
Proof.
  revert l; induction n as [|n IH]; intros l; cbn [multiset_perms]; [repeat constructor; simpl; tauto|].
  destruct l as [|x l]; [repeat constructor; simpl; tauto|]. apply NoDup_flat_map.
  - apply NoDup_nodup.
  - intros k _. apply NoDup_map_in; [congruence|apply IH].
  - intros a b z _ _ Ha Hb. apply in_map_iff in Ha as [p [<- _]], Hb as [q [E _]]. congruence.
Qed.
Lemma in_multiset_permutations l p : In p (multiset_permutations l) <-> Permutation l p.
Proof. apply in_multiset_perms. reflexivity. Qed.

(** Sorting a list of positive integers decreasingly gives a partition. *)
Lemma desc_sort (p : list Z) : exists q, Permutation p q /\ StronglySorted (fun a b => b <= a)%Z q.
Proof.
  induction p as [|x p [q [Pq Sq]]]; [exists []; split; constructor|].
  assert (G : exists r, Permutation (x :: q) r /\ StronglySorted (fun a b => b <= a)%Z r).
  { clear p Pq. induction Sq as [|y q Sq [r [Pr Sr]] F]; [exists [x]; split; [reflexivity|repeat constructor]|].
    destruct (Z_le_gt_dec y x) as [L|L].
    - exists (x :: y :: q). split; [reflexivity|]. constructor; [constructor; assumption|].
      constructor; [exact L|]. eapply Forall_impl; [|exact F]. simpl. intros; lia.
    - exists (y :: r). split; [rewrite perm_swap; constructor; exact Pr|]. constructor; [exact Sr|].
      rewrite <- Pr. constructor; [lia|exact F]. }
  destruct G as [r [Pr Sr]]. exists r. split; [rewrite Pq; exact Pr|exact Sr].
Qed.
Lemma desc_sorted_unique (p q : list Z) :
  StronglySorted (fun a b => b <= a)%Z p -> StronglySorted (fun a b => b <= a)%Z q -> Permutation p q -> p = q.
Proof.
  intros Sp; revert q; induction Sp as [|x p Sp IH F]; intros q Sq P.
  - apply Permutation_nil in P. congruence.
  - destruct q as [|y q]; [symmetry in P; apply Permutation_nil in P; discriminate|].
    inversion Sq as [|? ? Sq' F']; subst.
    assert (x = y).
    { rewrite Forall_forall in F, F'.
      assert (In x (y :: q)) as [->|Hx] by (eapply Permutation_in; [exact P|left; reflexivity]); [reflexivity|].
      assert (In y (x :: p)) as [->|Hy] by (eapply Permutation_in; [symmetry; exact P|left; reflexivity]); [reflexivity|].
      apply F in Hy. apply F' in Hx. lia. }
    subst y. f_equal. apply IH; [exact Sq'|]. eapply Permutation_cons_inv; exact P.
Qed.

Lemma zsum_perm p q : Permutation p q -> zsum p = zsum q.
Proof. induction 1; simpl; unfold zsum in *; lia. Qed.

(** ** blocks *)
Definition flat (blocks : list (nat * list nat)) : list (nat * nat) :=
  flat_map (fun q => map (pair (fst q)) (snd q)) blocks.

Definition is_block (sz : nat -> nat) (b : nat * list nat) : Prop :=
  snd b <> [] /\ subseq (snd b) (seq 0 (sz (fst b))).

Lemma subseq_app {A} (a b l m : list A) : subseq a l -> subseq b m -> subseq (a ++ b) (l ++ m).
Proof. induction 1; intros Hb; cbn [app]; [exact Hb| |]; constructor; auto. Qed.

Lemma subseq_app_inv {A} (c l m : list A) : subseq c (l ++ m) -> exists a b, c = a ++ b /\ subseq a l /\ subseq b m.
Proof.
  revert c; induction l as [|x l IH]; intros c H; cbn [app] in H.
  - exists [], c. repeat split; [constructor|exact H].
  - inversion H as [|y c' l' H' Ec El|y c' l' H' Ec El]; subst.
    + apply IH in H' as [a [b [-> [Ha Hb]]]]. exists (x :: a), b. repeat split; [constructor; exact Ha|exact Hb].
    + apply IH in H' as [a [b [-> [Ha Hb]]]]. exists a, b. repeat split; [apply subseq_skip; exact Ha|exact Hb].
Qed.

Lemma subseq_map {A B} (f : A -> B) c l : subseq c l -> subseq (map f c) (map f l).
Proof. induction 1; cbn [map]; constructor; assumption. Qed.

Lemma subseq_map_inv {A B} (f : A -> B) c l : subseq c (map f l) -> exists d, c = map f d /\ subseq d l.
Proof.
  revert c; induction l as [|x l IH]; intros c H; cbn [map] in H; inversion H as [|y c' l' H' Ec El|y c' l' H' Ec El]; subst.
  - exists []. split; [reflexivity|constructor].
  - apply IH in H' as [d [-> Hd]]. exists (x :: d). split; [reflexivity|constructor; exact Hd].
  - apply IH in H' as [d [-> Hd]]. exists d. split; [reflexivity|apply subseq_skip; exact Hd].
Qed.

Definition positions_of (sz : nat -> nat) (is : list nat) : list (nat * nat) :=
  flat_map (fun i => map (pair i) (seq 0 (sz i))) is.

Lemma blocks_of_subseq sz is c :
  subseq c (positions_of sz is) <->
  exists blocks, c = flat blocks /\ subseq (map fst blocks) is /\ Forall (is_block sz) blocks.
Proof.
  split.
  - revert c; induction is as [|i is IH]; intros c H; cbn [positions_of flat_map] in H.
    + inversion H; subst. exists []. repeat split; [constructor|constructor].
    + apply subseq_app_inv in H as [a [b [-> [Ha Hb]]]]. apply subseq_map_inv in Ha as [m [-> Hm]].
      apply IH in Hb as [blocks [-> [Hs Hf]]]. destruct m as [|x m].
      * exists blocks. repeat split; [apply subseq_skip; exact Hs|exact Hf].
      * exists ((i, x :: m) :: blocks). repeat split; [constructor; exact Hs|].
        constructor; [split; [discriminate|exact Hm]|exact Hf].
  - intros [blocks [-> [Hs Hf]]]. revert blocks Hs Hf; induction is as [|i is IH]; intros blocks Hs Hf.
    + inversion Hs as [E1| |]. destruct blocks; [constructor|discriminate].
    + cbn [positions_of flat_map]. inversion Hs as [|y c' l' H' Ec El|y c' l' H' Ec El]; subst.
      * destruct blocks as [|[j m] blocks]; [discriminate|]. cbn [map fst] in Ec. injection Ec as -> ->.
        inversion Hf as [|? ? [Hm1 Hm2] Hf']; subst. unfold flat; cbn [flat_map fst snd].
        apply subseq_app; [apply subseq_map; exact Hm2|]. apply IH; assumption.
      * apply (subseq_app [] _ _ _ (subseq_nil_l _)). apply IH; assumption.
Qed.

Lemma flat_fst blocks p : In p (flat blocks) -> In (fst p) (map fst blocks).
Proof.
  unfold flat. rewrite in_flat_map. intros [[i m] [H1 H2]]. apply in_map_iff in H2 as [x [<- _]]. cbn.
  apply (in_map fst) in H1. exact H1.
Qed.

Lemma filter_true {A} (f : A -> bool) l : (forall x, In x l -> f x = true) -> filter f l = l.
Proof. induction l as [|x l IH]; simpl; intros H; [reflexivity|]. rewrite (H x) by auto. f_equal. auto. Qed.
Lemma filter_false {A} (f : A -> bool) l : (forall x, In x l -> f x = false) -> filter f l = [].
Proof. induction l as [|x l IH]; simpl; intros H; [reflexivity|]. rewrite (H x) by auto. auto. Qed.

Lemma map_pair_inj (i : nat) (a b : list nat) : map (pair i) a = map (pair i) b -> a = b.
Proof.
  revert b; induction a as [|x a IH]; intros [|y b]; simpl; try discriminate; [reflexivity|].
  intros [= -> E]. f_equal. auto.
Qed.

Lemma flat_inj sz b1 b2 : Forall (is_block sz) b1 -> Forall (is_block sz) b2 ->
  NoDup (map fst b1) -> NoDup (map fst b2) -> flat b1 = flat b2 -> b1 = b2.
Proof.
  intros F1; revert b2; induction F1 as [|[i m] b1 [Hm _] F1 IH]; intros b2 F2 N1 N2 E.
  - destruct b2 as [|[j m'] b2]; [reflexivity|]. inversion F2 as [|? ? [Hm' _] _]; subst. cbn in Hm'.
    destruct m'; [congruence|discriminate].
  - destruct m as [|x m]; [cbn in Hm; congruence|].
    destruct b2 as [|[j m'] b2]; [discriminate|]. inversion F2 as [|? ? [Hm' _] F2']; subst.
    destruct m' as [|x' m']; [cbn in Hm'; congruence|].
    assert (i = j) by (cbn in E; congruence). subst j.
    cbn [map fst] in N1, N2. inversion N1 as [|? ? N1a N1b]; inversion N2 as [|? ? N2a N2b]; subst.
    assert (G : forall m b, ~ In i (map fst b) ->
       filter (fun p => fst p =? i) (flat ((i, m) :: b)) = map (pair i) m /\
       filter (fun p => negb (fst p =? i)) (flat ((i, m) :: b)) = flat b).
    { intros m0 b Hb. unfold flat; cbn [flat_map fst snd]. fold (flat b). rewrite !filter_app.
      rewrite (filter_true (fun p => fst p =? i) (map (pair i) m0)), (filter_false (fun p => fst p =? i) (flat b)),
        (filter_false (fun p => negb (fst p =? i)) (map (pair i) m0)), (filter_true (fun p => negb (fst p =? i)) (flat b)).
      - rewrite app_nil_r. split; reflexivity.
      - intros p Hp. apply flat_fst in Hp. destruct (Nat.eqb_spec (fst p) i) as [<-|]; [contradiction|reflexivity].
      - intros p Hp. apply in_map_iff in Hp as [y [<- _]]. cbn. rewrite Nat.eqb_refl. reflexivity.
      - intros p Hp. apply flat_fst in Hp. destruct (Nat.eqb_spec (fst p) i) as [<-|]; [contradiction|reflexivity].
      - intros p Hp. apply in_map_iff in Hp as [y [<- _]]. cbn. apply Nat.eqb_refl. }
    destruct (G (x :: m) b1 N1a) as [G1 G2], (G (x' :: m') b2 N2a) as [G1' G2'].
    rewrite E in G1, G2. rewrite G1 in G1'. rewrite G2 in G2'. apply map_pair_inj in G1'.
    rewrite <- G1'. f_equal. symmetry. symmetry. apply IH; assumption.
Qed.

(** ** one (leg_part, macro_ops) *)
Lemma pymap_in {A B} (f : A -> pyres B) l r : pymap f l = Ok r -> Forall2 (fun x y => f x = Ok y) l r.
Proof.
  revert r; induction l as [|x l IH]; intros r; simpl; [intros [= <-]; constructor|].
  destruct (f x) as [y|e] eqn:E; simpl; [|discriminate].
  destruct (pymap f l) as [ys|e]; simpl; [|discriminate]. intros [= <-]. constructor; auto.
Qed.

Section Half.
  Context (pure : list (list idx)) (max_cu : nat).
  Let M := length pure.
  Let sz (i : nat) : nat := length (nth i pure []).

  (** legs k_i >= 1, at most max_cu; macro numbers below M *)
  Definition legs_ok (leg : list Z) : Prop := Forall (fun k => 1 <= k <= Z.of_nat max_cu)%Z leg.

  Definition half_blocks (leg : list Z) (macro : list nat) : list (list (nat * nat)) :=
    if existsb (fun p => (Z.of_nat (sz (fst p)) <? snd p)%Z) (combine macro leg) then []
    else map (fun micro => flat (combine macro micro))
           (iproduct (map (fun p => combinations (seq 0 (sz (fst p))) (Z.to_nat (snd p))) (combine macro leg))).

  Lemma get_item_nth i : i < M -> get_item pure i = Ok (nth i pure []).
  Proof.
    intros H. unfold get_item. rewrite (nth_error_nth' pure [] H). reflexivity.
  Qed.

  Lemma half_micro_ok leg macro : legs_ok leg -> Forall (fun i => i < M) macro ->
    half_micro pure max_cu leg macro = Ok (half_blocks leg macro).
  Proof.
    intros HL HM. unfold half_micro, half_blocks.
    assert (HC : forall p, In p (combine macro leg) -> fst p < M /\ (1 <= snd p <= Z.of_nat max_cu)%Z).
    { intros [i k] Hp. split.
      - apply in_combine_l in Hp. rewrite Forall_forall in HM. apply HM, Hp.
      - apply in_combine_r in Hp. unfold legs_ok in HL. rewrite Forall_forall in HL. apply HL, Hp. }
    rewrite (pymap_total _ (fun p => (Z.of_nat (sz (fst p)) <? snd p)%Z)).
    2:{ intros p Hp. rewrite get_item_nth by (apply HC, Hp). reflexivity. }
    cbn [pybind].
    assert (E : existsb (fun b : bool => b) (map (fun p => (Z.of_nat (sz (fst p)) <? snd p)%Z) (combine macro leg)) =
                existsb (fun p => (Z.of_nat (sz (fst p)) <? snd p)%Z) (combine macro leg)).
    { induction (combine macro leg) as [|p l IH]; simpl; [reflexivity|]. rewrite IH; [reflexivity|].
      intros q Hq. apply HC. right; exact Hq. }
    rewrite E. destruct (existsb _ (combine macro leg)) eqn:X; [reflexivity|].
    rewrite (pymap_total _ (fun p => combinations (seq 0 (sz (fst p))) (Z.to_nat (snd p)))).
    - cbn [pybind]. reflexivity.
    - intros p Hp. rewrite get_item_nth by (apply HC, Hp). cbn [pybind]. unfold sub_index.
      destruct (HC p Hp) as [_ H2].
      assert (H3 : (Z.of_nat (sz (fst p)) <? snd p)%Z = false).
      { destruct (Z.of_nat (sz (fst p)) <? snd p)%Z eqn:Y; [|reflexivity].
        rewrite <- X. symmetry. apply existsb_exists. exists p. auto. }
      apply Z.ltb_ge in H3. fold (sz (fst p)).
      destruct (Z.leb_spec 1 (snd p)); [|lia]. destruct (Z.leb_spec (snd p) (Z.of_nat (min max_cu (sz (fst p))))); [|lia].
      reflexivity.
  Qed.

  Lemma in_half_blocks leg macro c : Forall (fun k => 1 <= k)%Z leg -> length macro = length leg ->
    (In c (half_blocks leg macro) <->
     exists blocks, c = flat blocks /\ Forall (is_block sz) blocks /\ map fst blocks = macro /\
       map (fun b => Z.of_nat (length (snd b))) blocks = leg).
  Proof.
    intros HL HM. unfold half_blocks.
    destruct (existsb _ (combine macro leg)) eqn:X.
    - split; [intros []|]. intros [blocks [-> [F [Ef El]]]]. subst macro leg.
      apply existsb_exists in X as [[i k] [Hp Hk]]. apply Z.ltb_lt in Hk. cbn [fst snd] in Hk.
      clear HL HM. induction blocks as [|b blocks IH]; [destruct Hp|]. cbn [map combine] in Hp.
      inversion F as [|? ? Hb F']; subst. destruct Hp as [E|Hp]; [|auto].
      injection E as Ei Ek. subst i k. destruct Hb as [_ Hb]. apply subseq_length in Hb. rewrite seq_length in Hb. lia.
    - rewrite in_map_iff. split.
      + intros [micro [<- Hm]]. apply in_iproduct in Hm.
        exists (combine macro micro). split; [reflexivity|].
        revert leg HL HM X micro Hm; induction macro as [|i macro IH]; intros leg HL HM X micro Hm.
        { destruct leg; [|discriminate]. cbn in Hm. inversion Hm; subst. repeat split; constructor. }
        destruct leg as [|k leg]; [discriminate|]. cbn [combine map] in Hm. inversion Hm as [|m ? ms ? H1 H2]; subst.
        cbn [fst snd] in H1. apply in_combinations in H1 as [H1 H1'].
        cbn [combine existsb] in X. apply Bool.orb_false_iff in X as [_ X].
        inversion HL as [|? ? Hk HL']; subst. cbn [length] in HM.
        destruct (IH leg HL' ltac:(lia) X ms H2) as [F [Ef El]].
        cbn [combine]. repeat split.
        * constructor; [|exact F]. split; cbn [fst snd]; [|exact H1]. intros ->. cbn in H1'. lia.
        * cbn [map fst]. rewrite Ef. reflexivity.
        * cbn [map snd]. rewrite El, H1'. f_equal. lia.
      + intros [blocks [-> [F [Ef El]]]]. subst macro leg. exists (map snd blocks). split.
        * f_equal. clear. induction blocks as [|[i m] b IH]; [reflexivity|]. cbn [map combine fst snd]. rewrite IH. reflexivity.
        * apply in_iproduct. clear X HL HM. induction F as [|[i m] b [Hb1 Hb2] F IH]; cbn [map combine]; [constructor|].
          constructor; [|exact IH]. cbn [fst snd] in *. rewrite Nat2Z.id. apply in_combinations. split; [exact Hb2|reflexivity].
  Qed.

  Lemma combine_inj {A B} (l : list A) (m1 m2 : list B) :
    length l = length m1 -> length l = length m2 -> combine l m1 = combine l m2 -> m1 = m2.
  Proof.
    revert m1 m2; induction l as [|x l IH]; intros [|a m1] [|b m2]; simpl; try discriminate; [reflexivity|].
    intros H1 H2 [= -> E]. f_equal. apply IH; auto.
  Qed.

  Lemma nodup_half_blocks leg macro : Forall (fun k => 1 <= k)%Z leg -> length macro = length leg -> NoDup macro ->
    NoDup (half_blocks leg macro).
  Proof.
    intros HL HM HN. unfold half_blocks. destruct (existsb _ (combine macro leg)) eqn:X; [constructor|].
    apply NoDup_map_in.
    - intros m1 m2 H1 H2 E. apply in_iproduct in H1, H2.
      pose proof (Forall2_len _ _ _ H1) as L1. pose proof (Forall2_len _ _ _ H2) as L2.
      rewrite map_length, combine_length in L1, L2.
      assert (G : forall m, Forall2 (@In (list nat)) m (map (fun p => combinations (seq 0 (sz (fst p))) (Z.to_nat (snd p))) (combine macro leg)) ->
                  Forall (is_block sz) (combine macro m) /\ map fst (combine macro m) = macro).
      { clear - HL HM. revert leg HL HM; induction macro as [|i macro IH]; intros leg HL HM m Hm.
        - cbn. split; constructor.
        - destruct leg as [|k leg]; [discriminate|]. cbn [combine map] in Hm. inversion Hm as [|x ? xs ? G1 G2]; subst.
          apply in_combinations in G1 as [G1 G1']. inversion HL as [|? ? Hk HL']; subst. cbn [length] in HM.
          destruct (IH leg HL' ltac:(lia) xs G2) as [F Ef]. cbn [combine map fst]. split; [|rewrite Ef; reflexivity].
          constructor; [|exact F]. split; cbn [fst snd] in *; [|exact G1]. intros ->. cbn in G1'. lia. }
      destruct (G m1 H1) as [F1 E1], (G m2 H2) as [F2 E2].
      apply (flat_inj sz) in E; [|exact F1|exact F2|rewrite E1; exact HN|rewrite E2; exact HN].
      apply combine_inj in E; [exact E|lia|lia].
    - apply nodup_iproduct. apply Forall_forall. intros l Hl. apply in_map_iff in Hl as [p [<- _]].
      apply nodup_combinations, seq_NoDup.
  Qed.

  (** ** one partition *)
  Definition half_choices (part : list Z) : list (list (nat * nat)) :=
    flat_map (fun leg => flat_map (half_blocks leg) (combinations (seq 0 M) (length part))) (multiset_permutations part).

  Lemma macro_bound macro r : In macro (combinations (seq 0 M) r) -> Forall (fun i => i < M) macro.
  Proof.
    intros H. apply in_combinations in H as [H _]. apply subseq_incl in H. apply Forall_forall. intros i Hi.
    apply H, in_seq in Hi. lia.
  Qed.

  Lemma half_partition_ok part : legs_ok part ->
    half_partition pure max_cu part = Ok (map (pair (Z.to_nat (zsum part))) (half_choices part)).
  Proof.
    intros HL. unfold half_partition, half_choices.
    rewrite (pymap_total _ (fun leg => flat_map (half_blocks leg) (combinations (seq 0 M) (length part)))).
    - cbn [pybind]. rewrite flat_map_concat_map. reflexivity.
    - intros leg Hleg. apply in_multiset_permutations in Hleg.
      assert (HL' : legs_ok leg) by (unfold legs_ok; rewrite <- Hleg; exact HL).
      rewrite (pymap_total _ (half_blocks leg)).
      + cbn [pybind]. rewrite flat_map_concat_map. reflexivity.
      + intros macro Hm. apply half_micro_ok; [exact HL'|]. eapply macro_bound, Hm.
  Qed.

  Lemma macro_subseq (blocks : list (nat * list nat)) : (subseq (map fst blocks) (seq 0 M) <-> In (map fst blocks) (combinations (seq 0 M) (length blocks))).
  Proof. rewrite in_combinations, map_length. tauto. Qed.

  Lemma in_half_choices part c : Forall (fun k => 1 <= k)%Z part ->
    (In c (half_choices part) <->
     exists blocks, c = flat blocks /\ Forall (is_block sz) blocks /\ subseq (map fst blocks) (seq 0 M) /\
       Permutation part (map (fun b => Z.of_nat (length (snd b))) blocks)).
  Proof.
    intros HL. unfold half_choices. rewrite in_flat_map. split.
    - intros [leg [Hleg H]]. apply in_multiset_permutations in Hleg. apply in_flat_map in H as [macro [Hm H]].
      pose proof Hm as Hm'. apply in_combinations in Hm' as [Hs Hl].
      apply in_half_blocks in H as [blocks [-> [F [Ef El]]]].
      + exists blocks. subst macro leg. auto.
      + rewrite <- Hleg. exact HL.
      + apply Permutation_length in Hleg. congruence.
    - intros [blocks [-> [F [Hs P]]]]. exists (map (fun b => Z.of_nat (length (snd b))) blocks).
      split; [apply in_multiset_permutations, P|]. apply in_flat_map. exists (map fst blocks).
      pose proof (Permutation_length P) as L. rewrite map_length in L. split.
      + rewrite L. apply macro_subseq, Hs.
      + apply in_half_blocks; [rewrite <- P; exact HL|rewrite !map_length; reflexivity|].
        exists blocks. auto.
  Qed.

  Lemma seq_subseq_nodup (l : list nat) n : subseq l (seq 0 n) -> NoDup l.
  Proof. intros H. eapply subseq_NoDup; [exact H|apply seq_NoDup]. Qed.

  Lemma half_blocks_unique b1 b2 : flat b1 = flat b2 ->
    Forall (is_block sz) b1 -> Forall (is_block sz) b2 ->
    subseq (map fst b1) (seq 0 M) -> subseq (map fst b2) (seq 0 M) -> b1 = b2.
  Proof.
    intros E F1 F2 S1 S2. apply (flat_inj sz); auto; eapply seq_subseq_nodup; eassumption.
  Qed.

  Lemma nodup_half_choices part : Forall (fun k => 1 <= k)%Z part -> NoDup (half_choices part).
  Proof.
    intros HL. unfold half_choices. apply NoDup_flat_map; [apply nodup_multiset_perms| |].
    - intros leg Hleg. apply in_multiset_permutations in Hleg.
      assert (HL' : Forall (fun k => 1 <= k)%Z leg) by (rewrite <- Hleg; exact HL).
      pose proof (Permutation_length Hleg) as Len.
      apply NoDup_flat_map; [apply nodup_combinations, seq_NoDup| |].
      + intros macro Hm. apply in_combinations in Hm as [Hs Hl]. apply nodup_half_blocks; [exact HL'|congruence|].
        eapply seq_subseq_nodup, Hs.
      + intros m1 m2 c H1 H2 G1 G2. apply in_combinations in H1 as [S1 L1], H2 as [S2 L2].
        apply in_half_blocks in G1 as [b1 [E1 [F1 [Ef1 El1]]]]; [|exact HL'|congruence].
        apply in_half_blocks in G2 as [b2 [E2 [F2 [Ef2 El2]]]]; [|exact HL'|congruence].
        assert (b1 = b2) by (apply half_blocks_unique; congruence). congruence.
    - intros l1 l2 c H1 H2 G1 G2. apply in_multiset_permutations in H1, H2.
      assert (HL1 : Forall (fun k => 1 <= k)%Z l1) by (rewrite <- H1; exact HL).
      assert (HL2 : Forall (fun k => 1 <= k)%Z l2) by (rewrite <- H2; exact HL).
      pose proof (Permutation_length H1) as Len1. pose proof (Permutation_length H2) as Len2.
      apply in_flat_map in G1 as [m1 [M1 G1]], G2 as [m2 [M2 G2]].
      apply in_combinations in M1 as [S1 L1], M2 as [S2 L2].
      apply in_half_blocks in G1 as [b1 [E1 [F1 [Ef1 El1]]]]; [|exact HL1|congruence].
      apply in_half_blocks in G2 as [b2 [E2 [F2 [Ef2 El2]]]]; [|exact HL2|congruence].
      assert (b1 = b2) by (apply half_blocks_unique; congruence). congruence.
  Qed.

  (** ** all partitions of one level *)
  Lemma positions_positions_of : positions pure = positions_of sz (seq 0 M).
  Proof.
    unfold positions, positions_of, M, sz. clear sz M.
    assert (G : forall k l pre, length pre = k ->
            flat_map (fun p => map (pair (fst p)) (seq 0 (length (snd p)))) (enumerate k l) =
            flat_map (fun i => map (pair i) (seq 0 (length (nth i (pre ++ l) (@nil idx))))) (seq k (length l))).
    { intros k l; revert k; induction l as [|x l IH]; intros k pre Hk; [reflexivity|].
      cbn [enumerate flat_map length seq fst snd]. f_equal.
      - rewrite app_nth2 by lia. rewrite Hk, Nat.sub_diag. reflexivity.
      - rewrite (IH (S k) (pre ++ [x])) by (rewrite app_length; simpl; lia). rewrite <- app_assoc. reflexivity. }
    apply (G 0 pure []). reflexivity.
  Qed.

  Definition ip (k : nat) : list (list Z) := match integer_partition k with Ok l => l | Raise _ => [] end.
  Definition uparts (k : nat) : list (list Z) := filter (fun part => length part <=? M) (ip k).

  Lemma ip_ok k : 2 <= k -> integer_partition k = Ok (ip k) /\ NoDup (ip k) /\
    forall p, In p (ip k) <-> is_partition (Z.of_nat k) p.
  Proof.
    intros H. unfold ip. destruct (integer_partition_ok k H) as [l [E [N [_ S]]]]. rewrite E. auto.
  Qed.

  Lemma part_legs n p : is_partition n p -> Forall (fun k => 1 <= k <= n)%Z p.
  Proof.
    intros [H1 [_ H2]]. subst n. induction H1 as [|a p Ha H IH]; [constructor|].
    assert (0 <= zsum p)%Z by (pose proof (zsum_lower 1 p H); lia).
    change (zsum (a :: p)) with (a + zsum p)%Z. constructor; [lia|].
    eapply Forall_impl; [|exact IH]. simpl. intros; lia.
  Qed.

  Definition level_choices (k : nat) : list (list (nat * nat)) := flat_map half_choices (uparts k).

  Lemma flat_length blocks : Z.of_nat (length (flat blocks)) = zsum (map (fun b => Z.of_nat (length (snd b))) blocks).
  Proof.
    induction blocks as [|[i m] b IH]; [reflexivity|]. unfold flat in *. cbn [flat_map map fst snd].
    rewrite app_length, map_length. change (zsum (?a :: ?l)) with (a + zsum l)%Z. unfold zsum in *. cbn [fold_right]. lia.
  Qed.

  Lemma level_choices_spec k : 2 <= k -> Permutation (level_choices k) (combinations (positions pure) k).
  Proof.
    intros Hk. destruct (ip_ok k Hk) as [_ [Nip Sip]].
    assert (HU : forall part, In part (uparts k) -> is_partition (Z.of_nat k) part).
    { intros part H. apply filter_In in H as [H _]. apply Sip, H. }
    assert (HP : forall part, In part (uparts k) -> Forall (fun z => 1 <= z)%Z part).
    { intros part H. apply HU in H. apply H. }
    apply NoDup_Permutation.
    - unfold level_choices. apply NoDup_flat_map.
      + apply NoDup_filter', Nip.
      + intros part H. apply nodup_half_choices, HP, H.
      + intros p1 p2 c H1 H2 G1 G2. apply in_half_choices in G1 as [b1 [E1 [F1 [S1 P1]]]]; [|apply HP, H1].
        apply in_half_choices in G2 as [b2 [E2 [F2 [S2 P2]]]]; [|apply HP, H2].
        assert (b1 = b2) by (apply half_blocks_unique; congruence). subst b2.
        apply HU in H1, H2. apply desc_sorted_unique; [apply H1|apply H2|]. rewrite P1, P2. reflexivity.
    - apply nodup_combinations. rewrite positions_positions_of. unfold positions_of. apply NoDup_flat_map.
      + apply seq_NoDup.
      + intros i _. apply NoDup_map_in; [congruence|apply seq_NoDup].
      + intros i j p _ _ H1 H2. apply in_map_iff in H1 as [x [<- _]], H2 as [y [E _]]. congruence.
    - intros c. rewrite in_combinations, positions_positions_of, blocks_of_subseq. unfold level_choices. rewrite in_flat_map.
      split.
      + intros [part [H1 H2]]. apply in_half_choices in H2 as [b [-> [F [S P]]]]; [|apply HP, H1]. split; [exists b; auto|].
        apply Nat2Z.inj. rewrite flat_length, <- (zsum_perm _ _ P). apply HU in H1. apply H1.
      + intros [[b [-> [S F]]] L]. set (leg := map (fun b => Z.of_nat (length (snd b))) b).
        assert (Hleg : Forall (fun z => 1 <= z)%Z leg).
        { unfold leg. apply Forall_forall. intros z Hz. apply in_map_iff in Hz as [q [<- Hq]].
          rewrite Forall_forall in F. destruct (F q Hq) as [Hne _]. destruct (snd q); [congruence|simpl; lia]. }
        destruct (desc_sort leg) as [part [P Sd]]. exists part. split.
        * apply filter_In. split.
          -- apply Sip. repeat split; [rewrite <- P; exact Hleg|exact Sd|].
             rewrite <- (zsum_perm _ _ P). unfold leg. rewrite <- flat_length. rewrite L. reflexivity.
          -- apply Nat.leb_le. rewrite <- (Permutation_length P). unfold leg. rewrite map_length.
             apply subseq_length in S. rewrite map_length, seq_length in S. exact S.
        * apply in_half_choices; [rewrite <- P; exact Hleg|]. exists b. repeat split; [exact F|exact S|symmetry; exact P].
  Qed.

  Lemma flat_map_flat_map {A B C} (f : B -> list C) (g : A -> list B) l :
    flat_map f (flat_map g l) = flat_map (fun x => flat_map f (g x)) l.
  Proof. induction l as [|x l IH]; [reflexivity|]. cbn [flat_map]. rewrite flat_map_app, IH. reflexivity. Qed.

  Lemma flat_map_ext_in {A B} (f g : A -> list B) l : (forall x, In x l -> f x = g x) -> flat_map f l = flat_map g l.
  Proof.
    induction l as [|x l IH]; intros H; [reflexivity|]. cbn [flat_map]. rewrite (H x) by (left; reflexivity).
    f_equal. apply IH. intros y Hy. apply H. right; exact Hy.
  Qed.

  Lemma map_flat_map {A B C} (f : B -> C) (g : A -> list B) l : map f (flat_map g l) = flat_map (fun x => map f (g x)) l.
  Proof. induction l as [|x l IH]; [reflexivity|]. cbn [flat_map]. rewrite map_app, IH. reflexivity. Qed.

  Lemma select_level {V} (f : nat -> list V) k levels : NoDup levels -> In k levels ->
    map snd (filter (fun kv => k =? fst kv) (flat_map (fun k' => map (pair k') (f k')) levels)) = f k.
  Proof.
    intros N H. induction levels as [|k' levels IH]; [destruct H|]. inversion N as [|? ? N1 N2]; subst.
    cbn [flat_map]. rewrite filter_app, map_app. destruct (Nat.eqb_spec k k') as [->|Hne].
    - rewrite filter_true, filter_false.
      + rewrite app_nil_r, map_map. apply map_id.
      + intros [q v] Hq. apply in_flat_map in Hq as [k [H1 H2]]. apply in_map_iff in H2 as [x [[= -> ->] _]].
        cbn. apply Nat.eqb_neq. intros ->. contradiction.
      + intros q Hq. apply in_map_iff in Hq as [x [<- _]]. apply Nat.eqb_refl.
    - rewrite filter_false; [|intros q Hq; apply in_map_iff in Hq as [x [<- _]]; apply Nat.eqb_neq; exact Hne].
      cbn [map app]. apply IH; [exact N2|]. destruct H as [->|H]; [contradiction|exact H].
  Qed.

  Lemma in_levels k : In k (cu_levels max_cu) <-> 2 <= k <= max_cu.
  Proof. clear. unfold cu_levels. rewrite in_seq. lia. Qed.

  Lemma half_cumulant_ok : exists d, half_cumulant pure max_cu = Ok d /\
    NoDup (map fst d) /\ (forall k, In k (map fst d) <-> 2 <= k <= max_cu) /\
    forall k, 2 <= k <= max_cu -> dict_get Nat.eqb k d = Some (level_choices k).
  Proof.
    unfold half_cumulant. rewrite (pymap_total _ uparts).
    2:{ intros k Hk. apply in_levels in Hk. destruct (ip_ok k ltac:(lia)) as [-> _]. reflexivity. }
    cbn [pybind]. rewrite (pymap_total _ (fun part => map (pair (Z.to_nat (zsum part))) (half_choices part))).
    2:{ intros part Hp. rewrite <- flat_map_concat_map in Hp. apply in_flat_map in Hp as [k [Hk Hp]]. apply in_levels in Hk.
        apply filter_In in Hp as [Hp _]. apply (ip_ok k) in Hp; [|lia]. apply half_partition_ok.
        apply part_legs in Hp. eapply Forall_impl; [|exact Hp]. simpl. intros; lia. }
    cbn [pybind]. rewrite <- !flat_map_concat_map, flat_map_flat_map.
    rewrite (flat_map_ext_in _ (fun k => map (pair k) (level_choices k))).
    2:{ intros k Hk. apply in_levels in Hk. unfold level_choices. rewrite map_flat_map. apply flat_map_ext_in.
        intros part Hp. apply filter_In in Hp as [Hp _]. apply (ip_ok k) in Hp; [|lia].
        destruct Hp as [_ [_ ->]]. rewrite Nat2Z.id. reflexivity. }
    assert (I0 : map fst (map (fun k => (k, @nil (list (nat * nat)))) (cu_levels max_cu)) = cu_levels max_cu)
      by (rewrite map_map; apply map_id).
    eexists. split; [reflexivity|]. split; [|split].
    - apply append_all_nodup; [apply Nat.eqb_eq|]. rewrite I0. apply seq_NoDup.
    - intros k. rewrite append_all_keys by apply Nat.eqb_eq. rewrite I0, in_levels. split; [|tauto].
      intros [H|H]; [|exact H]. apply in_map_iff in H as [[q v] [E H]]. cbn in E. subst q.
      apply in_flat_map in H as [k' [H1 H2]]. apply in_map_iff in H2 as [x [[= -> _] _]]. apply in_levels, H1.
    - intros k Hk. match goal with |- dict_get _ _ ?d = _ => set (D := d) end.
      assert (HL : dict_list Nat.eqb k D = level_choices k).
      { unfold D. rewrite dict_list_append_all by apply Nat.eqb_eq.
        rewrite (select_level level_choices) by (try apply seq_NoDup; apply in_levels; exact Hk).
        unfold dict_list. destruct (dict_get _ k (map _ _)) as [v|] eqn:E; [|reflexivity].
        apply dict_get_in in E; [|apply Nat.eqb_eq|rewrite I0; apply seq_NoDup].
        apply in_map_iff in E as [x [[= _ <-] _]]. reflexivity. }
      assert (HK : In k (map fst D)).
      { unfold D. apply append_all_keys; [apply Nat.eqb_eq|]. right. rewrite I0. apply in_levels, Hk. }
      destruct (dict_get_key Nat.eqb Nat.eqb_eq _ _ HK) as [v Ev]. unfold dict_list in HL. rewrite Ev in HL. congruence.
  Qed.
End Half.
