(** Proofs about sorting, permutation signs and spin cases. *)
From Verif Require Import PyBase OrderSpec OrderProofs ParitySpec ParityProofs SpaceModel SpaceProofs IndicesModel.
From Coq Require Import ZArith Sorting.Sorted.

(** ** merge sort *)
Section Merge.
  Context {A : Type} (o : pyord A) (L : lawful o).
  Let le := ple o.
  Let lt := plt o.

  Definition le_sorted (l : list A) : Prop := StronglySorted (fun x y => ple o x y = true) l.

  Lemma merge_nil_r l : merge_count le l [] = (l, 0).
  Proof. destruct l; reflexivity. Qed.
  Lemma merge_nil_l l : merge_count le [] l = (l, 0).
  Proof. destruct l; reflexivity. Qed.
  Lemma merge_cons x l y r :
    merge_count le (x :: l) (y :: r) =
    if le x y then let '(m, c) := merge_count le l (y :: r) in (x :: m, c)
    else let '(m, c) := merge_count le (x :: l) r in (y :: m, c + length (x :: l)).
  Proof. reflexivity. Qed.

  Lemma le_not_lt x y : le x y = negb (lt y x).
  Proof. apply lw_nle, L. Qed.

  Lemma cross_cons_all l y r :
    (forall x, In x l -> lt y x = true) -> cross lt l (y :: r) = length l + cross lt l r.
  Proof.
    induction l as [|x l IH]; simpl; intros H; [reflexivity|].
    rewrite (H x) by auto. simpl. rewrite IH by auto. lia.
  Qed.

  Lemma filter_none_lt x r : (forall y, In y r -> lt y x = false) -> length (filter (fun y => lt y x) r) = 0.
  Proof. intros H. rewrite filter_none by exact H. reflexivity. Qed.

  Lemma merge_count_ok l r :
    le_sorted l -> le_sorted r ->
    let '(m, c) := merge_count le l r in
    Permutation m (l ++ r) /\ le_sorted m /\ c = cross lt l r.
  Proof.
    revert r. induction l as [|x l IHl]; intros r Hl Hr.
    - rewrite merge_nil_l. repeat split; auto.
    - induction r as [|y r IHr].
      + rewrite merge_nil_r. rewrite app_nil_r. repeat split; auto.
        symmetry. apply cross_zero. intros a b _ [].
      + rewrite merge_cons.
        pose proof (StronglySorted_inv Hl) as [Hl' Fx].
        pose proof (StronglySorted_inv Hr) as [Hr' Fy].
        rewrite Forall_forall in Fx, Fy.
        destruct (le x y) eqn:E.
        * specialize (IHl (y :: r) Hl' Hr). destruct (merge_count le l (y :: r)) as [m c].
          destruct IHl as [P [S C]]. split; [|split].
          -- simpl. constructor. exact P.
          -- constructor; [exact S|]. apply Forall_forall. intros z Hz.
             apply (Permutation_in _ P) in Hz. apply in_app_or in Hz.
             destruct Hz as [Hz|[<-|Hz]]; [auto|exact E|].
             eapply (lw_le_tran o L); [exact E|]. apply Fy, Hz.
          -- subst c. cbn [cross]. rewrite filter_none_lt; [reflexivity|].
             intros z Hz. assert (le x z = true) as G.
             { destruct Hz as [<-|Hz]; [exact E|]. eapply (lw_le_tran o L); [exact E|]. apply Fy, Hz. }
             rewrite le_not_lt in G. apply negb_true_iff in G. exact G.
        * specialize (IHr Hr'). destruct (merge_count le (x :: l) r) as [m c].
          destruct IHr as [P [S C]].
          assert (Hyx : lt y x = true) by (rewrite le_not_lt in E; apply negb_false_iff in E; exact E).
          assert (Hyl : forall z, In z (x :: l) -> lt y z = true).
          { intros z [<-|Hz]; [exact Hyx|]. destruct (lt y z) eqn:G; [reflexivity|].
            assert (le z y = true) by (rewrite le_not_lt, G; reflexivity).
            assert (le x y = true) by (eapply (lw_le_tran o L); [apply Fx, Hz|assumption]). congruence. }
          split; [|split].
          -- transitivity (y :: (x :: l) ++ r); [constructor; exact P|]. apply Permutation_middle.
          -- constructor; [exact S|]. apply Forall_forall. intros z Hz.
             apply (Permutation_in _ P) in Hz. apply in_app_or in Hz. destruct Hz as [Hz|Hz].
             ++ rewrite (lw_le o L). rewrite (Hyl z Hz : plt o y z = true). reflexivity.
             ++ apply Fy, Hz.
          -- subst c. rewrite cross_cons_all by exact Hyl. lia.
  Qed.

  Lemma sort_fuel_ok fuel array :
    length array < fuel ->
    exists r c, sort_and_count_fuel fuel le array = Ok (r, c) /\
      Permutation r array /\ le_sorted r /\ c = inversions lt array.
  Proof.
    revert array; induction fuel as [|fuel IH]; intros array Hf; [lia|].
    cbn [sort_and_count_fuel].
    destruct (Nat.leb_spec (length array) 1) as [H1|H1].
    - exists array, 0. repeat split; auto.
      + destruct array as [|x [|y array]]; [constructor|repeat constructor|simpl in H1; lia].
      + destruct array as [|x [|y array]]; [reflexivity|reflexivity|simpl in H1; lia].
    - set (h := length array / 2).
      assert (Hh : 1 <= h < length array).
      { split; [apply (Nat.div_le_lower_bound _ 2 1); lia|apply Nat.div_lt; lia]. }
      assert (Lf : length (firstn h array) = h) by (apply firstn_length_le; lia).
      assert (Ls : length (skipn h array) = length array - h) by apply skipn_length.
      destruct (IH (firstn h array)) as [rl [cl [El [Pl [Sl Cl]]]]]; [lia|].
      destruct (IH (skipn h array)) as [rr [cr [Er [Pr [Sr Cr]]]]]; [lia|].
      rewrite El. cbn [pybind]. rewrite Er. cbn [pybind fst snd].
      pose proof (merge_count_ok rl rr Sl Sr) as M. destruct (merge_count le rl rr) as [m c].
      destruct M as [PM [SM CM]]. exists m, (cl + cr + c). split; [reflexivity|]. split; [|split].
      + rewrite PM, Pl, Pr, firstn_skipn. reflexivity.
      + exact SM.
      + rewrite <- (firstn_skipn h array) at 1. rewrite inversions_app. subst cl cr c.
        rewrite (cross_perm_l lt _ _ rr Pl), (cross_perm_r lt _ _ _ Pr). reflexivity.
  Qed.

  Lemma sort_and_count_ok array :
    exists r c, sort_and_count_inversions le array = Ok (r, c) /\
      Permutation r array /\ le_sorted r /\ c = length (inverted_pairs (plt o) array).
  Proof.
    destruct (sort_fuel_ok (S (length array)) array) as [r [c [E [P [S C]]]]]; [lia|].
    exists r, c. repeat split; auto. rewrite inverted_pairs_length. exact C.
  Qed.
End Merge.

(** ** canonical indices *)
Lemma idx_eqb_eq a b : idx_eqb a b = true <-> a = b.
Proof.
  destruct a as [l n], b as [l' n']. unfold idx_eqb; simpl.
  rewrite andb_true_iff, label_ext, Nat.eqb_eq. split; [intros [-> ->]; reflexivity|].
  intros H; injection H; auto.
Qed.

Lemma idx_eqb_refl a : idx_eqb a a = true.
Proof. apply idx_eqb_eq; reflexivity. Qed.

Lemma idx_eqb_neq a b : idx_eqb a b = false <-> a <> b.
Proof. rewrite <- not_true_iff_false, idx_eqb_eq. tauto. Qed.

Lemma idx_eq_dec (a b : idx) : {a = b} + {a <> b}.
Proof. destruct (idx_eqb a b) eqn:E; [left; apply idx_eqb_eq, E|right; apply idx_eqb_neq, E]. Defined.

Lemma idx_key_inj a b : idx_key a = idx_key b -> a = b.
Proof.
  destruct a as [l n], b as [l' n']. unfold idx_key; simpl. intros H; injection H as H1 ->.
  apply priority_inj in H1. congruence.
Qed.

Lemma idx_eqb_key a b : idx_eqb a b = peq (pair_ord nat_ord nat_ord) (idx_key a) (idx_key b).
Proof.
  apply eq_true_iff_eq. rewrite idx_eqb_eq, (ext_iff (pair_ext _ _ nat_ext nat_ext)).
  split; [congruence|apply idx_key_inj].
Qed.

Lemma idx_lawful : lawful idx_ord.
Proof.
  pose proof (key_lawful idx_key _ (pair_lawful _ _ nat_lawful nat_lawful)) as L.
  constructor; intros; cbn [peq plt ple pgt pge idx_ord] in *; rewrite ?idx_eqb_key in *.
  - apply (lw_refl _ L).
  - apply (lw_sym _ L a b H).
  - eapply (lw_tran _ L a b c H H0).
  - apply (lw_tri _ L).
  - eapply (lw_lt_tran _ L a b c H H0).
  - apply (lw_gt _ L).
  - apply (lw_le _ L).
  - apply (lw_ge _ L).
Qed.

Lemma idx_ext : extensional idx_ord.
Proof. intros a b. apply idx_eqb_eq. Qed.

Lemma lawful_total {A} (o : pyord A) :
  lawful o -> extensional o -> forall l, total_on (plt o) l.
Proof.
  intros L E l x y _ _ H.
  assert (peq o x y = false) by (apply not_true_iff_false; intros G; apply E in G; congruence).
  destruct (lw_tri o L x y) as [[H1 [H2 H3]]|[[H1 [H2 H3]]|[H1 [H2 H3]]]]; try congruence;
    rewrite (lw_gt o L) in H3; rewrite H1, H3; reflexivity.
Qed.

Lemma mem_idx_in x l : mem_idx x l = true <-> In x l.
Proof.
  unfold mem_idx. rewrite existsb_exists. split.
  - intros [y [Hy E]]. apply idx_eqb_eq in E; subst; auto.
  - intros H; exists x; split; [exact H|apply idx_eqb_refl].
Qed.

Lemma mem_idx_notin x l : mem_idx x l = false <-> ~ In x l.
Proof. rewrite <- not_true_iff_false, mem_idx_in. tauto. Qed.

Lemma nodup_idx_spec l : nodup_idx l = true <-> NoDup l.
Proof.
  induction l as [|x l IH]; simpl; [split; [constructor|reflexivity]|].
  rewrite andb_true_iff, negb_true_iff, mem_idx_notin, IH. split; [intros [? ?]; constructor; auto|].
  inversion 1; auto.
Qed.

(** Sorted duplicate-free lists are determined by their elements. *)
Definition idx_sorted (l : list idx) : Prop := StronglySorted (fun x y => ple idx_ord x y = true) l.

Lemma sorted_unique {A} (o : pyord A) (L : lawful o) (E : extensional o) l l' :
  le_sorted o l -> le_sorted o l' -> Permutation l l' -> l = l'.
Proof.
  intros Hl. revert l'. induction Hl as [|x l Hl IH Fx]; intros l' Hl' P.
  - apply Permutation_nil in P. auto.
  - destruct l' as [|y l']; [symmetry in P; apply Permutation_nil in P; discriminate|].
    pose proof (StronglySorted_inv Hl') as [Hl'' Fy].
    rewrite Forall_forall in Fx, Fy.
    assert (x = y).
    { assert (Hx : In x (y :: l')) by (eapply Permutation_in; [exact P|left; reflexivity]).
      assert (Hy : In y (x :: l)) by (eapply Permutation_in; [symmetry; exact P|left; reflexivity]).
      destruct Hx as [->|Hx]; [reflexivity|]. destruct Hy as [->|Hy]; [reflexivity|].
      specialize (Fx y Hy). specialize (Fy x Hx). simpl in Fx, Fy.
      rewrite (lw_nle o L) in Fx. rewrite (lw_le o L) in Fy.
      apply negb_true_iff in Fx. rewrite Fx in Fy. simpl in Fy. apply E in Fy. auto. }
    subst y. f_equal. apply IH; [exact Hl''|]. eapply Permutation_cons_inv; exact P.
Qed.

Lemma inversions_sorted {A} (o : pyord A) (L : lawful o) l : le_sorted o l -> inversions (plt o) l = 0.
Proof.
  intros H. apply inversions_zero. induction H; constructor; auto.
  eapply Forall_impl; [|exact H0]. intros y Hy. simpl in Hy. rewrite (lw_nle o L) in Hy.
  apply negb_true_iff in Hy. exact Hy.
Qed.

(** ** canonicalize *)
Lemma canonicalize_spec t l :
  itype_antisymmetric t = true -> NoDup l ->
  exists r s, canonicalize_indices t l = Ok (r, s) /\ idx_sorted r /\ reorder_sign l r s.
Proof.
  intros Ht ND. unfold canonicalize_indices. rewrite Ht.
  destruct (Nat.leb_spec (length l) 1) as [H|H].
  - exists l, 1%Z. split; [reflexivity|]. split; [|apply reorder_sign_refl].
    destruct l as [|x [|y l]]; [constructor|repeat constructor|simpl in H; lia].
  - destruct (sort_fuel_ok idx_ord idx_lawful (S (length l)) l) as [r [c [E [P [S C]]]]]; [lia|].
    unfold sort_and_count_inversions. rewrite E. cbn [pybind fst snd].
    exists r, (sgn c). split; [reflexivity|]. split; [exact S|].
    destruct (reorder_sign_exists l r) as [s Hs]; [symmetry; exact P|].
    pose proof (reorder_sign_inversions (plt idx_ord) l r s ND (lawful_total _ idx_lawful idx_ext l) Hs) as Es.
    rewrite (inversions_sorted idx_ord idx_lawful r S) in Es.
    change (sgn 0) with 1%Z in Es. rewrite Z.mul_1_r in Es. subst. exact Hs.
Qed.

Lemma reorder_sign_unique (l l' : list idx) s t :
  NoDup l -> reorder_sign l l' s -> reorder_sign l l' t -> s = t.
Proof.
  intros ND Hs Ht.
  rewrite (reorder_sign_inversions _ _ _ _ ND (lawful_total _ idx_lawful idx_ext l) Hs).
  rewrite (reorder_sign_inversions _ _ _ _ ND (lawful_total _ idx_lawful idx_ext l) Ht). reflexivity.
Qed.

Lemma canonicalize_unique t l r s r' s' :
  itype_antisymmetric t = true -> NoDup l ->
  canonicalize_indices t l = Ok (r, s) ->
  idx_sorted r' -> reorder_sign l r' s' -> r = r' /\ s = s'.
Proof.
  intros Ht ND E Hr Hs. destruct (canonicalize_spec t l Ht ND) as [r0 [s0 [E0 [S0 R0]]]].
  rewrite E in E0. injection E0 as <- <-.
  assert (r = r').
  { apply (sorted_unique idx_ord idx_lawful idx_ext); auto.
    rewrite <- (reorder_sign_perm _ _ _ R0). apply (reorder_sign_perm _ _ _ Hs). }
  subst r'. split; [reflexivity|]. eapply reorder_sign_unique; eassumption.
Qed.

Lemma canonicalize_equivariant t l l' sigma r s :
  itype_antisymmetric t = true -> NoDup l -> reorder_sign l l' sigma ->
  canonicalize_indices t l = Ok (r, s) -> canonicalize_indices t l' = Ok (r, (sigma * s)%Z).
Proof.
  intros Ht ND Hs E. destruct (canonicalize_spec t l Ht ND) as [r0 [s0 [E0 [S0 R0]]]].
  rewrite E in E0. injection E0 as <- <-.
  assert (ND' : NoDup l') by (eapply Permutation_NoDup; [eapply reorder_sign_perm; exact Hs|exact ND]).
  destruct (canonicalize_spec t l' Ht ND') as [r1 [s1 [E1 [S1 R1]]]].
  rewrite E1. destruct (canonicalize_unique t l' r1 s1 r (sigma * s) Ht ND' E1 S0) as [-> ->]; [|reflexivity].
  eapply reorder_sign_trans; [apply reorder_sign_sym, Hs|exact R0].
Qed.

Lemma canonicalize_idem t l r s :
  itype_antisymmetric t = true -> NoDup l ->
  canonicalize_indices t l = Ok (r, s) -> canonicalize_indices t r = Ok (r, 1%Z).
Proof.
  intros Ht ND E. destruct (canonicalize_spec t l Ht ND) as [r0 [s0 [E0 [S0 R0]]]].
  rewrite E in E0. injection E0 as <- <-.
  rewrite (canonicalize_equivariant t l r s r s Ht ND R0 E).
  destruct (reorder_sign_pm _ _ _ R0) as [->| ->]; reflexivity.
Qed.

Lemma canonicalize_alternating t l r s f :
  itype_antisymmetric t = true -> NoDup l -> alternating f ->
  canonicalize_indices t l = Ok (r, s) -> f l = (s * f r)%Z.
Proof.
  intros Ht ND Hf E. destruct (canonicalize_spec t l Ht ND) as [r0 [s0 [E0 [S0 [n [Hn Es]]]]]].
  rewrite E in E0. injection E0 as <- <-. subst s. apply swaps_alternating; assumption.
Qed.

(** ** count_permutations *)
Lemma position_in x l : In x l -> exists k, position x l = Some k /\ nth_error l k = Some x.
Proof.
  induction l as [|y l IH]; simpl; [tauto|]. intros H.
  destruct (idx_eqb x y) eqn:E.
  - apply idx_eqb_eq in E; subst. exists 0; auto.
  - destruct H as [->|H]; [rewrite idx_eqb_refl in E; discriminate|].
    destruct (IH H) as [k [Hk Hn]]. exists (S k). rewrite Hk. auto.
Qed.

Lemma position_some x l k : position x l = Some k -> nth_error l k = Some x.
Proof.
  revert k; induction l as [|y l IH]; simpl; [discriminate|]. intros k.
  destruct (idx_eqb x y) eqn:E.
  - intros H; injection H as <-. apply idx_eqb_eq in E; subst; reflexivity.
  - destruct (position x l) as [k'|]; [|discriminate]. intros H; injection H as <-. simpl. auto.
Qed.

Definition pos (l : list idx) (x : idx) : nat := match position x l with Some k => k | None => 0 end.

Lemma pos_inj l x y : In x l -> In y l -> pos l x = pos l y -> x = y.
Proof.
  intros Hx Hy. unfold pos. destruct (position_in x l Hx) as [k [-> Hk]].
  destruct (position_in y l Hy) as [m [-> Hm]]. intros ->. congruence.
Qed.

Lemma pos_order_total l x y :
  In x l -> In y l -> x <> y -> (pos l x <? pos l y) = negb (pos l y <? pos l x).
Proof.
  intros Hx Hy H. assert (pos l x <> pos l y) by (intros E; apply H; eapply pos_inj; eassumption).
  destruct (Nat.ltb_spec (pos l x) (pos l y)), (Nat.ltb_spec (pos l y) (pos l x)); simpl; lia || reflexivity.
Qed.

Lemma pos_self_sorted l : NoDup l -> inversions (fun x y => pos l x <? pos l y) l = 0.
Proof.
  intros ND. rewrite <- (inversions_map Nat.ltb (pos l)).
  assert (E : map (pos l) l = seq 0 (length l)).
  { clear -ND. unfold pos. induction ND as [|x l Hx ND IH]; [reflexivity|].
    cbn [map length seq position]. rewrite idx_eqb_refl. f_equal.
    rewrite <- seq_shift, <- IH, map_map. apply map_ext_in. intros y Hy.
    destruct (idx_eqb y x) eqn:E; [apply idx_eqb_eq in E; subst; contradiction|].
    destruct (position_in y l Hy) as [k [-> _]]. reflexivity. }
  rewrite E. clear.
  assert (G : forall n k, inversions Nat.ltb (seq k n) = 0); [|apply G].
  intros n; induction n as [|n IH]; intros k; simpl; [reflexivity|].
  rewrite IH, filter_none; [reflexivity|]. intros y Hy. apply in_seq in Hy. apply Nat.ltb_ge. lia.
Qed.

Lemma pymap_total {A B} (f : A -> pyres B) (g : A -> B) l :
  (forall x, In x l -> f x = Ok (g x)) -> pymap f l = Ok (map g l).
Proof.
  induction l as [|x l IH]; simpl; intros H; [reflexivity|].
  rewrite (H x) by auto. simpl. rewrite IH by auto. reflexivity.
Qed.

Lemma is_permutation_spec a b :
  NoDup a -> NoDup b -> (is_permutation a b = true <-> Permutation a b).
Proof.
  intros Na Nb. unfold is_permutation. rewrite andb_true_iff, !forallb_forall. split.
  - intros [H1 H2]. apply NoDup_Permutation; auto. intros x; split; intros H.
    + apply mem_idx_in, H1, H. + apply mem_idx_in, H2, H.
  - intros P; split; intros x H; apply mem_idx_in.
    + exact (Permutation_in _ P H).
    + exact (Permutation_in _ (Permutation_sym P) H).
Qed.

Lemma count_permutations_ok a b :
  NoDup a -> NoDup b ->
  (Permutation a b -> count_permutations a b = Ok (inversions Nat.ltb (map (pos a) b))) /\
  (~ Permutation a b -> count_permutations a b = Raise ValueError).
Proof.
  intros Na Nb. unfold count_permutations. pose proof (is_permutation_spec a b Na Nb) as S. split; intros H.
  - apply S in H as H'. rewrite H'.
    rewrite (pymap_total _ (pos a)); [reflexivity|].
    intros x Hx. unfold pos.
    destruct (position_in x a) as [k [-> _]]; [|reflexivity].
    eapply Permutation_in; [symmetry; exact H|exact Hx].
  - destruct (is_permutation a b); [exfalso; apply H, S; reflexivity|reflexivity].
Qed.

Lemma count_permutations_sign a b n :
  NoDup a -> NoDup b -> count_permutations a b = Ok n -> reorder_sign a b (sgn n).
Proof.
  intros Na Nb E. destruct (count_permutations_ok a b Na Nb) as [H1 H2].
  assert (P : Permutation a b).
  { apply is_permutation_spec; auto. unfold count_permutations in E.
    destruct (is_permutation a b); [reflexivity|discriminate]. }
  rewrite (H1 P) in E. injection E as <-.
  destruct (reorder_sign_exists a b P) as [s Hs].
  pose proof (reorder_sign_inversions (fun x y => pos a x <? pos a y) a b s Na) as R.
  rewrite R in Hs; auto.
  - rewrite pos_self_sorted, inversions_map in * by exact Na.
    change (sgn 0) with 1%Z in Hs. rewrite Z.mul_1_l in Hs. exact Hs.
  - intros x y Hx Hy Hxy. apply pos_order_total; assumption.
Qed.

Lemma count_permutations_zero a b :
  NoDup a -> NoDup b -> (count_permutations a b = Ok 0 <-> a = b).
Proof.
  intros Na Nb. destruct (count_permutations_ok a b Na Nb) as [H1 H2]. split.
  - intros E.
    assert (P : Permutation a b).
    { apply is_permutation_spec; auto. unfold count_permutations in E.
      destruct (is_permutation a b); [reflexivity|discriminate]. }
    rewrite (H1 P) in E. injection E as E. rewrite inversions_map in E.
    apply inversions_zero in E. pose proof (pos_self_sorted a Na) as Ea. apply inversions_zero in Ea.
    set (R := fun x y => (pos a y <? pos a x) = false) in *.
    assert (Anti : forall x y, In x a -> In y a -> R x y -> R y x -> x = y).
    { intros x y Hx Hy R1 R2. destruct (idx_eq_dec x y) as [|N]; [assumption|].
      pose proof (pos_order_total a x y Hx Hy N). unfold R in *. rewrite R1, R2 in H. discriminate. }
    clear H1 H2 Na Nb.
    assert (Inc : incl b a) by (intros x Hx; eapply Permutation_in; [symmetry; exact P|exact Hx]).
    revert P Ea E. assert (Inca : incl a a) by (intros x; auto).
    generalize Inc Inca. clear Inc Inca. generalize a at 2 4 5 6. intros l. revert b.
    induction l as [|x l IH]; intros l' Hb Ha P Hl Hl'.
    + apply Permutation_nil in P. congruence.
    + destruct l' as [|y l']; [symmetry in P; apply Permutation_nil in P; discriminate|].
      inversion Hl; subst. inversion Hl'; subst. rewrite Forall_forall in *.
      assert (x = y).
      { assert (Hx : In x (y :: l')) by (eapply Permutation_in; [exact P|left; reflexivity]).
        assert (Hy : In y (x :: l)) by (eapply Permutation_in; [symmetry; exact P|left; reflexivity]).
        destruct Hx as [->|Hx]; [reflexivity|]. destruct Hy as [->|Hy]; [reflexivity|].
        apply Anti; [apply Ha; left; reflexivity|apply Hb; left; reflexivity|auto|auto]. }
      subst y. f_equal. apply IH; auto.
      * intros z Hz; apply Hb; right; exact Hz.
      * intros z Hz; apply Ha; right; exact Hz.
      * eapply Permutation_cons_inv; exact P.
  - intros ->. rewrite H1 by reflexivity. rewrite inversions_map, pos_self_sorted by exact Nb. reflexivity.
Qed.

Lemma count_permutations_cocycle a b c n m k :
  NoDup a -> NoDup b -> NoDup c ->
  count_permutations a b = Ok n -> count_permutations b c = Ok m -> count_permutations a c = Ok k ->
  (sgn n * sgn m = sgn k)%Z.
Proof.
  intros Na Nb Nc E1 E2 E3.
  apply count_permutations_sign in E1, E2, E3; auto.
  eapply reorder_sign_unique; [exact Na| |exact E3]. eapply reorder_sign_trans; eassumption.
Qed.

Lemma count_permutations_sym a b n m :
  NoDup a -> NoDup b ->
  count_permutations a b = Ok n -> count_permutations b a = Ok m -> sgn n = sgn m.
Proof.
  intros Na Nb E1 E2. apply count_permutations_sign in E1, E2; auto.
  eapply reorder_sign_unique; [exact Na|exact E1|apply reorder_sign_sym, E2].
Qed.
