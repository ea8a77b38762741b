(** Proofs for the permutation formats (C50). *)
From Coq Require Import Ascii String ZArith QArith Qcanon Factorial.
From Verif Require Import PyBase OrderSpec OrderProofs SpaceModel IndexModel IndexProofs IndicesModel IterProofs ParitySpec ParityProofs IndicesProofs ElemModel ElemProofs HalfProofs MacroModel SortProofs TermModel TermProofs SymmetryModel CombineModel TextProofs PermuteModel PermuteSpec.
Local Close Scope Q_scope.
Local Close Scope Qc_scope.
Local Open Scope nat_scope.
Local Notation length := List.length.

(** ** Blocks *)
Lemma NoDup_app_inv {A} (l m : list A) : NoDup (l ++ m) -> NoDup l /\ NoDup m /\ forall x, In x l -> ~ In x m.
Proof.
  induction l as [|a l IH]; cbn [app]; intros H; [split; [constructor|split; [exact H|intros x []]]|].
  inversion H as [|? ? H1 H2]; subst. destruct (IH H2) as (N1 & N2 & D). split; [constructor; [intros Q; apply H1, in_or_app; left; exact Q|exact N1]|]. split; [exact N2|].
  intros x [->|Q]; [intros R; apply H1, in_or_app; right; exact R|apply D, Q].
Qed.
Lemma block_of_in part : NoDup (concat part) -> forall i x, In x (nth i part []) -> block_of part x = i.
Proof.
  induction part as [|b part IH]; intros N i x H; [destruct i; destruct H|]. cbn [concat] in N. apply NoDup_app_inv in N as (N1 & N2 & D). cbn [block_of]. destruct i as [|i]; cbn [nth] in H.
  - apply mem_idx_in in H. rewrite H. reflexivity.
  - assert (Q : mem_idx x b = false). { apply mem_idx_notin. intros R. apply (D x R). apply in_concat. exists (nth i part []). split; [|exact H]. apply nth_In. destruct (Nat.lt_ge_cases i (length part)) as [L|L]; [exact L|]. rewrite nth_overflow in H by exact L. destruct H. }
    rewrite Q. f_equal. apply IH; assumption.
Qed.
Lemma block_of_lt part x : In x (concat part) -> block_of part x < length part /\ In x (nth (block_of part x) part []).
Proof.
  induction part as [|b part IH]; cbn [concat]; intros H; [destruct H|]. cbn [block_of length]. destruct (mem_idx x b) eqn:E; [split; [lia|apply mem_idx_in, E]|].
  apply in_app_or in H as [H|H]; [apply mem_idx_in in H; congruence|]. destruct (IH H) as [H1 H2]. split; [lia|exact H2].
Qed.
Lemma merge_unique {A} (f : A -> nat) l : forall l', map f l = map f l' -> (forall i, In i (map f l) -> filter (fun x => f x =? i) l = filter (fun x => f x =? i) l') -> l = l'.
Proof.
  induction l as [|x l IH]; intros [|y l'] M H; try discriminate; [reflexivity|]. cbn [map] in M. injection M as M1 M2.
  pose proof (H (f x) (or_introl eq_refl)) as Q. cbn [filter] in Q. rewrite <- M1, Nat.eqb_refl in Q. injection Q as Q1 Q2. subst y. f_equal. apply IH; [exact M2|].
  intros i Hi. specialize (H i (or_intror Hi)). cbn [filter] in H. destruct (f x =? i); [injection H; auto|exact H].
Qed.
Lemma in_list_index part z : In z (list_index part) -> exists i, z = Z.of_nat i /\ i < length part.
Proof.
  unfold list_index. intros H. apply in_flat_map in H as ([i b] & H1 & H2). apply repeat_spec in H2. cbn [fst] in H2. exists i. split; [exact H2|]. apply in_enumerate in H1. destruct H1 as [H1 H3]. cbn in *. apply nth_error_Some. rewrite Nat.sub_0_r in H3. congruence.
Qed.
Lemma list_index_blocks part : NoDup (concat part) -> list_index part = map (fun x => Z.of_nat (block_of part x)) (concat part).
Proof.
  unfold list_index. change (fun x => Z.of_nat (block_of part x)) with (fun x => Z.of_nat (0 + block_of part x)). generalize 0 as s.
  induction part as [|b part IH]; intros s N; [reflexivity|]. cbn [concat] in N. apply NoDup_app_inv in N as (N1 & N2 & D). cbn [enumerate flat_map concat fst snd]. rewrite map_app. f_equal.
  - clear IH. cbn [block_of]. transitivity (map (fun _ : idx => Z.of_nat s) b); [clear; induction b; cbn; congruence|]. apply map_ext_in. intros x H. apply mem_idx_in in H. rewrite H. f_equal. lia.
  - rewrite IH by exact N2. apply map_ext_in. intros x H. cbn [block_of]. assert (Q : mem_idx x b = false) by (apply mem_idx_notin; intros R; exact (D x R H)). rewrite Q. f_equal. lia.
Qed.
Lemma set_nth_length {A} k (v : A) l : length (set_nth k v l) = length l.
Proof. revert k. induction l as [|x l IH]; intros [|k]; cbn; auto. Qed.
Lemma set_nth_nth {A} k (v d : A) l j : k < length l -> nth j (set_nth k v l) d = if j =? k then v else nth j l d.
Proof. revert k j. induction l as [|x l IH]; intros [|k] [|j] H; cbn in *; try lia; auto. apply IH. lia. Qed.
Lemma skipn_cons {A} k (l : list A) x : nth_error l k = Some x -> skipn k l = x :: skipn (k + 1) l.
Proof. revert l. induction k as [|k IH]; intros [|y l] H; cbn in *; try discriminate; [congruence|]. apply IH, H. Qed.
Definition zcount (i : nat) (perm : list Z) : nat := length (filter (fun z => (z =? Z.of_nat i)%Z) perm).
Lemma pick_ok part : NoDup (concat part) -> forall perm next, length next = length part ->
  (forall z, In z perm -> exists i, z = Z.of_nat i /\ i < length part) ->
  (forall i, i < length part -> nth i next 0 + zcount i perm = length (nth i part [])) ->
  exists l, pick part next perm = Ok l /\ map (fun x => Z.of_nat (block_of part x)) l = perm /\ (forall x, In x l -> In x (concat part)) /\
    forall i, i < length part -> filter (fun x => block_of part x =? i) l = skipn (nth i next 0) (nth i part []).
Proof.
  intros N. induction perm as [|z perm IH]; intros next L B C.
  - exists []. split; [reflexivity|]. split; [reflexivity|]. split; [intros x []|]. intros i Hi. specialize (C i Hi). cbn in C. rewrite Nat.add_0_r in C. rewrite C, skipn_all. reflexivity.
  - destruct (B z (or_introl eq_refl)) as (i & -> & Hi). cbn [pick]. rewrite Nat2Z.id. unfold get_item.
    assert (Ei : nth_error part i = Some (nth i part [])) by (apply nth_error_nth'; exact Hi). assert (En : nth_error next i = Some (nth i next 0)) by (apply nth_error_nth'; lia). rewrite Ei, En. cbn [pybind].
    pose proof (C i Hi) as Ci. unfold zcount in Ci. cbn [filter] in Ci. rewrite Z.eqb_refl in Ci. cbn [length] in Ci.
    destruct (nth_error (nth i part []) (nth i next 0)) as [x|] eqn:Ex; [|apply nth_error_None in Ex; lia]. cbn [pybind].
    destruct (IH (set_nth i (nth i next 0 + 1) next)) as (l & El & M & I & F).
    + rewrite set_nth_length. exact L.
    + intros z Hz. apply B. right. exact Hz.
    + intros j Hj. rewrite set_nth_nth by lia. specialize (C j Hj). unfold zcount in *. cbn [filter] in C. destruct (Nat.eqb_spec j i) as [->|Q]; [lia|]. destruct (Z.eqb_spec (Z.of_nat i) (Z.of_nat j)) as [R|R]; [lia|exact C].
    + rewrite El. cbn [pybind]. exists (x :: l). assert (Hx : In x (nth i part [])) by (eapply nth_error_In, Ex). pose proof (block_of_in part N i x Hx) as Bx. split; [reflexivity|]. split; [cbn [map]; rewrite Bx, M; reflexivity|]. split.
      * intros y [<-|Hy]; [|apply I, Hy]. apply in_concat. exists (nth i part []). split; [apply nth_In, Hi|exact Hx].
      * intros j Hj. cbn [filter]. rewrite Bx, F by exact Hj. rewrite set_nth_nth by lia. rewrite (Nat.eqb_sym i j). destruct (Nat.eqb_spec j i) as [->|Q]; [|reflexivity]. symmetry. apply skipn_cons, Ex.
Qed.
Lemma zcount_perm i l m : Permutation l m -> zcount i l = zcount i m.
Proof. intros P. unfold zcount. induction P; cbn [filter]; repeat match goal with |- context [(?a =? ?b)%Z] => destruct (a =? b)%Z end; cbn [length]; congruence. Qed.
Lemma filter_map_length {A B} (f : A -> B) p l : length (filter p (map f l)) = length (filter (fun x => p (f x)) l).
Proof. induction l as [|x l IH]; [reflexivity|]. cbn [map filter]. destruct (p (f x)); cbn [length]; rewrite IH; reflexivity. Qed.
Lemma filter_none {A} (l : list A) : filter (fun _ => false) l = [].
Proof. induction l; auto. Qed.
Lemma zcount_index part i : NoDup (concat part) -> i < length part -> zcount i (list_index part) = length (nth i part []).
Proof.
  intros N Hi. unfold zcount. rewrite list_index_blocks, filter_map_length by exact N. f_equal. clear - N Hi.
  (* the elements of block i among all *)
  assert (G : forall q, (forall x, In x (concat part) -> q x = mem_idx x (nth i part [])) -> filter q (concat part) = nth i part []).
  { revert i Hi N. induction part as [|b part IH]; intros i Hi N q Q; [cbn in Hi; lia|]. cbn [concat] in *. apply NoDup_app_inv in N as (N1 & N2 & D). rewrite filter_app. destruct i as [|i]; cbn [nth] in *.
    - rewrite (filter_ext_in _ (fun _ => true) b), (filter_ext_in _ (fun _ => false) (concat part)).
      + assert (ET : filter (fun _ : idx => true) b = b) by (clear; induction b; cbn; congruence). rewrite ET. assert (E : filter (fun _ : idx => false) (concat part) = []) by apply filter_none. rewrite E, app_nil_r. reflexivity.
      + intros x H. rewrite Q by (apply in_or_app; right; exact H). apply mem_idx_notin. intros R. exact (D x R H).
      + intros x H. rewrite Q by (apply in_or_app; left; exact H). apply mem_idx_in, H.
    - rewrite (IH i) with (q := q); [|cbn in Hi; lia|exact N2|intros x H; apply Q, in_or_app; right; exact H]. rewrite (filter_ext_in _ (fun _ => false) b); [assert (E : filter (fun _ : idx => false) b = []) by apply filter_none; rewrite E; reflexivity|].
      intros x H. rewrite Q by (apply in_or_app; left; exact H). apply mem_idx_notin. intros R. apply (D x H), in_concat. exists (nth i part []). split; [apply nth_In; cbn in Hi; lia|exact R]. }
  apply G. intros x H. destruct (block_of_lt part x H) as [B1 B2]. destruct (Z.eqb_spec (Z.of_nat (block_of part x)) (Z.of_nat i)) as [E|E].
  - apply Nat2Z.inj in E. subst i. symmetry. apply mem_idx_in, B2.
  - symmetry. apply mem_idx_notin. intros R. apply E. f_equal. apply block_of_in; assumption.
Qed.

Lemma blocks_of_eq part l l' : map (fun x => Z.of_nat (block_of part x)) l = map (fun x => Z.of_nat (block_of part x)) l' -> map (block_of part) l = map (block_of part) l'.
Proof. revert l'. induction l as [|x l IH]; intros [|y l'] H; try discriminate; [reflexivity|]. cbn [map] in *. injection H as H1 H2. apply Nat2Z.inj in H1. f_equal; auto. Qed.
Lemma keeps_filter part l : NoDup (concat part) -> (forall x, In x l -> In x (concat part)) ->
  (keeps_blocks part l <-> forall i, i < length part -> filter (fun x => block_of part x =? i) l = nth i part []).
Proof.
  intros N I. assert (E : forall i, i < length part -> filter (fun x => block_of part x =? i) l = filter (fun x => mem_idx x (nth i part [])) l).
  { intros i Hi. apply filter_ext_in. intros x H. destruct (block_of_lt part x (I x H)) as [B1 B2]. destruct (Nat.eqb_spec (block_of part x) i) as [<-|Q]; [symmetry; apply mem_idx_in, B2|]. symmetry. apply mem_idx_notin. intros R. apply Q. apply block_of_in; assumption. }
  split.
  - intros K i Hi. rewrite E by exact Hi. apply K, nth_In, Hi.
  - intros H b Hb. apply In_nth with (d := []) in Hb as (i & Hi & <-). rewrite <- E by exact Hi. apply H, Hi.
Qed.

Section Permuted.
  Context (part : list (list idx)) (self : list idx) (N : NoDup self) (P : Permutation (concat part) self).
  Local Lemma Nc : NoDup (concat part).
  Proof. apply (Permutation_NoDup (Permutation_sym P)), N. Qed.
  Definition shuffle (l : list idx) : Prop := Permutation l self /\ keeps_blocks part l.
  Lemma start_next : forall i, nth i (repeat 0 (length part)) 0 = 0.
  Proof. intros i. destruct (nth_in_or_default i (repeat 0 (length part)) 0) as [H|H]; [apply repeat_spec in H; exact H|exact H]. Qed.
  Lemma pick_shuffle perm : In perm (multiset_permutations (list_index part)) ->
    exists l, pick part (repeat 0 (length part)) perm = Ok l /\ shuffle l /\ map (fun x => Z.of_nat (block_of part x)) l = perm.
  Proof.
    intros H. apply in_multiset_permutations in H. destruct (pick_ok part Nc perm (repeat 0 (length part))) as (l & E & M & I & F).
    - apply repeat_length.
    - intros z Hz. apply in_list_index. apply (Permutation_in _ (Permutation_sym H)), Hz.
    - intros i Hi. rewrite start_next. cbn [Nat.add]. rewrite <- (zcount_perm i _ _ H). apply zcount_index; [exact Nc|exact Hi].
    - exists l. split; [exact E|]. split; [|exact M].
      assert (K : keeps_blocks part l). { apply keeps_filter; [exact Nc|exact I|]. intros i Hi. rewrite F by exact Hi. rewrite start_next. reflexivity. }
      split; [|exact K]. rewrite <- P. symmetry. apply NoDup_Permutation_bis; [exact Nc| |].
      + apply Permutation_length in H. rewrite list_index_blocks in H by exact Nc. rewrite <- M, !map_length in H. lia.
      + intros x Hx. apply in_concat in Hx as (b & Hb & Hx). pose proof (K b Hb) as Q. rewrite <- Q in Hx. apply filter_In in Hx as [Hx _]. exact Hx.
  Qed.
  Lemma shuffle_pick l : shuffle l -> exists perm, In perm (multiset_permutations (list_index part)) /\ pick part (repeat 0 (length part)) perm = Ok l.
  Proof.
    intros [Q K]. set (perm := map (fun x => Z.of_nat (block_of part x)) l). assert (H : In perm (multiset_permutations (list_index part))).
    { apply in_multiset_permutations. rewrite list_index_blocks by exact Nc. apply Permutation_map. rewrite P, Q. reflexivity. }
    exists perm. split; [exact H|]. destruct (pick_shuffle perm H) as (l' & E & [Q' K'] & M). rewrite E. f_equal. symmetry.
    apply (merge_unique (block_of part)); [apply blocks_of_eq; symmetry; exact M|].
    assert (I : forall m, Permutation m self -> forall x, In x m -> In x (concat part)) by (intros m Hm x Hx; apply (Permutation_in _ (Permutation_sym P)), (Permutation_in _ Hm), Hx).
    intros i Hi. apply in_map_iff in Hi as (x & <- & Hx). pose proof (proj1 (block_of_lt part x (I l Q x Hx))) as Li.
    rewrite (proj1 (keeps_filter part l Nc (I l Q)) K _ Li), (proj1 (keeps_filter part l' Nc (I l' Q')) K' _ Li). reflexivity.
  Qed.
End Permuted.
Lemma same_spins_eq a : forall b, same_spins a b = true <-> a = b.
Proof.
  induction a as [|x a IH]; intros [|y b]; cbn [same_spins]; try (split; [discriminate|discriminate]); [tauto|]. rewrite andb_true_iff, IH, Bool.eqb_true_iff. split; [intros [-> ->]; reflexivity|intros H; injection H; auto].
Qed.
Lemma permuted_ok t part self : itype_antisymmetric t = true -> NoDup self -> Permutation (concat part) self -> (t = SpinOrbital -> Forall (fun i => idx_beta i = false) self) ->
  exists r, permuted_indices t self part = Ok r /\ NoDup (map snd r) /\
    forall s l, In (s, l) r <-> Permutation l self /\ keeps_blocks part l /\ map idx_beta l = map idx_beta self /\ reorder_sign self l s.
Proof.
  intros T N P B. unfold permuted_indices. assert (V : valid_partition self part = Ok tt).
  { unfold valid_partition. rewrite (proj2 (forallb_forall _ _)); [reflexivity|]. intros b Hb. apply forallb_forall. intros x Hx. apply mem_idx_in. apply (Permutation_in _ P). apply in_concat. exists b. auto. }
  rewrite V. cbn [pybind]. rewrite T. set (f := fun perm : list Z => _) at 1.
  set (sg := fun l => match count_permutations self l with Ok n => sgn n | Raise _ => 0%Z end).
  set (h := fun perm => match pick part (repeat 0 (length part)) perm with Ok l => if same_spins (map idx_beta self) (map idx_beta l) then [(sg l, l)] else [] | Raise _ => [] end).
  assert (SG : forall l, Permutation l self -> exists n, count_permutations self l = Ok n /\ reorder_sign self l (sgn n)).
  { intros l Q. assert (Nl : NoDup l) by (apply (Permutation_NoDup (Permutation_sym Q)), N). destruct (count_permutations_ok self l N Nl) as [H _]. specialize (H (Permutation_sym Q)). eexists. split; [exact H|]. apply count_permutations_sign; assumption. }
  assert (F : forall perm, In perm (multiset_permutations (list_index part)) -> f perm = Ok (h perm)).
  { intros perm H. destruct (pick_shuffle part self N P perm H) as (l & E & [Q K] & M). unfold f, h. rewrite E. cbn [pybind]. destruct (same_spins (map idx_beta self) (map idx_beta l)) eqn:SS; [|reflexivity].
    apply same_spins_eq in SS. assert (Nl : NoDup l) by (apply (Permutation_NoDup (Permutation_sym Q)), N). unfold make_typed. rewrite (proj2 (nodup_idx_spec l) Nl).
    assert (EB : itype_eqb t SpinOrbital && existsb idx_beta l = false).
    { destruct (itype_eqb t SpinOrbital) eqn:Et; [|reflexivity]. cbn [andb]. assert (t = SpinOrbital) by (destruct t; try discriminate; reflexivity). destruct (existsb idx_beta l) eqn:EX; [|reflexivity]. apply existsb_exists in EX as (x & Hx & Bx). specialize (B H0). rewrite Forall_forall in B. rewrite (B x (Permutation_in _ Q Hx)) in Bx. discriminate. }
    rewrite EB. cbn [pybind]. destruct (SG l Q) as (n & En & _). unfold sg. rewrite En. reflexivity. }
  assert (E : pymap f (multiset_permutations (list_index part)) = Ok (map h (multiset_permutations (list_index part)))) by (apply pymap_total, F). rewrite E. cbn [pybind]. rewrite <- flat_map_concat_map.
  eexists. split; [reflexivity|]. split.
  - assert (G : forall ps, NoDup ps -> incl ps (multiset_permutations (list_index part)) -> NoDup (map snd (flat_map h ps))).
    { intros ps NP I. assert (EQ : map snd (flat_map h ps) = flat_map (fun p => map snd (h p)) ps) by (clear; induction ps as [|p ps IH]; [reflexivity|]; cbn [flat_map]; rewrite map_app, IH; reflexivity). rewrite EQ.
      apply NoDup_flat_map; [exact NP| |].
      - intros p Hp. destruct (pick_shuffle part self N P p (I p Hp)) as (l & El & _). unfold h. rewrite El. destruct (same_spins _ _); cbn; repeat constructor. intros [].
      - intros p q l Hp Hq Lp Lq. destruct (pick_shuffle part self N P p (I p Hp)) as (l1 & E1 & _ & M1). destruct (pick_shuffle part self N P q (I q Hq)) as (l2 & E2 & _ & M2). unfold h in Lp, Lq. rewrite E1 in Lp. rewrite E2 in Lq.
        destruct (same_spins _ (map idx_beta l1)); [|destruct Lp]. destruct (same_spins _ (map idx_beta l2)); [|destruct Lq]. cbn in Lp, Lq. destruct Lp as [<-|[]]. destruct Lq as [<-|[]]. congruence. }
    apply G; [apply nodup_multiset_perms|apply incl_refl].
  - intros s l. rewrite in_flat_map. split.
    + intros (perm & Hp & Hl). destruct (pick_shuffle part self N P perm Hp) as (l' & El & [Q K] & _). unfold h in Hl. rewrite El in Hl. destruct (same_spins _ (map idx_beta l')) eqn:SS; [|destruct Hl]. destruct Hl as [Hl|[]]. injection Hl as <- <-. apply same_spins_eq in SS. destruct (SG l' Q) as (n & En & R). unfold sg. rewrite En. auto.
    + intros (Q & K & SS & R). destruct (shuffle_pick part self N P l (conj Q K)) as (perm & Hp & El). exists perm. split; [exact Hp|]. unfold h. rewrite El. rewrite (proj2 (same_spins_eq _ _) (eq_sym SS)). left. f_equal. destruct (SG l Q) as (n & En & R'). unfold sg. rewrite En. apply (reorder_sign_unique self l); assumption.
Qed.

(** ** The number of multiset permutations *)
Definition zc (z : Z) (l : list Z) : nat := count_occ Z.eq_dec l z.
Lemma zc_remove x z l : In x l -> zc z l = zc z (remove_one x l) + (if Z.eq_dec x z then 1 else 0).
Proof.
  intros H. pose proof (remove_one_perm x l H) as Q. unfold zc. rewrite (proj1 (Permutation_count_occ Z.eq_dec l _) Q z). cbn [count_occ]. destruct (Z.eq_dec x z); lia.
Qed.
Lemma product_remove x l D : NoDup D -> In x l -> In x D -> product (map (fun z => fact (zc z l)) D) = zc x l * product (map (fun z => fact (zc z (remove_one x l))) D).
Proof.
  intros N H. induction N as [|d D Hd N IH]; intros Hx; [destruct Hx|]. cbn [map product fold_right]. fold product. destruct Hx as [->|Hx].
  - assert (E : map (fun z => fact (zc z l)) D = map (fun z => fact (zc z (remove_one x l))) D). { apply map_ext_in. intros z Hz. f_equal. rewrite (zc_remove x z l H). destruct (Z.eq_dec x z) as [->|]; [contradiction|lia]. }
    unfold product in *. rewrite E. rewrite (zc_remove x x l H). destruct (Z.eq_dec x x) as [_|]; [|congruence]. rewrite Nat.add_1_r. cbn [fact]. nia.
  - unfold product in *. rewrite (IH Hx). assert (E : zc d l = zc d (remove_one x l)). { rewrite (zc_remove x d l H). destruct (Z.eq_dec x d) as [->|]; [contradiction|lia]. } rewrite E. nia.
Qed.
Lemma sum_counts l : forall D, NoDup D -> incl l D -> list_sum (map (fun z => zc z l) D) = length l.
Proof.
  induction l as [|x l IH]; intros D N I.
  - assert (E : map (fun z => zc z []) D = map (fun _ => 0) D) by reflexivity. rewrite E. clear. induction D; [reflexivity|]. exact IHD.
  - cbn [length]. rewrite <- (IH D N) by (intros z Hz; apply I; right; exact Hz). assert (Hx : In x D) by (apply I; left; reflexivity). clear IH I. induction N as [|d D Hd N IHN]; [destruct Hx|]. cbn [map list_sum fold_right]. unfold list_sum in *. destruct Hx as [->|Hx].
    + assert (E : map (fun z => zc z (x :: l)) D = map (fun z => zc z l) D) by (apply map_ext_in; intros z Hz; unfold zc; cbn [count_occ]; destruct (Z.eq_dec x z) as [->|]; [contradiction|reflexivity]). rewrite E. unfold zc at 1 3. cbn [count_occ]. destruct (Z.eq_dec x x); [lia|congruence].
    + rewrite (IHN Hx). unfold zc at 1 3. cbn [count_occ]. destruct (Z.eq_dec x d) as [->|]; [contradiction|lia].
Qed.
Lemma multiset_count n : forall l D, length l = n -> NoDup D -> incl l D -> length (multiset_perms n l) * product (map (fun z => fact (zc z l)) D) = fact n.
Proof.
  induction n as [|n IH]; intros l D L N I.
  - destruct l; [|discriminate]. assert (E : product (map (fun z => fact (zc z [])) D) = 1).
    { clear. induction D as [|d D IH]; [reflexivity|]. unfold product in *. cbn [map fold_right]. rewrite IH. reflexivity. }
    rewrite E. reflexivity.
  - destruct l as [|x0 l0]; [discriminate|]. set (l := x0 :: l0) in *. change (multiset_perms (S n) l) with (flat_map (fun k => map (cons k) (multiset_perms n (remove_one k l))) (nodup Z.eq_dec (z_sort l))).
    assert (G : forall ks, incl ks l -> length (flat_map (fun k => map (cons k) (multiset_perms n (remove_one k l))) ks) * product (map (fun z => fact (zc z l)) D) = list_sum (map (fun z => zc z l) ks) * fact n).
    { induction ks as [|k ks IHk]; intros Ik; [reflexivity|]. cbn [flat_map map list_sum fold_right]. rewrite app_length, map_length, Nat.mul_add_distr_r, IHk by (intros z Hz; apply Ik; right; exact Hz).
      assert (Hk : In k l) by (apply Ik; left; reflexivity). rewrite (product_remove k l D N Hk (I k Hk)). pose proof (remove_one_perm k l Hk) as Q. pose proof (Permutation_length Q) as LQ. cbn [length] in LQ.
      assert (J : length (multiset_perms n (remove_one k l)) * product (map (fun z => fact (zc z (remove_one k l))) D) = fact n). { apply IH; [lia|exact N|]. intros z Hz. apply I. apply (Permutation_in _ (Permutation_sym Q)). right. exact Hz. }
      unfold list_sum. nia. }
    rewrite G by (intros z Hz; apply in_distinct, Hz). rewrite sum_counts; [rewrite L; reflexivity|apply NoDup_nodup|intros z Hz; apply in_distinct, Hz].
Qed.
Lemma shuffles_count part self : NoDup (concat part) -> Permutation (concat part) self ->
  length (multiset_permutations (list_index part)) * product (map (fun b => fact (length b)) part) = fact (length self).
Proof.
  intros Nc' P.
  assert (LL : length (list_index part) = length self) by (rewrite list_index_blocks, map_length by exact Nc'; apply Permutation_length, P).
  pose proof (multiset_count (length (list_index part)) (list_index part) (map Z.of_nat (seq 0 (length part))) eq_refl) as C. rewrite LL in C at 2. rewrite <- C; [unfold multiset_permutations; f_equal|apply FinFun.Injective_map_NoDup; [intros a b; apply Nat2Z.inj|apply seq_NoDup]|].
  - rewrite map_map. f_equal. transitivity (map (fun i => fact (length (nth i part []))) (seq 0 (length part))).
    + transitivity (map (fun i => fact (length (nth i part []))) (seq 0 (length part))); [|reflexivity]. clear. rewrite <- (map_map (fun i => nth i part []) (fun b => fact (length b))). f_equal. clear. induction part as [|b part IH]; [reflexivity|]. cbn [length seq map nth]. f_equal. rewrite <- seq_shift, map_map. exact IH.
    + apply map_ext_in. intros i Hi. apply in_seq in Hi. f_equal. rewrite <- (zcount_index part i Nc') by lia. unfold zcount, zc. clear. induction (list_index part) as [|z l IH]; [reflexivity|]. cbn [filter count_occ]. destruct (Z.eqb_spec z (Z.of_nat i)), (Z.eq_dec z (Z.of_nat i)); try contradiction; cbn [length]; congruence.
  - intros z Hz. apply in_list_index in Hz as (i & -> & Hi). apply in_map. apply in_seq. lia.
Qed.
Lemma n_multiset_ok t part self : itype_antisymmetric t = true -> NoDup self -> Permutation (concat part) self ->
  exists n, n_multiset_permutation t self part = Ok n /\ n * product (map (fun b => fact (length b)) part) = fact (length self).
Proof.
  intros T N P. assert (Nc' : NoDup (concat part)) by (apply (Permutation_NoDup (Permutation_sym P)), N).
  assert (V : valid_partition self part = Ok tt).
  { unfold valid_partition. rewrite (proj2 (forallb_forall _ _)); [reflexivity|]. intros b Hb. apply forallb_forall. intros x Hx. apply mem_idx_in. apply (Permutation_in _ P). apply in_concat. exists b. auto. }
  unfold n_multiset_permutation, exist_permute_format. rewrite V. cbn [pybind]. rewrite T. cbn [andb].
  pose proof (shuffles_count part self Nc' P) as ML.
  destruct (Nat.eqb_spec (length self) 0) as [E0|E0].
  - exists 1. split; [reflexivity|]. rewrite E0. assert (C0 : concat part = []) by (apply length_zero_iff_nil; rewrite (Permutation_length P); exact E0). clear - C0. induction part as [|b part IH]; [reflexivity|]. cbn [concat] in C0. apply app_eq_nil in C0 as [-> C0]. specialize (IH C0). unfold product in *. cbn [map fold_right length]. change (fact 0) with 1 in *. lia.
  - destruct (Nat.ltb_spec 1 (length part)) as [L|L]; cbn [negb]; [eexists; split; [reflexivity|exact ML]|]. exists 1. split; [reflexivity|]. destruct part as [|b [|b' part]]; cbn in L; try lia.
    + cbn in P. apply Permutation_nil in P. subst. reflexivity.
    + cbn [concat] in P. rewrite app_nil_r in P. apply Permutation_length in P. unfold product. cbn [map fold_right]. rewrite P. lia.
Qed.

Lemma product_pos l : product (map (fun b : list idx => fact (length b)) l) > 0.
Proof. unfold product. induction l as [|b l IH]; cbn [map fold_right]; [lia|]. pose proof (lt_O_fact (length b)). nia. Qed.
Lemma n_multiset_shuffles t part self : itype_antisymmetric t = true -> NoDup self -> Permutation (concat part) self ->
  n_multiset_permutation t self part = Ok (length (multiset_permutations (list_index part))).
Proof.
  intros T N P. destruct (n_multiset_ok t part self T N P) as (n & E & C). rewrite E. f_equal.
  pose proof (shuffles_count part self (Permutation_NoDup (Permutation_sym P) N) P) as D. pose proof (product_pos part). nia.
Qed.
(** all shuffles are yielded if the spins are all the same *)
Lemma permuted_count t part self r : itype_antisymmetric t = true -> NoDup self -> Permutation (concat part) self -> (t = SpinOrbital -> Forall (fun i => idx_beta i = false) self) ->
  (exists s, Forall (fun i => idx_beta i = s) self) -> permuted_indices t self part = Ok r -> length r = length (multiset_permutations (list_index part)).
Proof.
  intros T N P B [s0 U] Er. destruct (permuted_ok t part self T N P B) as (r' & Er' & Nr & Hr). rewrite Er in Er'. injection Er' as <-.
  set (f := fun l : list idx => map (fun x => Z.of_nat (block_of part x)) l).
  assert (Pm : Permutation (map f (map snd r)) (multiset_permutations (list_index part))).
  { apply NoDup_Permutation; [|apply nodup_multiset_perms|].
    - assert (G : forall ls, NoDup ls -> (forall l, In l ls -> shuffle part self l) -> NoDup (map f ls)).
      { intros ls Nl. induction Nl as [|l ls Hl Nl IH]; intros I; [constructor|]. cbn [map]. constructor; [|apply IH; intros x Hx; apply I; right; exact Hx]. intros H. apply in_map_iff in H as (l' & Ef & Hl'). apply Hl.
        destruct (shuffle_pick part self N P l (I l (or_introl eq_refl))) as (p1 & H1 & Q1). destruct (shuffle_pick part self N P l' (I l' (or_intror Hl'))) as (p2 & H2 & Q2).
        destruct (pick_shuffle part self N P p1 H1) as (k1 & R1 & _ & M1). destruct (pick_shuffle part self N P p2 H2) as (k2 & R2 & _ & M2). rewrite Q1 in R1. rewrite Q2 in R2. injection R1 as <-. injection R2 as <-. unfold f in Ef. assert (p1 = p2) as -> by (rewrite <- M1, <- M2; symmetry; exact Ef). assert (l = l') by congruence. subst. exact Hl'. }
      apply G; [exact Nr|]. intros l Hl. apply in_map_iff in Hl as ([s l'] & <- & Hl). apply Hr in Hl. split; apply Hl.
    - intros perm. split.
      + intros H. apply in_map_iff in H as (l & <- & Hl). apply in_map_iff in Hl as ([s l'] & <- & Hl). apply Hr in Hl as (Q & K & _). destruct (shuffle_pick part self N P l' (conj Q K)) as (p1 & H1 & Q1). destruct (pick_shuffle part self N P p1 H1) as (k1 & R1 & _ & M1). cbn [snd]. rewrite Q1 in R1. injection R1 as <-. unfold f. rewrite M1. exact H1.
      + intros H. destruct (pick_shuffle part self N P perm H) as (l & El & [Q K] & M). apply in_map_iff. exists l. split; [exact M|]. destruct (reorder_sign_exists self l) as [s Hs]; [apply Permutation_sym, Q|]. apply in_map_iff. exists (s, l). split; [reflexivity|]. apply Hr. repeat split; try assumption.
        assert (W : forall m, Forall (fun i => idx_beta i = s0) m -> map idx_beta m = repeat s0 (length m)) by (intros m Hm; induction Hm as [|x m Hx Hm IH]; [reflexivity|]; cbn; congruence).
        rewrite (W self U), (W l), (Permutation_length Q); [reflexivity|]. apply (Permutation_Forall (Permutation_sym Q)), U. }
  apply Permutation_length in Pm. rewrite !map_length in Pm. exact Pm.
Qed.
(** one representative for every ordering *)
Lemma representative t part self r l : itype_antisymmetric t = true -> NoDup self -> Permutation (concat part) self -> (t = SpinOrbital -> Forall (fun i => idx_beta i = false) self) ->
  (forall b, In b part -> exists s, Forall (fun i => idx_beta i = s) b) -> permuted_indices t self part = Ok r ->
  Permutation l self -> map idx_beta l = map idx_beta self ->
  exists q, In q (map snd r) /\ same_blocks part l q /\ forall q', In q' (map snd r) -> same_blocks part l q' -> q' = q.
Proof.
  intros T N P B Pure Er Ql Sl. destruct (permuted_ok t part self T N P B) as (r' & Er' & Nr & Hr). rewrite Er in Er'. injection Er' as <-.
  assert (Nc' : NoDup (concat part)) by (apply (Permutation_NoDup (Permutation_sym P)), N).
  assert (I : forall m, Permutation m self -> forall x, In x m -> In x (concat part)) by (intros m Hm x Hx; apply (Permutation_in _ (Permutation_sym P)), (Permutation_in _ Hm), Hx).
  set (perm := map (fun x => Z.of_nat (block_of part x)) l). assert (H : In perm (multiset_permutations (list_index part))).
  { apply in_multiset_permutations. rewrite list_index_blocks by exact Nc'. apply Permutation_map. rewrite P, Ql. reflexivity. }
  destruct (pick_shuffle part self N P perm H) as (q & E & [Q K] & M). assert (SB : same_blocks part l q) by (unfold same_blocks; apply blocks_of_eq; symmetry; exact M).
  assert (Sp : map idx_beta q = map idx_beta l).
  { assert (G : forall a b, (forall x, In x a -> In x (concat part)) -> (forall x, In x b -> In x (concat part)) -> map (block_of part) a = map (block_of part) b -> map idx_beta b = map idx_beta a).
    { induction a as [|x a IH]; intros [|y b] Ia Ib Hm; try discriminate; [reflexivity|]. cbn [map] in *. injection Hm as H1 H2. f_equal; [|apply IH; [intros z Hz; apply Ia; right; exact Hz|intros z Hz; apply Ib; right; exact Hz|exact H2]].
      destruct (block_of_lt part x (Ia x (or_introl eq_refl))) as [L1 I1]. destruct (block_of_lt part y (Ib y (or_introl eq_refl))) as [L2 I2]. rewrite <- H1 in I2. destruct (Pure (nth (block_of part x) part [])) as [s Fs]; [apply nth_In, L1|]. rewrite Forall_forall in Fs. rewrite (Fs y I2), (Fs x I1). reflexivity. }
    apply G; [apply I, Ql|apply I, Q|exact SB]. }
  exists q. split; [|split; [exact SB|]].
  - destruct (reorder_sign_exists self q) as [s Hs]; [apply Permutation_sym, Q|]. apply in_map_iff. exists (s, q). split; [reflexivity|]. apply Hr. repeat split; try assumption. congruence.
  - intros q' Hq' SB'. apply in_map_iff in Hq' as ([s l'] & E' & Hl). cbn in E'. subst l'. apply Hr in Hl as (Q' & K' & _).
    apply (merge_unique (block_of part)); [unfold same_blocks in *; congruence|].
    intros i Hi. apply in_map_iff in Hi as (x & <- & Hx). pose proof (proj1 (block_of_lt part x (I q' Q' x Hx))) as Li.
    rewrite (proj1 (keeps_filter part q' Nc' (I q' Q')) K' _ Li), (proj1 (keeps_filter part q Nc' (I q Q)) K _ Li). reflexivity.
Qed.
(** the texts are different *)
Lemma indices_str_inj l : forall m, indices_str l = indices_str m -> l = m.
Proof.
  assert (A : forall i j (r s : text), list_ascii_of_string (index_name (fst i) (snd i)) ++ ","%char :: r = list_ascii_of_string (index_name (fst j) (snd j)) ++ ","%char :: s -> i = j /\ r = s).
  { intros [a n] [b k] r s. cbn [fst snd]. rewrite !index_name_chars. cbn [app]. intros H. injection H as H1 H2. apply split_at in H2 as [H2 ->]; [|apply not_in_decimal; reflexivity..]. apply label_char_inj in H1 as ->. apply decimal_inj in H2 as ->. auto. }
  assert (C : forall k l', indices_str (k :: l') ++ [","%char] = list_ascii_of_string (index_name (fst k) (snd k)) ++ ","%char :: match l' with [] => [] | _ => indices_str l' ++ [","%char] end).
  { intros k [|k' l']; [reflexivity|]. unfold indices_str. cbn [map join]. rewrite <- app_assoc. cbn [app]. reflexivity. }
  assert (NN : forall k l', indices_str (k :: l') <> []). { intros k l' H. pose proof (C k l') as D. rewrite H in D. rewrite index_name_chars in D. cbn in D. injection D as D1 D2. destruct (decimal (snd k)); discriminate. }
  induction l as [|i l IH]; intros [|j m] E; [reflexivity|exfalso; apply (NN j m); symmetry; exact E|exfalso; apply (NN i l); exact E|].
  pose proof (C i l) as D. rewrite E, C in D. apply A in D as [-> D]. f_equal. destruct l as [|i' l], m as [|j' m]; [reflexivity| | |].
  - destruct (indices_str (j' :: m)); discriminate.
  - destruct (indices_str (i' :: l)); discriminate.
  - apply app_inj_tail in D as [D _]. apply IH. symmetry. exact D.
Qed.
