(** The leg-level backtracking generators enumerate all compatible families. *)
From Verif Require Import PyBase SpaceModel IndicesModel IndicesProofs ElemModel ElemSpec ElemProofs IterProofs
  HalfProofs CumulantProofs CodeModel CodeProofs CompatSpec CompatProofs.
From Coq Require Import ZArith.

(** ** families of sets *)
Lemma Forall2_refl {A} (R : A -> A -> Prop) l : (forall x, R x x) -> Forall2 R l l.
Proof. intros H. induction l; constructor; auto. Qed.
Lemma Forall2_trans {A} (R : A -> A -> Prop) a b c : (forall x y z, R x y -> R y z -> R x z) ->
  Forall2 R a b -> Forall2 R b c -> Forall2 R a c.
Proof.
  intros H F; revert c; induction F as [|x y a b Hxy F IH]; intros c G; inversion G; subst; constructor; eauto.
Qed.
Lemma Forall2_sym {A} (R : A -> A -> Prop) a b : (forall x y, R x y -> R y x) -> Forall2 R a b -> Forall2 R b a.
Proof. intros H F. induction F; constructor; auto. Qed.

Lemma sf_refl {A} (l : list (list A)) : same_families l l.
Proof. exists l. split; [apply Forall2_refl; reflexivity|reflexivity]. Qed.
Lemma sf_perm {A} (l m : list (list A)) : Permutation l m -> same_families l m.
Proof. intros H. exists l. split; [apply Forall2_refl; reflexivity|exact H]. Qed.
Lemma sf_forall2 {A} (l m : list (list A)) : Forall2 (@Permutation A) l m -> same_families l m.
Proof. intros H. exists m. split; [exact H|reflexivity]. Qed.
Lemma sf_trans {A} (a b c : list (list A)) : same_families a b -> same_families b c -> same_families a c.
Proof.
  intros [a' [F1 P1]] [b' [F2 P2]].
  symmetry in P1. destruct (Permutation_Forall2 P1 F2) as [b'' [Q F3]].
  exists b''. split; [|rewrite <- Q; exact P2].
  eapply Forall2_trans; [|exact F1|exact F3]. intros x y z; apply perm_trans.
Qed.
Lemma sf_sym {A} (a b : list (list A)) : same_families a b -> same_families b a.
Proof.
  intros [a' [F P]]. apply Forall2_sym in F; [|intros; symmetry; assumption].
  destruct (Permutation_Forall2 P F) as [c [Q G]]. exists c. split; [exact G|symmetry; exact Q].
Qed.
Lemma sf_app {A} (a b c d : list (list A)) : same_families a b -> same_families c d -> same_families (a ++ c) (b ++ d).
Proof.
  intros [a' [F1 P1]] [c' [F2 P2]]. exists (a' ++ c'). split; [apply Forall2_app; assumption|apply Permutation_app; assumption].
Qed.
Lemma sf_map {A B} (f : list A -> list B) a b : (forall x y, Permutation x y -> Permutation (f x) (f y)) ->
  same_families a b -> same_families (map f a) (map f b).
Proof.
  intros H [a' [F P]]. exists (map f a'). split; [|apply Permutation_map; exact P].
  clear P. induction F; constructor; auto.
Qed.
Lemma sf_map_ext {A B} (f g : list A -> list B) a : (forall x, In x a -> Permutation (f x) (g x)) -> same_families (map f a) (map g a).
Proof.
  intros H. apply sf_forall2. induction a as [|x a IH]; cbn [map]; constructor; [apply H; left; reflexivity|].
  apply IH. intros y Hy. apply H. right; exact Hy.
Qed.
Lemma perm_filter {A} (p : A -> bool) (a b : list A) : Permutation a b -> Permutation (filter p a) (filter p b).
Proof.
  induction 1 as [|x l l' H IH|x y l|l l' l'' H1 IH1 H2 IH2]; cbn [filter]; [reflexivity| | |etransitivity; eassumption].
  - destruct (p x); [constructor|]; assumption.
  - destruct (p x), (p y); try reflexivity. apply perm_swap.
Qed.
Lemma sf_filter {A} (p : list A -> bool) a b : (forall x y, Permutation x y -> p x = p y) ->
  same_families a b -> same_families (filter p a) (filter p b).
Proof.
  intros H [a' [F P]]. exists (filter p a'). split; [|apply perm_filter; exact P].
  clear P. induction F as [|x y u v Hxy F IH]; cbn [filter]; [constructor|]. rewrite (H x y Hxy). destruct (p y); [constructor|]; assumption.
Qed.

(** ** powersets *)
Lemma powerset_perm {A} (l m : list A) : Permutation l m -> same_families (powerset l) (powerset m).
Proof.
  induction 1 as [|x l l' H IH|x y l|l l' l'' H1 IH1 H2 IH2]; cbn [powerset].
  - apply sf_refl.
  - apply sf_app; [|exact IH]. apply sf_map; [|exact IH]. intros; constructor; assumption.
  - rewrite !map_app, !map_map, <- !app_assoc. apply sf_app.
    + apply sf_map_ext. intros; apply perm_swap.
    + apply sf_perm. rewrite !app_assoc. apply Permutation_app_tail, Permutation_app_comm.
  - eapply sf_trans; eassumption.
Qed.
Lemma filter_map' {A B} (f : A -> B) (p : B -> bool) l : filter p (map f l) = map f (filter (fun x => p (f x)) l).
Proof. induction l as [|x l IH]; [reflexivity|]. cbn [map filter]. destruct (p (f x)); cbn [map]; rewrite IH; reflexivity. Qed.
Lemma filter_filter {A} (p q : A -> bool) l : filter p (filter q l) = filter (fun x => q x && p x) l.
Proof. induction l as [|x l IH]; [reflexivity|]. cbn [filter]. destruct (q x); cbn [andb filter]; rewrite IH; reflexivity. Qed.
Lemma filter_ext_in' {A} (p q : A -> bool) l : (forall x, In x l -> p x = q x) -> filter p l = filter q l.
Proof.
  induction l as [|x l IH]; intros H; [reflexivity|]. cbn [filter]. rewrite (H x) by (left; reflexivity).
  rewrite IH by (intros y Hy; apply H; right; exact Hy). reflexivity.
Qed.
Lemma powerset_filter {A} (p : A -> bool) l : filter (forallb p) (powerset l) = powerset (filter p l).
Proof.
  induction l as [|x l IH]; [reflexivity|]. cbn [powerset filter]. rewrite filter_app, filter_map', IH.
  destruct (p x) eqn:E; cbn [powerset].
  - f_equal. rewrite <- IH. f_equal. apply filter_ext. intros s. cbn. rewrite E. reflexivity.
  - rewrite (filter_false (fun s => forallb p (x :: s))); [reflexivity|]. intros s _. cbn. rewrite E. reflexivity.
Qed.
Lemma in_powerset {A} (l s : list A) : In s (powerset l) <-> subseq s l.
Proof.
  revert s; induction l as [|x l IH]; intros s; cbn [powerset].
  - simpl. split; [intros [<-|[]]; constructor|]. inversion 1; left; reflexivity.
  - rewrite in_app_iff, in_map_iff. split.
    + intros [[t [<- Ht]]|H]; [apply subseq_keep|apply subseq_skip]; apply IH; assumption.
    + intros H. inversion H as [|y c' l' H' Ec El|y c' l' H' Ec El]; subst.
      * left. exists c'. split; [reflexivity|apply IH, H'].
      * right. apply IH, H'.
Qed.
Lemma nodup_powerset {A} (l : list A) : NoDup l -> NoDup (powerset l).
Proof.
  induction 1 as [|x l Hx N IH]; cbn [powerset]; [repeat constructor; simpl; tauto|].
  apply NoDup_app_intro; [apply NoDup_map_in; [congruence|exact IH]|exact IH|].
  intros s H1 H2. apply in_map_iff in H1 as [t [<- _]]. apply in_powerset, subseq_incl in H2. apply Hx, H2. left; reflexivity.
Qed.

Lemma forallb_perm {A} (p : A -> bool) l m : Permutation l m -> forallb p l = forallb p m.
Proof.
  induction 1; cbn; [reflexivity|congruence| |congruence]. rewrite !andb_assoc. f_equal. apply andb_comm.
Qed.
Lemma pairwise_perm {A} (r : A -> A -> bool) (Hs : forall x y, r x y = r y x) l m : Permutation l m -> pairwise r l = pairwise r m.
Proof.
  induction 1 as [|x l l' H IH|x y l|l l' l'' H1 IH1 H2 IH2]; cbn [pairwise].
  - reflexivity.
  - rewrite IH, (forallb_perm _ _ _ H). reflexivity.
  - cbn [forallb]. rewrite (Hs y x). destruct (r x y), (forallb (r y) l), (forallb (r x) l); reflexivity.
  - congruence.
Qed.

(** ** sets as lists *)
Lemma set_remove_perm x s : NoDup s -> In x s -> Permutation s (x :: set_remove x s).
Proof.
  intros N H. induction N as [|y s Hy N IH]; [destruct H|]. unfold set_remove in *. cbn [filter].
  destruct (Nat.eqb_spec x y) as [->|Ne]; cbn [negb].
  - rewrite (filter_true _ s); [reflexivity|]. intros z Hz. apply negb_true_iff, Nat.eqb_neq. intros ->. contradiction.
  - destruct H as [->|H]; [congruence|]. rewrite (IH H) at 1. apply perm_swap.
Qed.
Lemma set_remove_in x y s : In y (set_remove x s) <-> In y s /\ y <> x.
Proof.
  unfold set_remove. rewrite filter_In, negb_true_iff, Nat.eqb_neq. intuition congruence.
Qed.
Lemma set_remove_length x s : In x s -> length (set_remove x s) < length s.
Proof.
  unfold set_remove. induction s as [|y s IH]; cbn [filter In length]; [tauto|].
  assert (G : length (filter (fun y => negb (x =? y)) s) <= length s).
  { clear. induction s as [|z s IH]; cbn; [lia|]. destruct (negb (x =? z)); cbn; lia. }
  intros [->|H]; [rewrite Nat.eqb_refl; cbn; lia|]. apply IH in H. destruct (negb (x =? y)); cbn; lia.
Qed.
Lemma filter_len {A} (f : A -> bool) l : length (filter f l) <= length l.
Proof. induction l as [|x l IH]; cbn; [lia|]. destruct (f x); cbn; lia. Qed.

Lemma pop_in pick path x s : In (pop_element pick path x s) (x :: s).
Proof. unfold pop_element. apply nth_In. apply Nat.mod_upper_bound. discriminate. Qed.

Lemma set_remove_add x s : NoDup s -> ~ In x s -> Permutation (set_remove x (set_add x s)) s.
Proof.
  intros N H. pose proof (set_remove_perm x (set_add x s) (nodup_set_add x s N) (proj2 (in_set_add x x s) (or_introl eq_refl))) as P.
  assert (Q : Permutation (set_add x s) (x :: s)).
  { unfold set_add. apply mem_nat_notin in H. rewrite H. symmetry. apply Permutation_cons_append. }
  symmetry in Q. pose proof (perm_trans Q P) as R. apply Permutation_cons_inv in R. symmetry. exact R.
Qed.
Lemma set_add_perm x s : ~ In x s -> Permutation (set_add x s) (x :: s).
Proof. intros H. unfold set_add. apply mem_nat_notin in H. rewrite H. symmetry. apply Permutation_cons_append. Qed.
Lemma set_remove_mor x s t : Permutation s t -> Permutation (set_remove x s) (set_remove x t).
Proof. apply perm_filter. Qed.

(** ** the general generator *)
Section General.
  Context (pick : popper) (compatible : list (nat * list nat)) (translator : list econ) (desired : Z * Z).
  Definition compat_rel (i j : nat) : bool := mem_nat j (compatible_with compatible i).
  Definition n_legs (x : nat) : nat := match nth_error translator x with Some e => 2 * length (upper e) | None => 0 end.
  Definition legs_sum (s : list nat) : nat := nsum (map n_legs s).
  Definition in_range (n : nat) : bool := ((fst desired <=? Z.of_nat n) && (Z.of_nat n <=? snd desired))%Z.
  Context (Hsym : forall i j, compat_rel i j = compat_rel j i).

  Definition good (chosen : list nat) (n : nat) (s : list nat) : bool :=
    negb (length (s ++ chosen) =? 0) && in_range (n + legs_sum s) && pairwise compat_rel s.

  Lemma nsum_perm a b : Permutation a b -> nsum a = nsum b.
  Proof. induction 1; cbn [nsum fold_right] in *; unfold nsum in *; lia. Qed.
  Lemma good_perm chosen n s t : Permutation s t -> good chosen n s = good chosen n t.
  Proof.
    intros P. unfold good, legs_sum. rewrite !app_length, (Permutation_length P), (pairwise_perm compat_rel Hsym _ _ P).
    rewrite (nsum_perm _ _ (Permutation_map n_legs P)). reflexivity.
  Qed.

  Lemma composite_backtrack_spec fuel path available chosen n :
    length available < fuel -> NoDup available -> NoDup chosen -> (forall x, In x available -> ~ In x chosen) ->
    (forall x, In x available -> x < length translator) ->
    exists ys available' chosen',
      composite_backtrack fuel pick path available chosen compatible n translator desired = Ok (ys, available', chosen') /\
      Permutation available' available /\ Permutation chosen' chosen /\
      same_families ys (map (fun s => s ++ chosen) (filter (good chosen n) (powerset available))).
  Proof.
    revert path available chosen n; induction fuel as [|fuel IH]; intros path available chosen n Hf Ha Hc Hd Ht; [lia|].
    cbn [composite_backtrack]. destruct available as [|x s].
    - eexists _, _, _. split; [reflexivity|]. split; [reflexivity|]. split; [reflexivity|].
      cbn [powerset filter]. unfold good at 1, legs_sum. cbn [app map nsum fold_right pairwise]. rewrite Nat.add_0_r, andb_true_r.
      fold (in_range n). destruct (negb (length chosen =? 0) && in_range n); apply sf_refl.
    - set (temp := pop_element pick path x s). set (avail := x :: s) in *.
      assert (Hin : In temp avail) by apply pop_in.
      set (avail1 := set_remove temp avail).
      pose proof (set_remove_perm temp avail Ha Hin) as P1. fold avail1 in P1.
      assert (N1 : NoDup avail1 /\ ~ In temp avail1).
      { apply (Permutation_NoDup P1) in Ha. inversion Ha; split; assumption. }
      destruct N1 as [N1 N1'].
      assert (I1 : forall y, In y avail1 -> In y avail) by (intros y Hy; apply set_remove_in in Hy; apply Hy).
      assert (L1 : length avail1 < length avail) by (apply set_remove_length, Hin).
      destruct (nth_error translator temp) as [e|] eqn:Ee; [|apply nth_error_None in Ee; apply Ht in Hin; lia].
      unfold get_item. rewrite Ee. cbn [pybind].
      assert (Htc : ~ In temp chosen) by (apply Hd, Hin).
      destruct (IH (true :: path) (set_inter avail1 (compatible_with compatible temp)) (set_add temp chosen) (n + 2 * length (upper e)))
        as (ys1 & a1 & c1 & E1 & Pa1 & Pc1 & S1).
      { unfold set_inter. pose proof (filter_len (fun x => mem_nat x (compatible_with compatible temp)) avail1). lia. }
      { apply NoDup_filter', N1. }
      { apply nodup_set_add, Hc. }
      { intros y Hy. apply filter_In in Hy as [Hy _]. rewrite in_set_add. intros [->|G]; [contradiction|]. exact (Hd y (I1 y Hy) G). }
      { intros y Hy. apply filter_In in Hy as [Hy _]. apply Ht, I1, Hy. }
      rewrite E1. cbn [pybind fst snd].
      assert (Pc2 : Permutation (set_remove temp c1) chosen).
      { rewrite (set_remove_mor temp _ _ Pc1). apply set_remove_add; assumption. }
      destruct (IH (false :: path) avail1 (set_remove temp c1) n) as (ys2 & a2 & c2 & E2 & Pa2 & Pc3 & S2).
      { lia. } { exact N1. } { apply (Permutation_NoDup (Permutation_sym Pc2)), Hc. }
      { intros y Hy G. apply (Permutation_in _ Pc2) in G. exact (Hd y (I1 y Hy) G). }
      { intros y Hy. apply Ht, I1, Hy. }
      rewrite E2. cbn [pybind fst snd]. eexists _, _, _. split; [reflexivity|].
      split.
      { rewrite set_add_perm by (intros G; apply (Permutation_in _ Pa2) in G; contradiction). rewrite Pa2. symmetry. exact P1. }
      split; [rewrite Pc3; exact Pc2|].
      eapply sf_trans; [apply sf_app; [exact S1|exact S2]|]. apply sf_sym.
      eapply sf_trans.
      { apply sf_map; [intros a b Pab; apply Permutation_app_tail; exact Pab|].
        apply sf_filter; [intros a b Pab; apply good_perm; exact Pab|]. apply powerset_perm. exact P1. }
      cbn [powerset]. rewrite filter_app, map_app. apply sf_app.
      + rewrite filter_map', map_map.
        assert (EQ : filter (fun s0 => good chosen n (temp :: s0)) (powerset avail1) =
                     filter (good (set_add temp chosen) (n + 2 * length (upper e))) (powerset (set_inter avail1 (compatible_with compatible temp)))).
        { unfold set_inter. rewrite <- powerset_filter, filter_filter. apply filter_ext. intros t. unfold good.
          cbn [app length pairwise]. rewrite !app_length. unfold legs_sum. cbn [map nsum fold_right].
          replace (n_legs temp) with (2 * length (upper e)) by (unfold n_legs; rewrite Ee; reflexivity).
          fold (nsum (map n_legs t)). rewrite Nat.add_assoc.
          change (forallb (compat_rel temp) t) with (forallb (fun y => mem_nat y (compatible_with compatible temp)) t).
          rewrite (Permutation_length (set_add_perm temp chosen Htc)). cbn [length].
          rewrite Nat.add_succ_r. cbn [Nat.eqb negb andb].
          destruct (in_range _), (forallb _ t), (pairwise compat_rel t); reflexivity. }
        rewrite EQ. apply sf_map_ext. intros t _. rewrite set_add_perm by exact Htc. cbn [app]. apply Permutation_middle.
      + rewrite (filter_ext (good chosen n) (good (set_remove temp c1) n)).
        * apply sf_map_ext. intros t _. apply Permutation_app_head. symmetry. exact Pc2.
        * intros t. unfold good. rewrite !app_length, (Permutation_length Pc2). reflexivity.
  Qed.
End General.

(** ** the categorized generator *)
Lemma counter_add_keys c z t : map fst (counter_add c z t) = map fst t.
Proof. unfold counter_add. rewrite map_map. apply map_ext. intros kv. destruct (key_eqb c (fst kv)); reflexivity. Qed.
Lemma counter_add_inv c z t : counter_add c z (counter_add c (- z) t) = t.
Proof.
  unfold counter_add. rewrite map_map. rewrite <- (map_id t) at 2. apply map_ext. intros [k n]. cbn [fst snd].
  destruct (key_eqb c k) eqn:E; cbn [fst snd]; rewrite E; [|reflexivity]. f_equal. lia.
Qed.
Lemma counter_get_add c c' z t : In c (map fst t) ->
  counter_get c (counter_add c' z t) = (counter_get c t + (if key_eqb c' c then z else 0))%Z.
Proof.
  unfold counter_get. induction t as [|[k n] t IH]; intros H; [destruct H|].
  cbn [counter_add map fst snd]. cbn [map fst In] in H.
  destruct (key_eqb c k) eqn:E.
  - apply key_eqb_eq in E. subst k. destruct (key_eqb c' c) eqn:E2; cbn [dict_get fst]; rewrite (proj2 (key_eqb_eq c c) eq_refl); lia.
  - assert (dict_get key_eqb c ((if key_eqb c' k then (k, (n + z)%Z) else (k, n)) :: map (fun kv => if key_eqb c' (fst kv) then (fst kv, (snd kv + z)%Z) else kv) t)
            = dict_get key_eqb c (counter_add c' z t)) as ->.
    { destruct (key_eqb c' k); cbn [dict_get]; rewrite E; reflexivity. }
    cbn [dict_get]. rewrite E. apply IH. destruct H as [->|H]; [|exact H].
    rewrite (proj2 (key_eqb_eq c c) eq_refl) in E. discriminate.
Qed.
Lemma counter_get_in t kv : NoDup (map fst t) -> In kv t -> counter_get (fst kv) t = snd kv.
Proof.
  intros N H. unfold counter_get. destruct kv as [k n]. apply (dict_get_in key_eqb key_eqb_eq) in H; [|exact N].
  cbn [fst snd]. rewrite H. reflexivity.
Qed.

Section Cat.
  Context {V : Type} (E : ecc V) (pick : popper) (compatible : list (nat * list nat)) (cat : nat -> list nat).
  Let rel := compat_rel compatible.
  Context (Hsym : forall i j, rel i j = rel j i).

  Definition n_cat (c : list nat) (s : list nat) : Z := Z.of_nat (length (filter (fun x => key_eqb c (cat x)) s)).
  Definition hits (target : list (list nat * Z)) (s : list nat) : bool :=
    forallb (fun kv => (n_cat (fst kv) s =? snd kv)%Z) target.
  Definition goodc (target : list (list nat * Z)) (s : list nat) : bool := pairwise rel s && hits target s.

  Lemma n_cat_perm c s t : Permutation s t -> n_cat c s = n_cat c t.
  Proof. intros P. unfold n_cat. f_equal. apply Permutation_length, perm_filter, P. Qed.
  Lemma goodc_perm target s t : Permutation s t -> goodc target s = goodc target t.
  Proof.
    intros P. unfold goodc, hits. rewrite (pairwise_perm rel Hsym _ _ P). f_equal.
    induction target as [|kv l IH]; [reflexivity|]. cbn [forallb]. rewrite IH, (n_cat_perm _ _ _ P). reflexivity.
  Qed.
  Lemma n_cat_cons c x s : n_cat c (x :: s) = (n_cat c s + (if key_eqb c (cat x) then 1 else 0))%Z.
  Proof. unfold n_cat. cbn [filter]. destruct (key_eqb c (cat x)); cbn [length]; lia. Qed.
  Lemma n_cat_nonneg c s : (0 <= n_cat c s)%Z.
  Proof. unfold n_cat. lia. Qed.

  Lemma hits_cons target con s : hits target (con :: s) = hits (counter_add (cat con) (-1) target) s.
  Proof.
    unfold hits, counter_add. induction target as [|[k n] t IH]; [reflexivity|]. cbn [forallb map fst snd].
    rewrite IH. f_equal. rewrite n_cat_cons. destruct (key_eqb (cat con) k) eqn:E1.
    - apply key_eqb_eq in E1. rewrite E1. cbn [fst snd]. rewrite (proj2 (key_eqb_eq k k) eq_refl).
      destruct (Z.eqb_spec (n_cat k s + 1) n), (Z.eqb_spec (n_cat k s) (n + -1)); try reflexivity; lia.
    - cbn [fst snd]. destruct (key_eqb k (cat con)) eqn:E2.
      + apply key_eqb_eq in E2. rewrite E2 in E1. rewrite (proj2 (key_eqb_eq (cat con) (cat con)) eq_refl) in E1. discriminate.
      + rewrite Z.add_0_r. reflexivity.
  Qed.

  Lemma count_available_ok choices target :
    (forall x, In x choices -> find_category E x = Ok (cat x)) ->
    (forall x, In x choices -> In (cat x) (map fst target)) ->
    count_available E choices target = Ok (map (fun kv => (fst kv, n_cat (fst kv) choices)) target).
  Proof.
    intros H1 H2. unfold count_available.
    assert (G : forall m : list (list nat * Z), map fst m = map fst target ->
       fold_left (fun m con => pybind m (fun m => pybind (find_category E con) (fun c =>
          match dict_get key_eqb c m with Some _ => Ok (counter_add c 1 m) | None => Raise KeyError end))) choices (Ok m) =
       Ok (map (fun kv => (fst kv, (snd kv + n_cat (fst kv) choices)%Z)) m)).
    { induction choices as [|x s IH]; intros m Hm; cbn [fold_left].
      - f_equal. rewrite <- (map_id m) at 1. apply map_ext. intros [k n]. cbn. f_equal. lia.
      - cbn [pybind]. rewrite (H1 x) by (left; reflexivity). cbn [pybind].
        destruct (dict_get_key key_eqb key_eqb_eq (cat x) m) as [v Ev]; [rewrite Hm; apply H2; left; reflexivity|].
        rewrite Ev. rewrite IH.
        + f_equal. unfold counter_add. rewrite map_map. apply map_ext. intros [k n]. cbn [fst snd].
          destruct (key_eqb (cat x) k) eqn:E1; cbn [fst snd].
          * apply key_eqb_eq in E1. subst k. rewrite n_cat_cons, (proj2 (key_eqb_eq _ _) eq_refl). f_equal. lia.
          * rewrite n_cat_cons. destruct (key_eqb k (cat x)) eqn:E2; [|f_equal; lia].
            apply key_eqb_eq in E2. subst k. rewrite (proj2 (key_eqb_eq _ _) eq_refl) in E1. discriminate.
        + intros y Hy. apply H1. right; exact Hy.
        + intros y Hy. apply H2. right; exact Hy.
        + rewrite counter_add_keys. exact Hm. }
    rewrite G.
    - rewrite map_map. cbn [fst snd]. reflexivity.
    - rewrite map_map. reflexivity.
  Qed.

  Lemma too_few_ok choices target : NoDup (map fst target) ->
    existsb (fun kv => (counter_get (fst kv) (map (fun kv => (fst kv, n_cat (fst kv) choices)) target) <? snd kv)%Z) target =
    existsb (fun kv => (n_cat (fst kv) choices <? snd kv)%Z) target.
  Proof.
    intros N. assert (G : forall kv, In kv target -> counter_get (fst kv) (map (fun kv => (fst kv, n_cat (fst kv) choices)) target) = n_cat (fst kv) choices).
    { intros kv H. apply (counter_get_in (map (fun kv => (fst kv, n_cat (fst kv) choices)) target) (fst kv, n_cat (fst kv) choices)).
      - rewrite map_map. exact N.
      - apply in_map_iff. exists kv. auto. }
    revert G. generalize (map (fun kv => (fst kv, n_cat (fst kv) choices)) target) as m. intros m G. clear N.
    induction target as [|kv t IH]; [reflexivity|]. cbn [existsb]. rewrite (G kv) by (left; reflexivity).
    rewrite IH by (intros q Hq; apply G; right; exact Hq). reflexivity.
  Qed.

  Lemma n_cat_sub c s l : subseq s l -> (n_cat c s <= n_cat c l)%Z.
  Proof.
    induction 1 as [|x a b H IH|x a b H IH]; rewrite ?n_cat_cons; try lia.
    destruct (key_eqb c (cat x)); lia.
  Qed.

  Lemma filter_powerset_narrow {A} (g q : list A -> bool) (p : A -> bool) l :
    (forall s, g s = true -> forallb p s = true) -> filter g (powerset l) = filter g (powerset (filter p l)).
  Proof.
    intros H. rewrite <- powerset_filter, filter_filter. apply filter_ext. intros s.
    destruct (g s) eqn:G; [rewrite (H s G); reflexivity|rewrite andb_false_r; reflexivity].
  Qed.

  Lemma categorized_backtrack_spec fuel path choices target chosen :
    length choices < fuel -> NoDup choices -> NoDup (map fst target) ->
    (forall x, In x choices -> find_category E x = Ok (cat x)) ->
    (forall kv, In kv target -> exists r, category_range E (fst kv) = Ok r /\ forall x, In x choices -> (In x r <-> cat x = fst kv)) ->
    (forall kv, In kv target -> (0 <= snd kv)%Z) ->
    (forall x, In x choices -> In (cat x) (map fst target) /\ (0 < counter_get (cat x) target)%Z) ->
    exists ys choices',
      categorized_backtrack fuel pick path E choices target compatible chosen = Ok (ys, (choices', target, chosen)) /\
      Permutation choices' choices /\
      same_families ys (map (fun s => chosen ++ s) (filter (goodc target) (powerset choices))).
  Proof.
    revert path choices target chosen; induction fuel as [|fuel IH]; intros path choices target chosen Hf Hc Ht Hcat Hr Hnn Hpos; [lia|].
    cbn [categorized_backtrack]. rewrite count_available_ok; [|exact Hcat|intros x Hx; apply Hpos, Hx].
    cbn [pybind]. rewrite too_few_ok by exact Ht.
    destruct (existsb (fun kv => (n_cat (fst kv) choices <? snd kv)%Z) target) eqn:TF.
    - eexists _, _. split; [reflexivity|]. split; [reflexivity|].
      apply existsb_exists in TF as [kv [Hkv TF]]. apply Z.ltb_lt in TF.
      rewrite filter_false; [apply sf_refl|]. intros s Hs. apply in_powerset in Hs. unfold goodc, hits.
      apply andb_false_iff. right. destruct (forallb _ target) eqn:F; [|reflexivity].
      rewrite forallb_forall in F. apply F in Hkv. apply Z.eqb_eq in Hkv. pose proof (n_cat_sub (fst kv) s choices Hs). lia.
    - destruct choices as [|x s].
      + eexists _, _. split; [reflexivity|]. split; [reflexivity|]. cbn [powerset filter].
        assert (G : goodc target [] = true).
        { unfold goodc, hits. cbn [pairwise andb]. apply forallb_forall. intros kv Hkv. apply Z.eqb_eq.
          assert (T : (n_cat (fst kv) [] <? snd kv)%Z = false).
          { destruct (n_cat (fst kv) [] <? snd kv)%Z eqn:T; [|reflexivity]. rewrite <- TF. symmetry. apply existsb_exists. eauto. }
          apply Z.ltb_ge in T. apply Hnn in Hkv. change (n_cat (fst kv) []) with 0%Z in *. lia. }
        rewrite G. cbn [map]. rewrite app_nil_r. apply sf_refl.
      + set (con := pop_element pick path x s). set (ch := x :: s) in *.
        assert (Hin : In con ch) by apply pop_in.
        set (ch1 := set_remove con ch).
        pose proof (set_remove_perm con ch Hc Hin) as P1. fold ch1 in P1.
        assert (N1 : NoDup ch1 /\ ~ In con ch1).
        { apply (Permutation_NoDup P1) in Hc. inversion Hc; split; assumption. }
        destruct N1 as [N1 N1'].
        assert (I1 : forall y, In y ch1 -> In y ch) by (intros y Hy; apply set_remove_in in Hy; apply Hy).
        assert (L1 : length ch1 < length ch) by (apply set_remove_length, Hin).
        rewrite (Hcat con Hin). cbn [pybind].
        destruct (Hpos con Hin) as [Hkey Hp].
        set (c := cat con) in *. set (t1 := counter_add c (-1) target).
        assert (Gt1 : counter_get c t1 = (counter_get c target - 1)%Z).
        { unfold t1. rewrite counter_get_add by exact Hkey. rewrite (proj2 (key_eqb_eq c c) eq_refl). lia. }
        set (inter := set_inter ch1 (compatible_with compatible con)).
        (* the narrowed choices *)
        assert (EX : exists new, (if (counter_get c t1 =? 0)%Z then pybind (category_range E c) (fun r => Ok (set_diff inter r)) else Ok inter) = Ok new /\
                      new = (if (counter_get c t1 =? 0)%Z then filter (fun y => negb (key_eqb c (cat y))) inter else inter)).
        { destruct (counter_get c t1 =? 0)%Z; [|eexists; split; reflexivity].
          apply in_map_iff in Hkey as [kv [Ek Hkv]]. destruct (Hr kv Hkv) as [r [Er Hr']]. rewrite Ek in Er, Hr'. rewrite Er. cbn [pybind].
          eexists. split; [reflexivity|]. unfold set_diff. apply filter_ext_in'. intros y Hy. f_equal.
          apply filter_In in Hy as [Hy _]. apply I1 in Hy. specialize (Hr' y Hy).
          destruct (mem_nat y r) eqn:M, (key_eqb c (cat y)) eqn:K; try reflexivity.
          - apply mem_nat_in in M. apply Hr' in M. rewrite M in K. rewrite (proj2 (key_eqb_eq c c) eq_refl) in K. discriminate.
          - apply key_eqb_eq in K. symmetry in K. apply Hr', mem_nat_in in K. congruence. }
        destruct EX as [new [-> Enew]]. cbn [pybind].
        assert (Hnew : forall y, In y new -> In y ch1 /\ In y inter /\ (counter_get c t1 = 0%Z -> cat y <> c)).
        { intros y Hy. rewrite Enew in Hy. destruct (Z.eqb_spec (counter_get c t1) 0) as [Z0|Z0].
          - apply filter_In in Hy as [Hy K]. split; [apply filter_In in Hy; apply Hy|]. split; [exact Hy|]. intros _ K'.
            rewrite K', (proj2 (key_eqb_eq c c) eq_refl) in K. discriminate.
          - split; [apply filter_In in Hy; apply Hy|]. split; [exact Hy|]. intros; contradiction. }
        assert (Hkeys1 : map fst t1 = map fst target) by apply counter_add_keys.
        destruct (IH (true :: path) new t1 (chosen ++ [con])) as (ys1 & a1 & E1 & Pa1 & S1).
        { assert (length new <= length inter) by (rewrite Enew; destruct (counter_get c t1 =? 0)%Z; [apply filter_len|lia]).
          assert (length inter <= length ch1) by apply filter_len. lia. }
        { rewrite Enew. destruct (counter_get c t1 =? 0)%Z; [apply NoDup_filter'|]; apply NoDup_filter', N1. }
        { rewrite Hkeys1. exact Ht. }
        { intros y Hy. apply Hcat, I1, Hnew, Hy. }
        { intros kv Hkv. assert (Hk' : In (fst kv) (map fst target)) by (rewrite <- Hkeys1; apply in_map, Hkv).
          apply in_map_iff in Hk' as [kv' [Ek Hkv']]. destruct (Hr kv' Hkv') as [r [Er Hr']]. exists r. rewrite <- Ek.
          split; [exact Er|]. intros y Hy. apply Hr', I1, Hnew, Hy. }
        { intros [k n] Hkv. unfold t1, counter_add in Hkv. apply in_map_iff in Hkv as [[k' n'] [Ek Hkv]]. cbn [fst snd] in Ek.
          pose proof (Hnn _ Hkv) as Q. cbn [snd] in Q. destruct (key_eqb c k') eqn:K.
          - injection Ek as <- <-. apply key_eqb_eq in K. subst k'. cbn [snd].
            pose proof (counter_get_in target (c, n') Ht Hkv) as G. cbn [fst snd] in G. lia.
          - injection Ek as <- <-. exact Q. }
        { intros y Hy. destruct (Hnew y Hy) as [Hy1 [Hy2 Hy3]]. rewrite Hkeys1. destruct (Hpos y (I1 y Hy1)) as [Q1 Q2].
          split; [exact Q1|]. unfold t1. rewrite counter_get_add by exact Q1.
          destruct (key_eqb c (cat y)) eqn:K; [|lia]. apply key_eqb_eq in K. rewrite <- K in *.
          assert (counter_get c t1 <> 0%Z) by (intros Z0; exact (Hy3 Z0 eq_refl)). lia. }
        rewrite E1. cbn [pybind]. rewrite removelast_last.
        replace (counter_add c 1 t1) with target by (symmetry; apply (counter_add_inv c 1)).
        destruct (IH (false :: path) ch1 target chosen) as (ys2 & a2 & E2 & Pa2 & S2); [lia|exact N1|exact Ht| | |exact Hnn| |].
        { intros y Hy. apply Hcat, I1, Hy. }
        { intros kv Hkv. destruct (Hr kv Hkv) as [r [Er Hr']]. exists r. split; [exact Er|]. intros y Hy. apply Hr', I1, Hy. }
        { intros y Hy. apply Hpos, I1, Hy. }
        rewrite E2. cbn [pybind]. eexists _, _. split; [reflexivity|]. split.
        { rewrite set_add_perm by (intros G; apply (Permutation_in _ Pa2) in G; contradiction). rewrite Pa2. symmetry. exact P1. }
        eapply sf_trans; [apply sf_app; [exact S1|exact S2]|]. apply sf_sym.
        eapply sf_trans.
        { apply sf_map; [intros a b Pab; apply Permutation_app_head; exact Pab|].
          apply sf_filter; [intros a b Pab; apply goodc_perm; exact Pab|]. apply powerset_perm. exact P1. }
        cbn [powerset]. rewrite filter_app, map_app. apply sf_app; [|apply sf_refl].
        rewrite filter_map', map_map.
        assert (EQ : filter (fun s0 => goodc target (con :: s0)) (powerset ch1) = filter (goodc t1) (powerset new)).
        { assert (EQ1 : filter (fun s0 => goodc target (con :: s0)) (powerset ch1) = filter (goodc t1) (powerset inter)).
          { unfold inter, set_inter. rewrite <- powerset_filter, filter_filter. apply filter_ext. intros t. unfold goodc.
            cbn [pairwise]. rewrite hits_cons. fold c t1. change (forallb (rel con) t) with (forallb (fun y => mem_nat y (compatible_with compatible con)) t).
            rewrite andb_assoc. reflexivity. }
          rewrite EQ1, Enew. destruct (Z.eqb_spec (counter_get c t1) 0) as [Z0|Z0]; [|reflexivity].
          apply (filter_powerset_narrow _ (fun _ => true)). intros t G. unfold goodc, hits in G. apply andb_true_iff in G as [_ G].
          rewrite forallb_forall in G. assert (Kin : In c (map fst t1)) by (rewrite Hkeys1; exact Hkey).
          apply in_map_iff in Kin as [kv [Ek Hkv]]. pose proof (G _ Hkv) as G1. apply Z.eqb_eq in G1.
          rewrite <- (counter_get_in t1 kv) in G1; [|rewrite Hkeys1; exact Ht|exact Hkv]. rewrite Ek, Z0 in G1.
          apply forallb_forall. intros y Hy. destruct (key_eqb c (cat y)) eqn:K; [|reflexivity]. exfalso.
          unfold n_cat in G1. assert (In y (filter (fun x => key_eqb c (cat x)) t)) by (apply filter_In; auto).
          destruct (filter (fun x => key_eqb c (cat x)) t); [contradiction|cbn [length] in G1; lia]. }
        rewrite EQ. apply sf_map_ext. intros t _. rewrite <- app_assoc. reflexivity.
  Qed.
End Cat.

(** ** from families to sets *)
Lemma subseq_perm_eq {A} (l a b : list A) : NoDup l -> subseq a l -> subseq b l -> Permutation a b -> a = b.
Proof.
  intros N; revert a b; induction N as [|x l Hx N IH]; intros a b Ha Hb P.
  - inversion Ha; subst. apply Permutation_nil in P. congruence.
  - inversion Ha as [|y c' l' Ha' Ec El|y c' l' Ha' Ec El]; subst;
    inversion Hb as [|y d' l' Hb' Ed El|y d' l' Hb' Ed El]; subst.
    + f_equal. apply IH; auto. eapply Permutation_cons_inv, P.
    + exfalso. apply Hx. apply (subseq_incl _ _ Hb'). apply (Permutation_in _ P). left; reflexivity.
    + exfalso. apply Hx. apply (subseq_incl _ _ Ha'). apply (Permutation_in _ (Permutation_sym P)). left; reflexivity.
    + apply IH; auto.
Qed.
Lemma incl_powerset (l s : list nat) : NoDup s -> incl s l -> exists t, In t (powerset l) /\ Permutation t s.
Proof.
  revert s; induction l as [|x l IH]; intros s N H.
  - exists []. split; [left; reflexivity|]. destruct s as [|y s]; [reflexivity|]. destruct (H y); left; reflexivity.
  - cbn [powerset]. destruct (in_dec Nat.eq_dec x s) as [Hx|Hx].
    + pose proof (set_remove_perm x s N Hx) as P.
      destruct (IH (set_remove x s)) as [t [Ht Pt]].
      * apply NoDup_filter', N.
      * intros y Hy. apply set_remove_in in Hy as [Hy1 Hy2]. destruct (H y Hy1); [congruence|assumption].
      * exists (x :: t). split; [apply in_app_iff; left; apply in_map, Ht|]. rewrite P. constructor. exact Pt.
    + destruct (IH s N) as [t [Ht Pt]].
      * intros y Hy. destruct (H y Hy) as [->|G]; [contradiction|exact G].
      * exists t. split; [apply in_app_iff; right; exact Ht|exact Pt].
Qed.
Lemma subseq_nodup {A} (s l : list A) : NoDup l -> subseq s l -> NoDup s.
Proof.
  intros N H. induction H as [|x c l H IH|x c l H IH]; [constructor| |]; inversion N; subst; auto.
  constructor; [|auto]. intros G. apply (subseq_incl _ _ H) in G. contradiction.
Qed.

Lemma Forall2_in_l' {A B} (R : A -> B -> Prop) a b : Forall2 R a b -> forall x, In x a -> exists y, In y b /\ R x y.
Proof.
  induction 1 as [|u v a b H F IH]; intros x Hx; [destruct Hx|]. destruct Hx as [<-|Hx].
  - exists v. split; [left; reflexivity|exact H].
  - destruct (IH x Hx) as [y [Hy Hr]]. exists y. split; [right; exact Hy|exact Hr].
Qed.
Lemma Forall2_nth_error' {A B} (R : A -> B -> Prop) a b : Forall2 R a b -> forall i x, nth_error a i = Some x -> exists y, nth_error b i = Some y /\ R x y.
Proof.
  induction 1 as [|u v a b H F IH]; intros i x Hx; [destruct i; discriminate|]. destruct i as [|i]; cbn in *.
  - injection Hx as <-. eauto.
  - apply IH, Hx.
Qed.

Lemma families_sets (ys : list (list nat)) g l : NoDup l -> (forall a b, Permutation a b -> g a = g b) ->
  same_families ys (filter g (powerset l)) -> lists_each_set_once (fun s => incl s l /\ g s = true) ys.
Proof.
  intros N Hg [ys' [F P]]. split; [|split].
  - intros y Hy. destruct (Forall2_in_l' _ _ _ F y Hy) as [z [Hz Pz]].
    apply (Permutation_in _ P), filter_In in Hz as [Hz G]. apply in_powerset in Hz.
    split; [apply (Permutation_NoDup (Permutation_sym Pz)); eapply subseq_nodup; eassumption|].
    split; [|rewrite (Hg _ _ Pz); exact G]. intros x Hx. apply (subseq_incl _ _ Hz). apply (Permutation_in _ Pz), Hx.
  - intros s Ns [I G]. destruct (incl_powerset l s Ns I) as [t [Ht Pt]].
    assert (Ht' : In t ys').
    { apply (Permutation_in _ (Permutation_sym P)), filter_In. split; [exact Ht|]. rewrite (Hg _ _ Pt). exact G. }
    apply Forall2_sym in F; [|intros; symmetry; assumption].
    destruct (Forall2_in_l' _ _ _ F t Ht') as [y [Hy Py]]. exists y. split; [exact Hy|]. rewrite <- Py. exact Pt.
  - intros i j a b Ha Hb Pab.
    destruct (Forall2_nth_error' _ _ _ F i a Ha) as [a' [Ha' Pa]].
    destruct (Forall2_nth_error' _ _ _ F j b Hb) as [b' [Hb' Pb]].
    assert (N' : NoDup ys').
    { apply (Permutation_NoDup (Permutation_sym P)). apply NoDup_filter', nodup_powerset, N. }
    assert (Sa : forall x, In x ys' -> subseq x l).
    { intros x Hx. apply (Permutation_in _ P), filter_In in Hx as [Hx _]. apply in_powerset, Hx. }
    assert (a' = b').
    { apply (subseq_perm_eq l); [exact N|apply Sa; eapply nth_error_In, Ha'|apply Sa; eapply nth_error_In, Hb'|].
      rewrite <- Pa, Pab, Pb. reflexivity. }
    subst b'. eapply NoDup_nth_error; [exact N'|apply nth_error_Some; congruence|congruence].
Qed.

Lemma sets_ext {A} (P Q : list A -> Prop) ys : (forall s, NoDup s -> (P s <-> Q s)) -> lists_each_set_once P ys -> lists_each_set_once Q ys.
Proof.
  intros H [H1 [H2 H3]]. split; [|split; [|exact H3]].
  - intros y Hy. destruct (H1 y Hy) as [N G]. split; [exact N|]. apply H; assumption.
  - intros s N G. apply H2; [exact N|]. apply H; assumption.
Qed.

Lemma pairwise_iff {A} (r : A -> A -> bool) (Hs : forall x y, r x y = r y x) s : NoDup s ->
  (pairwise r s = true <-> forall x y, In x s -> In y s -> x <> y -> r x y = true).
Proof.
  induction 1 as [|x s Hx N IH]; cbn [pairwise]; [simpl; tauto|].
  rewrite andb_true_iff, forallb_forall, IH. split.
  - intros [H1 H2] a b [<-|Ha] [<-|Hb] Ne; [congruence|apply H1, Hb|rewrite Hs; apply H1, Ha|apply H2; assumption].
  - intros H. split.
    + intros y Hy. apply H; [left; reflexivity|right; exact Hy|]. intros ->. contradiction.
    + intros a b Ha Hb. apply H; right; assumption.
Qed.

(** ** C24: the general generator *)
Definition contracted_legs (l : list econ) (s : list nat) : nat :=
  nsum (map (fun x => match nth_error l x with Some e => 2 * length (upper e) | None => 0 end) s).

Lemma compat_list_sym l i j : compat_rel (compatible_list l) i j = compat_rel (compatible_list l) j i.
Proof.
  unfold compat_rel. apply eq_true_iff_eq. rewrite !mem_nat_in, !(proj1 (compatible_list_spec l _ _)).
  split; intros [H [e [f [H1 [H2 H3]]]]]; (split; [congruence|]); exists f, e; split; auto; split; auto; apply disjoint_con_sym, H3.
Qed.

Lemma general_backtrack_ok pick l available desired : Permutation available (seq 0 (length l)) ->
  exists ys available',
    composite_backtrack (S (length l)) pick [] available [] (compatible_list l) 0 l desired = Ok (ys, available', []) /\
    Permutation available' available /\
    lists_each_set_once (fun s => s <> [] /\ (forall x, In x s -> x < length l) /\
       (fst desired <= Z.of_nat (contracted_legs l s) <= snd desired)%Z /\
       (forall x y e f, In x s -> In y s -> x <> y -> nth_error l x = Some e -> nth_error l y = Some f -> disjoint_con e f)) ys.
Proof.
  intros P. assert (N : NoDup available) by (apply (Permutation_NoDup (Permutation_sym P)), seq_NoDup).
  assert (B : forall x, In x available <-> x < length l).
  { intros x. split; intros H; [apply (Permutation_in _ P), in_seq in H; lia|].
    apply (Permutation_in _ (Permutation_sym P)), in_seq. lia. }
  destruct (composite_backtrack_spec pick (compatible_list l) l desired (compat_list_sym l) (S (length l)) [] available [] 0)
    as (ys & a' & c' & E & Pa & Pc & S).
  - rewrite (Permutation_length P), seq_length. lia.
  - exact N.
  - constructor.
  - intros x _ [].
  - intros x. apply B.
  - apply Permutation_sym, Permutation_nil in Pc. subst c'. exists ys, a'. split; [exact E|]. split; [exact Pa|].
    rewrite (map_ext _ (fun s => s)) in S by (intros; apply app_nil_r). rewrite map_id in S.
    apply families_sets in S; [|exact N|intros; apply good_perm; [apply compat_list_sym|assumption]].
    eapply sets_ext; [|exact S]. clear S E. intros s Ns. unfold good. rewrite app_nil_r, !andb_true_iff, negb_true_iff, Nat.eqb_neq.
    rewrite (pairwise_iff _ (compat_list_sym l) s Ns). unfold in_range. rewrite andb_true_iff, !Z.leb_le. cbn [Nat.add].
    change (legs_sum l s) with (contracted_legs l s).
    assert (I : incl s available <-> forall x, In x s -> x < length l).
    { split; intros H x Hx; apply B || (apply B; apply H, Hx); apply H, Hx. }
    assert (L : length s <> 0 <-> s <> []) by (destruct s; simpl; split; congruence).
    rewrite I, L. clear I L. split.
    + intros [H1 [[H2 H3] H4]]. split; [exact H2|]. split; [exact H1|]. split; [exact H3|].
      intros x y e f Hx Hy Ne He Hf. specialize (H4 x y Hx Hy Ne). apply mem_nat_in in H4.
      apply (proj1 (compatible_list_spec l x y)) in H4 as [_ [e' [f' [He' [Hf' D]]]]]. congruence.
    + intros [H2 [H1 [H3 H4]]]. split; [exact H1|]. split; [split; assumption|].
      intros x y Hx Hy Ne. apply mem_nat_in, (proj1 (compatible_list_spec l x y)). split; [exact Ne|].
      destruct (nth_error l x) as [e|] eqn:Ex; [|apply nth_error_None in Ex; apply H1 in Hx; lia].
      destruct (nth_error l y) as [f|] eqn:Ey; [|apply nth_error_None in Ey; apply H1 in Hy; lia].
      exists e, f. split; [reflexivity|]. split; [reflexivity|]. exact (H4 x y e f Hx Hy Ne Ex Ey).
Qed.

(** ** C25: the categorized generator *)
Definition in_category {V} (E : ecc V) (c : list nat) (x : nat) : bool :=
  match find_category E x with Ok c' => key_eqb c c' | Raise _ => false end.

Lemma set_of_spec l : NoDup (set_of l) /\ forall x, In x (set_of l) <-> In x l.
Proof.
  unfold set_of. assert (G : forall l s, NoDup s -> NoDup (fold_left (fun s x => set_add x s) l s) /\
    forall x, In x (fold_left (fun s x => set_add x s) l s) <-> In x s \/ In x l).
  { clear l. induction l as [|y l IH]; intros s N; cbn [fold_left In]; [split; [exact N|tauto]|].
    destruct (IH (set_add y s) (nodup_set_add y s N)) as [N' I]. split; [exact N'|]. intros x. rewrite I, in_set_add. intuition congruence. }
  destruct (G l [] (NoDup_nil _)) as [N I]. split; [exact N|]. intros x. rewrite I. simpl. tauto.
Qed.

Lemma decode_beyond {V} (d : list (list nat * list V)) cats (Hn : NoDup cats) (Hk : forall c, In c cats -> In c (map fst d)) x :
  start d cats (length cats) <= x -> forall e, decode (the_ecc d cats) x <> Ok e.
Proof.
  intros L e. unfold decode. destruct cats as [|c0 l] eqn:Ec; [unfold the_ecc; cbn; discriminate|].
  rewrite <- Ec in *.
  assert (B : bisect_right (i_start (the_ecc d cats)) x = length cats).
  { unfold bisect_right, the_ecc; cbn [i_start]. rewrite filter_true.
    - unfold starts. rewrite Ec at 1. rewrite map_length, seq_length. reflexivity.
    - intros a Ha. apply Nat.leb_le. unfold starts in Ha. rewrite Ec in Ha at 1. apply in_map_iff in Ha as [k [<- Hk']].
      apply in_seq in Hk'. etransitivity; [apply (start_mono d cats k (length cats)); lia|exact L]. }
  rewrite B. cbn [the_ecc categories ele_con i_start]. assert (Lc : length cats = S (length l)) by (rewrite Ec; reflexivity).
  destruct (nth_error cats (length cats - 1)) as [c|] eqn:Hc; [|apply nth_error_None in Hc; lia].
  unfold get_item at 1. rewrite Hc. cbn [pybind]. unfold get_item at 1. rewrite (nth_error_starts d cats Hn Hk) by lia. cbn [pybind].
  rewrite (con_item d cats Hk) by (eapply nth_error_In, Hc). cbn [pybind].
  pose proof (start_S d cats _ c Hc) as Q. replace (S (length cats - 1)) with (length cats) in Q by lia.
  unfold get_item. destruct (nth_error _ (x - _)) eqn:G; [|discriminate].
  assert (x - start d cats (length cats - 1) < length (dict_list key_eqb c d)) by (apply nth_error_Some; congruence). lia.
Qed.

Lemma dict_get_some_in {V} k v (d : list (list nat * V)) : dict_get key_eqb k d = Some v -> In (k, v) d.
Proof.
  induction d as [|[k0 v0] d IH]; cbn [dict_get]; [discriminate|]. destruct (key_eqb k k0) eqn:E.
  - apply key_eqb_eq in E. intros [= <-]. left. congruence.
  - intros H. right. apply IH, H.
Qed.
Lemma decode_coded d cats (Hn : NoDup cats) (Hk : forall c, In c cats -> In c (map fst d)) x e :
  decode (the_ecc d cats) x = Ok e <-> coded d cats x e.
Proof.
  set (E := the_ecc d cats). split.
  - intros H. unfold decode in H.
    assert (L : x < start d cats (length cats)).
    { destruct (Nat.lt_ge_cases x (start d cats (length cats))) as [L|L]; [exact L|]. exfalso.
      exact (decode_beyond d cats Hn Hk x L e H). }
    destruct (code_exists d cats x L) as [k [c [H1 H2]]].
    destruct (nth_error (dict_list key_eqb c d) (x - start d cats k)) as [v|] eqn:Ev; [|apply nth_error_None in Ev; lia].
    pose proof (decode_ok d cats Hn Hk k c _ v H1 Ev) as D. replace (start d cats k + (x - start d cats k)) with x in D by lia.
    fold E in D. unfold decode in D. rewrite H in D. injection D as ->.
    exists c, (x - start d cats k). split; [eapply nth_error_In, H1|]. split; [exact Ev|]. rewrite (cs_start d cats Hn Hk k c H1). lia.
  - intros [c [k' [Hc [He ->]]]]. apply In_nth_error in Hc as [k Hc]. rewrite (cs_start d cats Hn Hk k c Hc).
    apply (decode_ok d cats Hn Hk k c k' e Hc He).
Qed.
Lemma compatible_categorized_spec d cats : NoDup cats -> (forall c, In c cats -> In c (map fst d)) ->
  (forall kv e, In kv d -> In e (snd kv) -> upper e <> []) ->
  exists E m, make_ecc d cats = Ok E /\ compatible_categorized E = Ok m /\
    forall i j, (In j (compatible_with m i) <->
                 i <> j /\ exists e f, decode E i = Ok e /\ decode E j = Ok f /\ disjoint_con e f) /\
                NoDup (compatible_with m i).
Proof.
  intros Hn Hk He. exists (the_ecc d cats). destruct (compatible_categorized_ok d cats Hn Hk) as [m [Em Hm]]. exists m.
  split; [apply make_ecc_ok; assumption|]. split; [exact Em|]. intros i j. split; [|apply (Hm i j)].
  rewrite (proj1 (Hm i j)). split.
  - intros [e [f [H1 [H2 H3]]]]. split.
    + intros ->. assert (e = f) by (eapply coded_unique; eassumption). subst f.
      destruct H1 as [c [s [Hc [Hs _]]]]. assert (U : upper e <> []).
      { apply nth_error_In in Hs. unfold dict_list in Hs. destruct (dict_get key_eqb c d) as [v|] eqn:G; [|destruct Hs].
        apply dict_get_some_in in G. exact (He _ _ G Hs). }
      destruct (upper e) as [|u us] eqn:Eu; [congruence|]. destruct H3 as [H3 _]. rewrite Eu in H3. apply (H3 u); left; reflexivity.
    + exists e, f. split; [apply decode_coded; assumption|]. split; [apply decode_coded; assumption|exact H3].
  - intros [_ [e [f [H1 [H2 H3]]]]]. exists e, f. split; [apply decode_coded; assumption|]. split; [apply decode_coded; assumption|exact H3].
Qed.

Lemma composite_contractions_ok pick d cats target :
  NoDup cats -> (forall c, In c cats -> In c (map fst d)) ->
  NoDup (map fst target) -> incl (map fst target) cats -> (forall kv, In kv target -> (0 < snd kv)%Z) ->
  exists E compatible ys choices',
    make_ecc d cats = Ok E /\ compatible_categorized E = Ok compatible /\
    composite_contractions pick E target compatible = Ok (ys, (choices', target, [])) /\
    lists_each_set_once (fun s =>
       (forall x, In x s -> exists e, decode E x = Ok e) /\
       (forall x y e f, In x s -> In y s -> x <> y -> decode E x = Ok e -> decode E y = Ok f -> disjoint_con e f) /\
       (forall c, In c cats -> Z.of_nat (count (in_category E c) s) = counter_get c target)) ys.
Proof.
  intros Hn Hk Ht Hi Hp. exists (the_ecc d cats).
  destruct (compatible_categorized_ok d cats Hn Hk) as [m [Em Hm]]. exists m.
  set (E := the_ecc d cats) in *.
  assert (Hsym : forall i j, compat_rel m i j = compat_rel m j i).
  { intros i j. unfold compat_rel. apply eq_true_iff_eq. rewrite !mem_nat_in, !(proj1 (Hm _ _)).
    split; intros [e [f [H1 [H2 H3]]]]; exists f, e; split; auto; split; auto; apply disjoint_con_sym, H3. }
  set (cat := fun x => match find_category E x with Ok c => c | Raise _ => [] end).
  set (rng := fun c => seq (cs d cats c) (length (dict_list key_eqb c d))).
  assert (Hr : forall c, In c cats -> category_range E c = Ok (rng c)).
  { intros c Hc. apply In_nth_error in Hc as [k Hc]. unfold E, rng. rewrite (range_ok d cats Hn Hk k c Hc), (cs_start d cats Hn Hk k c Hc). reflexivity. }
  assert (Hf : forall c x, In c cats -> In x (rng c) -> find_category E x = Ok c).
  { intros c x Hc Hx. apply In_nth_error in Hc as [k Hc]. unfold rng in Hx. rewrite (cs_start d cats Hn Hk k c Hc), in_seq in Hx.
    apply (find_category_ok d cats Hn Hk k c); [exact Hc|lia]. }
  unfold composite_contractions.
  rewrite (pymap_total _ (fun kv => rng (fst kv))) by (intros kv Hkv; apply Hr, Hi, in_map, Hkv). cbn [pybind].
  destruct (set_of_spec (concat (map (fun kv => rng (fst kv)) target))) as [Nc Ic].
  set (choices := set_of (concat (map (fun kv => rng (fst kv)) target))) in *.
  assert (Hch : forall x, In x choices <-> exists c, In c (map fst target) /\ In x (rng c)).
  { intros x. rewrite Ic, <- flat_map_concat_map, in_flat_map. split.
    - intros [kv [H1 H2]]. exists (fst kv). split; [apply in_map, H1|exact H2].
    - intros [c [H1 H2]]. apply in_map_iff in H1 as [kv [<- H1]]. eauto. }
  assert (Hcat : forall x c, In c cats -> In x (rng c) -> cat x = c).
  { intros x c Hc Hx. unfold cat. rewrite (Hf c x Hc Hx). reflexivity. }
  destruct (categorized_backtrack_spec E pick m cat Hsym (S (length choices)) [] choices target []) as (ys & ch' & E1 & P1 & S1).
  - lia.
  - exact Nc.
  - exact Ht.
  - intros x Hx. apply Hch in Hx as [c [H1 H2]]. rewrite (Hcat x c (Hi c H1) H2). apply Hf; auto.
  - intros kv Hkv. exists (rng (fst kv)). assert (Hc : In (fst kv) cats) by (apply Hi, in_map, Hkv).
    split; [apply Hr, Hc|]. intros x Hx. split; [apply Hcat, Hc|]. intros Ec.
    apply Hch in Hx as [c [H1 H2]]. rewrite (Hcat x c (Hi c H1) H2) in Ec. congruence.
  - intros kv Hkv. specialize (Hp kv Hkv). lia.
  - intros x Hx. apply Hch in Hx as [c [H1 H2]]. rewrite (Hcat x c (Hi c H1) H2). split; [exact H1|].
    apply in_map_iff in H1 as [kv [<- Hkv]]. rewrite (counter_get_in target kv Ht Hkv). apply Hp, Hkv.
  - exists ys, ch'. split; [apply make_ecc_ok; assumption|]. split; [exact Em|]. split; [exact E1|].
    cbn [app] in S1. rewrite map_id in S1.
    apply families_sets in S1; [|exact Nc|intros; apply goodc_perm; assumption].
    eapply sets_ext; [|exact S1]. clear S1 E1. intros s Ns. unfold goodc. rewrite andb_true_iff, (pairwise_iff _ Hsym s Ns).
    unfold hits. rewrite forallb_forall.
    assert (Dec : forall x e, decode E x = Ok e <-> coded d cats x e) by (intros x e; apply decode_coded; assumption).
    assert (Cod : forall x, (exists e, decode E x = Ok e) <-> exists c, In c cats /\ In x (rng c)).
    { intros x. split.
      - intros [e H]. apply Dec in H as [c [k [Hc [He ->]]]]. exists c. split; [exact Hc|]. unfold rng. apply in_seq.
        assert (k < length (dict_list key_eqb c d)) by (apply nth_error_Some; congruence). lia.
      - intros [c [Hc Hx]]. unfold rng in Hx. apply in_seq in Hx.
        destruct (nth_error (dict_list key_eqb c d) (x - cs d cats c)) as [v|] eqn:Ev; [|apply nth_error_None in Ev; lia].
        exists v. apply Dec. exists c, (x - cs d cats c). split; [exact Hc|]. split; [exact Ev|]. lia. }
    assert (Cnt : forall c, (forall x, In x s -> exists e, decode E x = Ok e) -> n_cat cat c s = Z.of_nat (count (in_category E c) s)).
    { intros c H. unfold n_cat, count. f_equal. f_equal. apply filter_ext_in'. intros x Hx. unfold in_category, cat.
      apply H, Cod in Hx as [c' [Hc' Hx]]. rewrite (Hf c' x Hc' Hx). reflexivity. }
    assert (Rel : forall x y, compat_rel m x y = true <-> exists e f, decode E x = Ok e /\ decode E y = Ok f /\ disjoint_con e f).
    { intros x y. unfold compat_rel. rewrite mem_nat_in, (proj1 (Hm x y)).
      split; intros [e [f [H1 [H2 H3]]]]; exists e, f; split; try (apply Dec; exact H1); split; try (apply Dec; exact H2); exact H3. }
    split.
    + intros [I [H1 H2]].
      assert (K : forall x, In x s -> exists e, decode E x = Ok e).
      { intros x Hx. apply I, Hch in Hx as [c [Hc Hx]]. apply Cod. exists c. split; [apply Hi, Hc|exact Hx]. }
      split; [exact K|]. split.
      * intros x y e f Hx Hy Ne He Hf'. specialize (H1 x y Hx Hy Ne). apply Rel in H1 as [e' [f' [He' [Hf'' D]]]]. congruence.
      * intros c Hc. rewrite <- (Cnt c K). destruct (in_dec (list_eq_dec Nat.eq_dec) c (map fst target)) as [G|G].
        -- apply in_map_iff in G as [kv [<- Hkv]]. specialize (H2 kv Hkv). apply Z.eqb_eq in H2. rewrite H2. symmetry. apply counter_get_in; assumption.
        -- unfold counter_get. rewrite (dict_get_none key_eqb key_eqb_eq c target G).
           unfold n_cat. rewrite filter_false; [reflexivity|]. intros x Hx. apply I, Hch in Hx as [c' [Hc' Hx]].
           rewrite (Hcat x c' (Hi c' Hc') Hx). destruct (key_eqb c c') eqn:K'; [|reflexivity]. apply key_eqb_eq in K'. congruence.
    + intros [K [H1 H2]]. split; [|split].
      * intros x Hx. destruct (proj1 (Cod x) (K x Hx)) as [c [Hc Hx']]. apply Hch. exists c. split; [|exact Hx'].
        destruct (in_dec (list_eq_dec Nat.eq_dec) c (map fst target)) as [G|G]; [exact G|exfalso].
        specialize (H2 c Hc). unfold counter_get in H2. rewrite (dict_get_none key_eqb key_eqb_eq c target G) in H2.
        unfold count in H2. assert (In x (filter (in_category E c) s)).
        { apply filter_In. split; [exact Hx|]. unfold in_category. rewrite (Hf c x Hc Hx'). apply key_eqb_eq. reflexivity. }
        destruct (filter (in_category E c) s); [contradiction|cbn [length] in H2; lia].
      * intros x y Hx Hy Ne. apply Rel. destruct (K x Hx) as [e He], (K y Hy) as [f Hf']. exists e, f.
        split; [exact He|]. split; [exact Hf'|]. exact (H1 x y e f Hx Hy Ne He Hf').
      * intros kv Hkv. apply Z.eqb_eq. rewrite (Cnt _ K), H2 by (apply Hi, in_map, Hkv). apply counter_get_in; assumption.
Qed.

(** ** recursion depth *)
Lemma backtrack_outcome pick compatible translator desired fuel path available chosen n :
  (forall x, In x available -> x < length translator) ->
  (exists r, composite_backtrack fuel pick path available chosen compatible n translator desired = Ok r) \/
  composite_backtrack fuel pick path available chosen compatible n translator desired = Raise FuelExhausted.
Proof.
  revert path available chosen n; induction fuel as [|fuel IH]; intros path available chosen n Ht; [right; reflexivity|].
  cbn [composite_backtrack]. destruct available as [|x s]; [left; eexists; reflexivity|].
  pose proof (pop_in pick path x s) as Hin. set (temp := pop_element pick path x s) in *.
  destruct (nth_error translator temp) as [e|] eqn:Ee; [|apply nth_error_None in Ee; apply Ht in Hin; lia].
  unfold get_item. rewrite Ee. cbn [pybind].
  assert (I1 : forall y, In y (set_remove temp (x :: s)) -> y < length translator).
  { intros y Hy. apply set_remove_in in Hy as [Hy _]. apply Ht, Hy. }
  match goal with |- context [pybind (composite_backtrack fuel pick (true :: path) ?a ?c compatible ?m translator desired) _] =>
    destruct (IH (true :: path) a c m) as [[r1 E1]|E1] end.
  - intros y Hy. apply filter_In in Hy as [Hy _]. apply I1, Hy.
  - rewrite E1. cbn [pybind].
    match goal with |- context [pybind (composite_backtrack fuel pick (false :: path) ?a ?c compatible ?m translator desired) _] =>
      destruct (IH (false :: path) a c m) as [[r2 E2]|E2] end; [exact I1| |]; rewrite E2; cbn [pybind]; [left; eexists; reflexivity|right; reflexivity].
  - rewrite E1. right. reflexivity.
Qed.
Lemma backtrack_depth pick compatible translator desired fuel path available chosen n :
  NoDup available -> (forall x, In x available -> x < length translator) -> fuel <= length available ->
  composite_backtrack fuel pick path available chosen compatible n translator desired = Raise FuelExhausted.
Proof.
  revert path available chosen n; induction fuel as [|fuel IH]; intros path available chosen n N Ht L; [reflexivity|].
  cbn [composite_backtrack]. destruct available as [|x s]; [simpl in L; lia|].
  pose proof (pop_in pick path x s) as Hin. set (temp := pop_element pick path x s) in *.
  destruct (nth_error translator temp) as [e|] eqn:Ee; [|apply nth_error_None in Ee; apply Ht in Hin; lia].
  unfold get_item. rewrite Ee. cbn [pybind].
  assert (I1 : forall y, In y (set_remove temp (x :: s)) -> y < length translator).
  { intros y Hy. apply set_remove_in in Hy as [Hy _]. apply Ht, Hy. }
  match goal with |- context [pybind (composite_backtrack fuel pick (true :: path) ?a ?c compatible ?m translator desired) _] =>
    destruct (backtrack_outcome pick compatible translator desired fuel (true :: path) a c m) as [[r1 E1]|E1] end.
  - intros y Hy. apply filter_In in Hy as [Hy _]. apply I1, Hy.
  - rewrite E1. cbn [pybind]. rewrite IH; [reflexivity| | |].
    + apply NoDup_filter', N.
    + exact I1.
    + pose proof (Permutation_length (set_remove_perm temp (x :: s) N Hin)) as P. cbn [length] in *. lia.
  - rewrite E1. reflexivity.
Qed.
