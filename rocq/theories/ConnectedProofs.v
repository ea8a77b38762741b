(** The connected contraction driver. *)
From Verif Require Import PyBase OrderSpec OrderProofs ParitySpec ParityProofs SpaceModel IndicesModel IndicesProofs IterProofs HalfProofs CodeProofs
  ElemModel ElemSpec ElemProofs CumulantProofs CodeModel CompatSpec CompatProofs BacktrackProofs MacroModel MacroSpec MacroProofs SortProofs ConnectProofs
  WickModel WickSpec WickProofs DriverProofs.
From Coq Require Import ZArith Relations Sorting.Sorted.

Definition key_dec : forall a b : list nat, {a = b} + {a <> b} := list_eq_dec Nat.eq_dec.

(** ** collections.Counter *)
Lemma counter_incr_keys c t : forall x, In x (map fst (counter_incr c t)) <-> x = c \/ In x (map fst t).
Proof.
  induction t as [|[k n] t IH]; intros x; cbn [counter_incr map fst In]; [intuition congruence|].
  destruct (key_eqb c k) eqn:E; cbn [map fst In]; [apply key_eqb_eq in E; subst; intuition congruence|]. rewrite IH. tauto.
Qed.
Lemma counter_incr_nodup c t : NoDup (map fst t) -> NoDup (map fst (counter_incr c t)).
Proof.
  induction t as [|[k n] t IH]; intros N; cbn [counter_incr map fst]; [repeat constructor; simpl; tauto|].
  destruct (key_eqb c k) eqn:E; cbn [map fst] in *; [exact N|]. inversion N as [|? ? N1 N2]; subst. constructor; [|apply IH, N2].
  rewrite counter_incr_keys. intros [->|H]; [|contradiction]. rewrite (proj2 (key_eqb_eq c c) eq_refl) in E. discriminate.
Qed.
Lemma counter_incr_get c t x : counter_get x (counter_incr c t) = (counter_get x t + (if key_dec c x then 1 else 0))%Z.
Proof.
  unfold counter_get. induction t as [|[k n] t IH]; cbn [counter_incr dict_get].
  - destruct (key_dec c x) as [->|Ne]; [rewrite (proj2 (key_eqb_eq x x) eq_refl); reflexivity|].
    destruct (key_eqb x c) eqn:E; [apply key_eqb_eq in E; congruence|reflexivity].
  - destruct (key_eqb c k) eqn:E; cbn [dict_get].
    + apply key_eqb_eq in E. subst k. destruct (key_eqb x c) eqn:F.
      * apply key_eqb_eq in F. subst. destruct (key_dec c c); [lia|congruence].
      * destruct (key_dec c x) as [->|Ne]; [rewrite (proj2 (key_eqb_eq x x) eq_refl) in F; discriminate|lia].
    + destruct (key_eqb x k) eqn:F; [|exact IH]. apply key_eqb_eq in F. subst k. destruct (key_dec c x) as [->|Ne]; [|lia].
      rewrite (proj2 (key_eqb_eq x x) eq_refl) in E. discriminate.
Qed.
Lemma counter_of_spec w : NoDup (map fst (counter_of w)) /\ (forall x, In x (map fst (counter_of w)) <-> In x w) /\
  (forall x, counter_get x (counter_of w) = Z.of_nat (count_occ key_dec w x)).
Proof.
  unfold counter_of. assert (G : forall w t, NoDup (map fst t) -> let r := fold_left (fun t c => counter_incr c t) w t in
    NoDup (map fst r) /\ (forall x, In x (map fst r) <-> In x (map fst t) \/ In x w) /\ (forall x, counter_get x r = (counter_get x t + Z.of_nat (count_occ key_dec w x))%Z)).
  { clear w. induction w as [|c w IH]; intros t N; cbn [fold_left].
    - split; [exact N|]. split; [intros x; simpl; tauto|]. intros x. cbn. lia.
    - destruct (IH (counter_incr c t) (counter_incr_nodup c t N)) as (A & B & C). split; [exact A|]. split.
      + intros x. rewrite B, counter_incr_keys. cbn [In]. intuition.
      + intros x. rewrite C, counter_incr_get. cbn [count_occ]. destruct (key_dec c x); lia. }
  destruct (G w [] (NoDup_nil _)) as (A & B & C). split; [exact A|]. split; [intros x; rewrite B; simpl; tauto|].
  intros x. rewrite C. unfold counter_get. cbn. lia.
Qed.

(** ** keys and contractions *)
Lemma key_has_leg ops key e k : distinct_legs ops -> keyed ops key e -> (In k key <-> has_leg ops k e).
Proof.
  intros D [K1 K2 _]. apply distinct_flat in D as [D1 D2].
  assert (A : forall f ks is_, Forall2 (owns ops f) ks is_ -> In k ks -> exists i, In i is_ /\ owns ops f k i).
  { intros f ks is_ F. induction F as [|x i ks is_ H F IH]; intros Hk; [destruct Hk|]. destruct Hk as [->|Hk]; [exists i; split; [left; reflexivity|exact H]|].
    destruct (IH Hk) as [j [H1 H2]]. exists j. split; [right; exact H1|exact H2]. }
  assert (B : forall f ks is_, NoDup (flat_map f ops) -> Forall2 (owns ops f) ks is_ -> (exists i, In i is_ /\ owns ops f k i) -> In k ks).
  { intros f ks is_ N F. induction F as [|x i ks is_ H F IH]; intros [j [Hj Ho]]; [destruct Hj|]. destruct Hj as [->|Hj]; [left; exact (owns_unique f ops x k j N H Ho)|].
    right. apply IH. eauto. }
  rewrite <- (firstn_skipn (length key / 2) key), in_app_iff. unfold has_leg. split.
  - intros [H|H]; [destruct (A _ _ _ K1 H) as [i [Hi [o [Ho Hi']]]]; exists o; split; [exact Ho|left; eauto]|].
    destruct (A _ _ _ K2 H) as [i [Hi [o [Ho Hi']]]]; exists o; split; [exact Ho|right; eauto].
  - intros [o [Ho [[i [H1 H2]]|[i [H1 H2]]]]]; [left; apply (B _ _ _ D1 K1)|right; apply (B _ _ _ D2 K2)]; exists i; (split; [exact H1|exists o; auto]).
Qed.

Lemma Forall2_in_l {A B} (R : A -> B -> Prop) l m x : Forall2 R l m -> In x l -> exists y, In y m /\ R x y.
Proof.
  induction 1 as [|a b l m H F IH]; intros Hx; [destruct Hx|]. destruct Hx as [->|Hx]; [exists b; split; [left; reflexivity|exact H]|].
  destruct (IH Hx) as [y [H1 H2]]. exists y. split; [right; exact H1|exact H2].
Qed.
Lemma Forall2_in_r {A B} (R : A -> B -> Prop) l m y : Forall2 R l m -> In y m -> exists x, In x l /\ R x y.
Proof.
  induction 1 as [|a b l m H F IH]; intros Hy; [destruct Hy|]. destruct Hy as [->|Hy]; [exists a; split; [left; reflexivity|exact H]|].
  destruct (IH Hy) as [x [H1 H2]]. exists x. split; [right; exact H1|exact H2].
Qed.
Lemma Forall2_concat_map {A B C D} (R : C -> D -> Prop) (f : A -> list C) (g : B -> list D) l m :
  Forall2 (fun a b => Forall2 R (f a) (g b)) l m -> Forall2 R (flat_map f l) (flat_map g m).
Proof. induction 1; cbn [flat_map]; [constructor|]. apply Forall2_app; assumption. Qed.

(** legs of one operator are used at most once each *)
Lemma times_bound ops f ks is_ k : NoDup is_ -> Forall2 (owns ops f) ks is_ -> (Z.of_nat (times k ks) <= nth k (map (fun o => Z.of_nat (length (f o))) ops) 0)%Z.
Proof.
  intros N F.
  assert (G : exists js, NoDup js /\ length js = times k ks /\ incl js is_ /\ forall i, In i js -> owns ops f k i).
  { unfold times. revert N. induction F as [|x i ks is_ H F IH]; intros N; [exists []; repeat split; [constructor|intros ? []|intros ? []]|].
    inversion N as [|? ? N1 N2]; subst. destruct (IH N2) as (js & A & B & C & E). cbn [count_occ]. destruct (Nat.eq_dec x k) as [->|Ne].
    - exists (i :: js). split; [constructor; [intros G; apply N1, C, G|exact A]|]. split; [cbn; lia|]. split; [intros j [<-|Hj]; [left; reflexivity|right; apply C, Hj]|].
      intros j [<-|Hj]; [exact H|apply E, Hj].
    - exists js. split; [exact A|]. split; [exact B|]. split; [intros j Hj; right; apply C, Hj|exact E]. }
  destruct G as (js & A & B & _ & E). rewrite <- B. destruct (nth_error ops k) as [o|] eqn:Eo.
  - rewrite (nth_error_nth _ k 0%Z (x := Z.of_nat (length (f o)))) by (rewrite nth_error_map, Eo; reflexivity). apply inj_le, NoDup_incl_length; [exact A|].
    intros i Hi. destruct (E i Hi) as [o' [Ho Hi']]. congruence.
  - rewrite nth_overflow by (rewrite map_length; apply nth_error_None, Eo). destruct js as [|j js]; [cbn; lia|].
    destruct (E j (or_introl eq_refl)) as [o [Ho _]]. congruence.
Qed.

Definition items_rel (ops : list op) (K : nat) (key : list nat) (e : econ) : Prop := In (key, e) (all_items ops K).

Section Combination.
  Context (ops : list op) (K : nat) (Hal : Forall op_alpha ops) (D : distinct_legs ops).

  Lemma items_from ks t : Forall2 (items_rel ops K) ks t -> Forall (from_ops ops) t.
  Proof.
    intros F. apply Forall_forall. intros e He. destruct (Forall2_in_r _ _ _ _ F He) as [key [_ H]].
    exact (items_from_ops ops K key e Hal (distinct_not_repeated ops K (distinct_active_of ops D)) H).
  Qed.
  Lemma rel_keyed ks t : Forall2 (items_rel ops K) ks t -> Forall2 (keyed ops) ks t.
  Proof. induction 1; constructor; [eapply items_keyed; eassumption|assumption]. Qed.

  Lemma keys_legs ks t : Forall2 (items_rel ops K) ks t -> legs_of ks = length (flat_map group t).
  Proof.
    intros F. unfold legs_of. induction F as [|k e ks t H F IH]; [reflexivity|]. cbn [concat flat_map]. rewrite !app_length, IH.
    rewrite (k_len ops k e) by (eapply items_keyed; eassumption). rewrite group_length; [reflexivity|].
    apply (items_from_ops ops K k e Hal (distinct_not_repeated ops K (distinct_active_of ops D)) H).
  Qed.

  Lemma uppers_nodup t : Forall (from_ops ops) t -> ForallOrdPairs disjoint_con t -> NoDup (flat_map upper t) /\ NoDup (flat_map lower t).
  Proof.
    intros F P. induction P as [|e t H P IH]; cbn [flat_map]; [split; constructor|]. inversion F as [|? ? F1 F2]; subst. destruct (IH F2) as [N1 N2].
    rewrite Forall_forall in H.
    split; apply NoDup_app_iff; (split; [apply F1|split; [assumption|]]); intros i Hi Hj; apply in_flat_map in Hj as [f [Hf Hj]]; destruct (H f Hf) as [D1 D2];
      [exact (D1 i Hi Hj)|exact (D2 i Hi Hj)].
  Qed.

  Lemma combination_iff (cats : list (list nat)) max_n min_n ks t : (forall key, In key cats <-> exists e, In (key, e) (all_items ops K)) ->
    Forall2 (items_rel ops K) ks t -> ForallOrdPairs disjoint_con t ->
    (combination_ok cats (Z.of_nat (length (written_string ops)) - max_n, Z.of_nat (length (written_string ops)) - min_n)%Z
       (map (fun o => Z.of_nat (length (cre o))) ops) (map (fun o => Z.of_nat (length (ann o))) ops) ks <->
     (min_n <= n_open ops t <= max_n)%Z /\ connects_ops ops t /\ has_pair t).
  Proof.
    intros Hc F P. pose proof (rel_keyed ks t F) as Fk. pose proof (items_from ks t F) as Ft.
    assert (Lk : forall i j, linked ks i j <-> con_linked ops t i j).
    { intros i j. unfold linked, con_linked. split.
      - intros [c [H1 [H2 H3]]]. destruct (Forall2_in_l _ _ _ _ Fk H1) as [e [He Hk]]. exists e. split; [exact He|]. rewrite <- !(key_has_leg ops c e) by assumption. auto.
      - intros [e [H1 [H2 H3]]]. destruct (Forall2_in_r _ _ _ _ Fk H1) as [c [He Hk]]. exists c. split; [exact He|]. rewrite !(key_has_leg ops c e) by assumption. auto. }
    assert (Cn : connects (length (map (fun o => Z.of_nat (length (cre o))) ops)) ks <-> connects_ops ops t).
    { unfold connects, connects_ops. rewrite map_length. split; intros H i j Hi Hj; specialize (H i j Hi Hj); (eapply rtc_incl; [|exact H]); intros a b; apply Lk. }
    assert (Pr : (exists c, In c ks /\ length c = 2) <-> has_pair t).
    { unfold has_pair. split.
      - intros [c [H1 H2]]. destruct (Forall2_in_l _ _ _ _ Fk H1) as [e [He Hk]]. exists e. split; [exact He|]. pose proof (k_len _ _ _ Hk). lia.
      - intros [e [H1 H2]]. destruct (Forall2_in_r _ _ _ _ Fk H1) as [c [He Hk]]. exists c. split; [exact He|]. pose proof (k_len _ _ _ Hk). lia. }
    assert (Lg : legs_of ks = length (flat_map group t)) by (apply keys_legs, F).
    unfold n_open. split.
    - intros [_ H2 H3 _ _ H6]. cbn [fst snd] in H6. rewrite Lg in H6. split; [lia|]. split; [apply Cn, H2|apply Pr, H3].
    - intros [H1 [H2 H3]]. destruct (uppers_nodup t Ft P) as [Nu Nl]. constructor.
      + intros c Hk. apply Hc. destruct (Forall2_in_l _ _ _ _ F Hk) as [e [_ He]]. exists e. exact He.
      + apply Cn, H2.
      + apply Pr, H3.
      + intros k. unfold creators_used. apply (times_bound ops cre _ (flat_map upper t)); [exact Nu|]. apply Forall2_concat_map.
        clear - Fk. induction Fk as [|a b l m H Fk IH]; constructor; [apply H|exact IH].
      + intros k. unfold annihilators_used. apply (times_bound ops ann _ (flat_map lower t)); [exact Nl|]. apply Forall2_concat_map.
        clear - Fk. induction Fk as [|a b l m H Fk IH]; constructor; [apply H|exact IH].
      + cbn [fst snd]. rewrite Lg. lia.
  Qed.

  (** keys of the categories *)
  Lemma category_ok_of key e : In (key, e) (all_items ops K) -> category_ok (length ops) key.
  Proof.
    intros H. pose proof (items_keyed ops K key e Hal H) as Hk. pose proof (items_from_ops ops K key e Hal (distinct_not_repeated ops K (distinct_active_of ops D)) H) as Fo.
    split; [|split].
    - exists (length (upper e)). split; [apply Fo|]. rewrite (k_len _ _ _ Hk). lia.
    - intros k Hin. apply (key_has_leg ops key e k D Hk) in Hin as [o [Ho _]]. apply nth_error_Some. congruence.
    - apply in_app_iff in H as [H|H].
      + apply pairwise_events_spec in H; [|exact Hal]. destruct H as [i j o o' u l L _ _ _ _ _|i j o o' u l L _ _ _ _ _].
        * exists i, j. cbn. intuition lia.
        * exists j, i. cbn. intuition lia.
      + apply in_flat_map in H as [k [Hlv H]]. unfold cumulant_choices in H. apply in_map_iff in H as [[c a] [[= <- _] H]]. apply filter_In in H as [_ O]. cbn [fst snd] in *.
        unfold one_operatorb in O. set (l := map fst c ++ map fst a) in *. apply negb_true_iff in O.
        destruct l as [|x l]; [discriminate|]. assert (Q : exists y, In y l /\ y <> x).
        { cbn [hd forallb] in O. rewrite Nat.eqb_refl in O. cbn in O. clear - O. induction l as [|y l IH]; [discriminate|]. cbn [forallb] in O.
          destruct (Nat.eqb_spec y x) as [->|Ne]; [destruct (IH O) as [z [H1 H2]]; exists z; split; [right; exact H1|exact H2]|exists y; split; [left; reflexivity|exact Ne]]. }
        destruct Q as [y [Hy Ne]]. exists x, y. split; [left; reflexivity|]. split; [right; exact Hy|congruence].
  Qed.
End Combination.

(** ** families of sets, one list per combination *)
Lemma once_pairs {A} (ys : list (list A)) :
  (forall i j a b, nth_error ys i = Some a -> nth_error ys j = Some b -> Permutation a b -> i = j) <-> ForallOrdPairs (fun a b => ~ Permutation a b) ys.
Proof.
  split.
  - induction ys as [|y ys IH]; intros H; constructor.
    + apply Forall_forall. intros b Hb P. apply In_nth_error in Hb as [j Hj]. discriminate (H 0 (S j) y b eq_refl Hj P).
    + apply IH. intros i j a b Hi Hj P. pose proof (H (S i) (S j) a b Hi Hj P). lia.
  - induction 1 as [|y ys F O IH]; intros i j a b Hi Hj P; [destruct i; discriminate|]. rewrite Forall_forall in F.
    destruct i as [|i], j as [|j]; cbn in Hi, Hj; [reflexivity| | |f_equal; exact (IH i j a b Hi Hj P)].
    + injection Hi as ->. exfalso. exact (F b (nth_error_In _ _ Hj) P).
    + injection Hj as ->. exfalso. exact (F a (nth_error_In _ _ Hi) (Permutation_sym P)).
Qed.
Lemma ord_pairs_app {A} (R : A -> A -> Prop) l m : ForallOrdPairs R l -> ForallOrdPairs R m -> (forall x y, In x l -> In y m -> R x y) -> ForallOrdPairs R (l ++ m).
Proof.
  induction 1 as [|x l F O IH]; intros Hm H; cbn [app]; [exact Hm|]. constructor.
  - apply Forall_app. split; [exact F|]. apply Forall_forall. intros y Hy. apply H; [left; reflexivity|exact Hy].
  - apply IH; [exact Hm|]. intros a b Ha Hb. apply H; [right; exact Ha|exact Hb].
Qed.
Lemma set_once_concat {A W} (Pw : W -> list A -> Prop) ws yss :
  Forall2 (fun w ys => lists_each_set_once (Pw w) ys) ws yss ->
  (forall i j w w' s s', nth_error ws i = Some w -> nth_error ws j = Some w' -> Permutation s s' -> Pw w s -> Pw w' s' -> i = j) ->
  lists_each_set_once (fun s => exists w, In w ws /\ Pw w s) (concat yss).
Proof.
  intros F Inj. split; [|split].
  - intros y Hy. apply in_concat in Hy as [ys [H1 H2]]. destruct (Forall2_in_r _ _ _ _ F H1) as [w [Hw (G & _)]]. destruct (G y H2) as [N Q]. split; [exact N|eauto].
  - intros s N [w [Hw Hs]]. destruct (Forall2_in_l _ _ _ _ F Hw) as [ys [Hys (_ & G & _)]]. destruct (G s N Hs) as [y [Hy P]]. exists y. split; [|exact P].
    apply in_concat. eauto.
  - apply once_pairs. induction F as [|w ys ws yss H F IH]; cbn [concat]; [constructor|]. apply ord_pairs_app.
    + apply once_pairs, H.
    + apply IH. intros i j a b s s' Hi Hj P Q Q'. pose proof (Inj (S i) (S j) a b s s' Hi Hj P Q Q'). lia.
    + intros x y Hx Hy P. apply in_concat in Hy as [zs [Hz Hy]]. destruct (Forall2_in_r _ _ _ _ F Hz) as [w' [Hw' (G' & _)]]. destruct H as (G & _).
      apply In_nth_error in Hw' as [j Hj]. discriminate (Inj 0 (S j) w w' x y eq_refl Hj P (proj2 (G x Hx)) (proj2 (G' y Hy))).
Qed.

Lemma items_value_nodup (d : list (list nat * list econ)) c l : In (c, l) d -> NoDup (map snd (dict_items d)) -> NoDup l.
Proof.
  induction d as [|[k v] d IH]; intros H N; [destruct H|]. unfold dict_items in N. cbn [flat_map fst snd] in N. rewrite map_app, map_map in N. cbn in N. rewrite map_id in N.
  apply NoDup_app_iff in N as [N1 [N2 _]]. destruct H as [[= -> ->]|H]; [exact N1|apply IH; assumption].
Qed.
Lemma in_dict_list (d : list (list nat * list econ)) c e : NoDup (map fst d) -> (In e (dict_list key_eqb c d) <-> In (c, e) (dict_items d)).
Proof. intros N. apply (dict_list_in_items key_eqb key_eqb_eq), N. Qed.

Lemma perm_concat {A} (l m : list (list A)) : Permutation l m -> Permutation (concat l) (concat m).
Proof.
  induction 1 as [|x l m P IH|x y l|l m n P IH Q IH']; cbn [concat].
  - constructor.
  - apply Permutation_app_head, IH.
  - rewrite !app_assoc. apply Permutation_app_tail, Permutation_app_comm.
  - eapply Permutation_trans; eassumption.
Qed.

Section Connected.
  Context (ops : list op) (max_cu max_n min_n : Z) (expand : bool) (Hal : Forall op_alpha ops) (D : distinct_legs ops).
  Let K := cumulant_level ops max_cu.
  Context (d : list (list nat * list econ)) (Nd : NoDup (map fst d)) (Pd : Permutation (dict_items d) (all_items ops K)) (Fd : incl (map fst d) (map fst (all_items ops K))).
  Let cats := elementary_sequence d.
  Let E := the_ecc d cats.
  Let N := Z.of_nat (length (written_string ops)).

  Lemma cats_perm : Permutation cats (map fst d).
  Proof. apply elementary_sequence_perm. Qed.
  Lemma cats_nodup : NoDup cats.
  Proof. apply (Permutation_NoDup (Permutation_sym cats_perm)), Nd. Qed.
  Lemma cats_keys c : In c cats -> In c (map fst d).
  Proof. apply Permutation_in, cats_perm. Qed.
  Lemma cats_items c : In c (map fst d) <-> exists e, In (c, e) (all_items ops K).
  Proof.
    split.
    - intros H. apply Fd, in_map_iff in H as [[k e] [<- H]]. exists e. exact H.
    - intros [e H]. apply (Permutation_in _ (Permutation_sym Pd)) in H. unfold dict_items in H. apply in_flat_map in H as [[k v] [H1 H2]].
      cbn in H2. apply in_map_iff in H2 as [x [[= <- _] _]]. apply (in_map fst) in H1. exact H1.
  Qed.
  Definition val (x : nat) : econ := match decode E x with Ok e => e | Raise _ => con0 end.
  Definition cat (x : nat) : list nat := match find_category E x with Ok c => c | Raise _ => [] end.
  Definition coded_ (x : nat) : Prop := exists e, decode E x = Ok e.

  Lemma coded_spec x : coded_ x -> find_category E x = Ok (cat x) /\ In (cat x) cats /\ In (cat x, val x) (all_items ops K).
  Proof.
    intros [e H]. unfold val. rewrite H. apply (decode_coded d cats cats_nodup cats_keys) in H as (c & s & Hc & Hs & ->).
    pose proof Hc as Hc'. apply In_nth_error in Hc' as [k Hk]. rewrite (cs_start d cats cats_nodup cats_keys k c Hk).
    assert (Q : find_category E (start d cats k + s) = Ok c).
    { apply (find_category_ok d cats cats_nodup cats_keys k c); [exact Hk|]. assert (s < length (dict_list key_eqb c d)) by (apply nth_error_Some; congruence). lia. }
    unfold cat. rewrite Q. split; [reflexivity|]. split; [exact Hc|]. apply (Permutation_in _ Pd), in_dict_list; [exact Nd|]. eapply nth_error_In, Hs.
  Qed.
  Lemma val_inj x y : coded_ x -> coded_ y -> val x = val y -> x = y.
  Proof.
    intros Hx Hy Ev. pose proof (coded_spec x Hx) as (_ & _ & Ix). pose proof (coded_spec y Hy) as (_ & _ & Iy).
    destruct Hx as [e Hx], Hy as [f Hy]. unfold val in Ev. rewrite Hx, Hy in Ev. subst f.
    apply (decode_coded d cats cats_nodup cats_keys) in Hx as (c & s & Hc & Hs & ->). apply (decode_coded d cats cats_nodup cats_keys) in Hy as (c' & s' & Hc' & Hs' & ->).
    assert (I1 : In (c, e) (all_items ops K)) by (apply (Permutation_in _ Pd), in_dict_list; [exact Nd|eapply nth_error_In, Hs]).
    assert (I2 : In (c', e) (all_items ops K)) by (apply (Permutation_in _ Pd), in_dict_list; [exact Nd|eapply nth_error_In, Hs']).
    assert (c = c') by (apply (key_unique ops c c' e D); eapply items_keyed; eassumption). subst c'. f_equal.
    assert (Nc : NoDup (dict_list key_eqb c d)).
    { unfold dict_list. destruct (dict_get key_eqb c d) as [l|] eqn:G; [|constructor]. apply dict_get_some_in in G. apply (items_value_nodup d c l G).
      apply (Permutation_NoDup (Permutation_map snd (Permutation_sym Pd))), nodup_values; assumption. }
    rewrite NoDup_nth_error in Nc. apply Nc; [apply nth_error_Some; congruence|congruence].
  Qed.
  Lemma val_surj key e : In (key, e) (all_items ops K) -> exists x, coded_ x /\ val x = e.
  Proof.
    intros H. pose proof (Permutation_in _ (Permutation_sym Pd) H) as H'. apply in_dict_list in H'; [|exact Nd]. apply In_nth_error in H' as [s Hs].
    assert (Hc : In key cats) by (apply (Permutation_in _ (Permutation_sym cats_perm)), cats_items; eauto).
    assert (Q : decode E (cs d cats key + s) = Ok e) by (apply (decode_coded d cats cats_nodup cats_keys); exists key, s; auto).
    exists (cs d cats key + s). split; [exists e; exact Q|]. unfold val. rewrite Q. reflexivity.
  Qed.

  (** the sets belonging to a combination *)
  Record of_combination (w : list (list nat)) (t : list econ) : Prop := {
    oc_disjoint : ForallOrdPairs disjoint_con t;
    oc_keys : exists ks, Forall2 (items_rel ops K) ks t /\ Permutation ks w }.

  Lemma coded_keys s : Forall coded_ s -> Forall2 (items_rel ops K) (map cat s) (map val s).
  Proof. induction 1 as [|x s H F IH]; cbn [map]; constructor; [apply coded_spec, H|exact IH]. Qed.
  Lemma keys_determined ks ks' t : Forall2 (items_rel ops K) ks t -> Forall2 (items_rel ops K) ks' t -> ks = ks'.
  Proof.
    intros F. revert ks'. induction F as [|k e ks t H F IH]; intros ks' F'; inversion F' as [|? ? ? ? H' F'' E1 E2]; subst; [reflexivity|].
    f_equal; [|apply IH, F'']. apply (key_unique ops _ _ e D); eapply items_keyed; eassumption.
  Qed.

  Lemma count_category s c : Forall coded_ s -> count (in_category E c) s = count_occ key_dec (map cat s) c.
  Proof.
    unfold count. induction 1 as [|x s H F IH]; cbn [filter map count_occ]; [reflexivity|]. unfold in_category at 1. rewrite (proj1 (coded_spec x H)).
    destruct (key_eqb c (cat x)) eqn:Q; destruct (key_dec (cat x) c) as [G|G]; cbn [length]; rewrite ?IH; try reflexivity.
    - apply key_eqb_eq in Q. congruence.
    - rewrite G, (proj2 (key_eqb_eq c c) eq_refl) in Q. discriminate.
  Qed.

  Lemma combination_sets pick w : incl w (map fst d) ->
    exists compatible ys r, compatible_categorized E = Ok compatible /\ composite_contractions pick E (counter_of w) compatible = Ok (ys, r) /\
      (forall y, In y ys -> Forall coded_ y) /\ lists_each_set_once (of_combination w) (map (map val) ys).
  Proof.
    intros Iw. destruct (counter_of_spec w) as (C1 & C2 & C3).
    destruct (composite_contractions_ok pick d cats (counter_of w) cats_nodup cats_keys C1) as (E' & comp & ys & ch & M1 & M2 & M3 & S).
    - intros c Hc. apply (Permutation_in _ (Permutation_sym cats_perm)), Iw, C2, Hc.
    - intros [k v] Hkv. pose proof (counter_get_in (counter_of w) (k, v) C1 Hkv) as G. cbn [fst snd] in *. rewrite C3 in G.
      assert (In k w) by (apply C2; apply (in_map fst) in Hkv; exact Hkv). apply (count_occ_In key_dec) in H. lia.
    - rewrite (make_ecc_ok d cats cats_nodup cats_keys) in M1. injection M1 as <-. fold E in M2, M3, S. exists comp, ys, (ch, counter_of w, []). split; [exact M2|]. split; [exact M3|].
      split; [intros y Hy; destruct S as (S1 & _); destruct (S1 y Hy) as [_ [G _]]; apply Forall_forall, G|].
      eapply (set_once_map val coded_); [exact val_inj| | | |exact S].
      + intros s [G _]. apply Forall_forall, G.
      + intros s Ns Fs. pose proof (coded_keys s Fs) as Fk. pose proof Fs as Fs'. rewrite Forall_forall in Fs'. split.
        * intros (_ & Dj & Ct). constructor.
          -- apply ord_pairs_map; [exact Ns|]. intros x y Hx Hy Nxy. destruct (Fs' x Hx) as [e Ex], (Fs' y Hy) as [f Ey]. unfold val. rewrite Ex, Ey. exact (Dj x y e f Hx Hy Nxy Ex Ey).
          -- exists (map cat s). split; [exact Fk|]. apply (Permutation_count_occ key_dec). intros c. destruct (in_dec key_dec c cats) as [Hc|Hc].
             ++ specialize (Ct c Hc). rewrite (count_category s c Fs), C3 in Ct. lia.
             ++ rewrite (proj1 (count_occ_not_In key_dec w c)), (proj1 (count_occ_not_In key_dec (map cat s) c)); [reflexivity| |].
                ** intros G. apply in_map_iff in G as [x [<- Hx]]. apply Hc, coded_spec, Fs', Hx.
                ** intros G. apply Hc, (Permutation_in _ (Permutation_sym cats_perm)), Iw, G.
        * intros [Dj (ks & F & P)]. assert (ks = map cat s) by (eapply keys_determined; eassumption). subst ks.
          split; [exact Fs'|]. split.
          -- intros x y e f Hx Hy Nxy Ex Ey. pose proof (proj1 (ord_pairs_map val s Ns) Dj x y Hx Hy Nxy) as G. unfold val in G. rewrite Ex, Ey in G. exact G.
          -- intros c _. rewrite (count_category s c Fs), C3. f_equal. revert c. apply (Permutation_count_occ key_dec), P.
      + intros s Ns [_ (ks & F & _)]. clear Ns. induction F as [|k e ks s H F IH]; [exists []; split; [constructor|reflexivity]|].
        destruct IH as [t [Ft <-]]. destruct (val_surj k e H) as [x [Hx <-]]. exists (x :: t). split; [constructor; assumption|reflexivity].
  Qed.

  Lemma process_categorized_ok pick w : incl w (map fst d) ->
    exists compatible sets out, compatible_categorized E = Ok compatible /\
      process_composite_categorized pick w E compatible (upper_indices_set ops) (lower_indices_set ops) (base_order_map ops) (Z.of_nat (length (base_order_map ops))) expand = Ok (concat out) /\
      lists_each_set_once (of_combination w) sets /\ Forall2 (entries_of ops expand) sets out.
  Proof.
    intros Iw. destruct (combination_sets pick w Iw) as (comp & ys & r & M1 & M2 & Cod & S). exists comp, (map (map val) ys).
    assert (Bs : exists out, pymap (fun coded_cons => pybind (pymap (decode E) coded_cons) (fun contractions =>
        finish_composite contractions (Z.of_nat (length (base_order_map ops)) - Z.of_nat (length (concat w))) expand (base_order_map ops) (upper_indices_set ops) (lower_indices_set ops))) ys = Ok out /\
        Forall2 (entries_of ops expand) (map (map val) ys) out).
    { assert (Hy : forall y, In y ys -> Forall coded_ y /\ of_combination w (map val y)).
      { intros y Hy. split; [apply Cod, Hy|]. destruct S as (S1 & _). apply S1, in_map, Hy. }
      clear - Hy Hal D. induction ys as [|y ys IH]; cbn [pymap map]; [exists []; split; [reflexivity|constructor]|].
      destruct (Hy y (or_introl eq_refl)) as [Fy [Dj (ks & Fk & Pk)]].
      rewrite (pymap_total _ val) by (intros x Hx; rewrite Forall_forall in Fy; destruct (Fy x Hx) as [e He]; unfold val; rewrite He; reflexivity). cbn [pybind].
      destruct (finish_ok ops (upper_indices_set ops) (lower_indices_set ops) (map val y) expand Hal D (Permutation_refl _) (Permutation_refl _)) as (sign & sq & W & Ef).
      { eapply items_from; eassumption. } { exact Dj. }
      assert (En : n_open ops (map val y) = (Z.of_nat (length (base_order_map ops)) - Z.of_nat (length (concat w)))%Z).
      { unfold n_open. rewrite base_map_length, (Permutation_length (leg_set_perm _ D)). rewrite <- (keys_legs ops K Hal D ks _ Fk). unfold legs_of.
        rewrite (Permutation_length (perm_concat _ _ Pk)). reflexivity. }
      rewrite <- En, Ef. cbn [pybind]. destruct IH as [out [E1 E2]]; [intros z Hz; apply Hy; right; exact Hz|]. rewrite <- En in E1. rewrite E1. cbn [pybind].
      eexists. split; [reflexivity|]. constructor; [|exact E2]. exists (map val y), sign, sq. split; [reflexivity|]. split; [exact W|reflexivity]. }
    destruct Bs as (out & Eo & Fo). exists out. split; [exact M1|]. split; [|split; assumption].
    unfold process_composite_categorized. rewrite M2. cbn [pybind fst]. rewrite Eo. reflexivity.
  Qed.
End Connected.

Lemma forall2_concat {A B} (R : A -> B -> Prop) xs ys : Forall2 (Forall2 R) xs ys -> Forall2 R (concat xs) (concat ys).
Proof. induction 1 as [|x y xs ys H F IH]; cbn [concat]; [constructor|]. apply Forall2_app; assumption. Qed.
Lemma concat_map_concat {A} (l : list (list (list A))) : concat (map (@concat A) l) = concat (concat l).
Proof. induction l as [|x l IH]; cbn [map concat]; [reflexivity|]. rewrite concat_app, IH. reflexivity. Qed.
Lemma rel_perm ops K ks s s' : Forall2 (items_rel ops K) ks s -> Permutation s s' -> exists ks', Forall2 (items_rel ops K) ks' s' /\ Permutation ks ks'.
Proof.
  intros F P. revert ks F. induction P as [|x s s' P IH|x y s|s m s' P IH Q IH']; intros ks F.
  - exists ks. split; [exact F|reflexivity].
  - inversion F as [|k ? ks' ? H F' E1 E2]; subst. destruct (IH ks' F') as [q [G1 G2]]. exists (k :: q). split; [constructor; assumption|constructor; exact G2].
  - inversion F as [|k ? ks' ? H F' E1 E2]; subst. inversion F' as [|k' ? q ? H' F'' E1 E2]; subst. exists (k' :: k :: q). split; [repeat constructor; assumption|constructor].
  - destruct (IH ks F) as [q [G1 G2]]. destruct (IH' q G1) as [r [G3 G4]]. exists r. split; [exact G3|eapply Permutation_trans; eassumption].
Qed.
Lemma allowed_rel ops K s : Forall op_alpha ops -> Forall (allowed ops K) s -> exists ks, Forall2 (items_rel ops K) ks s.
Proof.
  intros Hal. induction 1 as [|e s H F IH]; [exists []; constructor|]. destruct IH as [ks Fk].
  apply (allowed_items ops K e Hal) in H. destruct H as [key H]. exists (key :: ks). constructor; assumption.
Qed.

Lemma connected_driver_ok pick ops max_cu max_n min_n expand : Forall op_alpha ops -> distinct_legs ops ->
  exists result P, compute_connected pick ops max_cu max_n min_n expand = Ok result /\ wick_sum ops expand P result /\
    (forall s, P s -> wick_set ops (cumulant_level ops max_cu) min_n max_n s /\ connects_ops ops s /\ has_pair s) /\
    (length ops <= 3 -> forall s, wick_set ops (cumulant_level ops max_cu) min_n max_n s -> connects_ops ops s -> has_pair s -> P s).
Proof.
  intros Hal D. unfold compute_connected. cbv zeta. set (N := Z.of_nat (length (base_order_map ops))).
  assert (EN : N = Z.of_nat (length (written_string ops))) by (unfold N; rewrite base_map_length, (Permutation_length (leg_set_perm _ D)); reflexivity).
  pose proof (elementary_categorized_either ops (check_max_cu ops max_cu) Hal) as H. cbv zeta in H. rewrite check_max_cu_idem, cumulant_level_ok in H.
  set (K := cumulant_level ops max_cu) in *.
  destruct H as [(d & -> & Nd & Pd & Fd & _)|[_ H]]; [|exfalso; exact (distinct_not_repeated ops _ (distinct_active_of ops D) H)].
  cbn [pybind]. destruct d as [|dk dr].
  - exists [], (fun _ => False). split; [reflexivity|]. split.
    + exists [], []. split; [split; [|split]; [intros y []|intros s _ []|intros [|?] j a b H; discriminate]|]. split; [constructor|reflexivity].
    + split; [intros s []|]. intros _ s [F _ _] _ (e & He & _). rewrite Forall_forall in F. destruct (proj1 (allowed_items ops K e Hal) (F e He)) as [key Hk].
      unfold dict_items in Pd. cbn in Pd. apply Permutation_nil in Pd. rewrite Pd in Hk. destruct Hk.
  - assert (Nonempty : dk :: dr <> []) by discriminate. set (d := dk :: dr) in *. clearbody d. clear dk dr.
    set (cats := elementary_sequence d). pose proof (cats_nodup d Nd) as Nc. pose proof (cats_keys d) as Kc. fold cats in Nc, Kc.
    rewrite (make_ecc_ok d cats Nc Kc). cbn [pybind]. set (E := the_ecc d cats).
    destruct (compatible_categorized_ok d cats Nc Kc) as [comp [Ec _]]. fold E in Ec. rewrite Ec. cbn [pybind]. change (categories E) with cats.
    set (n_con := (_, _)). set (n_cre := map (fun o : op => Z.of_nat (length (cre o))) ops). set (n_ann := map (fun o : op => Z.of_nat (length (ann o))) ops).
    assert (Ck : Forall (category_ok (length n_cre)) (map fst d)).
    { unfold n_cre. rewrite map_length. apply Forall_forall. intros key Hk. apply (cats_items ops max_cu d Pd Fd) in Hk as [e He]. eapply category_ok_of; eassumption. }
    assert (Two : 2 <= length n_cre).
    { destruct d as [|[k v] d']; [contradiction|]. inversion Ck as [|? ? [_ [R (i & j & I1 & I2 & I3)]] _ E1]; subst. pose proof (R i I1). pose proof (R j I2). lia. }
    assert (Lc : length n_ann = length n_cre) by (unfold n_ann, n_cre; rewrite !map_length; reflexivity).
    assert (P1 : Forall (fun a => 0 <= a)%Z n_cre) by (apply Forall_forall; intros a Ha; apply in_map_iff in Ha as [? [<- _]]; lia).
    assert (P2 : Forall (fun a => 0 <= a)%Z n_ann) by (apply Forall_forall; intros a Ha; apply in_map_iff in Ha as [? [<- _]]; lia).
    destruct (macro_sound d n_con n_cre n_ann Nd Ck Lc P1 P2 Two) as (ws & Ew & Ws & Nr). fold cats in Ew. rewrite Ew. cbn [pybind].
    assert (Comp : length ops <= 3 -> forall w, combination_ok (map fst d) n_con n_cre n_ann w -> exists y, In y ws /\ Permutation y w).
    { intros H3. destruct (macro_complete d n_con n_cre n_ann Nd Ck Lc P1 P2 Two) as (ws' & Ew' & _ & _ & G); [unfold n_cre; rewrite map_length; exact H3|].
      fold cats in Ew'. rewrite Ew in Ew'. injection Ew' as <-. exact G. }
    assert (Run : exists setss outs, pymap (fun com_cat => process_composite_categorized (pick com_cat) com_cat E comp (upper_indices_set ops)
                              (lower_indices_set ops) (base_order_map ops) N expand) ws = Ok (map (@concat entry) outs) /\
        Forall2 (fun w sets => lists_each_set_once (of_combination ops max_cu w) sets) ws setss /\ Forall2 (Forall2 (entries_of ops expand)) setss outs).
    { assert (Iw : forall w, In w ws -> incl w (map fst d)) by (intros w Hw; apply (co_incl _ _ _ _ _ (Ws w Hw))). clear Ew Ws Nr Comp.
      induction ws as [|w ws IH]; [exists [], []; split; [reflexivity|split; constructor]|].
      destruct (process_categorized_ok ops max_cu expand Hal D d Nd Pd Fd (pick w) w (Iw w (or_introl eq_refl))) as (comp' & sets & out & Ec' & Ep & S & F).
      fold cats E in Ec', Ep. rewrite Ec in Ec'. injection Ec' as <-. fold N in Ep. destruct IH as (setss & outs & E1 & E2 & E3); [intros v Hv; apply Iw; right; exact Hv|].
      exists (sets :: setss), (out :: outs). split; [|split; constructor; assumption]. cbn [pymap map]. rewrite Ep. cbn [pybind]. rewrite E1. reflexivity. }
    destruct Run as (setss & outs & E1 & E2 & E3). exists (map (@concat entry) outs), (fun s => exists w, In w ws /\ of_combination ops max_cu w s).
    assert (EC : forall w s, of_combination ops max_cu w s -> combination_ok (map fst d) n_con n_cre n_ann w <->
       (min_n <= n_open ops s <= max_n)%Z /\ connects_ops ops s /\ has_pair s).
    { intros w s [Dj (ks & Fk & Pk)]. rewrite <- (combination_iff ops K Hal D (map fst d) max_n min_n ks s (cats_items ops max_cu d Pd Fd) Fk Dj).
      unfold n_con. rewrite EN. split; apply combination_ok_perm; [exact (Permutation_sym Pk)|exact Pk]. }
    split; [exact E1|]. split; [|split].
    + exists (concat setss), (concat outs). split; [|split; [apply forall2_concat, E3|apply concat_map_concat]].
      apply set_once_concat; [exact E2|]. intros i j w w' s s' Hi Hj P [_ (ks & F & Pk)] [_ (ks' & F' & Pk')]. apply (Nr i j w w' Hi Hj).
      destruct (rel_perm ops K ks s s' F P) as [q [G1 G2]]. assert (q = ks') by (exact (keys_determined ops max_cu Hal D q ks' s' G1 F')). subst q.
      rewrite <- Pk, G2. exact Pk'.
    + intros s [w [Hw Hs]]. pose proof (proj1 (EC w s Hs) (Ws w Hw)) as (R & C & Hp). split; [|split; assumption]. destruct Hs as [Dj (ks & Fk & Pk)].
      constructor; [|exact Dj|exact R]. apply Forall_forall. intros e He. destruct (Forall2_in_r _ _ _ _ Fk He) as [k [_ Hk]]. apply (allowed_items ops K e Hal). exists k. exact Hk.
    + intros H3 s [Fa Dj R] C Hp. destruct (allowed_rel ops K s Hal Fa) as [ks Fk].
      assert (Hs : of_combination ops max_cu ks s) by (constructor; [exact Dj|exists ks; split; [exact Fk|reflexivity]]).
      destruct (Comp H3 ks (proj2 (EC ks s Hs) (conj R (conj C Hp)))) as [y [Hy Py]]. exists y. split; [exact Hy|]. constructor; [exact Dj|].
      exists ks. split; [exact Fk|exact (Permutation_sym Py)].
Qed.
