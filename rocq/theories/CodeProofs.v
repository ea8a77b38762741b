(** Encoding and decoding of contraction codes. *)
From Verif Require Import PyBase SpaceModel IndicesModel IndicesProofs ElemModel ElemSpec ElemProofs IterProofs
  HalfProofs CumulantProofs CodeModel.
From Coq Require Import ZArith.

Definition nsum (l : list nat) : nat := fold_right Nat.add 0 l.
Lemma nsum_app a b : nsum (a ++ b) = nsum a + nsum b.
Proof. unfold nsum. induction a as [|x a IH]; simpl; [reflexivity|lia]. Qed.

Lemma accumulate_from_spec s l : accumulate_from s l = map (fun k => s + nsum (firstn (S k) l)) (seq 0 (length l)).
Proof.
  revert s; induction l as [|x l IH]; intros s; [reflexivity|]. cbn [accumulate_from length seq map]. f_equal.
  - simpl. lia.
  - rewrite IH, <- seq_shift, map_map. apply map_ext. intros k. change (firstn (S (S k)) (x :: l)) with (x :: firstn (S k) l).
    cbn [nsum fold_right]. unfold nsum. lia.
Qed.

Lemma count_le_monotone (f : nat -> nat) x k n :
  (forall a b, a <= b -> f a <= f b) -> k < n -> f k <= x -> x < f (S k) ->
  length (filter (fun a => a <=? x) (map f (seq 0 n))) = S k.
Proof.
  intros Hm Hk H1 H2. replace n with (S k + (n - S k)) by lia. rewrite seq_app, map_app, filter_app, app_length.
  rewrite filter_true, filter_false.
  - rewrite map_length, seq_length. simpl. lia.
  - intros y Hy. apply in_map_iff in Hy as [a [<- Ha]]. apply in_seq in Ha. apply Nat.leb_gt.
    specialize (Hm (S k) a ltac:(lia)). lia.
  - intros y Hy. apply in_map_iff in Hy as [a [<- Ha]]. apply in_seq in Ha. apply Nat.leb_le.
    specialize (Hm a k ltac:(lia)). lia.
Qed.

Lemma firstn_S_nth {A} (l : list A) k x : nth_error l k = Some x -> firstn (S k) l = firstn k l ++ [x].
Proof.
  revert l; induction k as [|k IH]; intros [|y l] H; try discriminate.
  - cbn in H. injection H as ->. reflexivity.
  - cbn [nth_error] in H. change (firstn (S (S k)) (y :: l)) with (y :: firstn (S k) l). rewrite (IH l H). reflexivity.
Qed.

Lemma firstn_removelast {A} (l : list A) k : k < length l -> firstn k (removelast l) = firstn k l.
Proof.
  revert k; induction l as [|x l IH]; intros k Hk; [reflexivity|]. destruct l as [|y l].
  - simpl in Hk. replace k with 0 by lia. reflexivity.
  - change (removelast (x :: y :: l)) with (x :: removelast (y :: l)). destruct k as [|k]; [reflexivity|].
    cbn [firstn]. f_equal. apply IH. simpl in *. lia.
Qed.
Lemma length_removelast {A} (l : list A) : length (removelast l) = length l - 1.
Proof.
  induction l as [|x l IH]; [reflexivity|]. destruct l as [|y l]; [reflexivity|].
  change (removelast (x :: y :: l)) with (x :: removelast (y :: l)). cbn [length] in *. lia.
Qed.

Lemma fold_dict_set {K V} (eqk : K -> K -> bool) (ps m : list (K * V)) :
  fold_left (fun m p => dict_set eqk (fst p) (snd p) m) ps m = dict_update eqk m ps.
Proof. reflexivity. Qed.

Section Ecc.
  Context {V : Type} (d : list (list nat * list V)) (cats : list (list nat)).
  Context (Hn : NoDup cats) (Hk : forall c, In c cats -> In c (map fst d)).
  Let con (c : list nat) : list V := dict_list key_eqb c d.
  Let len (c : list nat) : nat := length (con c).
  Definition start (k : nat) : nat := nsum (map len (firstn k cats)).

  Lemma con_item c : In c cats -> dict_item key_eqb c d = Ok (con c).
  Proof.
    intros H. apply Hk in H. destruct (dict_get_key key_eqb key_eqb_eq c d H) as [v Ev].
    unfold dict_item, con, dict_list. rewrite Ev. reflexivity.
  Qed.
  Lemma n_in_ok c : In c cats -> n_in d c = Ok (len c).
  Proof. intros H. unfold n_in. rewrite con_item by exact H. reflexivity. Qed.

  Lemma start_S k c : nth_error cats k = Some c -> start (S k) = start k + len c.
  Proof.
    intros H. unfold start. rewrite (firstn_S_nth _ _ _ H), map_app, nsum_app. simpl. lia.
  Qed.
  Lemma start_mono a b : a <= b -> start a <= start b.
  Proof.
    intros H. unfold start. rewrite <- (firstn_skipn a (firstn b cats)). rewrite firstn_firstn, Nat.min_l by exact H.
    rewrite map_app, nsum_app. lia.
  Qed.
  Lemma start_all k : length cats <= k -> start k = start (length cats).
  Proof. intros H. unfold start. rewrite !firstn_all2 by lia. reflexivity. Qed.

  Definition starts : list nat := match cats with [] => [0] | _ => map start (seq 0 (length cats)) end.
  Definition the_ecc : ecc V := Ecc d cats starts (combine cats starts).

  Lemma make_ecc_ok : make_ecc d cats = Ok the_ecc.
  Proof.
    unfold make_ecc. rewrite (pymap_total _ len).
    2:{ intros c Hc. apply n_in_ok. clear - Hc. induction cats as [|x l IH]; [destruct Hc|].
        destruct l as [|y l]; [destruct Hc|]. change (removelast (x :: y :: l)) with (x :: removelast (y :: l)) in Hc.
        destruct Hc as [->|Hc]; [left; reflexivity|right; apply IH, Hc]. }
    cbn [pybind]. unfold the_ecc.
    assert (ES : 0 :: accumulate (map len (removelast cats)) = starts).
    { unfold starts. destruct (length cats) as [|n] eqn:L.
      - destruct cats; [reflexivity|discriminate].
      - unfold accumulate. rewrite accumulate_from_spec, map_length, length_removelast, L. cbn [seq].
        replace (S n - 1) with n by lia.
        transitivity (map start (0 :: seq 1 n)); [|destruct cats; [discriminate|reflexivity]]. cbn [map]. f_equal.
        rewrite <- seq_shift, map_map. apply map_ext_in. intros k Hin. apply in_seq in Hin. unfold start.
        rewrite firstn_map, firstn_removelast by lia. reflexivity. }
    rewrite ES. f_equal. f_equal. rewrite fold_dict_set. rewrite (dict_update_new key_eqb key_eqb_eq).
    - reflexivity.
    - assert (L : length starts >= length cats).
      { unfold starts. destruct cats; [simpl; lia|]. rewrite map_length, seq_length. lia. }
      assert (E : map fst (combine cats starts) = cats).
      { clear - L. revert L. generalize starts. induction cats as [|c l IH]; intros s L; [reflexivity|].
        destruct s as [|x s]; [simpl in L; lia|]. cbn [combine map fst]. f_equal. apply IH. simpl in L. lia. }
      rewrite E. exact Hn.
    - intros k _ [].
  Qed.

  Lemma nth_error_starts k : k < length cats -> nth_error starts k = Some (start k).
  Proof.
    intros H. unfold starts. destruct cats as [|c l] eqn:E; [simpl in H; lia|]. rewrite <- E in *.
    rewrite nth_error_map. rewrite (nth_error_nth' (seq 0 (length cats)) 0) by (rewrite seq_length; exact H).
    rewrite seq_nth by exact H. reflexivity.
  Qed.

  Lemma start_item k c : nth_error cats k = Some c -> dict_item key_eqb c (combine cats starts) = Ok (start k).
  Proof.
    intros H. unfold dict_item.
    assert (Hl : k < length cats) by (apply nth_error_Some; congruence).
    pose proof (nth_error_starts k Hl) as Hs.
    assert (E : dict_get key_eqb c (combine cats starts) = Some (start k)).
    { apply (dict_get_in key_eqb key_eqb_eq).
      - assert (L : length starts >= length cats).
        { unfold starts. destruct cats; [simpl; lia|]. rewrite map_length, seq_length. lia. }
        assert (E : map fst (combine cats starts) = cats).
        { clear - L. revert L. generalize starts. induction cats as [|c l IH]; intros s L; [reflexivity|].
          destruct s as [|x s]; [simpl in L; lia|]. cbn [combine map fst]. f_equal. apply IH. simpl in L. lia. }
        rewrite E. exact Hn.
      - clear - H Hs. revert H Hs. generalize (start k) as v. generalize starts as s. intros s v. revert s k.
        induction cats as [|c' l IH]; intros s k H Hs; [destruct k; discriminate|].
        destruct s as [|y s]; [destruct k; discriminate|]. destruct k as [|k]; cbn in H, Hs.
        + injection H as ->. injection Hs as ->. left. reflexivity.
        + right. apply (IH s k); assumption. }
    rewrite E. reflexivity.
  Qed.

  Lemma encode_ok k c s : nth_error cats k = Some c -> encode the_ecc c s = Ok (start k + s).
  Proof. intros H. unfold encode, the_ecc; cbn [i_start_map]. rewrite (start_item k c H). reflexivity. Qed.

  Lemma range_ok k c : nth_error cats k = Some c -> category_range the_ecc c = Ok (seq (start k) (len c)).
  Proof.
    intros H. unfold category_range, the_ecc; cbn [i_start_map ele_con]. rewrite (start_item k c H). cbn [pybind].
    rewrite n_in_ok; [reflexivity|]. eapply nth_error_In, H.
  Qed.

  Lemma bisect_ok k c code : nth_error cats k = Some c -> start k <= code < start k + len c ->
    bisect_right (i_start the_ecc) code = S k.
  Proof.
    intros H Hc. unfold bisect_right, the_ecc; cbn [i_start]. unfold starts.
    assert (Hl : k < length cats) by (apply nth_error_Some; congruence).
    destruct cats as [|c0 l] eqn:E; [simpl in Hl; lia|]. rewrite <- E in *.
    apply count_le_monotone; [apply start_mono|exact Hl|lia|]. rewrite (start_S k c) by exact H. lia.
  Qed.

  Lemma find_category_ok k c code : nth_error cats k = Some c -> start k <= code < start k + len c ->
    find_category the_ecc code = Ok c.
  Proof.
    intros H Hc. unfold find_category. rewrite (bisect_ok k c code H Hc). cbn [the_ecc categories].
    replace (S k - 1) with k by lia. unfold get_item. rewrite H. reflexivity.
  Qed.

  Lemma decode_ok k c s v : nth_error cats k = Some c -> nth_error (con c) s = Some v ->
    decode the_ecc (start k + s) = Ok v.
  Proof.
    intros H Hs. assert (Hl : s < len c) by (apply nth_error_Some; congruence).
    unfold decode. rewrite (bisect_ok k c) by (try exact H; lia). cbn [the_ecc categories i_start ele_con].
    replace (S k - 1) with k by lia. unfold get_item. rewrite H. cbn [pybind].
    rewrite nth_error_starts by (apply nth_error_Some; congruence). cbn [pybind].
    rewrite con_item by (eapply nth_error_In, H). cbn [pybind]. replace (start k + s - start k) with s by lia.
    rewrite Hs. reflexivity.
  Qed.

  Lemma size_ok : ecc_size the_ecc = Ok (start (length cats)).
  Proof.
    unfold ecc_size, the_ecc; cbn [categories ele_con i_start].
    destruct (Nat.eq_dec (length cats) 0) as [L|L].
    - unfold start. rewrite firstn_all. destruct cats; [reflexivity|discriminate].
    - assert (H : nth_error cats (length cats - 1) = Some (last cats [])).
      { clear - L. induction cats as [|c l IH]; [simpl in L; lia|]. destruct l as [|c' l]; [reflexivity|].
        change (last (c :: c' :: l) []) with (last (c' :: l) []). rewrite <- IH by (simpl; lia).
        cbn [length]. replace (S (S (length l)) - 1) with (S (S (length l) - 1)) by lia. reflexivity. }
      rewrite n_in_ok by (eapply nth_error_In, H). cbn [pybind].
      assert (E : last starts 0 = start (length cats - 1)).
      { unfold starts. destruct cats as [|c l] eqn:EC; [simpl in L; lia|]. rewrite <- EC in *.
        replace (seq 0 (length cats)) with (seq 0 (length cats - 1) ++ [length cats - 1]).
        - rewrite map_app. cbn [map]. apply last_last.
        - replace (length cats) with ((length cats - 1) + 1) at 3 by lia. rewrite seq_app. reflexivity. }
      rewrite E. rewrite <- (start_S _ _ H). replace (S (length cats - 1)) with (length cats) by lia.
      destruct cats; [simpl in L; lia|reflexivity].
  Qed.

  Lemma code_exists code : code < start (length cats) ->
    exists k c, nth_error cats k = Some c /\ start k <= code < start k + len c.
  Proof.
    intros H. assert (G : forall n, n <= length cats -> code < start n -> exists k c, nth_error cats k = Some c /\ start k <= code < start k + len c).
    { induction n as [|n IH]; intros Ln Hc; [unfold start in Hc; simpl in Hc; lia|].
      destruct (Nat.lt_ge_cases code (start n)) as [L|L]; [apply IH; [lia|exact L]|].
      destruct (nth_error cats n) as [c|] eqn:E; [|apply nth_error_None in E; lia].
      exists n, c. split; [exact E|]. rewrite (start_S n c E) in Hc. lia. }
    apply (G (length cats)); [lia|exact H].
  Qed.

  Lemma code_lt k c s : nth_error cats k = Some c -> s < len c -> start k + s < start (length cats).
  Proof.
    intros H Hs. assert (L : k < length cats) by (apply nth_error_Some; congruence).
    pose proof (start_mono (S k) (length cats) L). rewrite (start_S k c H) in H0. lia.
  Qed.

  Lemma code_unique k c s k' c' s' : nth_error cats k = Some c -> nth_error cats k' = Some c' ->
    s < len c -> s' < len c' -> start k + s = start k' + s' -> k = k' /\ c = c' /\ s = s'.
  Proof.
    intros H H' Hs Hs' E. destruct (lt_eq_lt_dec k k') as [[L|L]|L].
    - pose proof (start_mono (S k) k' L). rewrite (start_S k c H) in H0. lia.
    - subst k'. rewrite H in H'. injection H' as <-. repeat split; lia.
    - pose proof (start_mono (S k') k L). rewrite (start_S k' c' H') in H0. lia.
  Qed.

  (** The codes are the positions in the flattened list. *)
  Lemma flatten_nth k c s : nth_error cats k = Some c -> s < len c ->
    nth_error (flat_map con cats) (start k + s) = nth_error (con c) s.
  Proof.
    intros H Hs. unfold start. clear Hk Hn. revert k H. induction cats as [|c0 l IH]; intros k H; [destruct k; discriminate|].
    destruct k as [|k]; cbn [nth_error] in H.
    - injection H as ->. cbn [firstn map nsum fold_right flat_map]. rewrite nth_error_app1 by exact Hs. reflexivity.
    - cbn [firstn map nsum fold_right flat_map]. fold (nsum (map len (firstn k l))). rewrite nth_error_app2 by (unfold len; lia).
      replace (len c0 + nsum (map len (firstn k l)) + s - length (con c0)) with (nsum (map len (firstn k l)) + s) by (unfold len; lia).
      apply IH, H.
  Qed.
  Lemma flatten_length : length (flat_map con cats) = start (length cats).
  Proof.
    unfold start. rewrite firstn_all. clear Hn Hk. induction cats as [|c l IH]; [reflexivity|].
    cbn [flat_map map nsum fold_right]. rewrite app_length, IH. reflexivity.
  Qed.
End Ecc.

(** Summary used by the property theorem. *)
Lemma codes_bijective {V} (d : list (list nat * list V)) cats :
  NoDup cats -> (forall c, In c cats -> In c (map fst d)) ->
  exists E n, make_ecc d cats = Ok E /\ ecc_size E = Ok n /\ n = length (flat_map (fun c => dict_list key_eqb c d) cats) /\
    (forall c s v, In c cats -> nth_error (dict_list key_eqb c d) s = Some v ->
       exists code, encode E c s = Ok code /\ code < n /\ find_category E code = Ok c /\ decode E code = Ok v) /\
    (forall code, code < n -> exists c s, In c cats /\ s < length (dict_list key_eqb c d) /\ encode E c s = Ok code /\
       forall c' s', In c' cats -> s' < length (dict_list key_eqb c' d) -> encode E c' s' = Ok code -> c' = c /\ s' = s) /\
    (forall c, In c cats -> exists r, category_range E c = Ok r /\ NoDup r /\
       forall code, In code r <-> exists s, s < length (dict_list key_eqb c d) /\ encode E c s = Ok code).
Proof.
  intros Hn Hk. exists (the_ecc d cats), (start d cats (length cats)).
  split; [apply make_ecc_ok; assumption|]. split; [apply size_ok; assumption|].
  split; [symmetry; apply flatten_length|]. split; [|split].
  - intros c s v Hc Hs. apply In_nth_error in Hc as [k Hc]. exists (start d cats k + s).
    assert (Hl : s < length (dict_list key_eqb c d)) by (apply nth_error_Some; congruence).
    split; [apply encode_ok; assumption|]. split; [eapply code_lt; eassumption|].
    split; [apply (find_category_ok d cats Hn Hk k c); [exact Hc|lia]|]. eapply decode_ok; eassumption.
  - intros code Hc. destruct (code_exists d cats code Hc) as [k [c [H1 H2]]].
    exists c, (code - start d cats k). split; [eapply nth_error_In, H1|]. split; [lia|].
    split; [rewrite (encode_ok d cats Hn Hk k c _ H1); f_equal; lia|].
    intros c' s' Hc' Hs' E. apply In_nth_error in Hc' as [k' Hc']. rewrite (encode_ok d cats Hn Hk k' c' _ Hc') in E. injection E as E.
    destruct (code_unique d cats k' c' s' k c (code - start d cats k)) as [_ [-> ->]]; auto; lia.
  - intros c Hc. apply In_nth_error in Hc as [k Hc]. eexists. split; [apply (range_ok d cats Hn Hk k c Hc)|].
    split; [apply seq_NoDup|]. intros code. rewrite in_seq. split.
    + intros H. exists (code - start d cats k). split; [lia|]. rewrite (encode_ok d cats Hn Hk k c _ Hc). f_equal. lia.
    + intros [s [Hs E]]. rewrite (encode_ok d cats Hn Hk k c _ Hc) in E. injection E as <-. lia.
Qed.
