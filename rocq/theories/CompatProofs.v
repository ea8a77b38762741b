(** Compatibility maps are disjointness. *)
From Verif Require Import PyBase SpaceModel IndicesModel IndicesProofs ElemModel ElemSpec ElemProofs IterProofs
  HalfProofs CumulantProofs CodeModel CodeProofs CompatSpec.
From Coq Require Import ZArith.

Lemma any_overlap_ok a b : any_overlap a b = false <-> forall i, In i a -> ~ In i b.
Proof.
  unfold any_overlap. split.
  - intros H i Ha Hb. assert (E : existsb (fun i => mem_idx i b) a = true).
    { apply existsb_exists. exists i. split; [exact Ha|]. apply mem_idx_in, Hb. }
    congruence.
  - intros H. destruct (existsb _ a) eqn:E; [|reflexivity]. apply existsb_exists in E as [i [Ha Hb]].
    apply mem_idx_in in Hb. exfalso. exact (H i Ha Hb).
Qed.
Lemma overlap_ok e f : any_overlapped_indices e f = false <-> disjoint_con e f.
Proof.
  unfold any_overlapped_indices, disjoint_con. rewrite Bool.orb_false_iff, !any_overlap_ok. tauto.
Qed.
Lemma disjoint_con_sym e f : disjoint_con e f -> disjoint_con f e.
Proof. intros [H1 H2]. split; intros i Hf He; [exact (H1 i He Hf)|exact (H2 i He Hf)]. Qed.
Lemma overlap_sym e f : any_overlapped_indices e f = any_overlapped_indices f e.
Proof.
  destruct (any_overlapped_indices e f) eqn:E, (any_overlapped_indices f e) eqn:F; try reflexivity.
  - apply overlap_ok, disjoint_con_sym, overlap_ok in F. congruence.
  - apply overlap_ok, disjoint_con_sym, overlap_ok in E. congruence.
Qed.

Lemma mem_nat_in x s : mem_nat x s = true <-> In x s.
Proof.
  unfold mem_nat. rewrite existsb_exists. split.
  - intros [y [H E]]. apply Nat.eqb_eq in E. congruence.
  - intros H. exists x. split; [exact H|apply Nat.eqb_refl].
Qed.
Lemma mem_nat_notin x s : mem_nat x s = false <-> ~ In x s.
Proof. rewrite <- mem_nat_in. destruct (mem_nat x s); intuition congruence. Qed.
Lemma in_set_add x y s : In x (set_add y s) <-> x = y \/ In x s.
Proof.
  unfold set_add. destruct (mem_nat y s) eqn:E.
  - apply mem_nat_in in E. split; [tauto|]. intros [->|H]; assumption.
  - rewrite in_app_iff. simpl. intuition.
Qed.
Lemma nodup_set_add y s : NoDup s -> NoDup (set_add y s).
Proof.
  intros H. unfold set_add. destruct (mem_nat y s) eqn:E; [exact H|]. apply mem_nat_notin in E.
  apply NoDup_app_intro; [exact H|repeat constructor; simpl; tauto|]. intros x Hx [<-|[]]. contradiction.
Qed.

Lemma compat_set_add k k' v d x :
  In x (compatible_with (dict_set_add k' v d) k) <-> In x (compatible_with d k) \/ (k = k' /\ x = v).
Proof.
  unfold compatible_with, dict_list. induction d as [|[k0 vs] d IH]; cbn [dict_set_add dict_get].
  - destruct (Nat.eqb_spec k k'); simpl; intuition.
  - destruct (Nat.eqb_spec k' k0) as [->|N]; cbn [dict_get].
    + destruct (Nat.eqb_spec k k0) as [->|N']; [rewrite in_set_add; intuition|intuition].
    + destruct (Nat.eqb_spec k k0) as [->|N']; [intuition congruence|exact IH].
Qed.
Lemma nodup_compat_set_add k k' v d :
  NoDup (compatible_with d k) -> NoDup (compatible_with (dict_set_add k' v d) k).
Proof.
  unfold compatible_with, dict_list. induction d as [|[k0 vs] d IH]; cbn [dict_set_add dict_get]; intros H.
  - destruct (k =? k'); repeat constructor; simpl; tauto.
  - destruct (Nat.eqb_spec k' k0) as [->|N]; cbn [dict_get].
    + destruct (Nat.eqb_spec k k0) as [->|N']; [apply nodup_set_add, H|exact H].
    + destruct (Nat.eqb_spec k k0) as [->|N']; [exact H|apply IH, H].
Qed.
Lemma compat_fold ps d i j :
  In j (compatible_with (fold_left add_compatible ps d) i) <->
  In j (compatible_with d i) \/ In (i, j) ps \/ In (j, i) ps.
Proof.
  revert d; induction ps as [|[a b] ps IH]; intros d; cbn [fold_left]; [simpl; tauto|].
  rewrite IH. unfold add_compatible. cbn [fst snd]. rewrite !compat_set_add. simpl. intuition congruence.
Qed.
Lemma nodup_compat_fold ps d i : NoDup (compatible_with d i) -> NoDup (compatible_with (fold_left add_compatible ps d) i).
Proof.
  revert d; induction ps as [|[a b] ps IH]; intros d H; cbn [fold_left]; [exact H|].
  apply IH. unfold add_compatible. apply nodup_compat_set_add, nodup_compat_set_add, H.
Qed.

Lemma in_list_pairs i l a b : In (a, b) (compatible_list_pairs i l) <->
  i <= a < b /\ exists e f, nth_error l (a - i) = Some e /\ nth_error l (b - i) = Some f /\ disjoint_con e f.
Proof.
  revert i; induction l as [|x l IH]; intros i; cbn [compatible_list_pairs].
  - split; [intros []|]. intros [_ [e [f [H _]]]]. destruct (a - i); discriminate.
  - rewrite in_app_iff, IH, in_flat_map. split.
    + intros [[[j f] [H1 H2]]|[H1 [e [f [H2 [H3 H4]]]]]].
      * cbn [fst snd] in H2. destruct (any_overlapped_indices x f) eqn:E; [destruct H2|].
        destruct H2 as [[= <- <-]|[]]. apply in_enumerate in H1 as [H1 H3]. split; [lia|].
        exists x, f. rewrite Nat.sub_diag. split; [reflexivity|]. split; [|apply overlap_ok, E].
        replace (j - i) with (S (j - S i)) by lia. exact H3.
      * split; [lia|]. exists e, f. replace (a - i) with (S (a - S i)) by lia. replace (b - i) with (S (b - S i)) by lia. auto.
    + intros [H1 [e [f [H2 [H3 H4]]]]]. destruct (Nat.eq_dec a i) as [->|N].
      * left. rewrite Nat.sub_diag in H2. cbn in H2. injection H2 as ->. exists (b, f).
        replace (b - i) with (S (b - S i)) in H3 by lia. split; [apply in_enumerate; split; [lia|exact H3]|].
        cbn [fst snd]. apply overlap_ok in H4. rewrite H4. left. reflexivity.
      * right. split; [lia|]. exists e, f. replace (a - i) with (S (a - S i)) in H2 by lia.
        replace (b - i) with (S (b - S i)) in H3 by lia. auto.
Qed.

Lemma compatible_list_spec l i j :
  (In j (compatible_with (compatible_list l) i) <->
   i <> j /\ exists e f, nth_error l i = Some e /\ nth_error l j = Some f /\ disjoint_con e f) /\
  NoDup (compatible_with (compatible_list l) i).
Proof.
  split.
  - unfold compatible_list. rewrite compat_fold, !in_list_pairs, !Nat.sub_0_r. unfold compatible_with; cbn [dict_list dict_get].
    split.
    + intros [[]|[[H [e [f [H1 [H2 H3]]]]]|[H [e [f [H1 [H2 H3]]]]]]].
      * split; [lia|]. exists e, f. auto.
      * split; [lia|]. exists f, e. split; [exact H2|]. split; [exact H1|]. apply disjoint_con_sym, H3.
    + intros [H [e [f [H1 [H2 H3]]]]]. right. destruct (Nat.lt_ge_cases i j) as [L|L]; [left|right]; (split; [lia|]).
      * exists e, f. auto.
      * exists f, e. split; [exact H2|]. split; [exact H1|]. apply disjoint_con_sym, H3.
  - apply nodup_compat_fold. constructor.
Qed.

(** ** categorized *)
Section CatCompat.
  Context (d : list (list nat * list econ)) (cats : list (list nat)).
  Context (Hn : NoDup cats) (Hk : forall c, In c cats -> In c (map fst d)).
  Let con (c : list nat) : list econ := dict_list key_eqb c d.
  Let E := the_ecc d cats.
  Definition cs (c : list nat) : nat :=
    match dict_get key_eqb c (combine cats (starts d cats)) with Some s => s | None => 0 end.

  Lemma cs_start k c : nth_error cats k = Some c -> cs c = start d cats k.
  Proof.
    intros H. pose proof (start_item d cats Hn Hk k c H) as S. unfold dict_item in S. unfold cs.
    destruct (dict_get key_eqb c _); [congruence|discriminate].
  Qed.
  Lemma encode_cs c s : In c cats -> encode E c s = Ok (cs c + s).
  Proof.
    intros H. apply In_nth_error in H as [k H]. unfold E. rewrite (encode_ok d cats Hn Hk k c s H), (cs_start k c H). reflexivity.
  Qed.

  Definition row (i : nat) (e : econ) (c2 : list nat) : list (nat * nat) :=
    flat_map (fun je => if any_overlapped_indices e (snd je) then [] else [(i, cs c2 + fst je)]) (enumerate 0 (con c2)).
  Lemma compatible_row_ok i e c2 : In c2 cats -> compatible_row E i e c2 = Ok (row i e c2).
  Proof.
    intros H. unfold compatible_row. change (ele_con E) with d. rewrite (con_item d cats Hk c2 H). cbn [pybind].
    rewrite (pymap_total _ (fun je => if any_overlapped_indices e (snd je) then [] else [(i, cs c2 + fst je)])).
    - cbn [pybind]. unfold row. rewrite flat_map_concat_map. reflexivity.
    - intros je _. destruct (any_overlapped_indices e (snd je)); [reflexivity|]. rewrite encode_cs by exact H. reflexivity.
  Qed.
  Fixpoint cpairs (l : list (list nat)) : list (nat * nat) :=
    match l with
    | [] => []
    | c1 :: rest => flat_map (fun ie => flat_map (row (cs c1 + fst ie) (snd ie)) (c1 :: rest)) (enumerate 0 (con c1)) ++ cpairs rest
    end.
  Lemma compatible_pairs_ok l : incl l cats -> compatible_pairs E l = Ok (cpairs l).
  Proof.
    induction l as [|c1 rest IH]; intros H; cbn [compatible_pairs cpairs]; [reflexivity|].
    change (ele_con E) with d. rewrite (con_item d cats Hk c1) by (apply H; left; reflexivity). cbn [pybind].
    rewrite (pymap_total _ (fun ie => flat_map (row (cs c1 + fst ie) (snd ie)) (c1 :: rest))).
    - cbn [pybind]. rewrite IH by (intros x Hx; apply H; right; exact Hx). cbn [pybind]. rewrite <- flat_map_concat_map. reflexivity.
    - intros ie _. rewrite encode_cs by (apply H; left; reflexivity). cbn [pybind].
      rewrite (pymap_total _ (row (cs c1 + fst ie) (snd ie))) by (intros c2 Hc; apply compatible_row_ok, H, Hc).
      cbn [pybind]. rewrite <- flat_map_concat_map. reflexivity.
  Qed.

  Definition coded (code : nat) (e : econ) : Prop := exists c s, In c cats /\ nth_error (con c) s = Some e /\ code = cs c + s.

  Lemma in_row i e c2 a b : In (a, b) (row i e c2) <->
    a = i /\ exists s f, nth_error (con c2) s = Some f /\ b = cs c2 + s /\ disjoint_con e f.
  Proof.
    unfold row. rewrite in_flat_map. split.
    - intros [[s f] [H1 H2]]. cbn [fst snd] in H2. destruct (any_overlapped_indices e f) eqn:O; [destruct H2|].
      destruct H2 as [[= <- <-]|[]]. split; [reflexivity|]. exists s, f. apply in_enumerate in H1 as [_ H1]. rewrite Nat.sub_0_r in H1.
      split; [exact H1|]. split; [reflexivity|]. apply overlap_ok, O.
    - intros [-> [s [f [H1 [-> H2]]]]]. exists (s, f). split.
      + apply in_enumerate. rewrite Nat.sub_0_r. split; [lia|exact H1].
      + cbn [fst snd]. apply overlap_ok in H2. rewrite H2. left. reflexivity.
  Qed.

  Lemma cpairs_sound l a b : incl l cats -> In (a, b) (cpairs l) -> exists e f, coded a e /\ coded b f /\ disjoint_con e f.
  Proof.
    induction l as [|c1 rest IH]; intros Hl; cbn [cpairs]; [intros []|]. rewrite in_app_iff, in_flat_map.
    intros [[[s e] [H1 H2]]|H]; [|apply IH in H; [exact H|intros x Hx; apply Hl; right; exact Hx]].
    apply in_enumerate in H1 as [_ H1]. rewrite Nat.sub_0_r in H1. cbn [fst snd] in H2.
    apply in_flat_map in H2 as [c2 [H2 H3]]. apply in_row in H3 as [-> [s' [f [H3 [-> H4]]]]].
    exists e, f. split; [exists c1, s; split; [apply Hl; left; reflexivity|split; [exact H1|reflexivity]]|].
    split; [exists c2, s'; split; [apply Hl, H2|split; [exact H3|reflexivity]]|exact H4].
  Qed.

  Lemma cpairs_complete l c s e c' s' f : In c l -> In c' l -> nth_error (con c) s = Some e -> nth_error (con c') s' = Some f ->
    disjoint_con e f -> In (cs c + s, cs c' + s') (cpairs l) \/ In (cs c' + s', cs c + s) (cpairs l).
  Proof.
    induction l as [|c1 rest IH]; intros Hc Hc' He Hf Hd; [destruct Hc|]. cbn [cpairs].
    assert (G : forall c s e c' s' f, c = c1 -> In c' (c1 :: rest) -> nth_error (con c) s = Some e -> nth_error (con c') s' = Some f ->
              disjoint_con e f -> In (cs c + s, cs c' + s') (cpairs (c1 :: rest))).
    { clear. intros c s e c' s' f -> Hc' He Hf Hd. cbn [cpairs]. apply in_app_iff. left. apply in_flat_map. exists (s, e). split.
      - apply in_enumerate. rewrite Nat.sub_0_r. split; [lia|exact He].
      - cbn [fst snd]. apply in_flat_map. exists c'. split; [exact Hc'|]. apply in_row. split; [reflexivity|]. exists s', f. auto. }
    destruct Hc as [<-|Hc]; [left; eapply G; eauto|]. destruct Hc' as [<-|Hc'].
    - right. eapply G; eauto; [right; exact Hc|]. apply disjoint_con_sym, Hd.
    - destruct (IH Hc Hc' He Hf Hd); [left|right]; apply in_app_iff; right; assumption.
  Qed.

  Lemma coded_unique a e e' : coded a e -> coded a e' -> e = e'.
  Proof.
    intros [c [s [Hc [He ->]]]] [c' [s' [Hc' [He' Es]]]].
    apply In_nth_error in Hc as [k Hc], Hc' as [k' Hc']. rewrite (cs_start k c Hc), (cs_start k' c' Hc') in Es.
    destruct (code_unique d cats k c s k' c' s') as [_ [-> ->]]; auto.
    - apply nth_error_Some. fold con. change (dict_list key_eqb c d) with (con c). congruence.
    - apply nth_error_Some. change (dict_list key_eqb c' d) with (con c'). congruence.
    - change (dict_list key_eqb c' d) with (con c') in *. congruence.
  Qed.

  Lemma coded_flat a e : coded a e <-> nth_error (flat_map con cats) a = Some e.
  Proof.
    split.
    - intros [c [s [Hc [He ->]]]]. apply In_nth_error in Hc as [k Hc]. rewrite (cs_start k c Hc).
      unfold con. rewrite (flatten_nth d cats k c s Hc); [exact He|]. apply nth_error_Some. change (dict_list key_eqb c d) with (con c). congruence.
    - intros H. assert (L : a < start d cats (length cats)).
      { rewrite <- flatten_length. apply nth_error_Some. unfold con in H. congruence. }
      destruct (code_exists d cats a L) as [k [c [H1 H2]]]. exists c, (a - start d cats k).
      split; [eapply nth_error_In, H1|]. rewrite (cs_start k c H1). split; [|lia].
      unfold con in *. rewrite <- (flatten_nth d cats k c) by (try exact H1; lia). replace (start d cats k + (a - start d cats k)) with a by lia. exact H.
  Qed.

  Lemma compatible_categorized_ok : exists m, compatible_categorized E = Ok m /\
    forall i j, (In j (compatible_with m i) <-> exists e f, coded i e /\ coded j f /\ disjoint_con e f) /\
                NoDup (compatible_with m i).
  Proof.
    unfold compatible_categorized. change (categories E) with cats. rewrite compatible_pairs_ok by apply incl_refl.
    cbn [pybind]. eexists. split; [reflexivity|]. intros i j. split.
    - rewrite compat_fold. unfold compatible_with; cbn [dict_list dict_get]. split.
      + intros [[]|[H|H]]; apply cpairs_sound in H; try apply incl_refl; [exact H|].
        destruct H as [e [f [H1 [H2 H3]]]]. exists f, e. split; [exact H2|]. split; [exact H1|]. apply disjoint_con_sym, H3.
      + intros [e [f [[c [s [Hc [He ->]]]] [[c' [s' [Hc' [Hf ->]]]] H]]]]. right. eapply cpairs_complete; eauto.
    - apply nodup_compat_fold. constructor.
  Qed.
End CatCompat.
