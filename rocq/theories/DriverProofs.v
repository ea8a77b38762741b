(** The general contraction driver. *)
From Verif Require Import PyBase OrderSpec OrderProofs ParitySpec ParityProofs SpaceModel IndicesModel IndicesProofs IterProofs HalfProofs CodeProofs
  ElemModel ElemSpec ElemProofs CumulantProofs CodeModel CompatSpec CompatProofs BacktrackProofs MacroModel SortProofs WickModel WickSpec WickProofs.
From Coq Require Import ZArith Sorting.Sorted.

(** ** which operator owns which leg *)
Definition owns (ops : list op) (f : op -> list idx) (n : nat) (i : idx) : Prop := exists o, nth_error ops n = Some o /\ In i (f o).
Record keyed (ops : list op) (key : list nat) (e : econ) : Prop := {
  k_cre : Forall2 (owns ops cre) (firstn (length key / 2) key) (upper e);
  k_ann : Forall2 (owns ops ann) (skipn (length key / 2) key) (lower e);
  k_len : length key = 2 * length (upper e) }.

Lemma half_app {A} (a b : list A) : length a = length b -> firstn (length (a ++ b) / 2) (a ++ b) = a /\ skipn (length (a ++ b) / 2) (a ++ b) = b.
Proof.
  intros E. rewrite app_length, <- E. replace (length a + length a) with (length a * 2) by lia. rewrite Nat.div_mul by lia.
  rewrite firstn_app, skipn_app, firstn_all, skipn_all, Nat.sub_diag. cbn. rewrite app_nil_r. auto.
Qed.
Lemma keyed_intro ops a b e : Forall2 (owns ops cre) a (upper e) -> Forall2 (owns ops ann) b (lower e) -> length (upper e) = length (lower e) ->
  keyed ops (a ++ b) e.
Proof.
  intros Ha Hb E. pose proof (Forall2_len _ _ _ Ha). pose proof (Forall2_len _ _ _ Hb).
  destruct (half_app a b) as [E1 E2]; [lia|]. constructor; [rewrite E1; exact Ha|rewrite E2; exact Hb|rewrite app_length; lia].
Qed.

Lemma in_legs (f : op -> list idx) ops n i : In (n, i) (legs (map f ops)) -> owns ops f n i.
Proof.
  unfold legs. intros H. apply in_flat_map in H as [[m l] [H1 H2]]. cbn [fst snd] in H2. apply in_map_iff in H2 as [j [[= <- <-] H2]].
  apply in_enumerate in H1 as [_ H1]. rewrite Nat.sub_0_r in H1. rewrite nth_error_map in H1. destruct (nth_error ops m) as [o|] eqn:E; [|discriminate].
  cbn in H1. injection H1 as <-. exists o. auto.
Qed.
Lemma legs_owned (f : op -> list idx) ops c : incl c (legs (map (fun o => filter active_like (f o)) ops)) ->
  Forall2 (owns ops f) (map fst c) (map snd c).
Proof.
  induction c as [|[n i] c IH]; intros I; cbn [map fst snd]; constructor.
  - destruct (in_legs (fun o => filter active_like (f o)) ops n i (I _ (or_introl eq_refl))) as [o [H1 H2]]. exists o. split; [exact H1|].
    apply filter_In in H2. apply H2.
  - apply IH. intros x Hx. apply I. right. exact Hx.
Qed.

(** ** the items are the allowed contractions *)
Lemma allowed_items ops K e : Forall op_alpha ops -> (allowed ops K e <-> exists key, In (key, e) (all_items ops K)).
Proof.
  intros A. unfold all_items. split.
  - intros [key H|k c a Hk Hc Ha Lc La O ->].
    + exists key. apply in_app_iff. left. apply pairwise_events_spec; assumption.
    + exists (map fst c ++ map fst a). apply in_app_iff. right. apply in_flat_map. exists k. split; [apply in_levels, Hk|].
      unfold cumulant_choices. apply in_map_iff. exists (c, a). split; [reflexivity|]. apply filter_In. split.
      * apply in_prod_iff. split; apply in_combinations; auto.
      * apply negb_true_iff, not_true_is_false. intros G. apply O, one_operatorb_ok, G.
  - intros [key H]. apply in_app_iff in H as [H|H].
    + apply pairwise_events_spec in H; [|exact A]. exact (allowed_pair ops K e key H).
    + apply in_flat_map in H as [k [Hk H]]. apply in_levels in Hk. unfold cumulant_choices in H. apply in_map_iff in H as [[c a] [[= _ <-] H]].
      apply filter_In in H as [H O]. apply in_prod_iff in H as [Hc Ha]. apply in_combinations in Hc as [Hc Lc], Ha as [Ha La]. cbn [fst snd] in *.
      apply negb_true_iff in O. apply (allowed_cumulant ops K _ k c a); try assumption; [|reflexivity].
      intros G. apply one_operatorb_ok in G. congruence.
Qed.
Lemma items_keyed ops K key e : Forall op_alpha ops -> In (key, e) (all_items ops K) -> keyed ops key e.
Proof.
  intros A H. apply in_app_iff in H as [H|H].
  - apply pairwise_events_spec in H; [|exact A]. destruct H as [i j o o' u l _ Hi Hj Hu Hl _|i j o o' u l _ Hi Hj Hu Hl _].
    + apply (keyed_intro ops [i] [j]); [repeat constructor; exists o; auto|repeat constructor; exists o'; auto|reflexivity].
    + apply (keyed_intro ops [j] [i]); [repeat constructor; exists o'; auto|repeat constructor; exists o; auto|reflexivity].
  - apply in_flat_map in H as [k [Hk H]]. unfold cumulant_choices in H. apply in_map_iff in H as [[c a] [[= <- <-] H]].
    apply filter_In in H as [H _]. apply in_prod_iff in H as [Hc Ha]. apply in_combinations in Hc as [Hc Lc], Ha as [Ha La]. cbn [fst snd].
    apply keyed_intro; cbn [upper lower]; [apply legs_owned, subseq_incl, Hc|apply legs_owned, subseq_incl, Ha|rewrite !map_length; lia].
Qed.

Lemma owns_written ops n i : owns ops cre n i -> In (true, i) (written_string ops).
Proof. intros [o [H1 H2]]. apply in_written. exists o. split; [eapply nth_error_In, H1|]. apply in_open_string. auto. Qed.
Lemma owns_written' ops n i : owns ops ann n i -> In (false, i) (written_string ops).
Proof. intros [o [H1 H2]]. apply in_written. exists o. split; [eapply nth_error_In, H1|]. apply in_open_string. auto. Qed.

(** ** distinct legs *)
Lemma distinct_flat ops : distinct_legs ops -> NoDup (flat_map cre ops) /\ NoDup (flat_map ann ops).
Proof.
  unfold distinct_legs, written_string. induction ops as [|o ops IH]; cbn [flat_map]; [split; constructor|]. intros H.
  apply NoDup_app_iff in H as [H1 [H2 H3]]. destruct (IH H2) as [I1 I2]. unfold open_string in H1. apply NoDup_app_iff in H1 as [N1 [N2 _]].
  apply NoDup_map_inv in N1. apply NoDup_map_inv in N2. apply NoDup_rev in N2. rewrite rev_involutive in N2.
  split; apply NoDup_app_iff; (split; [assumption|split; [assumption|]]).
  - intros i Hi Hj. apply (H3 (true, i)); [apply in_open_string; auto|]. apply in_flat_map in Hj as [o' [Ho Hj]]. apply in_flat_map. exists o'.
    split; [exact Ho|]. apply in_open_string. auto.
  - intros i Hi Hj. apply (H3 (false, i)); [apply in_open_string; auto|]. apply in_flat_map in Hj as [o' [Ho Hj]]. apply in_flat_map. exists o'.
    split; [exact Ho|]. apply in_open_string. auto.
Qed.
Lemma owns_unique f ops n m i : NoDup (flat_map f ops) -> owns ops f n i -> owns ops f m i -> n = m.
Proof.
  intros N [o [H1 H2]] [o' [H3 H4]].
  assert (G : forall ops n m o o', NoDup (flat_map f ops) -> n < m -> nth_error ops n = Some o -> nth_error ops m = Some o' -> In i (f o) -> In i (f o') -> False).
  { clear. induction ops as [|a ops IH]; intros n m o o' N L H1 H2 Ho Ho'; [destruct n; discriminate|].
    cbn [flat_map] in N. apply NoDup_app_iff in N as [_ [N D]]. destruct m as [|m]; [lia|]. destruct n as [|n]; cbn in *.
    - injection H1 as ->. apply (D i Ho). apply in_flat_map. exists o'. split; [eapply nth_error_In, H2|exact Ho'].
    - exact (IH n m o o' N (proj2 (Nat.succ_lt_mono n m) L) H1 H2 Ho Ho'). }
  destruct (Nat.lt_trichotomy n m) as [L|[E|L]]; [exfalso; exact (G ops n m o o' N L H1 H3 H2 H4)|exact E|exfalso; exact (G ops m n o' o N L H3 H1 H4 H2)].
Qed.
Lemma owns_list_unique f ops a b l : NoDup (flat_map f ops) -> Forall2 (owns ops f) a l -> Forall2 (owns ops f) b l -> a = b.
Proof.
  intros N Ha. revert b. induction Ha as [|x i a l H Ha IH]; intros b Hb; inversion Hb as [|? ? ? ? H' Hb' E1 E2]; subst; [reflexivity|].
  f_equal; [exact (owns_unique f ops _ _ _ N H H')|apply IH, Hb'].
Qed.
Lemma key_unique ops k1 k2 e : distinct_legs ops -> keyed ops k1 e -> keyed ops k2 e -> k1 = k2.
Proof.
  intros D [A1 A2 A3] [B1 B2 B3]. apply distinct_flat in D as [D1 D2].
  rewrite <- (firstn_skipn (length k1 / 2) k1), <- (firstn_skipn (length k2 / 2) k2).
  rewrite (owns_list_unique cre ops _ _ _ D1 A1 B1), (owns_list_unique ann ops _ _ _ D2 A2 B2). reflexivity.
Qed.
Lemma distinct_active_of ops : distinct_legs ops -> distinct_active ops.
Proof.
  intros D. apply distinct_flat in D as [D1 D2]. unfold distinct_active, cre_legs, ann_legs. rewrite !snd_legs.
  assert (G : forall f : op -> list idx, NoDup (flat_map f ops) -> NoDup (concat (map (fun o => filter active_like (f o)) ops))).
  { intros f. clear. induction ops as [|o ops IH]; intros N; cbn [map concat flat_map] in *; [constructor|]. apply NoDup_app_iff in N as [N1 [N2 N3]].
    apply NoDup_app_iff. split; [apply NoDup_filter, N1|]. split; [apply IH, N2|]. intros i Hi Hj. apply filter_In in Hi as [Hi _]. apply (N3 i Hi).
    apply in_concat in Hj as [l [Hl Hj]]. apply in_map_iff in Hl as [o' [<- Ho]]. apply filter_In in Hj as [Hj _]. apply in_flat_map. eauto. }
  split; apply G; assumption.
Qed.

Lemma zip_eq {A B} (a b : list (A * B)) : map fst a = map fst b -> map snd a = map snd b -> a = b.
Proof.
  revert b; induction a as [|[x y] a IH]; intros [|[x' y'] b]; cbn; try discriminate; [reflexivity|]. intros [= -> E1] [= -> E2]. f_equal. apply IH; assumption.
Qed.
Lemma NoDup_list_prod {A B} (l : list A) (m : list B) : NoDup l -> NoDup m -> NoDup (list_prod l m).
Proof.
  induction 1 as [|x l Hx N IH]; intros M; cbn [list_prod]; [constructor|]. apply NoDup_app_iff. split; [|split; [apply IH, M|]].
  - apply FinFun.Injective_map_NoDup; [intros a b [= ->]; reflexivity|exact M].
  - intros [a b] H1 H2. apply in_map_iff in H1 as [? [[= <- _] _]]. apply in_prod_iff in H2 as [H2 _]. contradiction.
Qed.
Lemma nodup_items ops K : distinct_legs ops -> NoDup (all_items ops K).
Proof.
  intros D. pose proof (distinct_flat ops D) as [D1 D2]. pose proof (distinct_active_of ops D) as [A1 A2].
  unfold all_items. apply NoDup_app_iff. split; [|split].
  - apply nodup_pairwise_events. apply Forall_forall. intros o Ho.
    assert (G : forall f : op -> list idx, NoDup (flat_map f ops) -> NoDup (f o)).
    { intros f N. clear - Ho N. induction ops as [|a ops IH]; [destruct Ho|]. cbn [flat_map] in N. apply NoDup_app_iff in N as [N1 [N2 _]].
      destruct Ho as [->|Ho]; [exact N1|apply IH; assumption]. }
    split; apply G; assumption.
  - apply NoDup_flat_map; [apply seq_NoDup| |].
    + intros k Hk. unfold cumulant_choices. apply NoDup_map_in.
      * intros [c a] [c' a'] H1 H2. apply filter_In in H1 as [H1 _], H2 as [H2 _]. apply in_prod_iff in H1 as [C1 C2], H2 as [C3 C4].
        apply in_combinations in C1 as [_ C1], C2 as [_ C2], C3 as [_ C3], C4 as [_ C4]. cbn [fst snd]. intros [= E1 E2 E3].
        assert (E4 : map fst c = map fst c' /\ map fst a = map fst a').
        { destruct (half_app (map fst c) (map fst a)) as [F1 F2]; [rewrite !map_length; lia|].
          destruct (half_app (map fst c') (map fst a')) as [F3 F4]; [rewrite !map_length; lia|].
          rewrite E1 in F1, F2. split; congruence. }
        f_equal; apply zip_eq; tauto.
      * apply NoDup_filter, NoDup_list_prod; apply nodup_combinations; [apply (NoDup_map_inv snd), A1|apply (NoDup_map_inv snd), A2].
    + intros k k' [key e] _ _ H H'. apply cumulant_choice_len in H. apply cumulant_choice_len in H'. lia.
  - intros [key e] H1 H2. apply pairwise_events_keys in H1. apply in_flat_map in H2 as [k [Hk H2]]. apply in_levels in Hk. apply cumulant_choice_len in H2.
    destruct H1 as (i & j & _ & [[-> _]|[-> _]]); cbn in H2; lia.
Qed.
Lemma nodup_values ops K : Forall op_alpha ops -> distinct_legs ops -> NoDup (map snd (all_items ops K)).
Proof.
  intros A D. apply NoDup_map_in; [|apply nodup_items, D]. intros [k e] [k' e'] H H' E. cbn [snd] in E. subst e'. f_equal.
  apply (key_unique ops _ _ e D); eapply items_keyed; eassumption.
Qed.

Lemma items_from_ops ops K key e : Forall op_alpha ops -> ~ repeated_choice ops K -> In (key, e) (all_items ops K) -> from_ops ops e.
Proof.
  intros A R H. destruct (items_keyed ops K key e A H) as [K1 K2 K3].
  assert (Len : length (upper e) = length (lower e) /\ NoDup (upper e) /\ NoDup (lower e) /\ 1 <= length (upper e) /\ (hole e = true -> length (upper e) = 1)).
  { apply in_app_iff in H as [H|H].
    - apply pairwise_events_spec in H; [|exact A]. destruct H; cbn; (split; [reflexivity|split; [repeat constructor; tauto|split; [repeat constructor; tauto|split; [lia|reflexivity]]]]).
    - apply in_flat_map in H as [k [Hk H]]. apply in_levels in Hk. unfold cumulant_choices in H. apply in_map_iff in H as [[c a] [[= _ <-] H]].
      apply filter_In in H as [H O]. apply in_prod_iff in H as [Hc Ha]. cbn [fst snd] in *. cbn [upper lower hole].
      assert (N : NoDup (map snd c) /\ NoDup (map snd a)).
      { destruct (nodup_idx (map snd c) && nodup_idx (map snd a)) eqn:E.
        - apply andb_true_iff in E as [E1 E2]. split; apply nodup_idx_spec; assumption.
        - exfalso. apply R. exists k, c, a. split; [exact Hk|]. split; [exact Hc|]. split; [exact Ha|]. split.
          + intros G. apply one_operatorb_ok in G. rewrite G in O. discriminate.
          + intros [G1 G2]. apply nodup_idx_spec in G1, G2. rewrite G1, G2 in E. discriminate. }
      apply in_combinations in Hc as [Hc Lc], Ha as [Ha La]. rewrite !map_length. split; [lia|]. split; [apply N|]. split; [apply N|]. split; [lia|discriminate]. }
  destruct Len as (L1 & L2 & L3 & L4 & L5). constructor; try assumption.
  - intros i Hi. apply In_nth_error in Hi as [n Hn]. assert (Q : exists m, owns ops cre m i); [|destruct Q as [m Q]; exact (owns_written ops m i Q)].
    clear - K1 Hn. revert n Hn. induction K1 as [|x y a b Hx F IH]; intros n Hn; [destruct n; discriminate|]. destruct n as [|n]; cbn in Hn; [injection Hn as <-; eauto|eauto].
  - intros i Hi. apply In_nth_error in Hi as [n Hn]. assert (Q : exists m, owns ops ann m i); [|destruct Q as [m Q]; exact (owns_written' ops m i Q)].
    clear - K2 Hn. revert n Hn. induction K2 as [|x y a b Hx F IH]; intros n Hn; [destruct n; discriminate|]. destruct n as [|n]; cbn in Hn; [injection Hn as <-; eauto|eauto].
Qed.

Lemma cumulant_level_ok ops k : Z.to_nat (check_max_cu ops k) = cumulant_level ops k.
Proof. unfold cumulant_level. rewrite check_max_cu_ok. reflexivity. Qed.

(** ** transporting families of sets *)
Lemma map_inj_in {A B} (f : A -> B) (dom : A -> Prop) (Inj : forall a b, dom a -> dom b -> f a = f b -> a = b) :
  forall l m, Forall dom l -> Forall dom m -> map f l = map f m -> l = m.
Proof.
  induction l as [|x l IH]; intros [|y m] Hl Hm E; cbn in E; try discriminate; [reflexivity|]. injection E as E1 E2.
  inversion Hl; inversion Hm; subst. f_equal; [apply Inj; assumption|apply IH; assumption].
Qed.
Lemma set_once_map {A B} (f : A -> B) (dom : A -> Prop) (Q : list A -> Prop) (P : list B -> Prop) ys :
  (forall a b, dom a -> dom b -> f a = f b -> a = b) -> (forall s, Q s -> Forall dom s) ->
  (forall s, NoDup s -> Forall dom s -> (Q s <-> P (map f s))) ->
  (forall s, NoDup s -> P s -> exists t, Forall dom t /\ map f t = s) ->
  lists_each_set_once Q ys -> lists_each_set_once P (map (map f) ys).
Proof.
  intros Inj Dom QP Sur (H1 & H2 & H3). split; [|split].
  - intros y Hy. apply in_map_iff in Hy as [s [<- Hs]]. destruct (H1 s Hs) as [N Hq]. pose proof (Dom s Hq) as D. split; [|apply QP; assumption].
    apply NoDup_map_in; [|exact N]. rewrite Forall_forall in D. intros a b Ha Hb E. apply Inj; auto.
  - intros s N Ps. destruct (Sur s N Ps) as [t [Dt <-]]. assert (Nt : NoDup t) by (apply NoDup_map_inv in N; exact N).
    destruct (H2 t Nt) as [y [Hy Py]]; [apply QP; assumption|]. exists (map f y). split; [apply in_map, Hy|apply Permutation_map, Py].
  - intros i j a b Ha Hb Pab. rewrite nth_error_map in Ha, Hb. destruct (nth_error ys i) as [x|] eqn:Ei; [|discriminate]. destruct (nth_error ys j) as [y|] eqn:Ej; [|discriminate].
    cbn in Ha, Hb. injection Ha as <-. injection Hb as <-. apply (H3 i j x y Ei Ej).
    destruct (H1 x (nth_error_In _ _ Ei)) as [_ Qx]. destruct (H1 y (nth_error_In _ _ Ej)) as [_ Qy].
    apply Permutation_map_inv in Pab as [z [Ez Pz]]. pose proof (Dom x Qx) as Dx. pose proof (Dom y Qy) as Dy.
    assert (Dz : Forall dom z). { apply Forall_forall. intros c Hc. rewrite Forall_forall in Dy. apply Dy, (Permutation_in _ (Permutation_sym Pz)), Hc. }
    rewrite (map_inj_in f dom Inj x z Dx Dz Ez). symmetry. exact Pz.
Qed.
Lemma set_once_nil {A} (P : list A -> Prop) (b : bool) ys : (b = true <-> P []) ->
  lists_each_set_once (fun s => s <> [] /\ P s) ys -> lists_each_set_once P ((if b then [[]] else []) ++ ys).
Proof.
  intros B (H1 & H2 & H3). destruct b; cbn [app].
  - assert (Pn : P []) by (apply B; reflexivity). split; [|split].
    + intros y [<-|Hy]; [split; [constructor|exact Pn]|]. destruct (H1 y Hy) as [N [_ G]]. auto.
    + intros s N Ps. destruct s as [|x s]; [exists []; split; [left; reflexivity|constructor]|]. destruct (H2 (x :: s) N) as [y [Hy G]]; [split; [discriminate|exact Ps]|].
      exists y. split; [right; exact Hy|exact G].
    + intros i j a b Ha Hb G. destruct i as [|i], j as [|j]; cbn in Ha, Hb; [reflexivity| | |f_equal; exact (H3 i j a b Ha Hb G)].
      * injection Ha as <-. apply Permutation_nil in G. subst b. apply nth_error_In in Hb. destruct (H1 [] Hb) as [_ [F _]]. congruence.
      * injection Hb as <-. apply Permutation_sym, Permutation_nil in G. subst a. apply nth_error_In in Ha. destruct (H1 [] Ha) as [_ [F _]]. congruence.
  - assert (Pn : ~ P []) by (intros G; apply B in G; discriminate). split; [|split; [|exact H3]].
    + intros y Hy. destruct (H1 y Hy) as [N [_ G]]. auto.
    + intros s N Ps. apply H2; [exact N|]. split; [intros ->; contradiction|exact Ps].
Qed.
Lemma set_once_ext {A} (P Q : list A -> Prop) ys : (forall s, NoDup s -> (P s <-> Q s)) -> lists_each_set_once P ys -> lists_each_set_once Q ys.
Proof.
  intros E (H1 & H2 & H3). split; [|split; [|exact H3]].
  - intros y Hy. destruct (H1 y Hy) as [N G]. split; [exact N|apply E; assumption].
  - intros s N G. apply H2; [exact N|]. apply E; assumption.
Qed.

Lemma disjoint_con_sym e f : disjoint_con e f -> disjoint_con f e.
Proof. intros [H1 H2]. split; intros i Hi Hj; [exact (H1 i Hj Hi)|exact (H2 i Hj Hi)]. Qed.
Lemma ord_pairs_map {A} (f : A -> econ) s : NoDup s ->
  (ForallOrdPairs disjoint_con (map f s) <-> forall x y, In x s -> In y s -> x <> y -> disjoint_con (f x) (f y)).
Proof.
  induction 1 as [|a s Ha N IH]; cbn [map].
  - split; [intros _ x y []|intros _; constructor].
  - split.
    + intros H. inversion H as [|? ? F1 F2]; subst. rewrite Forall_forall in F1. rewrite IH in F2. intros x y [<-|Hx] [<-|Hy] Ne.
      * congruence.
      * apply F1, in_map, Hy.
      * apply disjoint_con_sym, F1, in_map, Hx.
      * apply F2; assumption.
    + intros H. constructor; [|apply IH; intros x y Hx Hy; apply H; right; assumption].
      apply Forall_forall. intros e He. apply in_map_iff in He as [y [<- Hy]]. apply H; [left; reflexivity|right; exact Hy|]. intros ->. contradiction.
Qed.

Lemma groups_length s : (forall e, In e s -> length (upper e) = length (lower e)) ->
  length (flat_map group s) = fold_right (fun e n => 2 * length (upper e) + n) 0 s.
Proof.
  induction s as [|e s IH]; intros H; cbn [flat_map fold_right]; [reflexivity|]. rewrite app_length, group_length, IH; [reflexivity| |].
  - intros f Hf. apply H. right. exact Hf.
  - apply H. left. reflexivity.
Qed.
Lemma fold_sum_upper s z : fold_left (fun s e => (s + Z.of_nat (length (upper e)))%Z) s z = (z + fold_left (fun s e => (s + Z.of_nat (length (upper e)))%Z) s 0)%Z.
Proof.
  revert z; induction s as [|e s IH]; intros z; cbn [fold_left]; [lia|]. rewrite IH, (IH (0 + _)%Z). lia.
Qed.
Lemma sum_upper_groups s : (forall e, In e s -> length (upper e) = length (lower e)) ->
  (2 * fold_left (fun s e => (s + Z.of_nat (length (upper e)))%Z) s 0 = Z.of_nat (length (flat_map group s)))%Z.
Proof.
  induction s as [|e s IH]; intros H; cbn [fold_left flat_map]; [reflexivity|]. rewrite fold_sum_upper, app_length, Nat2Z.inj_add, <- IH, group_length.
  - lia.
  - apply H. left. reflexivity.
  - intros f Hf. apply H. right. exact Hf.
Qed.

Definition con0 : econ := Con false [] [].
Definition at_ (l : list econ) (k : nat) : econ := nth k l con0.
Lemma get_item_at l k : k < length l -> get_item l k = Ok (at_ l k).
Proof. intros H. unfold get_item, at_. rewrite (nth_error_nth' l con0 H). reflexivity. Qed.
Lemma at_error l k : k < length l -> nth_error l k = Some (at_ l k).
Proof. intros H. apply nth_error_nth', H. Qed.
Lemma at_in l k : k < length l -> In (at_ l k) l.
Proof. intros H. eapply nth_error_In, at_error, H. Qed.

Lemma entries_list_nil expand sign sq : entries_list expand [] sign sq = [(sign, [], sq)].
Proof. unfold entries_list. destruct expand; cbn; rewrite Z.mul_1_r; reflexivity. Qed.

Lemma process_reduce ops l con it expand : length (leg_set (written_string ops)) = length (base_order_map ops) ->
  Permutation it con -> (forall x, In x con -> x < length l) -> (forall e, In e l -> length (upper e) = length (lower e)) ->
  process_composite_contractions it l (Z.of_nat (length (base_order_map ops))) expand (base_order_map ops) (upper_indices_set ops) (lower_indices_set ops) =
  finish_composite (map (at_ l) it) (Z.of_nat (length (leg_set (written_string ops))) - Z.of_nat (length (flat_map group (map (at_ l) it)))) expand (base_order_map ops)
    (upper_indices_set ops) (lower_indices_set ops).
Proof.
  intros E P B L. unfold process_composite_contractions.
  rewrite (pymap_total _ (at_ l)) by (intros x Hx; apply get_item_at, B, (Permutation_in _ P), Hx). cbn [pybind].
  rewrite sum_upper_groups, E; [reflexivity|]. intros e He. apply in_map_iff in He as [x [<- Hx]]. apply L, at_in, B, (Permutation_in _ P), Hx.
Qed.

Lemma groups_length_perm s s' : Permutation s s' -> length (flat_map group s) = length (flat_map group s').
Proof. intros P. apply Permutation_length, flat_map_perm, P. Qed.
Lemma ord_pairs_perm s s' : Permutation s s' -> ForallOrdPairs disjoint_con s -> ForallOrdPairs disjoint_con s'.
Proof.
  induction 1 as [|x l l' P IH|x y l|l1 l2 l3 P1 IH1 P2 IH2]; intros H; auto.
  - inversion H as [|? ? F1 F2]; subst. constructor; [|apply IH, F2]. rewrite Forall_forall in *. intros e He. apply F1, (Permutation_in _ (Permutation_sym P)), He.
  - inversion H as [|? ? F1 F2]; subst. inversion F2 as [|? ? F3 F4]; subst. inversion F1; subst. constructor; [|constructor; assumption].
    constructor; [apply disjoint_con_sym; assumption|assumption].
Qed.

Lemma contracted_legs_groups l s : (forall x, In x s -> x < length l) -> (forall e, In e l -> length (upper e) = length (lower e)) ->
  contracted_legs l s = length (flat_map group (map (at_ l) s)).
Proof.
  intros B L. unfold contracted_legs. induction s as [|x s IH]; cbn [map nsum flat_map]; [reflexivity|].
  assert (Bx : x < length l) by (apply B; left; reflexivity).
  rewrite app_length, <- IH by (intros y Hy; apply B; right; exact Hy). rewrite (at_error l x Bx), group_length by (apply L, at_in, Bx). reflexivity.
Qed.

Section General.
  Context (pick : popper) (iter : list nat -> list nat) (ops : list op) (max_cu max_n min_n : Z) (expand : bool).
  Context (Hal : Forall op_alpha ops) (Hit : forall s, Permutation (iter s) s).
  Let K := cumulant_level ops max_cu.

  Lemma elementary_list_either :
    (exists l, elementary_list ops (check_max_cu ops max_cu) = Ok l /\ Permutation l (map snd (all_items ops K)) /\ ~ repeated_choice ops K) \/
    (elementary_list ops (check_max_cu ops max_cu) = Raise ValueError /\ repeated_choice ops K).
  Proof.
    unfold elementary_list. pose proof (elementary_categorized_either ops (check_max_cu ops max_cu) Hal) as E. cbv zeta in E.
    rewrite check_max_cu_idem, cumulant_level_ok in E. fold K in E. destruct E as [(d & E & N & P & _ & R)|[E R]]; rewrite E; cbn [pybind]; [left|right; auto].
    eexists. split; [reflexivity|]. split; [|exact R]. rewrite items_values. apply Permutation_map, P.
  Qed.

  Lemma uncontracted_reduce : exists order sq, finish_order ops [] order sq /\
    uncontracted ops = pybind (order_sign (base_order_map ops) order) (fun sign => Ok (entries_list expand [] sign sq)).
  Proof.
    unfold uncontracted.
    destruct (open_order ops (upper_indices_set ops) (lower_indices_set ops) [] Hal (Permutation_refl _) (Permutation_refl _) (NoDup_nil _)) as (U1 & L1 & U2 & L2 & P).
    { intros x []. }
    rewrite !filter_true in * by reflexivity. rewrite U1. cbn [pybind]. rewrite L1. cbn [pybind]. eexists. eexists. split; [split; [reflexivity|split; [exact P|split; [exact U2|exact L2]]]|].
    cbn [flat_map app]. unfold open_string. cbn [cre ann]. destruct (order_sign _ _); cbn [pybind]; [|reflexivity]. rewrite entries_list_nil. reflexivity.
  Qed.

  Lemma in_range_bool : (((min_n <=? Z.of_nat (length (written_string ops))) && (Z.of_nat (length (written_string ops)) <=? max_n))%Z = true <-> wick_set ops K min_n max_n []).
  Proof.
    rewrite andb_true_iff, !Z.leb_le. split.
    - intros H. constructor; [constructor|constructor|]. unfold n_open. cbn. lia.
    - intros [_ _ H]. unfold n_open in H. cbn in H. lia.
  Qed.

  Lemma general_driver_ok : distinct_legs ops ->
    exists result, compute_general pick iter ops max_cu max_n min_n expand = Ok result /\
      wick_sum ops expand (wick_set ops K min_n max_n) result.
  Proof.
    intros D. pose proof (leg_set_perm _ D) as LP.
    assert (Lb : length (base_order_map ops) = length (written_string ops)) by (rewrite base_map_length, (Permutation_length LP); reflexivity).
    destruct elementary_list_either as [(l & El & Pl & R)|[_ R]]; [|exfalso; exact (distinct_not_repeated ops K (distinct_active_of ops D) R)].
    assert (Nl : NoDup l) by (apply (Permutation_NoDup (Permutation_sym Pl)), nodup_values; assumption).
    assert (Il : forall e, In e l <-> allowed ops K e).
    { intros e. rewrite (allowed_items ops K e Hal). split.
      - intros H. apply (Permutation_in _ Pl), in_map_iff in H as [[k e'] [<- H]]. exists k. exact H.
      - intros [k H]. apply (Permutation_in _ (Permutation_sym Pl)), in_map_iff. exists (k, e). auto. }
    assert (Fl : forall e, In e l -> from_ops ops e).
    { intros e H. apply (Permutation_in _ Pl), in_map_iff in H as [[k e'] [<- H]]. exact (items_from_ops ops K k e' Hal R H). }
    assert (Ll : forall e, In e l -> length (upper e) = length (lower e)) by (intros e He; apply (Fl e He)).
    set (n_con := (Z.of_nat (length (base_order_map ops)) - max_n, Z.of_nat (length (base_order_map ops)) - min_n)%Z).
    destruct (general_backtrack_ok pick l (seq 0 (length l)) n_con (Permutation_refl _)) as (ys & av & Eb & _ & Hys).
    assert (Sets : lists_each_set_once (fun s => s <> [] /\ wick_set ops K min_n max_n s) (map (map (at_ l)) ys)).
    { eapply (set_once_map (at_ l) (fun k => k < length l)); [| | | |exact Hys].
      - intros a b Ha Hb E. unfold at_ in E. rewrite NoDup_nth in Nl. exact (Nl a b Ha Hb E).
      - intros s (_ & B & _). apply Forall_forall, B.
      - intros s Ns B. rewrite Forall_forall in B. pose proof (contracted_legs_groups l s B Ll) as Ec. unfold n_con. cbn [fst snd]. split.
        + intros (Ne & _ & Rg & Dj). split; [intros E; apply map_eq_nil in E; contradiction|]. constructor.
          * apply Forall_forall. intros e He. apply in_map_iff in He as [x [<- Hx]]. apply Il, at_in, B, Hx.
          * apply ord_pairs_map; [exact Ns|]. intros x y Hx Hy Nxy. apply (Dj x y); try assumption; apply at_error, B; assumption.
          * unfold n_open. rewrite <- Ec. lia.
        + intros [Ne [_ Dj Rg]]. split; [intros ->; apply Ne; reflexivity|]. split; [exact B|]. split.
          * unfold n_open in Rg. rewrite <- Ec in Rg. lia.
          * intros x y e f Hx Hy Nxy Ex Ey. rewrite (at_error l x (B x Hx)) in Ex. rewrite (at_error l y (B y Hy)) in Ey. injection Ex as <-. injection Ey as <-.
            apply (proj1 (ord_pairs_map (at_ l) s Ns) Dj); assumption.
      - intros s Ns [_ [A _ _]]. clear Ns. induction A as [|e s He A IH]; [exists []; split; [constructor|reflexivity]|].
        destruct IH as [t [Dt <-]]. apply Il, In_nth_error in He as [k Hk]. assert (Bk : k < length l) by (apply nth_error_Some; congruence).
        exists (k :: t). split; [constructor; assumption|]. cbn [map]. f_equal. rewrite (at_error l k Bk) in Hk. congruence. }
    (* the entries of each set *)
    assert (Ent : forall y, In y ys -> exists b, process_composite_contractions (iter y) l (Z.of_nat (length (base_order_map ops))) expand (base_order_map ops)
        (upper_indices_set ops) (lower_indices_set ops) = Ok b /\ entries_of ops expand (map (at_ l) y) b).
    { intros y Hy. destruct Hys as (H1 & _ & _). destruct (H1 y Hy) as [Ny (_ & B & _ & Dj)].
      rewrite (process_reduce ops l y (iter y) expand (eq_sym (base_map_length ops)) (Hit y) B Ll).
      assert (P : Permutation (map (at_ l) (iter y)) (map (at_ l) y)) by apply Permutation_map, Hit.
      destruct (finish_ok ops (upper_indices_set ops) (lower_indices_set ops) (map (at_ l) (iter y)) expand Hal D (Permutation_refl _) (Permutation_refl _)) as (sign & sq & W & E).
      - apply Forall_forall. intros e He. apply in_map_iff in He as [x [<- Hx]]. apply Fl, at_in, B, (Permutation_in _ (Hit y)), Hx.
      - apply (ord_pairs_perm _ _ (Permutation_sym P)), ord_pairs_map; [exact Ny|]. intros a b Ha Hb Nab. apply (Dj a b); try assumption; apply at_error, B; assumption.
      - unfold n_open in E. rewrite (Permutation_length LP). rewrite E. eexists. split; [reflexivity|]. exists (map (at_ l) (iter y)), sign, sq. split; [exact P|]. split; [exact W|reflexivity]. }
    assert (Bs : exists bs, pymap (fun con => process_composite_contractions (iter con) l (Z.of_nat (length (base_order_map ops))) expand (base_order_map ops)
        (upper_indices_set ops) (lower_indices_set ops)) ys = Ok bs /\ Forall2 (entries_of ops expand) (map (map (at_ l)) ys) bs).
    { clear - Ent. induction ys as [|y ys IH]; cbn [pymap map]; [exists []; split; [reflexivity|constructor]|].
      destruct (Ent y (or_introl eq_refl)) as [b [-> Hb]]. cbn [pybind]. destruct IH as [bs [-> Hbs]]; [intros z Hz; apply Ent; right; exact Hz|]. cbn [pybind].
      exists (b :: bs). split; [reflexivity|constructor; assumption]. }
    destruct Bs as (bs & Ebs & Fbs). unfold compute_general. cbv zeta. fold n_con. rewrite El.
    pose proof in_range_bool as IR. rewrite <- Lb in IR.
    set (rng := ((min_n <=? Z.of_nat (length (base_order_map ops))) && (Z.of_nat (length (base_order_map ops)) <=? max_n))%Z) in *.
    assert (Fst : exists fs, (if rng then pybind (uncontracted ops) (fun b => Ok [b]) else Ok []) = Ok fs /\ Forall2 (entries_of ops expand) (if rng then [[]] else []) fs).
    { destruct rng; [|exists []; split; [reflexivity|constructor]]. destruct uncontracted_reduce as (order & sq & (Eo & P & S1 & S2) & E).
      rewrite LP in P. destruct (order_sign_ok ops order D P) as (sign & Es & Rs). rewrite E, Es. cbn [pybind]. eexists. split; [reflexivity|].
      constructor; [|constructor]. exists [], sign, sq. split; [constructor|]. split; [|reflexivity]. constructor; [exact S1|exact S2|]. rewrite <- Eo. exact Rs. }
    destruct Fst as (fs & -> & Ff). cbn [pybind]. rewrite Eb. cbn [pybind fst]. rewrite Ebs. cbn [pybind]. eexists. split; [reflexivity|].
    exists ((if rng then [[]] else []) ++ map (map (at_ l)) ys), (fs ++ bs). split; [apply set_once_nil; assumption|]. split; [apply Forall2_app; assumption|reflexivity].
  Qed.

  (** repeated legs: nothing but ValueError, or nothing at all *)
  Lemma general_driver_dup : ~ distinct_legs ops ->
    compute_general pick iter ops max_cu max_n min_n expand = Raise ValueError \/ compute_general pick iter ops max_cu max_n min_n expand = Ok [].
  Proof.
    intros D. unfold compute_general. cbv zeta.
    assert (U : uncontracted ops = Raise ValueError).
    { destruct uncontracted_reduce as (order & sq & (Eo & P & S1 & S2) & E). rewrite E, (order_sign_dup ops order D P). reflexivity. }
    rewrite U. cbn [pybind]. destruct (_ && _)%bool; cbn [pybind]; [left; reflexivity|].
    destruct elementary_list_either as [(l & El & Pl & R)|[El R]]; rewrite El; cbn [pybind]; [|left; reflexivity].
    assert (Fl : forall e, In e l -> from_ops ops e).
    { intros e H. apply (Permutation_in _ Pl), in_map_iff in H as [[k e'] [<- H]]. exact (items_from_ops ops K k e' Hal R H). }
    assert (Ll : forall e, In e l -> length (upper e) = length (lower e)) by (intros e He; apply (Fl e He)).
    set (n_con := (_, _)). destruct (general_backtrack_ok pick l (seq 0 (length l)) n_con (Permutation_refl _)) as (ys & av & -> & _ & (H1 & _)).
    cbn [pybind fst]. destruct ys as [|y ys]; cbn [pymap pybind]; [right; reflexivity|left].
    destruct (H1 y (or_introl eq_refl)) as [Ny (_ & B & _ & Dj)].
    rewrite (process_reduce ops l y (iter y) expand (eq_sym (base_map_length ops)) (Hit y) B Ll).
    assert (P : Permutation (map (at_ l) (iter y)) (map (at_ l) y)) by apply Permutation_map, Hit.
    rewrite <- base_map_length, finish_dup; [reflexivity|exact Hal|exact D|apply Permutation_refl|apply Permutation_refl| |].
    - apply Forall_forall. intros e He. apply in_map_iff in He as [x [<- Hx]]. apply Fl, at_in, B, (Permutation_in _ (Hit y)), Hx.
    - apply (ord_pairs_perm _ _ (Permutation_sym P)), ord_pairs_map; [exact Ny|]. intros a b Ha Hb Nab. apply (Dj a b); try assumption; apply at_error, B; assumption.
  Qed.
End General.
