(** Elementary contractions: clamping, pairwise contractions. *)
From Verif Require Import PyBase SpaceModel SpaceProofs IndicesModel IndicesProofs PartitionModel ElemModel ElemSpec IterProofs.
From Coq Require Import ZArith.

(** ** clamping *)
Lemma filter_partition_len {A} (f g : A -> bool) l :
  (forall x, In x l -> f x = negb (g x)) -> length (filter f l) + length (filter g l) = length l.
Proof.
  induction l as [|x l IH]; simpl; intros H; [reflexivity|].
  rewrite (H x (or_introl eq_refl)). destruct (g x); simpl; rewrite <- IH by auto; lia.
Qed.

Lemma count_cv l : (count_space Sc l + count_space Sv l = Z.of_nat (length (filter core_or_virtual l)))%Z.
Proof.
  unfold count_space. induction l as [|x l IH]; [reflexivity|]. unfold core_or_virtual in *. cbn [filter].
  destruct x as [[b s] n]. unfold space_is in *. cbn [fst] in *.
  destruct b, s; cbn [label_eqb lbeta lsp Bool.eqb space_eqb andb orb length]; lia.
Qed.

Lemma active_like_ok i : active_like i = negb (core_or_virtual i).
Proof. destruct i as [[b s] n]. destruct b, s; reflexivity. Qed.

Lemma check_max_cu_ok ops k :
  let M := Z.max 1 (Z.min (Z.of_nat (n_noncv cre ops)) (Z.of_nat (n_noncv ann ops))) in
  check_max_cu ops k = if ((1 <=? k) && (k <=? M))%Z then k else M.
Proof.
  intros M. unfold check_max_cu.
  assert (E : forall f : op -> list idx, fold_right Z.add 0%Z
     (map (fun o => (Z.of_nat (length (f o)) - (count_space Sc (f o) + count_space Sv (f o)))%Z) ops)
     = Z.of_nat (n_noncv f ops)).
  { intros f. unfold n_noncv. induction ops as [|o ops IH]; [reflexivity|]. cbn [map fold_right flat_map].
    rewrite app_length, Nat2Z.inj_add, IH by exact IH. rewrite count_cv.
    pose proof (filter_partition_len active_like core_or_virtual (f o)) as P.
    rewrite <- P by (intros; apply active_like_ok). lia. }
  rewrite !E. fold M.
  destruct (Z.leb_spec 1 k), (Z.leb_spec k M), (Z.ltb_spec k 1), (Z.ltb_spec M k); simpl; try lia.
Qed.

Lemma check_max_cu_idem ops k : check_max_cu ops (check_max_cu ops k) = check_max_cu ops k.
Proof.
  rewrite !check_max_cu_ok. cbv zeta. set (M := Z.max 1 _). assert (HM : (1 <= M)%Z) by (unfold M; lia).
  destruct ((1 <=? k) && (k <=? M))%Z eqn:E; [rewrite E; reflexivity|].
  apply Z.leb_le in HM. rewrite HM, Z.leb_refl. reflexivity.
Qed.

(** ** dictionaries of lists *)
Section Dict.
  Context {K V : Type} (eqk : K -> K -> bool) (Heq : forall a b, eqk a b = true <-> a = b).

  Lemma eqk_refl a : eqk a a = true.
  Proof. apply Heq. reflexivity. Qed.
  Lemma eqk_neq a b : a <> b -> eqk a b = false.
  Proof. intros H. destruct (eqk a b) eqn:E; [apply Heq in E; contradiction|reflexivity]. Qed.

  Lemma dict_list_append k k' v (d : list (K * list V)) :
    dict_list eqk k (dict_append eqk k' v d) = dict_list eqk k d ++ (if eqk k k' then [v] else []).
  Proof.
    unfold dict_list. induction d as [|[k0 vs] d IH]; cbn [dict_append dict_get].
    - destruct (eqk k k'); reflexivity.
    - destruct (eqk k' k0) eqn:E; cbn [dict_get].
      + apply Heq in E. subst k0. destruct (eqk k k'); [reflexivity|]. rewrite app_nil_r. reflexivity.
      + destruct (eqk k k0) eqn:E2; [|exact IH]. apply Heq in E2. subst k0.
        rewrite (eqk_neq k k'); [rewrite app_nil_r; reflexivity|]. intros ->. rewrite eqk_refl in E. discriminate.
  Qed.

  Lemma dict_list_append_all k ev (d : list (K * list V)) :
    dict_list eqk k (append_all eqk ev d) = dict_list eqk k d ++ map snd (filter (fun kv => eqk k (fst kv)) ev).
  Proof.
    revert d; induction ev as [|[k' v] ev IH]; intros d; [simpl; rewrite app_nil_r; reflexivity|].
    unfold append_all in *. cbn [fold_left]. rewrite IH, dict_list_append. cbn [filter fst snd].
    rewrite <- app_assoc. destruct (eqk k k'); reflexivity.
  Qed.

  Lemma dict_append_keys k v (d : list (K * list V)) x :
    In x (map fst (dict_append eqk k v d)) <-> x = k \/ In x (map fst d).
  Proof.
    induction d as [|[k0 vs] d IH]; cbn [dict_append map fst]; [simpl; intuition congruence|].
    destruct (eqk k k0) eqn:E; cbn [map fst In].
    - apply Heq in E. subst. intuition.
    - rewrite IH. intuition.
  Qed.

  Lemma dict_append_nodup k v (d : list (K * list V)) : NoDup (map fst d) -> NoDup (map fst (dict_append eqk k v d)).
  Proof.
    induction d as [|[k0 vs] d IH]; cbn [dict_append map fst]; intros H; [repeat constructor; simpl; tauto|].
    inversion H as [|? ? H1 H2]; subst. destruct (eqk k k0) eqn:E; cbn [map fst]; constructor; auto.
    rewrite dict_append_keys. intros [->|G]; [rewrite eqk_refl in E; discriminate|contradiction].
  Qed.

  Lemma append_all_keys ev (d : list (K * list V)) x :
    In x (map fst (append_all eqk ev d)) <-> In x (map fst ev) \/ In x (map fst d).
  Proof.
    revert d; induction ev as [|[k v] ev IH]; intros d; cbn [append_all fold_left map fst]; [simpl; tauto|].
    unfold append_all in IH. rewrite IH, dict_append_keys. simpl. intuition congruence.
  Qed.

  Lemma append_all_nodup ev (d : list (K * list V)) : NoDup (map fst d) -> NoDup (map fst (append_all eqk ev d)).
  Proof.
    revert d; induction ev as [|[k v] ev IH]; intros d H; [exact H|]. apply IH, dict_append_nodup, H.
  Qed.

  Lemma dict_items_append k v (d : list (K * list V)) :
    Permutation (dict_items (dict_append eqk k v d)) ((k, v) :: dict_items d).
  Proof.
    unfold dict_items. induction d as [|[k0 vs] d IH]; cbn [dict_append flat_map fst snd map app]; [reflexivity|].
    destruct (eqk k k0) eqn:E; cbn [flat_map fst snd].
    - apply Heq in E. subst k0. rewrite map_app, <- app_assoc. cbn [map app].
      symmetry. apply Permutation_middle.
    - etransitivity; [apply Permutation_app_head, IH|]. symmetry. apply Permutation_middle.
  Qed.

  Lemma dict_items_append_all ev (d : list (K * list V)) :
    Permutation (dict_items (append_all eqk ev d)) (ev ++ dict_items d).
  Proof.
    revert d; induction ev as [|[k v] ev IH]; intros d; [reflexivity|]. unfold append_all in *. cbn [fold_left].
    rewrite IH. cbn [app fst snd]. rewrite dict_items_append. symmetry. apply Permutation_middle.
  Qed.

  Lemma dict_get_in k v (d : list (K * V)) : NoDup (map fst d) -> (dict_get eqk k d = Some v <-> In (k, v) d).
  Proof.
    induction d as [|[k0 v0] d IH]; cbn [dict_get map fst]; intros H; [simpl; split; [discriminate|tauto]|].
    inversion H as [|? ? H1 H2]; subst. destruct (eqk k k0) eqn:E.
    - apply Heq in E. subst k0. split; [intros [= ->]; left; reflexivity|].
      intros [[= ->]|G]; [reflexivity|]. exfalso. apply H1. apply (in_map fst) in G. exact G.
    - rewrite (IH H2). split; [intros G; right; exact G|]. intros [[= -> ->]|G]; [|exact G].
      rewrite eqk_refl in E. discriminate.
  Qed.

  Lemma dict_get_key k (d : list (K * V)) : In k (map fst d) -> exists v, dict_get eqk k d = Some v.
  Proof.
    induction d as [|[k0 v0] d IH]; cbn [dict_get map fst In]; [tauto|]. intros [->|H].
    - rewrite eqk_refl. eauto.
    - destruct (eqk k k0); eauto.
  Qed.

  Lemma dict_get_none k (d : list (K * V)) : ~ In k (map fst d) -> dict_get eqk k d = None.
  Proof.
    induction d as [|[k0 v0] d IH]; cbn [dict_get map fst In]; [reflexivity|]. intros H.
    rewrite eqk_neq by (intros ->; tauto). apply IH. tauto.
  Qed.

  (** update with new keys only appends *)
  Lemma dict_set_new k v (d : list (K * V)) : ~ In k (map fst d) -> dict_set eqk k v d = d ++ [(k, v)].
  Proof.
    induction d as [|[k0 v0] d IH]; cbn [dict_set map fst In app]; [reflexivity|]. intros H.
    rewrite eqk_neq by (intros ->; tauto). rewrite IH by tauto. reflexivity.
  Qed.

  Lemma dict_update_new (d e : list (K * V)) :
    NoDup (map fst e) -> (forall k, In k (map fst e) -> ~ In k (map fst d)) -> dict_update eqk d e = d ++ e.
  Proof.
    revert d; induction e as [|[k v] e IH]; intros d He H; [unfold dict_update; cbn [fold_left]; rewrite app_nil_r; reflexivity|].
    unfold dict_update in *. cbn [fold_left fst snd]. cbn [map fst] in He, H. inversion He as [|? ? H1 H2]; subst.
    rewrite dict_set_new by (apply H; left; reflexivity). rewrite IH.
    - rewrite <- app_assoc. reflexivity.
    - exact H2.
    - intros k' Hk'. rewrite map_app, in_app_iff. cbn. intros [G|[->|[]]]; [|contradiction].
      exact (H k' (or_intror Hk') G).
  Qed.
End Dict.

Lemma dict_list_in_items {K V} (eqk : K -> K -> bool) (Heq : forall a b, eqk a b = true <-> a = b) k v (d : list (K * list V)) :
  NoDup (map fst d) -> (In v (dict_list eqk k d) <-> In (k, v) (dict_items d)).
Proof.
  intros H. unfold dict_list, dict_items. rewrite in_flat_map. split.
  - destruct (dict_get eqk k d) as [vs|] eqn:E; [|intros []]. apply (dict_get_in eqk Heq) in E; [|exact H].
    intros Hv. exists (k, vs). split; [exact E|]. apply in_map. exact Hv.
  - intros [[k' vs] [H1 H2]]. cbn [fst snd] in H2. apply in_map_iff in H2 as [w [[= -> ->] Hw]].
    apply (dict_get_in eqk Heq) in H1; [|exact H]. rewrite H1. exact Hw.
Qed.

Lemma key_eqb_eq a b : key_eqb a b = true <-> a = b.
Proof.
  revert b; induction a as [|x a IH]; intros [|y b]; simpl; try (split; congruence).
  rewrite Bool.andb_true_iff, Nat.eqb_eq, IH. split; [intros [-> ->]; reflexivity|intros [= -> ->]; auto].
Qed.

(** ** enumerate *)
Lemma in_enumerate {A} s (l : list A) i x : In (i, x) (enumerate s l) <-> s <= i /\ nth_error l (i - s) = Some x.
Proof.
  revert s i; induction l as [|y l IH]; intros s i; cbn [enumerate In].
  - split; [tauto|]. intros [_ H]. destruct (i - s); discriminate.
  - rewrite IH. split.
    + intros [[= -> ->]|[H1 H2]]; [rewrite Nat.sub_diag; split; [lia|reflexivity]|].
      split; [lia|]. replace (i - s) with (S (i - S s)) by lia. exact H2.
    + intros [H1 H2]. destruct (Nat.eq_dec s i) as [->|N].
      * rewrite Nat.sub_diag in H2. injection H2 as ->. left; reflexivity.
      * right. split; [lia|]. replace (i - s) with (S (i - S s)) in H2 by lia. exact H2.
Qed.

Lemma enumerate_fst {A} s (l : list A) : map fst (enumerate s l) = seq s (length l).
Proof. revert s; induction l as [|x l IH]; intros s; simpl; [reflexivity|]. rewrite IH. reflexivity. Qed.
Lemma enumerate_snd {A} s (l : list A) : map snd (enumerate s l) = l.
Proof. revert s; induction l as [|x l IH]; intros s; simpl; [reflexivity|]. rewrite IH. reflexivity. Qed.
Lemma NoDup_enumerate {A} s (l : list A) : NoDup (enumerate s l).
Proof. apply (NoDup_map_inv fst). rewrite enumerate_fst. apply seq_NoDup. Qed.

(** ** pairwise contractions *)
Lemma spaces_overlap_ok u l : alpha u -> alpha l ->
  (spaces_overlap u l = true <-> exists s, share_space s u l).
Proof.
  unfold alpha, share_space, spaces_overlap. destruct u as [[b s] n], l as [[b' s'] n']. cbn [fst lbeta lsp].
  intros -> ->. destruct s, s'; (split; [intros H; try discriminate H|intros [x Hx]; try reflexivity]);
    try (exists Sc; simpl; tauto); try (exists Sa; simpl; tauto); try (exists Sv; simpl; tauto);
    exfalso; destruct x; simpl in Hx; intuition discriminate.
Qed.

Lemma cumulant_rule u l : alpha u -> alpha l ->
  (space_is Sv u = false /\ space_is Sv l = false /\ spaces_overlap u l = true <-> cumulant_nonzero u l).
Proof.
  unfold alpha, cumulant_nonzero, share_space, spaces_overlap, space_is. destruct u as [[b s] n], l as [[b' s'] n']. cbn [fst lbeta lsp].
  intros -> ->. destruct s, s'; (split; [intros [H1 [H2 H3]]; try discriminate; try (exists Sa; simpl; intuition congruence); exists Sc; simpl; intuition congruence
     |intros [x [Hx Hy]]; repeat split; destruct x; simpl in Hy; intuition congruence]).
Qed.

Lemma hole_rule u l : alpha u -> alpha l ->
  (space_is Sc l = false /\ space_is Sc u = false /\ spaces_overlap u l = true <-> hole_nonzero u l).
Proof.
  unfold alpha, hole_nonzero, share_space, spaces_overlap, space_is. destruct u as [[b s] n], l as [[b' s'] n']. cbn [fst lbeta lsp].
  intros -> ->. destruct s, s'; (split; [intros [H1 [H2 H3]]; try discriminate; try (exists Sa; simpl; intuition congruence); exists Sv; simpl; intuition congruence
     |intros [x [Hx Hy]]; repeat split; destruct x; simpl in Hy; intuition congruence]).
Qed.

Lemma in_pairwise_cumulants i j left right k c : op_alpha left -> op_alpha right ->
  (In (k, c) (pairwise_cumulants i j left right) <->
   exists u l, k = [i; j] /\ c = Con false [u] [l] /\ In u (cre left) /\ In l (ann right) /\ cumulant_nonzero u l).
Proof.
  intros [A1 _] [_ A2]. rewrite Forall_forall in A1, A2. unfold pairwise_cumulants. rewrite in_flat_map. split.
  - intros [u [Hu H]]. destruct (space_is Sv u) eqn:E1; [destruct H|]. apply in_flat_map in H as [l [Hl H]].
    destruct (space_is Sv l) eqn:E2; [destruct H|]. destruct (spaces_overlap u l) eqn:E3; [|destruct H].
    destruct H as [[= <- <-]|[]]. exists u, l. repeat split; auto. apply cumulant_rule; auto.
  - intros [u [l [-> [-> [Hu [Hl Hz]]]]]]. exists u. split; [exact Hu|].
    apply cumulant_rule in Hz as [E1 [E2 E3]]; auto. rewrite E1. apply in_flat_map. exists l. split; [exact Hl|].
    rewrite E2, E3. left; reflexivity.
Qed.

Lemma in_pairwise_holes i j left right k c : op_alpha left -> op_alpha right ->
  (In (k, c) (pairwise_holes i j left right) <->
   exists u l, k = [j; i] /\ c = Con true [u] [l] /\ In u (cre right) /\ In l (ann left) /\ hole_nonzero u l).
Proof.
  intros [_ A1] [A2 _]. rewrite Forall_forall in A1, A2. unfold pairwise_holes. rewrite in_flat_map. split.
  - intros [l [Hl H]]. destruct (space_is Sc l) eqn:E1; [destruct H|]. apply in_flat_map in H as [u [Hu H]].
    destruct (space_is Sc u) eqn:E2; [destruct H|]. destruct (spaces_overlap u l) eqn:E3; [|destruct H].
    destruct H as [[= <- <-]|[]]. exists u, l. repeat split; auto. apply hole_rule; auto.
  - intros [u [l [-> [-> [Hu [Hl Hz]]]]]]. exists l. split; [exact Hl|].
    apply hole_rule in Hz as [E1 [E2 E3]]; auto. rewrite E1. apply in_flat_map. exists u. split; [exact Hu|].
    rewrite E2, E3. left; reflexivity.
Qed.

Lemma in_pairwise_events s ops k c : Forall op_alpha ops ->
  (In (k, c) (pairwise_events s ops) <->
   exists i j left right, s <= i /\ i < j /\ nth_error ops (i - s) = Some left /\ nth_error ops (j - s) = Some right /\
     In (k, c) (pairwise_cumulants i j left right ++ pairwise_holes i j left right)).
Proof.
  intros HA. revert s. induction HA as [|o ops Ho HA IH]; intros s; cbn [pairwise_events].
  - split; [intros []|]. intros [i [j [lft [right [_ [_ [H _]]]]]]]. destruct (i - s); discriminate.
  - rewrite in_app_iff, in_flat_map, IH. split.
    + intros [[[j right] [Hj H]]|[i [j [lft [right [H1 [H2 [H3 [H4 H5]]]]]]]]].
      * apply in_enumerate in Hj as [Hj1 Hj2]. exists s, j, o, right.
        split; [lia|]. split; [lia|]. rewrite Nat.sub_diag. split; [reflexivity|].
        split; [replace (j - s) with (S (j - S s)) by lia; exact Hj2|exact H].
      * exists i, j, lft, right. split; [lia|]. split; [lia|].
        replace (i - s) with (S (i - S s)) by lia. replace (j - s) with (S (j - S s)) by lia. auto.
    + intros [i [j [lft [right [H1 [H2 [H3 [H4 H5]]]]]]]]. destruct (Nat.eq_dec i s) as [->|N].
      * left. rewrite Nat.sub_diag in H3. injection H3 as ->. exists (j, right). split; [|exact H5].
        apply in_enumerate. split; [lia|]. replace (j - s) with (S (j - S s)) in H4 by lia. exact H4.
      * right. exists i, j, lft, right. split; [lia|]. split; [lia|].
        replace (i - s) with (S (i - S s)) in H3 by lia. replace (j - s) with (S (j - S s)) in H4 by lia. auto.
Qed.

Lemma pairwise_events_spec ops k c : Forall op_alpha ops ->
  (In (k, c) (pairwise_events 0 ops) <-> pair_contraction ops k c).
Proof.
  intros HA. rewrite in_pairwise_events by exact HA.
  assert (Hn : forall i o, nth_error ops i = Some o -> op_alpha o).
  { intros i o H. apply nth_error_In in H. rewrite Forall_forall in HA. auto. }
  split.
  - intros [i [j [lft [right [_ [H2 [H3 [H4 H5]]]]]]]]. rewrite Nat.sub_0_r in H3, H4.
    apply in_app_or in H5 as [H5|H5].
    + apply in_pairwise_cumulants in H5 as [u [l [-> [-> [Hu [Hl Hz]]]]]]; eauto. econstructor; eassumption.
    + apply in_pairwise_holes in H5 as [u [l [-> [-> [Hu [Hl Hz]]]]]]; eauto. eapply pc_hole; eassumption.
  - intros [i j lft right u l Hij Hi Hj Hu Hl Hz|i j lft right u l Hij Hi Hj Hu Hl Hz];
      exists i, j, lft, right; rewrite !Nat.sub_0_r; (split; [lia|]); (split; [exact Hij|]); (split; [exact Hi|]);
      (split; [exact Hj|]); apply in_or_app.
    + left. apply in_pairwise_cumulants; eauto. exists u, l. auto.
    + right. apply in_pairwise_holes; eauto. exists u, l. auto.
Qed.

Lemma nodup_pairwise_cumulants i j left right : op_nodup left -> op_nodup right -> NoDup (pairwise_cumulants i j left right).
Proof.
  intros [N1 _] [_ N2]. unfold pairwise_cumulants. apply NoDup_flat_map; [exact N1| |].
  - intros u Hu. destruct (space_is Sv u); [constructor|]. apply NoDup_flat_map; [exact N2| |].
    + intros l Hl. destruct (space_is Sv l); [constructor|]. destruct (spaces_overlap u l); repeat constructor; simpl; tauto.
    + intros x y z Hx Hy. destruct (space_is Sv x), (space_is Sv y); try (intros [] || intros _ []).
      destruct (spaces_overlap u x), (spaces_overlap u y); simpl; try tauto.
      intros [<-|[]] [E|[]]. congruence.
  - intros x y z Hx Hy. destruct (space_is Sv x), (space_is Sv y); try (intros [] || intros _ []).
    rewrite !in_flat_map. intros [l [Hl H]] [l' [Hl' H']].
    destruct (space_is Sv l), (space_is Sv l'); try (destruct H; fail); try (destruct H'; fail).
    destruct (spaces_overlap x l), (spaces_overlap y l'); simpl in H, H'; try tauto.
    destruct H as [<-|[]], H' as [E|[]]. congruence.
Qed.

Lemma nodup_pairwise_holes i j left right : op_nodup left -> op_nodup right -> NoDup (pairwise_holes i j left right).
Proof.
  intros [_ N1] [N2 _]. unfold pairwise_holes. apply NoDup_flat_map; [exact N1| |].
  - intros u Hu. destruct (space_is Sc u); [constructor|]. apply NoDup_flat_map; [exact N2| |].
    + intros l Hl. destruct (space_is Sc l); [constructor|]. destruct (spaces_overlap l u); repeat constructor; simpl; tauto.
    + intros x y z Hx Hy. destruct (space_is Sc x), (space_is Sc y); try (intros [] || intros _ []).
      destruct (spaces_overlap x u), (spaces_overlap y u); simpl; try tauto.
      intros [<-|[]] [E|[]]. congruence.
  - intros x y z Hx Hy. destruct (space_is Sc x), (space_is Sc y); try (intros [] || intros _ []).
    rewrite !in_flat_map. intros [l [Hl H]] [l' [Hl' H']].
    destruct (space_is Sc l), (space_is Sc l'); try (destruct H; fail); try (destruct H'; fail).
    destruct (spaces_overlap l x), (spaces_overlap l' y); simpl in H, H'; try tauto.
    destruct H as [<-|[]], H' as [E|[]]. congruence.
Qed.

Lemma pairwise_keys i j left right k c :
  (In (k, c) (pairwise_cumulants i j left right) -> k = [i; j] /\ hole c = false) /\
  (In (k, c) (pairwise_holes i j left right) -> k = [j; i] /\ hole c = true).
Proof.
  split; intros H; [unfold pairwise_cumulants in H|unfold pairwise_holes in H].
  - apply in_flat_map in H as [u [_ H]]. destruct (space_is Sv u); [destruct H|].
    apply in_flat_map in H as [l [_ H]]. destruct (space_is Sv l); [destruct H|].
    destruct (spaces_overlap u l); [|destruct H]. destruct H as [[= <- <-]|[]]. auto.
  - apply in_flat_map in H as [u [_ H]]. destruct (space_is Sc u); [destruct H|].
    apply in_flat_map in H as [l [_ H]]. destruct (space_is Sc l); [destruct H|].
    destruct (spaces_overlap l u); [|destruct H]. destruct H as [[= <- <-]|[]]. auto.
Qed.

Lemma pairwise_app_keys i j left right k c :
  In (k, c) (pairwise_cumulants i j left right ++ pairwise_holes i j left right) ->
  (k = [i; j] /\ hole c = false) \/ (k = [j; i] /\ hole c = true).
Proof.
  intros H. apply in_app_or in H as [H|H]; apply pairwise_keys in H; auto.
Qed.

Lemma pairwise_events_keys s ops k c : In (k, c) (pairwise_events s ops) ->
  exists i j, s <= i < j /\ ((k = [i; j] /\ hole c = false) \/ (k = [j; i] /\ hole c = true)).
Proof.
  revert s; induction ops as [|o ops IH]; intros s; cbn [pairwise_events]; [intros []|].
  rewrite in_app_iff, in_flat_map. intros [[[j r] [Hj H]]|H].
  - apply in_enumerate in Hj as [Hj _]. apply pairwise_app_keys in H. exists s, j. split; [lia|exact H].
  - apply IH in H as [i [j [Hij H]]]. exists i, j. split; [lia|exact H].
Qed.

Lemma nodup_pairwise_events s ops : Forall op_nodup ops -> NoDup (pairwise_events s ops).
Proof.
  intros HN. revert s; induction HN as [|o ops Ho HN IH]; intros s; cbn [pairwise_events]; [constructor|].
  apply NoDup_app_intro; [|apply IH|].
  - apply NoDup_flat_map; [apply NoDup_enumerate| |].
    + intros [j r] Hj. cbn [fst snd]. apply in_enumerate in Hj as [Hj1 Hj2]. apply nth_error_In in Hj2.
      rewrite Forall_forall in HN. apply NoDup_app_intro; [apply nodup_pairwise_cumulants; auto|apply nodup_pairwise_holes; auto|].
      intros [k c] H1 H2. apply pairwise_keys in H1 as [_ H1]. apply pairwise_keys in H2 as [_ H2]. congruence.
    + intros [j r] [j' r'] [k c] Hj Hj' H H'. cbn [fst snd] in *. pose proof Hj as Gj. pose proof Hj' as Gj'.
      apply in_enumerate in Gj as [G1 G2], Gj' as [G1' G2'].
      apply pairwise_app_keys in H, H'.
      assert (j = j') by (destruct H as [[-> H]|[-> H]], H' as [[E H']|[E H']]; congruence || (injection E; lia)).
      subst j'. rewrite G2 in G2'. injection G2' as ->. reflexivity.
  - intros [k c] H H'. apply in_flat_map in H as [[j r] [Hj H]]. apply pairwise_app_keys in H.
    apply in_enumerate in Hj as [Hj _]. apply pairwise_events_keys in H' as [i [j' [Hij H']]].
    destruct H as [[-> H]|[-> H]], H' as [[E H']|[E H']]; try congruence; injection E; cbn [fst] in *; lia.
Qed.

(** Two-element keys with different operators. *)
Lemma pairwise_wf ops : NoDup (map fst (elementary_pairwise ops)).
Proof. apply append_all_nodup; [apply key_eqb_eq|constructor]. Qed.

Lemma elementary_pairwise_spec ops k c : Forall op_ok ops ->
  (In c (dict_list key_eqb k (elementary_pairwise ops)) <-> pair_contraction ops k c) /\
  NoDup (dict_list key_eqb k (elementary_pairwise ops)).
Proof.
  intros H. assert (HA : Forall op_alpha ops) by (eapply Forall_impl; [|exact H]; intros o [Ho _]; exact Ho).
  assert (HN : Forall op_nodup ops) by (eapply Forall_impl; [|exact H]; intros o [_ Ho]; exact Ho).
  unfold elementary_pairwise. rewrite dict_list_append_all by apply key_eqb_eq.
  change (dict_list key_eqb k []) with (@nil econ). cbn [app]. split.
  - rewrite in_map_iff. rewrite <- pairwise_events_spec by exact HA. split.
    + intros [[k' c'] [<- G]]. apply filter_In in G as [G1 G2]. apply key_eqb_eq in G2. cbn [fst snd] in *. subst. exact G1.
    + intros G. exists (k, c). split; [reflexivity|]. apply filter_In. split; [exact G|]. apply key_eqb_eq. reflexivity.
  - apply NoDup_map_in; [|apply NoDup_filter', nodup_pairwise_events, HN].
    intros [k1 c1] [k2 c2] G1 G2. apply filter_In in G1 as [_ G1], G2 as [_ G2].
    apply key_eqb_eq in G1, G2. cbn [fst snd] in *. congruence.
Qed.
