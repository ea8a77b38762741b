(** The category-level backtracking: what it yields exactly. *)
From Verif Require Import PyBase SpaceModel IndicesModel ElemModel ElemProofs IterProofs HalfProofs CodeModel CodeProofs
  CompatSpec CompatProofs BacktrackProofs MacroModel MacroSpec.
From Coq Require Import ZArith Relations Sorting.Sorted.

(** ** counters *)
Definition val (l : list Z) (k : nat) : Z := nth k l 0%Z.
Definition fits (avail : list Z) (l : list nat) : Prop := forall k, (Z.of_nat (times k l) <= val avail k)%Z.
Definition zsum (l : list Z) : Z := fold_right Z.add 0%Z l.

Lemma times_cons k x l : times k (x :: l) = (if x =? k then 1 else 0) + times k l.
Proof.
  unfold times. cbn [count_occ]. destruct (Nat.eq_dec x k) as [->|N]; [rewrite Nat.eqb_refl; reflexivity|].
  apply Nat.eqb_neq in N. rewrite N. reflexivity.
Qed.
Lemma times_app k a b : times k (a ++ b) = times k a + times k b.
Proof. apply count_occ_app. Qed.
Lemma times_notin k l : ~ In k l -> times k l = 0.
Proof. apply count_occ_not_In. Qed.
Lemma times_in k l : In k l -> 0 < times k l.
Proof. intros H. apply (count_occ_In Nat.eq_dec) in H. exact H. Qed.

Definition counter_ok (t : list (nat * Z)) (l : list nat) : Prop :=
  NoDup (map fst t) /\ (forall k, In k (map fst t) <-> In k l) /\ (forall k v, In (k, v) t -> v = Z.of_nat (times k l)).

Lemma count_incr_in k t : forall x, In x (map fst (count_incr k t)) <-> x = k \/ In x (map fst t).
Proof.
  induction t as [|[k' n] t IH]; intros x; cbn [count_incr map fst In]; [intuition congruence|].
  destruct (Nat.eqb_spec k k') as [->|N]; cbn [map fst In]; [intuition congruence|]. rewrite IH. tauto.
Qed.
Lemma count_incr_nodup k t : NoDup (map fst t) -> NoDup (map fst (count_incr k t)).
Proof.
  induction t as [|[k' n] t IH]; cbn [count_incr map fst]; intros N; [repeat constructor; simpl; tauto|].
  inversion N as [|? ? H1 H2]; subst. destruct (Nat.eqb_spec k k') as [->|Ne]; cbn [map fst]; [exact N|].
  constructor; [rewrite count_incr_in; intuition congruence|apply IH, H2].
Qed.
Lemma count_incr_val k t x v : NoDup (map fst t) -> In (x, v) (count_incr k t) ->
  (x <> k /\ In (x, v) t) \/ (x = k /\ ((~ In k (map fst t) /\ v = 1%Z) \/ exists n, In (k, n) t /\ v = (n + 1)%Z)).
Proof.
  induction t as [|[k' n] t IH]; cbn [count_incr map fst In]; intros N H.
  - destruct H as [[= <- <-]|[]]. right. split; [reflexivity|]. left. split; [tauto|reflexivity].
  - inversion N as [|? ? H1 H2]; subst. destruct (Nat.eqb_spec k k') as [->|Ne].
    + destruct H as [[= <- <-]|H].
      * right. split; [reflexivity|]. right. exists n. split; [left; reflexivity|reflexivity].
      * left. split; [|right; exact H]. intros ->. apply H1. apply in_map_iff. exists (k', v). auto.
    + destruct H as [[= <- <-]|H].
      * left. split; [congruence|left; reflexivity].
      * destruct (IH H2 H) as [[A B]|[A [[B C]|[m [B C]]]]].
        -- left. split; [exact A|right; exact B].
        -- right. split; [exact A|]. left. split; [intuition congruence|exact C].
        -- right. split; [exact A|]. right. exists m. split; [right; exact B|exact C].
Qed.
Lemma nat_counter_ok l : counter_ok (nat_counter l) l.
Proof.
  unfold nat_counter. rewrite <- fold_left_rev_right. rewrite <- (rev_involutive l) at 2. induction (rev l) as [|x m IH]; cbn [fold_right rev].
  - split; [constructor|]. split; [reflexivity|]. intros k v [].
  - destruct IH as [N [I V]]. split; [apply count_incr_nodup, N|]. split.
    + intros k. rewrite count_incr_in, I, in_app_iff. cbn [In]. intuition congruence.
    + intros k v H. rewrite times_app, times_cons. apply count_incr_val in H; [|exact N].
      change (times k []) with 0. destruct H as [[A B]|[-> [[B ->]|[n [B ->]]]]].
      * apply V in B. rewrite B. assert (x <> k) as Ne by congruence. apply Nat.eqb_neq in Ne. rewrite Ne. lia.
      * rewrite Nat.eqb_refl. rewrite I in B. apply times_notin in B. rewrite B. reflexivity.
      * rewrite Nat.eqb_refl. apply V in B. lia.
Qed.
Lemma counter_value t l k : counter_ok t l -> In k l -> In (k, Z.of_nat (times k l)) t.
Proof.
  intros [N [I V]] H. apply I, in_map_iff in H as [[k' v] [<- H]]. cbn [fst]. rewrite <- (V k' v H). exact H.
Qed.

Lemma get_item_val avail k : k < length avail -> get_item avail k = Ok (val avail k).
Proof. intros H. unfold get_item, val. rewrite (nth_error_nth' avail 0%Z H). reflexivity. Qed.

Lemma all_enough_spec avail t : (forall k, In k (map fst t) -> k < length avail) ->
  exists b, all_enough avail t = Ok b /\ (b = true <-> forall k v, In (k, v) t -> (v <= val avail k)%Z).
Proof.
  induction t as [|[k v] t IH]; cbn [all_enough map fst In]; intros H; [exists true; split; [reflexivity|]; split; [intros _ k v []|reflexivity]|].
  rewrite get_item_val by (apply H; left; reflexivity). cbn [pybind].
  destruct (Z.leb_spec 0 (val avail k - v)) as [L|L].
  - destruct IH as [b [E Hb]]; [intros k' H'; apply H; right; exact H'|]. exists b. split; [exact E|]. rewrite Hb. split.
    + intros G k' v' [[= <- <-]|H']; [lia|apply G, H'].
    + intros G k' v' H'. apply G. right; exact H'.
  - exists false. split; [reflexivity|]. split; [discriminate|]. intros G. specialize (G k v (or_introl eq_refl)). lia.
Qed.
Lemma enough_ok avail l : Forall (fun a => 0 <= a)%Z avail -> (forall k, In k l -> k < length avail) ->
  exists b, all_enough avail (nat_counter l) = Ok b /\ (b = true <-> fits avail l).
Proof.
  intros Hp H. pose proof (nat_counter_ok l) as C. destruct C as [N [I V]].
  destruct (all_enough_spec avail (nat_counter l)) as [b [E Hb]]; [intros k Hk; apply H, I, Hk|].
  exists b. split; [exact E|]. rewrite Hb. split.
  - intros G k. destruct (in_dec Nat.eq_dec k l) as [Hk|Hk].
    + apply G, counter_value; [|exact Hk]. split; [exact N|]. split; assumption.
    + rewrite times_notin by exact Hk. unfold val. destruct (Nat.lt_ge_cases k (length avail)) as [L|L].
      * rewrite Forall_forall in Hp. specialize (Hp (nth k avail 0%Z) (nth_In _ _ L)). lia.
      * rewrite nth_overflow by exact L. lia.
  - intros G k v Hkv. rewrite (V k v Hkv). apply G.
Qed.

Lemma zsum_nonneg l : Forall (fun a => 0 <= a)%Z l -> (0 <= zsum l)%Z.
Proof. induction 1 as [|a l H F IH]; cbn [zsum fold_right]; [lia|]. unfold zsum in IH. lia. Qed.
Lemma list_set_length {A} k (v : A) l : length (list_set k v l) = length l.
Proof. revert k; induction l as [|x l IH]; intros [|k]; cbn; auto. Qed.
Lemma list_set_val k v l j : k < length l -> val (list_set k v l) j = if k =? j then v else val l j.
Proof.
  unfold val. revert k j; induction l as [|x l IH]; intros k j H; [simpl in H; lia|]. destruct k as [|k], j as [|j]; cbn [list_set nth Nat.eqb]; try reflexivity.
  apply IH. simpl in H. lia.
Qed.
Lemma list_set_zsum k v l : k < length l -> zsum (list_set k v l) = (zsum l - val l k + v)%Z.
Proof.
  unfold val. revert k; induction l as [|x l IH]; intros k H; [simpl in H; lia|]. destruct k as [|k]; cbn [list_set zsum fold_right nth]; [lia|].
  fold (zsum l) (zsum (list_set k v l)). rewrite IH by (simpl in H; lia). lia.
Qed.
Definition tsum (t : list (nat * Z)) : Z := fold_right Z.add 0%Z (map snd t).
Lemma update_spec t avail zeros : NoDup (map fst t) -> (forall k, In k (map fst t) -> k < length avail) -> NoDup zeros ->
  exists avail' zeros', update_op_available avail zeros t = Ok (avail', zeros') /\
    length avail' = length avail /\ zsum avail' = (zsum avail - tsum t)%Z /\
    (forall k, ~ In k (map fst t) -> val avail' k = val avail k) /\ (forall k v, In (k, v) t -> val avail' k = (val avail k - v)%Z) /\
    (forall k, In k zeros' <-> In k zeros \/ (In k (map fst t) /\ val avail' k = 0%Z)).
Proof.
  revert avail zeros; induction t as [|[k v] t IH]; intros avail zeros N H Nz.
  - exists avail, zeros. split; [reflexivity|]. split; [reflexivity|]. split; [unfold tsum; cbn; lia|]. split; [reflexivity|].
    split; [intros k v []|]. cbn. intuition.
  - cbn [map fst] in N, H. inversion N as [|? ? H1 H2]; subst. cbn [update_op_available].
    assert (L : k < length avail) by (apply H; left; reflexivity). rewrite get_item_val by exact L. cbn [pybind].
    destruct (IH (list_set k (val avail k - v)%Z avail) (if (val avail k - v =? 0)%Z then set_add k zeros else zeros) H2)
      as (a' & z' & E & Hl & Hs & Hn & Hv & Hz).
    + intros k' Hk'. rewrite list_set_length. apply H. right; exact Hk'.
    + destruct (val avail k - v =? 0)%Z; [apply nodup_set_add|]; exact Nz.
    + exists a', z'. split; [exact E|]. split; [rewrite Hl; apply list_set_length|].
      split; [rewrite Hs, list_set_zsum by exact L; unfold tsum; cbn [map snd fold_right]; lia|].
      assert (Vk : val a' k = (val avail k - v)%Z) by (rewrite Hn by exact H1; rewrite list_set_val by exact L; rewrite Nat.eqb_refl; reflexivity).
      split; [|split].
      * intros k' Hk'. rewrite Hn by (intros G; apply Hk'; right; exact G). rewrite list_set_val by exact L.
        destruct (Nat.eqb_spec k k') as [->|]; [exfalso; apply Hk'; left; reflexivity|reflexivity].
      * intros k' v' [[= <- <-]|G]; [exact Vk|]. rewrite (Hv k' v' G), list_set_val by exact L.
        destruct (Nat.eqb_spec k k') as [->|]; [|reflexivity]. exfalso. apply H1. apply in_map_iff. exists (k', v'). auto.
      * intros k'. rewrite Hz. cbn [map fst In]. destruct (Z.eqb_spec (val avail k - v) 0) as [Z0|Z0].
        -- rewrite in_set_add. split; [intros [[->|G]|G]|intros [G|[[->|G] G']]]; auto.
           ++ right. split; [left; reflexivity|]. lia.
           ++ right. destruct G; split; auto.
        -- split; [intros [G|G]|intros [G|[[->|G] G']]]; auto.
           ++ right. destruct G; split; auto.
           ++ lia.
Qed.
Lemma nat_counter_tsum l : tsum (nat_counter l) = Z.of_nat (length l).
Proof.
  unfold nat_counter. assert (G : forall t x, tsum (count_incr x t) = (tsum t + 1)%Z).
  { induction t as [|[k n] t IH]; intros x; [reflexivity|]. cbn [count_incr]. destruct (x =? k); unfold tsum in *; cbn [map snd fold_right] in *; [lia|].
    rewrite IH. lia. }
  assert (F : forall t, tsum (fold_left (fun t k => count_incr k t) l t) = (tsum t + Z.of_nat (length l))%Z).
  { induction l as [|x l IH]; intros t; cbn [fold_left length]; [lia|]. rewrite IH, G. lia. }
  rewrite F. reflexivity.
Qed.
Lemma update_counter avail l : (forall k, In k l -> k < length avail) ->
  exists avail' zeros', update_op_available avail [] (nat_counter l) = Ok (avail', zeros') /\
    length avail' = length avail /\ zsum avail' = (zsum avail - Z.of_nat (length l))%Z /\
    (forall k, val avail' k = (val avail k - Z.of_nat (times k l))%Z) /\
    (forall k, In k zeros' <-> In k l /\ val avail' k = 0%Z).
Proof.
  intros H. pose proof (nat_counter_ok l) as C. pose proof C as [N [I V]].
  destruct (update_spec (nat_counter l) avail [] N) as (a' & z' & E & Hl & Hs & Hn & Hv & Hz).
  - intros k Hk. apply H, I, Hk.
  - constructor.
  - exists a', z'. split; [exact E|]. split; [exact Hl|]. split; [rewrite Hs, nat_counter_tsum; reflexivity|]. split.
    + intros k. destruct (in_dec Nat.eq_dec k l) as [Hk|Hk].
      * apply Hv, counter_value; assumption.
      * rewrite Hn by (rewrite I; exact Hk). rewrite times_notin by exact Hk. lia.
    + intros k. rewrite Hz, I. simpl. tauto.
Qed.
Lemma fits_app avail avail' a b : (forall k, val avail' k = (val avail k - Z.of_nat (times k a))%Z) -> (fits avail (a ++ b) <-> fits avail' b).
Proof.
  intros H. unfold fits. split; intros G k; specialize (G k); rewrite H in *; rewrite times_app in *; lia.
Qed.

(** ** arrangements *)
Inductive arr {A} : list A -> list A -> Prop :=
| arr_nil : arr [] []
| arr_skip x p w : arr p w -> arr (x :: p) w
| arr_take x p w : arr (x :: p) w -> arr (x :: p) (x :: w).

Lemma arr_incl {A} (p w : list A) : arr p w -> incl w p.
Proof.
  induction 1 as [|x p w H IH|x p w H IH]; intros y Hy; [exact Hy|right; apply IH, Hy|].
  destruct Hy as [<-|Hy]; [left; reflexivity|apply IH, Hy].
Qed.
Lemma arr_empty {A} (p : list A) : arr p [].
Proof. induction p; constructor; assumption. Qed.
Lemma arr_cons_inv {A} (x : A) p w : arr (x :: p) w -> arr p w \/ exists w', w = x :: w' /\ arr (x :: p) w'.
Proof. inversion 1; subst; eauto. Qed.
Lemma arr_filter {A} (f : A -> bool) p w : (forall x, In x w -> f x = true) -> (arr (filter f p) w <-> arr p w).
Proof.
  intros Hf. split.
  - clear Hf. revert w; induction p as [|x p IH]; intros w; cbn [filter]; [auto|]. destruct (f x).
    + intros H. remember (x :: filter f p) as q eqn:Eq. induction H as [|y q w H _|y q w H IHH]; [discriminate| |].
      * injection Eq as -> ->. apply arr_skip, IH, H.
      * injection Eq as -> ->. apply arr_take, IHH. reflexivity.
    + intros H. apply arr_skip, IH, H.
  - intros H. induction H as [|x p w H IH|x p w H IH]; cbn [filter].
    + constructor.
    + destruct (f x); [apply arr_skip|]; apply IH, Hf.
    + assert (Hx : f x = true) by (apply Hf; left; reflexivity).
      assert (IH' := IH (fun y Hy => Hf y (or_intror Hy))). cbn [filter] in IH'. rewrite Hx in *. apply arr_take, IH'.
Qed.
Lemma arr_nil_inv {A} (w : list A) : arr [] w -> w = [].
Proof. inversion 1; reflexivity. Qed.
Lemma arr_head_sorted {A} (f : A -> nat) p w : StronglySorted (fun a b => f a <= f b) p -> arr p w -> StronglySorted (fun a b => f a <= f b) w.
Proof.
  intros S H. induction H as [|x p w H IH|x p w H IH]; [constructor|inversion S; auto|].
  constructor; [auto|]. inversion S as [|? ? S' F]; subst. apply Forall_forall. intros y Hy. apply arr_incl in H. apply H in Hy as [<-|Hy]; [lia|].
  rewrite Forall_forall in F. apply F, Hy.
Qed.

(** ** walks *)
Fixpoint walk (fresh : bool) (ops : list nat) (w : list (list nat)) : Prop :=
  match w with
  | [] => True
  | e :: w' => (if fresh then length e = 2 else exists x, In x e /\ In x ops) /\ walk false (ops ++ e) w'
  end.
Lemma walk_ext fresh a b w : (forall x, In x a <-> In x b) -> walk fresh a w -> walk fresh b w.
Proof.
  revert fresh a b; induction w as [|e w IH]; intros fresh a b H; cbn [walk]; [auto|]. intros [H1 H2]. split.
  - destruct fresh; [exact H1|]. destruct H1 as [x [Hx Hy]]. exists x. split; [exact Hx|]. apply H, Hy.
  - apply (IH false (a ++ e)); [|exact H2]. intros x. rewrite !in_app_iff, H. reflexivity.
Qed.

Lemma filter_rev' {A} (f : A -> bool) l : rev (filter f l) = filter f (rev l).
Proof.
  induction l as [|x l IH]; [reflexivity|]. cbn [filter rev]. rewrite filter_app, <- IH. cbn [filter]. destruct (f x); cbn [rev]; [reflexivity|].
  rewrite app_nil_r. reflexivity.
Qed.
Lemma sorted_filter {A} (R : A -> A -> Prop) (f : A -> bool) l : StronglySorted R l -> StronglySorted R (filter f l).
Proof.
  induction 1 as [|x l S IH F]; cbn [filter]; [constructor|]. destruct (f x); [|exact IH]. constructor; [exact IH|].
  rewrite Forall_forall in *. intros y Hy. apply filter_In in Hy as [Hy _]. apply F, Hy.
Qed.

Lemma in_set_union a b x : In x (set_union a b) <-> In x a \/ In x b.
Proof.
  unfold set_union. revert a; induction b as [|y b IH]; intros a; cbn [fold_left In]; [tauto|]. rewrite IH, in_set_add. intuition congruence.
Qed.
Lemma nodup_set_union a b : NoDup a -> NoDup (set_union a b).
Proof. unfold set_union. revert a; induction b as [|y b IH]; intros a N; cbn [fold_left]; [exact N|]. apply IH, nodup_set_add, N. Qed.
Lemma touches_spec a b : touches a b = true <-> exists x, In x b /\ In x a.
Proof.
  unfold touches. rewrite existsb_exists. split; intros [x [H1 H2]]; exists x; (split; [exact H1|]); [apply mem_nat_in, H2|apply mem_nat_in; exact H2].
Qed.

Lemma covers_length ops n : NoDup ops -> (forall k, In k ops -> k < n) -> (length ops = n <-> forall k, k < n -> In k ops).
Proof.
  intros N H. split.
  - intros L k Hk. assert (I : incl (seq 0 n) ops).
    { apply NoDup_length_incl; [exact N|rewrite seq_length; lia|]. intros x Hx. apply in_seq. apply H in Hx. lia. }
    apply I, in_seq. lia.
  - intros G. assert (length ops <= n).
    { rewrite <- (seq_length n 0). apply NoDup_incl_length; [exact N|]. intros x Hx. apply in_seq. apply H in Hx. lia. }
    assert (n <= length ops).
    { rewrite <- (seq_length n 0) at 1. apply NoDup_incl_length; [apply seq_NoDup|]. intros x Hx. apply in_seq in Hx. apply G. lia. }
    lia.
Qed.

(** ** the main lemma *)
Record good (n_con : Z * Z) (available : list (list nat)) (n : nat) (cre ann : list Z) (ops : list nat) (w : list (list nat)) : Prop := Good {
  g_arr : arr (rev available) w;
  g_walk : walk (n =? 0) ops w;
  g_cre : fits cre (flat_map cre_half w);
  g_ann : fits ann (flat_map ann_half w);
  g_cov : forall k, k < length cre -> In k (ops ++ concat w);
  g_leg : (fst n_con <= Z.of_nat (n + legs_of w) <= snd n_con)%Z }.

Lemma half_app c : cre_half c ++ ann_half c = c.
Proof. apply firstn_skipn. Qed.
Lemma half_length b c : length c = b + b -> length (cre_half c) = b /\ length (ann_half c) = b /\ length c / 2 = b.
Proof.
  intros H. assert (D : length c / 2 = b) by (rewrite H; replace (b + b) with (b * 2) by lia; apply Nat.div_mul; lia).
  unfold cre_half, ann_half. rewrite D, firstn_length, skipn_length. lia.
Qed.

Lemma removelast_app_one {A} (l : list A) x : removelast (l ++ [x]) = l.
Proof. apply removelast_last. Qed.

Lemma macro_backtrack_spec n_con fuel available chosen n cre ann ops acu :
  length available + Z.to_nat (zsum cre) < fuel ->
  Forall (category_ok (length cre)) available -> NoDup available -> length ann = length cre ->
  Forall (fun a => 0 <= a)%Z cre -> Forall (fun a => 0 <= a)%Z ann ->
  StronglySorted (fun a b => length a <= length b) (rev available) ->
  NoDup ops -> (forall k, In k ops -> k < length cre) -> (n = 0 -> ops = []) -> (n = 0 \/ acu = false) ->
  exists ws, macro_backtrack fuel available chosen n_con n cre ann ops acu = Ok (map (fun w => chosen ++ w) ws, chosen) /\
    NoDup ws /\ forall w, In w ws <-> good n_con available n cre ann ops w.
Proof.
  revert available chosen n cre ann ops acu; induction fuel as [|fuel IH]; intros available chosen n cre ann ops acu Hf Hc Hn Hl Hp Hq Hs No Ho H0 Hu; [lia|].
  cbn [macro_backtrack]. destruct (rev available) as [|temp rest] eqn:Er.
  - assert (available = []) by (rewrite <- (rev_involutive available), Er; reflexivity). subst available. clear Er.
    assert (G : forall w, good n_con [] n cre ann ops w <-> w = [] /\ length ops = length cre /\ (fst n_con <= Z.of_nat n <= snd n_con)%Z).
    { intros w. rewrite (covers_length ops (length cre) No Ho). split.
      - intros [A W C1 C2 V L]. apply arr_nil_inv in A. subst w. split; [reflexivity|]. cbn in V, L. rewrite app_nil_r in V. rewrite Nat.add_0_r in L. auto.
      - intros [-> [V L]]. constructor; cbn.
        + constructor.
        + exact I.
        + intros k. cbn. unfold val. destruct (Nat.lt_ge_cases k (length cre)) as [K|K]; [|rewrite nth_overflow by exact K; lia].
          rewrite Forall_forall in Hp. specialize (Hp _ (nth_In cre 0%Z K)). lia.
        + intros k. cbn. unfold val. destruct (Nat.lt_ge_cases k (length ann)) as [K|K]; [|rewrite nth_overflow by exact K; lia].
          rewrite Forall_forall in Hq. specialize (Hq _ (nth_In ann 0%Z K)). lia.
        + intros k Hk. rewrite app_nil_r. apply V, Hk.
        + rewrite Nat.add_0_r. exact L. }
    destruct (Nat.eqb_spec (length ops) (length cre)) as [E1|E1]; cbn [andb].
    + destruct ((fst n_con <=? Z.of_nat n) && (Z.of_nat n <=? snd n_con))%Z eqn:E2.
      * exists [[]]. cbn [map]. rewrite app_nil_r. split; [reflexivity|]. split; [repeat constructor; simpl; tauto|].
        intros w. rewrite G. apply andb_true_iff in E2. rewrite !Z.leb_le in E2. simpl. intuition congruence.
      * exists []. split; [reflexivity|]. split; [constructor|]. intros w. rewrite G. split; [intros []|]. intros [_ [_ L]].
        apply andb_false_iff in E2. rewrite !Z.leb_gt in E2. lia.
    + exists []. split; [reflexivity|]. split; [constructor|]. intros w. rewrite G. split; [intros []|]. intros [_ [L _]]. congruence.
  - assert (Ea : available = rev rest ++ [temp]).
    { rewrite <- (rev_involutive available), Er. reflexivity. }
    assert (Hin : In temp available) by (rewrite Ea; apply in_app_iff; right; left; reflexivity).
    assert (Hct : category_ok (length cre) temp) by (rewrite Forall_forall in Hc; apply Hc, Hin).
    destruct Hct as [[b [Hb Hlen]] [Hrange Htwo]].
    destruct (half_length b temp Hlen) as [Lc [La Ld]].
    assert (Len2 : forall c, In c available -> 2 <= length c).
    { intros c G. rewrite Forall_forall in Hc. destruct (Hc c G) as [[b' [B1 B2]] _]. lia. }
    assert (Nrest : NoDup (rev rest) /\ ~ In temp rest).
    { apply NoDup_rev in Hn. rewrite Er in Hn. inversion Hn; subst. split; [apply NoDup_rev; assumption|assumption]. }
    destruct Nrest as [Nrest Ntemp].
    assert (Irest : forall c, In c (rev rest) -> In c available) by (intros c G; rewrite Ea; apply in_app_iff; left; exact G).
    assert (Lav : length available = S (length (rev rest))) by (rewrite Ea, app_length; cbn [length]; lia).
    destruct ((Z.of_nat n <? snd n_con)%Z && (if n =? 0 then length temp =? 2 else negb acu)) eqn:Cond.
    + apply andb_true_iff in Cond as [C1 C2]. apply Z.ltb_lt in C1. rewrite Ld.
      assert (Tset : forall x, In x (set_of temp) <-> In x temp) by apply set_of_spec.
      (* the inclusion test *)
      assert (INC : exists inc, (if touches ops (set_of temp) || (n =? 0)
                     then pybind (all_enough cre (nat_counter (cre_half temp))) (fun b0 =>
                          if b0 then all_enough ann (nat_counter (ann_half temp)) else Ok false)
                     else Ok false) = Ok inc /\
              (inc = true <-> (((exists x, In x temp /\ In x ops) \/ n = 0) /\ fits cre (cre_half temp) /\ fits ann (ann_half temp)))).
      { assert (T : touches ops (set_of temp) || (n =? 0) = true <-> ((exists x, In x temp /\ In x ops) \/ n = 0)).
        { rewrite orb_true_iff, touches_spec, Nat.eqb_eq. split; intros [[x [X1 X2]]|X]; auto; left; exists x; split; auto; apply Tset; auto. }
        destruct (touches ops (set_of temp) || (n =? 0)).
        - destruct (enough_ok cre (cre_half temp)) as [b1 [E1 F1]]; [exact Hp| |].
          { intros k Hk. apply Hrange. rewrite <- half_app. apply in_app_iff; left; exact Hk. }
          destruct (enough_ok ann (ann_half temp)) as [b2 [E2 F2]]; [exact Hq| |].
          { intros k Hk. rewrite Hl. apply Hrange. rewrite <- half_app. apply in_app_iff; right; exact Hk. }
          rewrite E1. cbn [pybind]. destruct b1.
          + rewrite E2. exists b2. split; [reflexivity|]. rewrite F2. pose proof (proj1 T eq_refl). pose proof (proj1 F1 eq_refl). tauto.
          + exists false. split; [reflexivity|]. split; [discriminate|]. intros [_ [G _]]. apply F1 in G. discriminate.
        - exists false. split; [reflexivity|]. split; [discriminate|]. intros [G _]. apply T in G. discriminate. }
      destruct INC as [inc [Einc Hinc]]. rewrite Einc. cbn [pybind].
      (* the include branch *)
      assert (B1 : exists ws1, (if inc then
                pybind (prune_available available cre ann (nat_counter (cre_half temp)) (nat_counter (ann_half temp))) (fun new =>
                pybind (macro_backtrack fuel (fst (fst new)) (chosen ++ [temp]) n_con (n + 2 * b) (snd (fst new)) (snd new)
                          (set_union ops (set_of temp)) (acu && (1 <? b)))
                       (fun r => Ok (fst r, removelast (snd r))))
              else Ok ([], chosen)) = Ok (map (fun w => chosen ++ w) (map (cons temp) ws1), chosen) /\
            NoDup ws1 /\ forall w, In w ws1 <-> good n_con available n cre ann ops (temp :: w)).
      { destruct inc.
        - pose proof (proj1 Hinc eq_refl) as [Htouch [F1 F2]]. clear Hinc Einc.
          unfold prune_available.
          destruct (update_counter cre (cre_half temp)) as (cre' & zc & Ec & Hlc & Hsc & Hvc & Hzc).
          { intros k Hk. apply Hrange. rewrite <- half_app. apply in_app_iff; left; exact Hk. }
          destruct (update_counter ann (ann_half temp)) as (ann' & za & Eb & Hla & Hsa & Hva & Hza).
          { intros k Hk. rewrite Hl. apply Hrange. rewrite <- half_app. apply in_app_iff; right; exact Hk. }
          rewrite Ec. cbn [pybind]. rewrite Eb. cbn [pybind fst snd].
          set (keep := fun con_ops => negb (existsb (fun i => mem_nat i zc) (cre_half con_ops)) && negb (existsb (fun i => mem_nat i za) (ann_half con_ops))).
          set (pruned := if (length zc =? 0) && (length za =? 0) then available else filter keep available).
          assert (Epr : pruned = filter keep available).
          { unfold pruned. destruct zc as [|? zc]; destruct za as [|? za]; cbn [length Nat.eqb andb]; try reflexivity.
            rewrite filter_true; [reflexivity|]. intros c _. unfold keep.
            assert (Z0 : forall l : list nat, existsb (fun i => mem_nat i []) l = false) by (induction l; [reflexivity|assumption]).
            rewrite !Z0. reflexivity. }
          destruct (IH pruned (chosen ++ [temp]) (n + 2 * b) cre' ann' (set_union ops (set_of temp)) (acu && (1 <? b))) as (ws1 & E1 & N1 & W1).
          + rewrite Epr. pose proof (filter_len keep available). rewrite Hsc, Lc.
            assert (0 <= zsum cre - Z.of_nat b)%Z.
            { rewrite <- Lc, <- Hsc. apply zsum_nonneg. apply Forall_forall. intros a Ha. apply (In_nth _ _ 0%Z) in Ha as [k [Hk <-]].
              change (0 <= val cre' k)%Z. rewrite Hvc. specialize (F1 k). lia. }
            lia.
          + rewrite Epr, Hlc. apply Forall_forall. intros c G. apply filter_In in G as [G _]. rewrite Forall_forall in Hc. apply Hc, G.
          + rewrite Epr. apply NoDup_filter', Hn.
          + congruence.
          + apply Forall_forall. intros a Ha. apply (In_nth _ _ 0%Z) in Ha as [k [Hk <-]]. change (0 <= val cre' k)%Z. rewrite Hvc. specialize (F1 k). lia.
          + apply Forall_forall. intros a Ha. apply (In_nth _ _ 0%Z) in Ha as [k [Hk <-]]. change (0 <= val ann' k)%Z. rewrite Hva. specialize (F2 k). lia.
          + rewrite Epr, filter_rev'. rewrite Er. apply sorted_filter, Hs.
          + apply nodup_set_union, No.
          + intros k Hk. rewrite Hlc. apply in_set_union in Hk as [Hk|Hk]; [apply Ho, Hk|apply Hrange, Tset, Hk].
          + lia.
          + right. destruct Hu as [Hu|Hu]; [|rewrite Hu; reflexivity]. subst n. cbn [Nat.eqb] in C2. apply Nat.eqb_eq in C2.
            replace b with 1 by lia. cbn. apply andb_false_r.
          + fold pruned. rewrite E1. cbn [pybind fst snd]. rewrite removelast_app_one. exists ws1. split.
            * f_equal. f_equal. rewrite map_map. apply map_ext. intros w. rewrite <- app_assoc. reflexivity.
            * split; [exact N1|]. intros w. rewrite W1. clear W1 E1 N1.
              assert (Ef1 : fits cre (flat_map cre_half (temp :: w)) <-> fits cre' (flat_map cre_half w)) by (cbn [flat_map]; apply fits_app, Hvc).
              assert (Ef2 : fits ann (flat_map ann_half (temp :: w)) <-> fits ann' (flat_map ann_half w)) by (cbn [flat_map]; apply fits_app, Hva).
              assert (Ekeep : fits cre' (flat_map cre_half w) -> fits ann' (flat_map ann_half w) -> forall c, In c w -> keep c = true).
              { intros G1 G2 c Hcw. unfold keep. apply andb_true_iff. rewrite !negb_true_iff. split.
                - destruct (existsb _ (cre_half c)) eqn:X; [|reflexivity]. apply existsb_exists in X as [k [K1 K2]]. apply mem_nat_in, Hzc in K2 as [_ K2].
                  specialize (G1 k). rewrite K2 in G1. assert (T : 0 < times k (flat_map cre_half w)) by (apply times_in, in_flat_map; eauto). lia.
                - destruct (existsb _ (ann_half c)) eqn:X; [|reflexivity]. apply existsb_exists in X as [k [K1 K2]]. apply mem_nat_in, Hza in K2 as [_ K2].
                  specialize (G2 k). rewrite K2 in G2. assert (T : 0 < times k (flat_map ann_half w)) by (apply times_in, in_flat_map; eauto). lia. }
              assert (Nz : (n + 2 * b =? 0) = false) by (apply Nat.eqb_neq; lia).
              assert (Elegs : n + 2 * b + legs_of w = n + legs_of (temp :: w)) by (unfold legs_of; cbn [concat]; rewrite app_length; lia).
              assert (Ecov : (forall k, k < length cre' -> In k (set_union ops (set_of temp) ++ concat w)) <-> (forall k, k < length cre -> In k (ops ++ concat (temp :: w)))).
              { rewrite Hlc. cbn [concat]. split; intros G k Hk; specialize (G k Hk); rewrite !in_app_iff in *; rewrite in_set_union, Tset in *; tauto. }
              split.
              -- intros [A W G1 G2 V L]. rewrite Nz in W. constructor.
                 ++ rewrite Er. apply arr_take. rewrite <- Er. rewrite Epr, filter_rev' in A. apply arr_filter in A; [exact A|]. apply Ekeep; assumption.
                 ++ cbn [walk]. split.
                    ** destruct (Nat.eqb_spec n 0) as [->|Nn]; [cbn [Nat.eqb] in C2; apply Nat.eqb_eq, C2|]. destruct Htouch as [X|X]; [exact X|contradiction].
                    ** apply (walk_ext false (set_union ops (set_of temp))); [|exact W]. intros x. rewrite in_set_union, Tset, in_app_iff. reflexivity.
                 ++ apply Ef1, G1.
                 ++ apply Ef2, G2.
                 ++ apply Ecov, V.
                 ++ rewrite <- Elegs. exact L.
              -- intros [A W G1 G2 V L]. apply Ef1 in G1. apply Ef2 in G2. constructor.
                 ++ rewrite Epr, filter_rev'. apply arr_filter; [apply Ekeep; assumption|].
                    rewrite Er in *. apply arr_cons_inv in A as [A|[w' [Ew A]]]; [|injection Ew as <-; exact A].
                    exfalso. apply Ntemp. apply (arr_incl _ _ A). left; reflexivity.
                 ++ rewrite Nz. destruct W as [_ W]. apply (walk_ext false (ops ++ temp)); [|exact W]. intros x. rewrite in_set_union, Tset, in_app_iff. reflexivity.
                 ++ exact G1.
                 ++ exact G2.
                 ++ apply Ecov, V.
                 ++ rewrite Elegs. exact L.
        - exists []. split; [reflexivity|]. split; [constructor|]. intros w. split; [intros []|]. intros [A W G1 G2 V L].
          enough (false = true) by discriminate. apply Hinc. split; [|split].
          + destruct W as [W _]. destruct (Nat.eqb_spec n 0) as [->|Nn]; [right; reflexivity|left; exact W].
          + intros k. specialize (G1 k). cbn [flat_map] in G1. rewrite times_app in G1. lia.
          + intros k. specialize (G2 k). cbn [flat_map] in G2. rewrite times_app in G2. lia. }
      destruct B1 as (ws1 & E1 & N1 & W1). rewrite E1. cbn [pybind fst snd].
      (* the exclude branch *)
      destruct (IH (rev rest) chosen n cre ann ops acu) as (ws2 & E2 & N2 & W2); try assumption.
      { lia. }
      { apply Forall_forall. intros c G. rewrite Forall_forall in Hc. apply Hc, Irest, G. }
      { rewrite rev_involutive. inversion Hs; assumption. }
      rewrite E2. cbn [pybind fst snd]. exists (map (cons temp) ws1 ++ ws2). split; [rewrite map_app; reflexivity|].
      assert (Rest : forall w, In w ws2 -> forall w', w <> temp :: w').
      { intros w Hw w' ->. apply W2 in Hw. destruct Hw as [A _ _ _ _ _]. rewrite rev_involutive in A. apply Ntemp, (arr_incl _ _ A). left; reflexivity. }
      split.
      { apply NoDup_app_intro; [apply NoDup_map_in; [congruence|exact N1]|exact N2|].
        intros w G1 G2. apply in_map_iff in G1 as [w' [<- _]]. exact (Rest _ G2 w' eq_refl). }
      intros w. rewrite in_app_iff, in_map_iff. split.
      * intros [[w' [<- Hw]]|Hw]; [apply W1, Hw|]. apply W2 in Hw. destruct Hw as [A W G1 G2 V L]. constructor; auto.
        rewrite Er. apply arr_skip. rewrite rev_involutive in A. exact A.
      * intros G. pose proof G as [A W G1 G2 V L]. rewrite Er in A. apply arr_cons_inv in A as [A|[w' [-> A]]].
        -- right. apply W2. constructor; auto. rewrite rev_involutive. exact A.
        -- left. exists w'. split; [reflexivity|]. apply W1, G.
    + (* nothing more may be chosen *)
      destruct (IH [] chosen n cre ann ops acu) as (ws & E & N & W); try assumption; try constructor.
      { cbn [length]. lia. }
      exists ws. split; [exact E|]. split; [exact N|]. intros w. rewrite W. split.
      * intros [A Wk G1 G2 V L]. apply arr_nil_inv in A. subst w. constructor; auto. apply arr_empty.
      * intros [A Wk G1 G2 V L]. assert (w = []).
        { destruct w as [|e w]; [reflexivity|exfalso].
          assert (He : In e available).
          { apply in_rev. rewrite Er. rewrite Er in A. apply (arr_incl _ _ A). left; reflexivity. }
          pose proof (Len2 e He) as He2.
          apply andb_false_iff in Cond as [C|C].
          - apply Z.ltb_ge in C. unfold legs_of in L. cbn [concat] in L. rewrite app_length in L. lia.
          - destruct Wk as [Wk _]. destruct (Nat.eqb_spec n 0) as [->|Nn].
            + apply Nat.eqb_neq in C. rewrite Er in A. assert (Hd : length temp <= length e).
              { apply (arr_incl _ _) in A. destruct (A e (or_introl eq_refl)) as [<-|G]; [lia|].
                inversion Hs as [|? ? S F]; subst. rewrite Forall_forall in F. apply F, G. }
              pose proof (Len2 temp Hin). lia.
            + destruct Hu as [Hu|Hu]; [contradiction|]. rewrite Hu in C. discriminate. }
        subst w. constructor; auto. constructor.
Qed.
