(** The families of a string without repetitions list every set of disjoint groups once. *)
From Verif Require Import PyBase ParitySpec ParityProofs CompatSpec ConnectedProofs IterProofs ValueSpec ValueProofs FamilySpec FamilyProofs.
From Coq Require Import ZArith Lia Bool List.
Local Open Scope nat_scope.
Local Notation length := List.length.

Definition apart_groups {X} (g h : list X) : Prop := forall x, In x g -> ~ In x h.
Definition flag (s : bool) : Z := if s then (-1)%Z else 1%Z.
Lemma flag_xorb s t : flag (xorb s t) = (flag s * flag t)%Z.
Proof. destruct s, t; reflexivity. Qed.
Lemma flag_odd n : flag (Nat.odd n) = sgn n.
Proof. unfold flag, sgn. rewrite <- Nat.negb_even. destruct (Nat.even n); reflexivity. Qed.

Section Sets.
  Context {X : Type} (dec : forall x y : X, {x = y} + {x <> y}).
  Implicit Types (w g r : list X) (gs : list (list X)).
  (** ** what the members are *)
  Lemma split_spec w s g r : In (s, g, r) (splits w) -> subseq g w /\ subseq r w /\ reorder_sign w (g ++ r) (flag s).
  Proof.
    revert s g r. induction w as [|x w IH]; intros s g r H; cbn [splits] in H.
    - destruct H as [[= <- <- <-]|[]]. split; [constructor|]. split; [constructor|]. apply reorder_sign_refl.
    - apply in_app_or in H as [H|H]; apply in_map_iff in H as ([[s' g'] r'] & [= <- <- <-] & H); specialize (IH _ _ _ H) as (I1 & I2 & I3).
      + split; [constructor; exact I1|]. split; [constructor; exact I2|]. rewrite <- (Z.mul_1_l (flag s')). exact (reorder_sign_app [x] [x] _ _ _ _ (reorder_sign_refl _) I3).
      + split; [constructor; exact I1|]. split; [constructor; exact I2|]. rewrite flag_xorb. eapply reorder_sign_trans; [rewrite <- (Z.mul_1_l (flag s')); exact (reorder_sign_app [x] [x] _ _ _ _ (reorder_sign_refl _) I3)|].
        rewrite flag_odd. pose proof (reorder_sign_blocks [x] g') as Q. cbn [length] in Q. rewrite Nat.mul_1_l in Q. pose proof (reorder_sign_app _ _ r' r' _ _ Q (reorder_sign_refl _)) as Q2. rewrite Z.mul_1_r, <- !app_assoc in Q2. exact Q2.
  Qed.
  Lemma subseq_trans (a b c : list X) : subseq a b -> subseq b c -> subseq a c.
  Proof.
    intros H1 H2. revert a H1. induction H2 as [|x b c H2 IH|x b c H2 IH]; intros a H1; [exact H1| |constructor; apply IH, H1]. inversion H1; subst; constructor; apply IH; assumption.
  Qed.
  Lemma family_spec n w s gs r : length w <= n -> In (s, gs, r) (families n w) ->
    Forall (fun g => g <> [] /\ subseq g w) gs /\ subseq r w /\ reorder_sign w (concat gs ++ r) (flag s).
  Proof.
    revert w s gs r. induction n as [|n IH]; intros [|x w] s gs r L H; cbn [families length] in *; try lia.
    - destruct H as [[= <- <- <-]|[]]. split; [constructor|]. split; [constructor|apply reorder_sign_refl].
    - destruct H as [[= <- <- <-]|[]]. split; [constructor|]. split; [constructor|apply reorder_sign_refl].
    - apply in_app_or in H as [H|H].
      + apply in_map_iff in H as ([[s' gs'] r'] & [= <- <- <-] & H). destruct (IH w _ _ _ ltac:(lia) H) as (I1 & I2 & I3). split; [|split; [constructor; exact I2|]].
        * eapply Forall_impl; [|exact I1]. intros g [G1 G2]. split; [exact G1|constructor; exact G2].
        * rewrite flag_xorb. eapply reorder_sign_trans; [rewrite <- (Z.mul_1_l (flag s')); exact (reorder_sign_app [x] [x] _ _ _ _ (reorder_sign_refl _) I3)|].
          rewrite flag_odd. pose proof (reorder_sign_blocks [x] (concat gs')) as Q. cbn [length] in Q. rewrite Nat.mul_1_l in Q. pose proof (reorder_sign_app _ _ r' r' _ _ Q (reorder_sign_refl _)) as Q2. rewrite Z.mul_1_r, <- !app_assoc in Q2. exact Q2.
      + apply in_flat_map in H as ([[s1 g] r1] & H1 & H). apply in_map_iff in H as ([[s' gs'] r'] & [= <- <- <-] & H). pose proof (split_length _ _ _ _ H1) as L1. destruct (split_spec _ _ _ _ H1) as (S1 & S2 & S3). destruct (IH r1 _ _ _ ltac:(lia) H) as (I1 & I2 & I3).
        split; [|split; [constructor; exact (subseq_trans _ _ _ I2 S2)|]].
        * constructor; [split; [discriminate|constructor; exact S1]|]. eapply Forall_impl; [|exact I1]. intros h [G1 G2]. split; [exact G1|constructor; exact (subseq_trans _ _ _ G2 S2)].
        * cbn [concat app]. rewrite flag_xorb. apply (reorder_sign_trans _ (x :: g ++ r1)); [rewrite <- (Z.mul_1_l (flag s1)); exact (reorder_sign_app [x] [x] _ _ _ _ (reorder_sign_refl _) S3)|].
          rewrite <- app_assoc. rewrite <- (Z.mul_1_l (flag s')). exact (reorder_sign_app (x :: g) (x :: g) _ _ _ _ (reorder_sign_refl _) I3).
  Qed.
  Lemma family_apart n w s gs r : length w <= n -> NoDup w -> In (s, gs, r) (families n w) -> ForallOrdPairs apart_groups gs /\ NoDup (concat gs ++ r).
  Proof.
    intros L N H. destruct (family_spec n w s gs r L H) as (_ & _ & P). apply reorder_sign_perm in P. pose proof (Permutation_NoDup P N) as D. split; [|exact D]. apply NoDup_app_elim in D as (D & _ & _).
    clear - D. induction gs as [|g gs IH]; constructor; cbn [concat] in D; apply NoDup_app_elim in D as (D1 & D2 & D3); [|apply IH, D2]. apply Forall_forall. intros h Hh x Hx Hy. apply (D3 x Hx). apply in_concat. exists h. auto.
  Qed.
  (** ** every set occurs *)
  Lemma subseq_cons_in x g w : NoDup (x :: w) -> subseq g (x :: w) -> In x g -> exists g', g = x :: g' /\ subseq g' w.
  Proof.
    intros N H Hx. inversion H as [|? g' ? H'|? ? ? H']; subst; [eauto|]. inversion N as [|? ? N1 N2]; subst. exfalso. apply N1, (subseq_incl _ _ H'), Hx.
  Qed.
  Lemma subseq_cons_out x g w : subseq g (x :: w) -> ~ In x g -> subseq g w.
  Proof. intros H Hx. inversion H as [|? g' ? H'|? ? ? H']; subst; [exfalso; apply Hx; left; reflexivity|exact H']. Qed.
  Lemma split_exists g w : NoDup w -> subseq g w -> exists s r, In (s, g, r) (splits w) /\ forall h, subseq h w -> apart_groups g h -> subseq h r.
  Proof.
    intros N H. induction H as [|x g w H IH|x g w H IH].
    - exists false, []. split; [left; reflexivity|]. auto.
    - inversion N as [|? ? N1 N2]; subst. destruct (IH N2) as (s & r & I & J). exists s, r. split; [cbn [splits]; apply in_or_app; left; apply in_map_iff; exists (s, g, r); auto|].
      intros h Hh D. apply J; [|intros y Hy; apply D; right; exact Hy]. apply (subseq_cons_out x); [exact Hh|apply D; left; reflexivity].
    - inversion N as [|? ? N1 N2]; subst. destruct (IH N2) as (s & r & I & J). exists (xorb s (Nat.odd (length g))), (x :: r). split; [cbn [splits]; apply in_or_app; right; apply in_map_iff; exists (s, g, r); auto|].
      intros h Hh D. inversion Hh as [|? h' ? Hh'|? ? ? Hh']; subst.
      + constructor. apply J; [exact Hh'|]. intros y Hy Hy'. apply (D y Hy). right. exact Hy'.
      + constructor. apply J; assumption.
  Qed.
  Lemma family_exists n : forall w gs, length w <= n -> NoDup w -> Forall (fun g => g <> [] /\ subseq g w) gs -> ForallOrdPairs apart_groups gs ->
    exists s gs' r, In (s, gs', r) (families n w) /\ Permutation gs' gs.
  Proof.
    assert (Z0 : forall gs, Forall (fun g => g <> [] /\ subseq g []) gs -> gs = []).
    { intros [|g gs] F; [reflexivity|]. inversion F as [|? ? [F1 F2] _]; subst. inversion F2; subst. contradiction. }
    induction n as [|n IH]; intros [|x w] gs L N F D; cbn [length] in L; try lia.
    - rewrite (Z0 gs F). exists false, [], []. split; [left; reflexivity|constructor].
    - rewrite (Z0 gs F). exists false, [], []. split; [left; reflexivity|constructor].
    - inversion N as [|? ? N1 N2]; subst. destruct (Exists_dec (fun g => In x g) gs (in_dec dec x)) as [E|E].
      + apply Exists_exists in E as (g & Hg & Hx). apply in_split in Hg as (l1 & l2 & ->).
        assert (D' : ForallOrdPairs apart_groups (g :: l1 ++ l2)) by (apply (pairs_perm apart_groups (l1 ++ g :: l2)); [intros a b Q y Ha Hb; exact (Q y Hb Ha)|symmetry; apply Permutation_middle|exact D]). inversion D' as [|? ? D1 D2]; subst.
        assert (F' : Forall (fun g => g <> [] /\ subseq g (x :: w)) (g :: l1 ++ l2)) by (apply Forall_forall; intros h Hh; rewrite Forall_forall in F; apply F; apply (Permutation_in _ (Permutation_middle l1 l2 g)); exact Hh). inversion F' as [|? ? [_ F1] F2]; subst.
        destruct (subseq_cons_in x g w N F1 Hx) as (g' & -> & Sg). destruct (split_exists g' w N2 Sg) as (s & r & I & J).
        pose proof (split_length _ _ _ _ I) as Lr. destruct (split_spec _ _ _ _ I) as (_ & Sr & _).
        destruct (IH r (l1 ++ l2) ltac:(lia) (subseq_NoDup _ _ Sr N2)) as (s' & gs' & r' & I' & P).
        * apply Forall_forall. intros h Hh. rewrite Forall_forall in D1, F2. destruct (F2 h Hh) as [H1 H2]. split; [exact H1|]. apply J; [apply (subseq_cons_out x); [exact H2|apply (D1 h Hh); left; reflexivity]|]. intros y Hy. apply (D1 h Hh). right. exact Hy.
        * exact D2.
        * exists (xorb s s'), ((x :: g') :: gs'), r'. split; [|rewrite P; apply Permutation_middle]. cbn [families]. apply in_or_app. right. apply in_flat_map. exists (s, g', r). split; [exact I|]. apply in_map_iff. exists (s', gs', r'). auto.
      + destruct (IH w gs ltac:(lia) N2) as (s & gs' & r & I & P).
        * apply Forall_forall. intros g Hg. rewrite Forall_forall in F. destruct (F g Hg) as [H1 H2]. split; [exact H1|]. apply (subseq_cons_out x); [exact H2|]. intros Hx. apply E, Exists_exists. exists g. auto.
        * exact D.
        * exists (xorb s (Nat.odd (length (concat gs')))), gs', (x :: r). split; [|exact P]. cbn [families]. apply in_or_app. left. apply in_map_iff. exists (s, gs', r). auto.
  Qed.
  (** ** once *)
  Lemma splits_distinct w : NoDup w -> NoDup (map (fun p : bool * list X * list X => snd (fst p)) (splits w)).
  Proof.
    induction w as [|x w IH]; intros N; [constructor; [intros []|constructor]|]. inversion N as [|? ? N1 N2]; subst. cbn [splits]. rewrite map_app, !map_map.
    assert (E1 : map (fun p : bool * list X * list X => snd (fst (let '(s, g, r) := p in (s, x :: g, r)))) (splits w) = map (cons x) (map (fun p => snd (fst p)) (splits w))) by (rewrite map_map; apply map_ext; intros [[? ?] ?]; reflexivity).
    assert (E2 : map (fun p : bool * list X * list X => snd (fst (let '(s, g, r) := p in (xorb s (Nat.odd (length g)), g, x :: r)))) (splits w) = map (fun p => snd (fst p)) (splits w)) by (apply map_ext; intros [[? ?] ?]; reflexivity).
    rewrite E1, E2.
    assert (G : forall l l' : list (list X), NoDup l -> NoDup l' -> (forall y, In y l -> ~ In y l') -> NoDup (l ++ l')).
    { clear. induction l as [|a l IH]; intros l' H1 H2 H3; [exact H2|]. inversion H1; subst. cbn. constructor; [rewrite in_app_iff; intros [Q|Q]; [contradiction|exact (H3 a (or_introl eq_refl) Q)]|apply IH; [assumption|assumption|intros y Hy; apply H3; right; exact Hy]]. }
    apply G; [apply FinFun.Injective_map_NoDup; [intros a b [= Q]; exact Q|apply IH, N2]|apply IH, N2|]. intros y H1 H2. apply in_map_iff in H1 as (g & <- & _). apply in_map_iff in H2 as ([[s h] r] & Q & H2). cbn [fst snd] in Q. subst h. apply split_spec in H2 as (S1 & _). apply N1, (subseq_incl _ _ S1). left. reflexivity.
  Qed.
  Lemma pairs_flat {Y} (f : Y -> list (list (list X))) l : (forall y, In y l -> ForallOrdPairs (fun a b => ~ Permutation a b) (f y)) ->
    ForallOrdPairs (fun y z => forall a b, In a (f y) -> In b (f z) -> ~ Permutation a b) l -> ForallOrdPairs (fun a b => ~ Permutation a b) (flat_map f l).
  Proof.
    intros H O. induction O as [|y l F O IH]; [constructor|]. cbn [flat_map]. apply ord_pairs_app; [apply H; left; reflexivity|apply IH; intros z Hz; apply H; right; exact Hz|]. intros a b Ha Hb. apply in_flat_map in Hb as (z & Hz & Hb). rewrite Forall_forall in F. exact (F z Hz a b Ha Hb).
  Qed.
  Lemma nodup_pairs {Y K} (f : Y -> K) (R : Y -> Y -> Prop) l : NoDup (map f l) -> (forall y z, In y l -> In z l -> f y <> f z -> R y z) -> ForallOrdPairs R l.
  Proof.
    induction l as [|y l IH]; intros N H; constructor; cbn [map] in N; inversion N as [|? ? N1 N2]; subst.
    - apply Forall_forall. intros z Hz. apply H; [left; reflexivity|right; exact Hz|]. intros Q. apply N1. rewrite Q. apply in_map, Hz.
    - apply IH; [exact N2|]. intros a b Ha Hb. apply H; right; assumption.
  Qed.
  Lemma families_distinct n : forall w, length w <= n -> NoDup w -> ForallOrdPairs (fun a b => ~ Permutation a b) (map (fun p : bool * list (list X) * list X => snd (fst p)) (families n w)).
  Proof.
    induction n as [|n IH]; intros [|x w] L N; cbn [length] in L; try lia; [repeat constructor..|]. inversion N as [|? ? N1 N2]; subst. cbn [families]. rewrite map_app, map_map.
    assert (E1 : map (fun p : bool * list (list X) * list X => snd (fst (let '(s, gs, r) := p in (xorb s (Nat.odd (length (concat gs))), gs, x :: r)))) (families n w) = map (fun p => snd (fst p)) (families n w)) by (apply map_ext; intros [[? ?] ?]; reflexivity).
    rewrite E1. set (f := fun q : bool * list X * list X => map (cons (x :: snd (fst q))) (map (fun p : bool * list (list X) * list X => snd (fst p)) (families n (snd q)))).
    assert (E2 : map (fun p : bool * list (list X) * list X => snd (fst p)) (flat_map (fun q : bool * list X * list X => let '(s, g, r) := q in map (fun p => let '(s', gs, r') := p in (xorb s s', (x :: g) :: gs, r')) (families n r)) (splits w)) = flat_map f (splits w)).
    { generalize (splits w). induction l as [|[[s g] r] l IHl]; [reflexivity|]. cbn [flat_map]. rewrite map_app, IHl. f_equal. unfold f. cbn [fst snd]. rewrite !map_map. apply map_ext. intros [[? ?] ?]. reflexivity. }
    rewrite E2. apply ord_pairs_app.
    - apply IH; [lia|exact N2].
    - apply pairs_flat.
      + intros [[s g] r] H. unfold f. cbn [fst snd]. pose proof (split_length _ _ _ _ H) as Lr. destruct (split_spec _ _ _ _ H) as (_ & Sr & _). specialize (IH r ltac:(lia) (subseq_NoDup _ _ Sr N2)).
        clear - IH. induction IH as [|a l F O IH]; cbn [map]; constructor; [|exact IH]. apply Forall_forall. intros b Hb. apply in_map_iff in Hb as (c & <- & Hc). rewrite Forall_forall in F. intros P. apply (F c Hc). exact (Permutation_cons_inv P).
      + apply (nodup_pairs (fun p => snd (fst p))); [apply splits_distinct, N2|]. intros [[s g] r] [[s' g'] r'] H H' NE a b Ha Hb P. cbn [fst snd] in NE. unfold f in Ha, Hb. cbn [fst snd] in Ha, Hb. apply in_map_iff in Ha as (gs & <- & Ha). apply in_map_iff in Hb as (gs' & <- & Hb).
        assert (I : In (x :: g) ((x :: g') :: gs')) by (apply (Permutation_in _ P); left; reflexivity). destruct I as [[= I]|I]; [congruence|]. apply in_map_iff in Hb as ([[s2 gs2] r2] & Q & Hb). cbn [fst snd] in Q. subst gs2.
        pose proof (split_length _ _ _ _ H') as Lr. destruct (split_spec _ _ _ _ H') as (_ & Sr & _). destruct (family_spec n r' _ _ _ ltac:(lia) Hb) as (F & _). rewrite Forall_forall in F. destruct (F _ I) as [_ Sx]. apply N1, (subseq_incl _ _ Sr), (subseq_incl _ _ Sx). left. reflexivity.
    - intros a b Ha Hb P. apply in_flat_map in Hb as ([[s g] r] & H & Hb). unfold f in Hb. cbn [fst snd] in Hb. apply in_map_iff in Hb as (gs & <- & _). apply in_map_iff in Ha as ([[s2 gs2] r2] & Q & Ha). cbn [fst snd] in Q. subst gs2.
      destruct (family_spec n w _ _ _ ltac:(lia) Ha) as (F & _). rewrite Forall_forall in F. destruct (F (x :: g)) as [_ Sx]; [apply (Permutation_in _ (Permutation_sym P)); left; reflexivity|]. apply N1, (subseq_incl _ _ Sx). left. reflexivity.
  Qed.
  (** a set of disjoint groups of members in the order of the string *)
  Definition grouping w gs : Prop := Forall (fun g => g <> [] /\ subseq g w) gs /\ ForallOrdPairs apart_groups gs.
  Theorem families_once w : NoDup w -> lists_each_set_once (grouping w) (map (fun p : bool * list (list X) * list X => snd (fst p)) (families (length w) w)).
  Proof.
    intros N. split; [|split].
    - intros gs H. apply in_map_iff in H as ([[s gs'] r] & Q & H). cbn [fst snd] in Q. subst gs'. destruct (family_spec _ _ _ _ _ (le_n _) H) as (F & _). destruct (family_apart _ _ _ _ _ (le_n _) N H) as [D _]. split; [|split; assumption].
      clear - F D. induction D as [|g gs D O IH]; [constructor|]. inversion F as [|? ? [F1 _] F2]; subst. constructor; [|apply IH, F2]. intros Hg. rewrite Forall_forall in D. destruct g as [|x g]; [contradiction|]. exact (D _ Hg x (or_introl eq_refl) (or_introl eq_refl)).
    - intros gs _ (F & D). destruct (family_exists (length w) w gs (le_n _) N F D) as (s & gs' & r & I & P). exists gs'. split; [apply in_map_iff; exists (s, gs', r); auto|exact P].
    - apply once_pairs, families_distinct; [apply le_n|exact N].
  Qed.
End Sets.
