(** Permutations with prescribed spins and their signs. *)
From Coq Require Import ZArith Lia Ring.
From Verif Require Import PyBase SpaceModel IndexModel IndicesModel ParitySpec ParityProofs IndicesProofs ElemModel MacroModel TermModel ValueSpec ValueProofs TermSpec CanonProofs SingletSpec.

Lemma signed_picks_in {B} (l : list B) s x r : In (s, x, r) (signed_picks l) <-> exists p q, l = p ++ x :: q /\ r = p ++ q /\ s = sgn (length p).
Proof.
  revert s r. induction l as [|y l IH]; intros s r; cbn [signed_picks].
  - split; [intros []|]. intros (p & q & E & _). destruct p; discriminate.
  - split.
    + intros [E|H]; [injection E as <- <- <-; exists [], l; auto|]. apply in_map_iff in H as ([[s' x'] r'] & E & H). cbn [fst snd] in E. injection E as <- <- <-. apply IH in H as (p & q & -> & -> & ->).
      exists (y :: p), q. cbn [app length]. rewrite sgn_S. auto.
    + intros (p & q & E & -> & ->). destruct p as [|z p]; cbn [app] in E; injection E as -> ->; [left; reflexivity|]. right. apply in_map_iff. exists (sgn (length p), x, p ++ q). cbn [fst snd length app]. rewrite sgn_S. split; [reflexivity|]. apply IH. exists p, q. auto.
Qed.
Lemma signed_picks_fst {B} (l : list B) : map (fun p => snd (fst p)) (signed_picks l) = l.
Proof. induction l as [|x l IH]; [reflexivity|]. cbn [signed_picks map fst snd]. rewrite map_map. cbn [fst snd]. rewrite IH. reflexivity. Qed.
Lemma move_front {B} (p : list B) x q : reorder_sign (p ++ x :: q) (x :: p ++ q) (sgn (length p)).
Proof.
  change (p ++ x :: q) with (p ++ [x] ++ q). change (x :: p ++ q) with (([x] ++ p) ++ q). rewrite app_assoc. rewrite <- (Z.mul_1_r (sgn (length p))). apply reorder_sign_app; [|apply reorder_sign_refl].
  pose proof (reorder_sign_blocks p [x]) as H. cbn [length] in H. rewrite Nat.mul_1_r in H. exact H.
Qed.
Lemma reorder_cons {B} (x : B) l l' s : reorder_sign l l' s -> reorder_sign (x :: l) (x :: l') s.
Proof. intros (n & H & E). exists n. split; [apply swaps_cons, H|exact E]. Qed.

Lemma arranged_sound {B} (spin : B -> bool) bs : forall l s L, In (s, L) (arranged spin bs l) -> map spin L = bs /\ reorder_sign l L s.
Proof.
  induction bs as [|b bs IH]; intros l s L H; cbn [arranged] in H.
  - destruct l; [|destruct H]. destruct H as [E|[]]. injection E as <- <-. split; [reflexivity|apply reorder_sign_refl].
  - apply in_flat_map in H as ([[s1 x] r] & H1 & H2). cbn [fst snd] in H2. destruct (Bool.eqb (spin x) b) eqn:E; [|destruct H2]. apply Bool.eqb_prop in E. apply in_map_iff in H2 as ([s2 L'] & E2 & H2). cbn [fst snd] in E2. injection E2 as <- <-.
    apply IH in H2 as [H3 H4]. apply signed_picks_in in H1 as (p & q & -> & -> & ->). split; [cbn [map]; congruence|]. apply (reorder_sign_trans _ (x :: p ++ q)); [apply move_front|apply reorder_cons, H4].
Qed.
Lemma arranged_complete {B} (spin : B -> bool) bs : forall l L, Permutation L l -> map spin L = bs -> exists s, In (s, L) (arranged spin bs l).
Proof.
  induction bs as [|b bs IH]; intros l L P E.
  - destruct L; [|discriminate]. apply Permutation_nil in P as ->. exists 1%Z. left. reflexivity.
  - destruct L as [|x L]; [discriminate|]. cbn [map] in E. injection E as E1 E2. assert (H : In x l) by (apply (Permutation_in _ P); left; reflexivity). apply in_split in H as (p & q & ->). apply Permutation_cons_app_inv in P.
    destruct (IH _ _ P E2) as [s Hs]. exists (sgn (length p) * s)%Z. cbn [arranged]. apply in_flat_map. exists (sgn (length p), x, p ++ q). split; [apply signed_picks_in; exists p, q; auto|]. cbn [fst snd]. rewrite E1, Bool.eqb_reflx. apply in_map_iff. exists (s, L). auto.
Qed.
Lemma arranged_nodup {B} (spin : B -> bool) bs : forall l, NoDup l -> NoDup (map snd (arranged spin bs l)).
Proof.
  induction bs as [|b bs IH]; intros l N; cbn [arranged].
  - destruct l; repeat constructor. intros [].
  - assert (H : forall ps, NoDup (map (fun p : Z * B * list B => snd (fst p)) ps) -> (forall p, In p ps -> NoDup (snd p)) -> NoDup (map snd (flat_map (fun p => if Bool.eqb (spin (snd (fst p))) b then map (fun q => ((fst (fst p) * fst q)%Z, snd (fst p) :: snd q)) (arranged spin bs (snd p)) else []) ps))).
    { induction ps as [|[[s x] r] ps IHp]; intros N1 N2; [constructor|]. cbn [flat_map map fst snd] in *. inversion N1 as [|? ? N3 N4]; subst. rewrite map_app. assert (IHp' := IHp N4 (fun p Hp => N2 p (or_intror Hp))). clear IHp. destruct (Bool.eqb (spin x) b); [|exact IHp'].
      rewrite map_map. cbn [snd]. rewrite <- (map_map snd (cons x)). specialize (N2 _ (or_introl eq_refl)). cbn [snd] in N2. 
      assert (D : forall L, In L (map (cons x) (map snd (arranged spin bs r))) -> ~ In L (map snd (flat_map (fun p : Z * B * list B => if Bool.eqb (spin (snd (fst p))) b then map (fun q => ((fst (fst p) * fst q)%Z, snd (fst p) :: snd q)) (arranged spin bs (snd p)) else []) ps))).
      { intros L H1 H2. apply in_map_iff in H1 as (L' & <- & _). apply in_map_iff in H2 as ([s2 L2] & E2 & H2). cbn [snd] in E2. subst L2. apply in_flat_map in H2 as ([[s3 y] r3] & H3 & H4). cbn [fst snd] in H4. destruct (Bool.eqb (spin y) b); [|destruct H4]. apply in_map_iff in H4 as (z & E4 & _). injection E4 as _ E4 _. subst y. apply N3. apply in_map_iff. exists (s3, x, r3). auto. }
      revert D IHp'. generalize (map snd (flat_map (fun p : Z * B * list B => if Bool.eqb (spin (snd (fst p))) b then map (fun q => ((fst (fst p) * fst q)%Z, snd (fst p) :: snd q)) (arranged spin bs (snd p)) else []) ps)) as tail. intros tail D N5.
      assert (N6 : NoDup (map (cons x) (map snd (arranged spin bs r)))) by (apply FinFun.Injective_map_NoDup; [intros a c E; congruence|apply IH, N2]).
      revert D N6. generalize (map (cons x) (map snd (arranged spin bs r))) as hd. induction hd as [|h hd IHh]; intros D N6; [exact N5|]. inversion N6; subst. cbn [app]. constructor; [|apply IHh; auto; intros L HL; apply D; right; exact HL]. rewrite in_app_iff. intros [Q|Q]; [contradiction|]. apply (D h); [left; reflexivity|exact Q]. }
    apply H; [rewrite signed_picks_fst; exact N|]. intros [[s x] r] Hp. apply signed_picks_in in Hp as (p & q & -> & -> & _). cbn [snd]. apply NoDup_remove_1 in N. exact N.
Qed.
Lemma arranged_map {B C} (e : B -> C) spin1 spin2 bs : forall l, (forall x, In x l -> spin2 (e x) = spin1 x) -> arranged spin2 bs (map e l) = map (fun sl => (fst sl, map e (snd sl))) (arranged spin1 bs l).
Proof.
  induction bs as [|b bs IH]; intros l H; cbn [arranged].
  - destruct l; reflexivity.
  - assert (P : signed_picks (map e l) = map (fun p => (fst (fst p), e (snd (fst p)), map e (snd p))) (signed_picks l)).
    { clear H IH. induction l as [|x l IHl]; [reflexivity|]. cbn [map signed_picks fst snd]. rewrite IHl, !map_map. reflexivity. }
    rewrite P. assert (Q : forall p, In p (signed_picks l) -> spin2 (e (snd (fst p))) = spin1 (snd (fst p)) /\ arranged spin2 bs (map e (snd p)) = map (fun sl => (fst sl, map e (snd sl))) (arranged spin1 bs (snd p))).
    { intros [[s x] r] Hp. cbn [fst snd]. apply signed_picks_in in Hp as (p & q & -> & -> & _). split; [apply H, in_or_app; right; left; reflexivity|]. apply IH. intros y Hy. apply H. apply in_app_iff in Hy. apply in_or_app. cbn [In]. tauto. }
    revert Q. generalize (signed_picks l) as ps. intros ps Q. induction ps as [|p ps IHp]; [reflexivity|]. cbn [map flat_map fst snd]. rewrite map_app. f_equal; [|apply IHp; intros p' Hp'; apply Q; right; exact Hp'].
    destruct (Q p (or_introl eq_refl)) as [-> ->]. destruct (Bool.eqb (spin1 (snd (fst p))) b); [|reflexivity]. rewrite !map_map. reflexivity.
Qed.

(** sums over arrangements *)
Section Sums.
  Context (A : qalg).
  Add Ring alg_ring25 : (q_ring A).
  Definition signed_sum {B} (f : list B -> A) (ls : list (Z * list B)) : A := asum (map (fun sl => (zin (fst sl) * f (snd sl))%alg) ls).
  (** two lists with the same entries *)
  Lemma signed_sum_same {B} (f : list B -> A) ls ms : NoDup (map snd ls) -> NoDup (map snd ms) -> (forall s L, In (s, L) ls <-> In (s, L) ms) -> signed_sum f ls = signed_sum f ms.
  Proof.
    intros N1 N2 H. unfold signed_sum. apply asum_perm, Permutation_map, NoDup_Permutation; [exact (NoDup_map_inv _ _ N1)|exact (NoDup_map_inv _ _ N2)|]. intros [s L]. apply H.
  Qed.
  Lemma signed_sum_scale {B} (f : list B -> A) t ls : signed_sum f (map (fun sl => ((t * fst sl)%Z, snd sl)) ls) = (zin t * signed_sum f ls)%alg.
  Proof. unfold signed_sum. rewrite map_map. cbn [fst snd]. rewrite <- (asum_map_mul A). apply asum_map_ext. intros x _. rewrite (zin_mul A). ring. Qed.
  Lemma arranged_in (spin : idx -> bool) bs l s L : NoDup l -> (In (s, L) (arranged spin bs l) <-> Permutation L l /\ map spin L = bs /\ reorder_sign l L s).
  Proof.
    intros N. split.
    - intros H. apply arranged_sound in H as [H1 H2]. split; [symmetry; apply (reorder_sign_perm _ _ _ H2)|auto].
    - intros (P & E & R). destruct (arranged_complete spin bs l L P E) as [s' H]. pose proof (arranged_sound _ _ _ _ _ H) as [_ R']. rewrite (reorder_sign_unique l L s s' N R R'). exact H.
  Qed.
  Lemma unit_square t : (t = 1 \/ t = -1)%Z -> (t * t = 1)%Z.
  Proof. intros [-> | ->]; reflexivity. Qed.
  Lemma signed_sum_lower (spin : idx -> bool) bs l l' t (f : list idx -> A) : NoDup l -> reorder_sign l l' t -> signed_sum f (arranged spin bs l) = (zin t * signed_sum f (arranged spin bs l'))%alg.
  Proof.
    intros N R. pose proof (reorder_sign_perm _ _ _ R) as P. assert (N' : NoDup l') by (apply (Permutation_NoDup P), N). pose proof (unit_square t (reorder_sign_pm _ _ _ R)) as T.
    rewrite <- signed_sum_scale. apply signed_sum_same; [apply arranged_nodup, N|rewrite map_map; cbn [snd]; apply arranged_nodup, N'|]. intros s L. rewrite (arranged_in _ _ _ _ _ N). split.
    - intros (P1 & E & R1). apply in_map_iff. exists ((t * s)%Z, L). cbn [fst snd]. split; [f_equal; rewrite Z.mul_assoc, T; apply Z.mul_1_l|]. apply arranged_in; [exact N'|]. split; [rewrite P1; exact P|]. split; [exact E|]. apply (reorder_sign_trans _ l); [apply reorder_sign_sym, R|exact R1].
    - intros H. apply in_map_iff in H as ([s' L'] & E & H). cbn [fst snd] in E. injection E as <- ->. apply (arranged_in _ _ _ _ _ N') in H as (P1 & E & R1). split; [rewrite P1; symmetry; exact P|]. split; [exact E|]. apply (reorder_sign_trans _ l'); assumption.
  Qed.

  (** exchange of two neighbours *)
  Definition swap_at {B} (k : nat) (L : list B) : list B := firstn k L ++ match skipn k L with x :: y :: q => y :: x :: q | q => q end.
  Lemma swap_at_app {B} (p : list B) x y q : swap_at (length p) (p ++ x :: y :: q) = p ++ y :: x :: q.
  Proof. unfold swap_at. rewrite firstn_app, Nat.sub_diag, firstn_all, skipn_app, Nat.sub_diag, skipn_all. cbn. rewrite app_nil_r. reflexivity. Qed.
  Lemma split_at {B C} (f : B -> C) (L : list B) p x y q : map f L = p ++ x :: y :: q -> exists p' x' y' q', L = p' ++ x' :: y' :: q' /\ length p' = length p /\ map f p' = p /\ f x' = x /\ f y' = y /\ map f q' = q.
  Proof.
    revert L. induction p as [|z p IH]; intros L E.
    - destruct L as [|a [|b L]]; try discriminate. cbn in E. injection E as <- <- <-. exists [], a, b, L. repeat split.
    - destruct L as [|a L]; [discriminate|]. cbn [map app] in E. injection E as E1 E. destruct (IH _ E) as (p' & x' & y' & q' & -> & E2 & E3 & E4). exists (a :: p'), x', y', q'. cbn. repeat split; try tauto; f_equal; auto.
  Qed.
  Lemma signed_sum_upper (spin : idx -> bool) p x y q l (f f' : list idx -> A) : NoDup l ->
    (forall p1 a b q1, length p1 = length p -> f (p1 ++ a :: b :: q1) = f' (p1 ++ b :: a :: q1)) ->
    signed_sum f (arranged spin (p ++ x :: y :: q) l) = (- signed_sum f' (arranged spin (p ++ y :: x :: q) l))%alg.
  Proof.
    intros N F. assert (SW : forall x y s L, In (s, L) (arranged spin (p ++ x :: y :: q) l) -> In ((- s)%Z, swap_at (length p) L) (arranged spin (p ++ y :: x :: q) l) /\ swap_at (length p) (swap_at (length p) L) = L).
    { clear x y F. intros x y s L H. apply (arranged_in _ _ _ _ _ N) in H as (P & E & R). destruct (split_at spin L p x y q E) as (p1 & a & b & q1 & -> & E0 & E1 & E2 & E3 & E4). rewrite <- E0, !swap_at_app. split; [|reflexivity]. apply arranged_in; [exact N|].
      split; [rewrite <- P; apply Permutation_app_head, perm_swap|]. split; [rewrite map_app; cbn [map]; congruence|]. replace (- s)%Z with (s * -1)%Z by ring. apply (reorder_sign_trans _ (p1 ++ a :: b :: q1)); [exact R|]. exists 1. split; [apply swaps_one|reflexivity]. }
    transitivity (signed_sum f (map (fun sl => ((- fst sl)%Z, swap_at (length p) (snd sl))) (arranged spin (p ++ y :: x :: q) l))).
    - apply signed_sum_same; [apply arranged_nodup, N| |].
      + rewrite map_map. cbn [snd]. rewrite <- (map_map snd (swap_at (length p))). assert (I : forall L, In L (map snd (arranged spin (p ++ y :: x :: q) l)) -> swap_at (length p) (swap_at (length p) L) = L).
        { intros L H. apply in_map_iff in H as ([s L'] & E & H). cbn in E. subst L'. apply (SW _ _ _ _ H). }
        pose proof (arranged_nodup spin (p ++ y :: x :: q) l N) as N2. revert I N2. generalize (map snd (arranged spin (p ++ y :: x :: q) l)). intros m I N2. induction N2 as [|L m H N2 IH]; [constructor|]. cbn [map]. constructor; [|apply IH; intros L' H'; apply I; right; exact H'].
        intros Q. apply in_map_iff in Q as (L' & E & H'). apply H. rewrite <- (I L (or_introl eq_refl)), <- E, (I L' (or_intror H')). exact H'.
      + intros s L. split.
        * intros H. destruct (SW _ _ _ _ H) as [H1 H2]. apply in_map_iff. exists ((- s)%Z, swap_at (length p) L). cbn [fst snd]. rewrite Z.opp_involutive, H2. auto.
        * intros H. apply in_map_iff in H as ([s' L'] & E & H). cbn [fst snd] in E. injection E as <- <-. apply (SW _ _ _ _ H).
    - unfold signed_sum. rewrite map_map. cbn [fst snd]. transitivity (asum (map (fun sl => ((- q1) * (zin (fst sl) * f' (snd sl)))%alg) (arranged spin (p ++ y :: x :: q) l))).
      + apply asum_map_ext. intros [s L] H. cbn [fst snd]. rewrite (zin_opp A). apply (arranged_in _ _ _ _ _ N) in H as (_ & E & _). destruct (split_at spin L p y x q E) as (p1 & a & b & q1 & -> & E0 & _). rewrite <- E0 at 1. rewrite swap_at_app, (F p1 b a q1 E0). ring.
      + rewrite (asum_map_mul A). ring.
  Qed.
End Sums.
