(** Families of groups that leave an operator out or have no group of two: their sum does not change when operators with an even
    number of factors trade places, up to which operator is left out. Nothing here refers to the code. *)
From Coq Require Import Ascii String ZArith QArith Qcanon Ring_theory Ring Lia Bool.
From Verif Require Import PyBase OrderSpec ParitySpec ParityProofs SpaceModel IndicesModel IndicesProofs IterProofs ElemModel ElemSpec ElemProofs TermModel ValueSpec ValueProofs TermSpec SumProofs SymmetrySpec FamilySpec FamilyProofs FamilySets FockSpec ExtensionProofs FockProofs.
Local Close Scope Q_scope.
Local Close Scope Qc_scope.
Local Open Scope nat_scope.
Local Notation length := List.length.

Section Groups.
  Context {Y : Type}.
  Definition touches (z : nat -> bool) (g : list (nat * Y)) : bool := existsb (fun x => z (fst x)) g.
  Definition no_pair (gs : list (list (nat * Y))) : bool := forallb (fun g => negb (length g =? 2)) gs.
  Definition isolated (x : nat) (gs : list (list (nat * Y))) : bool := forallb (fun g => negb (touches (Nat.eqb x) g)) gs.
  (** no group of two, or one of the first m operators left out *)
  Definition dropped (m : nat) (gs : list (list (nat * Y))) : bool := no_pair gs || existsb (fun x => isolated x gs) (seq 0 m).
End Groups.
Lemma touches_map {Y Z} (f : Y -> Z) (s : nat -> nat) z g : touches z (map (fun x : nat * Y => (s (fst x), f (snd x))) g) = touches (fun n => z (s n)) g.
Proof. unfold touches. induction g as [|x g IH]; [reflexivity|]. cbn [map existsb fst]. rewrite IH. reflexivity. Qed.
Lemma dropped_map {Y Z} (f : nat * Y -> nat * Z) m gs : (forall x, fst (f x) = fst x) -> dropped m (map (map f) gs) = dropped m gs.
Proof.
  intros H. assert (T : forall z g, touches z (map f g) = touches z g) by (intros z g; unfold touches; induction g as [|x g IH]; [reflexivity|]; cbn [map existsb]; rewrite H, IH; reflexivity).
  unfold dropped. f_equal.
  - unfold no_pair. induction gs as [|g gs IH]; [reflexivity|]. cbn [map forallb]. rewrite map_length, IH. reflexivity.
  - assert (I : forall x, isolated x (map (map f) gs) = isolated x gs) by (intros x; unfold isolated; induction gs as [|g gs IH]; [reflexivity|]; cbn [map forallb]; rewrite T, IH; reflexivity).
    induction (seq 0 m) as [|x l IH]; [reflexivity|]. cbn [existsb]. rewrite I, IH. reflexivity.
Qed.

Section Weights.
  Context {A : qalg} {Y : Type}.
  Add Ring alg_ring91 : (q_ring A).
  Local Notation grp := (list (nat * Y)).
  Local Notation weight := (grp -> A).
  Definition pairless (k : weight) : weight := fun g => if length g =? 2 then q0 else k g.
  Definition away (z : nat -> bool) (k : weight) : weight := fun g => if touches z g then q0 else k g.
  Lemma pairless_even k : even A k -> even A (pairless k).
  Proof. intros H g Hg. unfold pairless. destruct (_ =? _); [reflexivity|apply H, Hg]. Qed.
  Lemma away_even z k : even A k -> even A (away z k).
  Proof. intros H g Hg. unfold away. destruct (touches z g); [reflexivity|apply H, Hg]. Qed.
  Lemma product_cons (a : A) l : aprod (a :: l) = (a * aprod l)%alg. Proof. reflexivity. Qed.
  Lemma pairless_product k gs : aprod (map (pairless k) gs) = if no_pair gs then aprod (map k gs) else q0.
  Proof.
    unfold no_pair. induction gs as [|g gs IH]; [reflexivity|]. cbn [map forallb]. rewrite !product_cons, IH. unfold pairless at 1. destruct (length g =? 2); cbn [negb andb]; [ring|]. destruct (forallb _ gs); ring.
  Qed.
  Lemma away_product x k gs : aprod (map (away (Nat.eqb x) k) gs) = if isolated x gs then aprod (map k gs) else q0.
  Proof.
    unfold isolated. induction gs as [|g gs IH]; [reflexivity|]. cbn [map forallb]. rewrite !product_cons, IH. unfold away at 1. destruct (touches _ g); cbn [negb andb]; [ring|]. destruct (forallb _ gs); ring.
  Qed.
  Lemma zero_product (k : weight) (g : grp) gs : In g gs -> k g = q0 -> aprod (map k gs) = q0.
  Proof. induction gs as [|h gs IH]; intros [] E; cbn [map]; rewrite product_cons; [subst; rewrite E; ring|]. rewrite IH by assumption. ring. Qed.
  Lemma isolated_in x gs (g : grp) y : isolated x gs = true -> In g gs -> In y g -> fst y <> x.
  Proof.
    intros H Hg Hy E. unfold isolated in H. rewrite forallb_forall in H. specialize (H g Hg). apply negb_true_iff in H. unfold touches in H. apply not_true_iff_false in H. apply H, existsb_exists. exists y. split; [exact Hy|]. apply Nat.eqb_eq. congruence.
  Qed.
  (** the dropped families: those without a group of two, and those that leave an operator out; at most one is left out beside a group of two *)
  Lemma dropped_product m k gs : m <= 3 -> (forall g, same_tag g = true -> k g = q0) -> (forall g y, In g gs -> In y g -> fst y < m) ->
    (if dropped m gs then aprod (map k gs) else q0) =
    (aprod (map (pairless k) gs) + asum (map (fun x => (aprod (map (away (Nat.eqb x) k) gs) - aprod (map (away (Nat.eqb x) (pairless k)) gs))%alg) (seq 0 m)))%alg.
  Proof.
    intros M ST HT. rewrite (map_ext (fun x => (aprod (map (away (Nat.eqb x) k) gs) - aprod (map (away (Nat.eqb x) (pairless k)) gs))%alg) (fun x => if isolated x gs then (if no_pair gs then q0 else aprod (map k gs)) else q0)).
    2:{ intros x. rewrite !away_product, pairless_product. destruct (isolated x gs); [|ring]. destruct (no_pair gs); ring. }
    rewrite pairless_product. unfold dropped. destruct (no_pair gs) eqn:NP; cbn [orb].
    - rewrite (sum_zero A); [ring|]. intros x _. destruct (isolated x gs); reflexivity.
    - unfold no_pair in NP. apply not_true_iff_false in NP. rewrite forallb_forall in NP.
      assert (X : exists g, In g gs /\ length g = 2).
      { clear - NP. induction gs as [|g gs IH]; [destruct NP; intros x []|]. destruct (Nat.eq_dec (length g) 2) as [E|E]; [exists g; split; [left; reflexivity|exact E]|]. destruct IH as (h & Hh & Eh); [|exists h; split; [right; exact Hh|exact Eh]].
        intros Q. apply NP. intros x [<-|Hx]; [|apply Q, Hx]. apply negb_true_iff, Nat.eqb_neq, E. }
      destruct X as (g & Hg & Lg). destruct g as [|y [|z [|]]]; try discriminate Lg. destruct (Nat.eq_dec (fst y) (fst z)) as [E|N].
      + rewrite (zero_product k _ gs Hg) by (apply ST; cbn [same_tag forallb]; rewrite E, Nat.eqb_refl; reflexivity). rewrite (sum_zero A); [destruct (existsb _ _); ring|]. intros x _. destruct (isolated x gs); reflexivity.
      + pose proof (HT _ y Hg (or_introl eq_refl)) as Ty. pose proof (HT _ z Hg (or_intror (or_introl eq_refl))) as Tz.
        assert (IS : forall x, isolated x gs = true -> x <> fst y /\ x <> fst z) by (intros x Hx; split; intros ->; [apply (isolated_in _ _ _ y Hx Hg); [left|]|apply (isolated_in _ _ _ z Hx Hg); [right; left|]]; reflexivity).
        assert (U : forall x x', x < m -> x' < m -> isolated x gs = true -> isolated x' gs = true -> x = x') by (intros x x' H1 H2 I1 I2; destruct (IS _ I1), (IS _ I2); lia).
        assert (G : forall l, NoDup l -> (forall x, In x l -> x < m) -> (if existsb (fun x => isolated x gs) l then aprod (map k gs) else q0) = asum (map (fun x => if isolated x gs then aprod (map k gs) else q0) l)).
        { induction l as [|x l IH]; intros ND LT; [reflexivity|]. inversion ND as [|? ? N1 N2]; subst. cbn [map existsb]. rewrite (FamilyProofs.sum_cons A), <- IH by (first [exact N2|intros w Hw; apply LT; right; exact Hw]). destruct (isolated x gs) eqn:I1; cbn [orb]; [|ring].
          destruct (existsb (fun x => isolated x gs) l) eqn:I2; [|ring]. apply existsb_exists in I2 as (x' & Hx & I2). rewrite (U x x' (LT _ (or_introl eq_refl)) (LT _ (or_intror Hx)) I1 I2) in N1. contradiction. }
        rewrite G; [ring|apply seq_NoDup|]. intros x Hx. apply in_seq in Hx. lia.
  Qed.
  Theorem dropped_sum m k F w : m <= 3 -> (forall g, same_tag g = true -> k g = q0) -> (forall y, In y w -> fst y < m) ->
    asum (map (fun p : bool * list grp * grp => let '(s, gs, r) := p in if dropped m gs then signed s (aprod (map k gs) * F r)%alg else q0) (families (length w) w)) =
    (family_sum (pairless k) F w + asum (map (fun x => (family_sum (away (Nat.eqb x) k) F w - family_sum (away (Nat.eqb x) (pairless k)) F w)%alg) (seq 0 m)))%alg.
  Proof.
    intros M ST HT. unfold family_sum.
    assert (IN : forall s gs r, In (s, gs, r) (families (length w) w) -> forall g y, In g gs -> In y g -> fst y < m).
    { intros s gs r H g y Hg Hy. destruct (family_spec _ _ _ _ _ (le_n _) H) as (Fg & _). rewrite Forall_forall in Fg. apply HT, (subseq_incl _ _ (proj2 (Fg g Hg))), Hy. }
    induction (families (length w) w) as [|[[s gs] r] l IH].
    - cbn [map]. rewrite (sum_zero A) by (intros; change (@asum A []) with (@q0 A); ring). change (@asum A []) with (@q0 A). ring.
    - cbn [map]. rewrite !(FamilyProofs.sum_cons A), IH by (intros s' gs' r' H; apply (IN s' gs' r'); right; exact H). pose proof (dropped_product m k gs M ST (IN s gs r (or_introl eq_refl))) as D.
      assert (D' : (if dropped m gs then signed s (aprod (map k gs) * F r)%alg else q0) = signed s ((if dropped m gs then aprod (map k gs) else q0) * F r)%alg) by (destruct (dropped m gs); [reflexivity|destruct s; cbn [signed]; ring]). rewrite D', D. clear.
      rewrite (map_ext (fun x => (asum (signed s (aprod (map (away (Nat.eqb x) k) gs) * F r)%alg :: map (fun p : bool * list grp * grp => let '(s, gs, r) := p in signed s (aprod (map (away (Nat.eqb x) k) gs) * F r)%alg) l) -
          asum (signed s (aprod (map (away (Nat.eqb x) (pairless k)) gs) * F r)%alg :: map (fun p : bool * list grp * grp => let '(s, gs, r) := p in signed s (aprod (map (away (Nat.eqb x) (pairless k)) gs) * F r)%alg) l))%alg)
        (fun x => (signed s ((aprod (map (away (Nat.eqb x) k) gs) - aprod (map (away (Nat.eqb x) (pairless k)) gs)) * F r) + (asum (map (fun p : bool * list grp * grp => let '(s, gs, r) := p in signed s (aprod (map (away (Nat.eqb x) k) gs) * F r)%alg) l) - asum (map (fun p : bool * list grp * grp => let '(s, gs, r) := p in signed s (aprod (map (away (Nat.eqb x) (pairless k)) gs) * F r)%alg) l)))%alg)).
      2:{ intros x. rewrite !(FamilyProofs.sum_cons A). destruct s; cbn [signed]; ring. }
      rewrite (sum_plus A). assert (L : asum (map (fun x => signed s ((aprod (map (away (Nat.eqb x) k) gs) - aprod (map (away (Nat.eqb x) (pairless k)) gs)) * F r)%alg) (seq 0 m)) = signed s (asum (map (fun x => (aprod (map (away (Nat.eqb x) k) gs) - aprod (map (away (Nat.eqb x) (pairless k)) gs))%alg) (seq 0 m)) * F r)%alg).
      { induction (seq 0 m) as [|x xs IHx]; [cbn [map]; change (@asum A []) with (@q0 A); destruct s; cbn [signed]; ring|]. cbn [map]. rewrite !(FamilyProofs.sum_cons A), IHx. destruct s; cbn [signed]; ring. }
      rewrite L. destruct s; cbn [signed]; ring.
  Qed.
  (** ** Blocks that trade places *)
  Definition swaps (k : grp -> A) x y : Prop := forall g1 g2, k (g1 ++ x :: y :: g2) = (- k (g1 ++ y :: x :: g2))%alg.
  Lemma one_swap k F p q x y : even A k -> swaps k x y -> swaps F x y -> family_sum k F (p ++ x :: y :: q) = (- family_sum k F (p ++ y :: x :: q))%alg.
  Proof.
    intros E HK HF. apply (family_swap A k x y q0); [exact E|intros g1 g2 _; apply HK|specialize (HK [] []); cbn [app] in HK; rewrite HK; ring|]. intros r1 r2. rewrite HF. ring.
  Qed.
  Lemma past k F u x : even A k -> (forall y, In y u -> swaps k x y /\ swaps F x y) -> forall p q, family_sum k F (p ++ x :: u ++ q) = signed (Nat.odd (length u)) (family_sum k F (p ++ u ++ x :: q)).
  Proof.
    intros E. induction u as [|y u IH]; intros H p q; [reflexivity|]. destruct (H y (or_introl eq_refl)) as [H1 H2]. cbn [app]. rewrite one_swap by assumption. pose proof (IH (fun z Hz => H z (or_intror Hz)) (p ++ [y]) q) as Q. rewrite <- !app_assoc in Q. cbn [app] in Q. rewrite Q.
    cbn [length]. rewrite Nat.odd_succ, <- Nat.negb_odd. destruct (Nat.odd (length u)); cbn [negb signed]; ring.
  Qed.
  Theorem block_swap k F u v p q : even A k -> (forall x y, In x u -> In y v -> swaps k x y /\ swaps F x y) -> Nat.even (length v) = true ->
    family_sum k F (p ++ u ++ v ++ q) = family_sum k F (p ++ v ++ u ++ q).
  Proof.
    intros E H Ev. revert p q. induction u as [|x u IH] using rev_ind; intros p q; [reflexivity|]. rewrite <- !app_assoc. cbn [app].
    pose proof (past k F v x E (fun y Hy => H x y ltac:(apply in_or_app; right; left; reflexivity) Hy) (p ++ u) q) as Q. rewrite <- !app_assoc in Q. rewrite Q, <- Nat.negb_even, Ev. cbn [negb signed].
    apply IH. intros x' y' Hx Hy. apply H; [apply in_or_app; left; exact Hx|exact Hy].
  Qed.
End Weights.
