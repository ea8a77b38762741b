(** Sums over families: the sum for the sum of two weights is the iterated sum. *)
From Verif Require Import PyBase ValueSpec ValueProofs FamilySpec.
From Coq Require Import ZArith QArith Qcanon Ring_theory Ring Lia Bool.
Local Close Scope Q_scope.
Local Close Scope Qc_scope.
Local Open Scope nat_scope.
Local Notation length := List.length.

Lemma split_length {X} (w : list X) s g r : In (s, g, r) (splits w) -> length g + length r = length w.
Proof.
  revert s g r. induction w as [|x w IH]; intros s g r H; cbn [splits] in H; [destruct H as [[= <- <- <-]|[]]; reflexivity|].
  apply in_app_or in H as [H|H]; apply in_map_iff in H as ([[s' g'] r'] & [= <- <- <-] & H); specialize (IH _ _ _ H); cbn [length]; lia.
Qed.
Section Sums.
  Context {X : Type} (A : qalg).
  Add Ring alg_ring30 : (q_ring A).
  Notation weight := (list X -> A).
  Implicit Types (f k F G : weight) (w : list X).
  Definition front x F : weight := fun w => F (x :: w).
  Definition flip F : weight := fun w => signed (Nat.odd (length w)) (F w).
  Definition plus F G : weight := fun w => (F w + G w)%alg.
  Definition even k : Prop := forall g, Nat.odd (length g) = true -> k g = q0.
  Definition odd_only k : Prop := forall g, Nat.odd (length g) = false -> k g = q0.

  Lemma signed_mul s a b : @signed A s (a * b)%alg = (signed s a * b)%alg.
  Proof. destruct s; cbn; ring. Qed.
  Lemma signed_signed s s' a : @signed A s (signed s' a) = signed (xorb s s') a.
  Proof. destruct s, s'; cbn; ring. Qed.
  Lemma sum_cons a l : @asum A (a :: l) = (a + asum l)%alg.
  Proof. reflexivity. Qed.
  Lemma signed_sum s l : @signed A s (asum l) = asum (map (signed s) l).
  Proof. induction l as [|a l IH]; [destruct s; cbn; ring|]. cbn [map]. rewrite !sum_cons, <- IH. destruct s; cbn [signed]; ring. Qed.
  Lemma sum_zero {Y} (h : Y -> A) l : (forall y, In y l -> h y = q0) -> asum (map h l) = q0.
  Proof. induction l as [|y l IH]; intros H; [reflexivity|]. cbn [map]. rewrite sum_cons, H by (left; reflexivity). rewrite IH by (intros; apply H; right; assumption). ring. Qed.
  Lemma sum_plus {Y} (h h' : Y -> A) l : asum (map (fun y => (h y + h' y)%alg) l) = (asum (map h l) + asum (map h' l))%alg.
  Proof. induction l as [|y l IH]; [cbn; ring|]. cbn [map]. rewrite !sum_cons, IH. ring. Qed.
  Lemma sum_flat {Y Z} (h : Z -> A) (u : Y -> list Z) l : asum (map h (flat_map u l)) = asum (map (fun y => asum (map h (u y))) l).
  Proof. induction l as [|y l IH]; [reflexivity|]. cbn [flat_map map]. rewrite map_app, (asum_app A), sum_cons, IH. reflexivity. Qed.

  (** ** One group *)
  Definition remove f F w : A := asum (map (fun p => let '(s, g, r) := p in signed s (f g * F r)%alg) (splits w)).
  Lemma remove_nil f F : remove f F [] = (f [] * F [])%alg.
  Proof. unfold remove. cbn. ring. Qed.
  Lemma remove_cons f F x w : remove f F (x :: w) = (remove (front x f) F w + remove (flip f) (front x F) w)%alg.
  Proof.
    unfold remove. cbn [splits]. rewrite map_app, (asum_app A), !map_map. f_equal; apply asum_map_ext; intros [[s g] r] _; [reflexivity|]. unfold flip, front. rewrite <- signed_signed, <- signed_mul. reflexivity.
  Qed.
  Lemma remove_ext f f' F F' w : (forall g, length g <= length w -> f g = f' g) -> (forall r, length r <= length w -> F r = F' r) -> remove f F w = remove f' F' w.
  Proof.
    intros H1 H2. unfold remove. apply asum_map_ext. intros [[s g] r] Hp. apply split_length in Hp. rewrite H1, H2 by lia. reflexivity.
  Qed.
  Lemma remove_plus f F G w : remove f (plus F G) w = (remove f F w + remove f G w)%alg.
  Proof. unfold remove. rewrite <- sum_plus. apply asum_map_ext. intros [[s g] r] _. unfold plus. destruct s; cbn; ring. Qed.
  Lemma remove_weight f f' F w : remove (plus f f') F w = (remove f F w + remove f' F w)%alg.
  Proof. unfold remove. rewrite <- sum_plus. apply asum_map_ext. intros [[s g] r] _. unfold plus. destruct s; cbn; ring. Qed.
  Lemma remove_scale f F c w : remove f (fun r => (c * F r)%alg) w = (c * remove f F w)%alg.
  Proof. unfold remove. rewrite <- asum_map_mul. apply asum_map_ext. intros [[s g] r] _. destruct s; cbn; ring. Qed.
  Lemma remove_opp f F w : remove (fun g => (- f g)%alg) F w = (- remove f F w)%alg.
  Proof. transitivity (((- q1) * remove f F w)%alg); [|ring]. unfold remove. rewrite <- asum_map_mul. apply asum_map_ext. intros [[s g] r] _. destruct s; cbn; ring. Qed.
  Lemma remove_rest_opp f F w : remove f (fun g => (- F g)%alg) w = (- remove f F w)%alg.
  Proof. transitivity (((- q1) * remove f F w)%alg); [|ring]. unfold remove. rewrite <- asum_map_mul. apply asum_map_ext. intros [[s g] r] _. destruct s; cbn; ring. Qed.
  Lemma remove_zero f F w : (forall g, length g <= length w -> f g = q0) -> remove f F w = q0.
  Proof. intros H. apply sum_zero. intros [[s g] r] Hp. apply split_length in Hp. rewrite H by lia. destruct s; cbn; ring. Qed.

  (** parity of the groups that count *)
  Definition graded (b : bool) f : Prop := forall g, Nat.odd (length g) = negb b -> f g = q0.
  Lemma front_graded b f x : graded b f -> graded (negb b) (front x f).
  Proof. intros H g Hg. apply H. cbn [length]. rewrite Nat.odd_succ, <- Nat.negb_odd, Hg. destruct b; reflexivity. Qed.
  Lemma flip_graded b f : graded b f -> forall g, flip f g = signed b (f g).
  Proof. intros H g. unfold flip. destruct (Nat.odd (length g)) eqn:E; destruct b; cbn; try reflexivity; rewrite H by exact E; ring. Qed.
  Lemma remove_flip b f F w : graded b f -> remove (flip f) F w = signed b (remove f F w).
  Proof.
    intros H. rewrite (remove_ext (flip f) (fun g => signed b (f g)) F F w) by (intros; (apply flip_graded, H || reflexivity)). destruct b; [apply remove_opp|reflexivity].
  Qed.
  Theorem remove_remove a b f g : graded a f -> graded b g -> forall w F, remove f (remove g F) w = signed (a && b) (remove g (remove f F) w).
  Proof.
    intros Hf Hg w. revert a b f g Hf Hg. induction w as [|x w IH]; intros a b f g Hf Hg F.
    - rewrite !remove_nil. destruct a, b; cbn [andb signed]; try ring. rewrite (Hf []) by reflexivity. ring.
    - rewrite !(remove_cons _ _ x w), (remove_flip a f), (remove_flip b g) by assumption.
      rewrite (remove_ext f f (front x (remove g F)) (plus (remove (front x g) F) (remove (flip g) (front x F))) w) by (intros; first [reflexivity|apply remove_cons]).
      rewrite (remove_ext g g (front x (remove f F)) (plus (remove (front x f) F) (remove (flip f) (front x F))) w) by (intros; first [reflexivity|apply remove_cons]).
      rewrite !remove_plus.
      assert (Q1 : forall h c F', graded c g -> remove h (remove (flip g) F') w = signed c (remove h (remove g F') w)).
      { intros h c F' Hc. rewrite (remove_ext h h (remove (flip g) F') (fun r => signed c (remove g F' r)) w) by (intros; first [reflexivity|apply remove_flip, Hc]). destruct c; [apply remove_rest_opp|reflexivity]. }
      assert (Q2 : forall h c F', graded c f -> remove h (remove (flip f) F') w = signed c (remove h (remove f F') w)).
      { intros h c F' Hc. rewrite (remove_ext h h (remove (flip f) F') (fun r => signed c (remove f F' r)) w) by (intros; first [reflexivity|apply remove_flip, Hc]). destruct c; [apply remove_rest_opp|reflexivity]. }
      rewrite (Q1 f b) by exact Hg. rewrite (Q2 g a) by exact Hf.
      rewrite (IH (negb a) b (front x f) g (front_graded a f x Hf) Hg F), (IH a (negb b) f (front x g) Hf (front_graded b g x Hg) F), (IH a b f g Hf Hg (front x F)).
      destruct a, b; cbn [negb andb signed]; ring.
  Qed.

  (** ** Families *)
  Definition fsum k F n w : A := asum (map (fun p => let '(s, gs, r) := p in signed s (aprod (map k gs) * F r)%alg) (families n w)).
  Lemma odd_product k gs : even k -> Nat.odd (length (concat gs)) = true -> aprod (map k gs) = q0.
  Proof.
    intros E. induction gs as [|g gs IH]; intros O; [discriminate|]. cbn [concat map aprod fold_right] in *. rewrite app_length, Nat.odd_add in O. destruct (Nat.odd (length g)) eqn:Q; [rewrite E by exact Q; ring|]. rewrite xorb_false_l in O. change (fold_right qmul q1 (map k gs)) with (aprod (map k gs)). rewrite IH by exact O. ring.
  Qed.
  Lemma fsum_cons k F n x w : even k -> fsum k F (S n) (x :: w) = (fsum k (front x F) n w + remove (front x k) (fun r => fsum k F n r) w)%alg.
  Proof.
    intros E. unfold fsum at 1. cbn [families]. rewrite map_app, (asum_app A), map_map. f_equal.
    - unfold fsum. apply asum_map_ext. intros [[s gs] r] _. unfold front. destruct (Nat.odd (length (concat gs))) eqn:O; [rewrite odd_product by assumption; destruct s; cbn; ring|]. rewrite xorb_false_r. reflexivity.
    - rewrite sum_flat. unfold remove. apply asum_map_ext. intros [[s g] r] _. rewrite map_map. unfold fsum. rewrite <- asum_map_mul, signed_sum, map_map. apply asum_map_ext. intros [[s' gs] r'] _. rewrite <- signed_signed. unfold front. change (aprod (map k ((x :: g) :: gs))) with (k (x :: g) * aprod (map k gs))%alg. destruct s, s'; cbn [signed]; ring.
  Qed.
  Lemma fsum_fuel k F : even k -> forall n m w, length w <= n -> length w <= m -> fsum k F n w = fsum k F m w.
  Proof.
    intros E n. revert F. induction n as [|n IH]; intros F m [|x w] Ln Lm; cbn in Ln, Lm; try lia; [destruct m; reflexivity..|].
    destruct m as [|m]; [lia|]. rewrite !fsum_cons by exact E. f_equal; [apply IH; lia|]. apply remove_ext; [reflexivity|]. intros r Lr. apply IH; lia.
  Qed.
  Lemma family_nil k F : family_sum k F [] = F [].
  Proof. unfold family_sum. cbn. ring. Qed.
  Theorem family_cons k F x w : even k -> family_sum k F (x :: w) = (family_sum k (front x F) w + remove (front x k) (family_sum k F) w)%alg.
  Proof.
    intros E. change (family_sum k F (x :: w)) with (fsum k F (S (length w)) (x :: w)). rewrite fsum_cons by exact E. f_equal. apply remove_ext; [reflexivity|]. intros r Lr. apply fsum_fuel; [exact E|lia|apply le_n].
  Qed.
  (** induction on the length *)
  Lemma length_ind (P : list X -> Prop) : P [] -> (forall x w, (forall r, length r <= length w -> P r) -> P (x :: w)) -> forall w, P w.
  Proof.
    intros H0 H1 w. assert (G : forall n w, length w <= n -> P w); [|exact (G (length w) w (le_n _))]. induction n as [|n IH]; intros [|x r] L; cbn in L; try lia; auto. apply H1. intros r' L'. apply IH. lia.
  Qed.
  Lemma family_ext k k' F F' w : even k -> even k' -> (forall g, length g <= length w -> k g = k' g) -> (forall r, length r <= length w -> F r = F' r) -> family_sum k F w = family_sum k' F' w.
  Proof.
    intros E E'. revert F F'. induction w as [|x w IH] using length_ind; intros F F' HK HF; [rewrite !family_nil; apply HF, le_n|]. rewrite !family_cons by assumption. f_equal.
    - apply IH; [lia|intros g Lg; apply HK; cbn; lia|]. intros r Lr. apply HF. cbn. lia.
    - apply remove_ext; [intros g Lg; apply HK; cbn; lia|]. intros r Lr. apply IH; [exact Lr|intros g Lg; apply HK; cbn; lia|]. intros r' Lr'. apply HF. cbn. lia.
  Qed.
  Lemma family_rest k F F' w : even k -> (forall r, length r <= length w -> F r = F' r) -> family_sum k F w = family_sum k F' w.
  Proof. intros E H. apply family_ext; auto. Qed.
  Lemma family_plus k F G w : family_sum k (plus F G) w = (family_sum k F w + family_sum k G w)%alg.
  Proof. unfold family_sum. rewrite <- sum_plus. apply asum_map_ext. intros [[s g] r] _. unfold plus. destruct s; cbn; ring. Qed.
  Lemma family_scale k F c w : family_sum k (fun r => (c * F r)%alg) w = (c * family_sum k F w)%alg.
  Proof. unfold family_sum. rewrite <- asum_map_mul. apply asum_map_ext. intros [[s g] r] _. destruct s; cbn; ring. Qed.
  Lemma family_zero F w : family_sum (fun _ => q0) F w = F w.
  Proof.
    assert (E : even (fun _ => q0)) by (intros g _; reflexivity). revert F. induction w as [|x w IH]; intros F; [apply family_nil|]. rewrite family_cons by exact E. rewrite IH, remove_zero by reflexivity. unfold front. ring.
  Qed.
  Lemma even_front k x : even k -> graded true (front x k).
  Proof. intros E. apply (front_graded false k x). intros g Hg. apply E, Hg. Qed.
  (** a group can be removed before or after *)
  Lemma family_remove k : even k -> forall w b f F, graded b f -> family_sum k (remove f F) w = remove f (family_sum k F) w.
  Proof.
    intros E w. induction w as [|x w IH] using length_ind; intros b f F G; [rewrite family_nil, !remove_nil, family_nil; reflexivity|].
    rewrite family_cons by exact E. rewrite (remove_cons f (family_sum k F) x w).
    rewrite (family_rest k (front x (remove f F)) (plus (remove (front x f) F) (remove (flip f) (front x F))) w) by (first [exact E|intros; apply remove_cons]).
    rewrite family_plus, (IH w (le_n _) (negb b) (front x f) F) by (apply front_graded, G).
    rewrite (family_rest k (remove (flip f) (front x F)) (fun r => signed b (remove f (front x F) r)) w) by (first [exact E|intros; apply remove_flip, G]).
    assert (S1 : forall H, family_sum k (fun r => signed b (H r)) w = signed b (family_sum k H w)).
    { intros H. destruct b; [|reflexivity]. transitivity (((- q1) * family_sum k H w)%alg); [|cbn; ring]. rewrite <- family_scale. apply family_rest; [exact E|]. intros; cbn; ring. }
    rewrite S1, (IH w (le_n _) b f (front x F) G).
    rewrite (remove_ext (front x k) (front x k) (family_sum k (remove f F)) (remove f (family_sum k F)) w) by (first [reflexivity|intros r Lr; apply (IH r Lr b); exact G]).
    rewrite (remove_remove true b (front x k) f (even_front k x E) G).
    rewrite (remove_ext (flip f) (flip f) (front x (family_sum k F)) (plus (family_sum k (front x F)) (remove (front x k) (family_sum k F))) w) by (first [reflexivity|intros; apply family_cons, E]).
    rewrite (remove_flip b f _ w G), remove_plus. destruct b; cbn [andb signed]; ring.
  Qed.
  (** ** The sum of two weights *)
  Theorem family_family k l : even k -> even l -> forall w F, family_sum (plus k l) F w = family_sum k (family_sum l F) w.
  Proof.
    intros Ek El w. assert (E : even (plus k l)) by (intros g Hg; unfold plus; rewrite Ek, El by exact Hg; ring).
    induction w as [|x w IH] using length_ind; intros F; [rewrite !family_nil; reflexivity|].
    rewrite !family_cons by assumption.
    rewrite (family_rest k (front x (family_sum l F)) (plus (family_sum l (front x F)) (remove (front x l) (family_sum l F))) w) by (first [exact Ek|intros; apply family_cons, El]).
    rewrite family_plus, <- (IH w (le_n _)), (family_remove k Ek w true) by (apply even_front, El).
    rewrite (remove_ext (front x (plus k l)) (plus (front x k) (front x l)) (family_sum (plus k l) F) (family_sum k (family_sum l F)) w) by (first [reflexivity|intros r Lr; apply IH, Lr]).
    rewrite remove_weight. ring.
  Qed.

  (** ** Only the members of the string count *)
  Lemma remove_in f f' F F' w : (forall g, incl g w -> f g = f' g) -> (forall r, incl r w -> F r = F' r) -> remove f F w = remove f' F' w.
  Proof.
    revert f f' F F'. induction w as [|x w IH]; intros f f' F F' H1 H2; [rewrite !remove_nil, H1, H2 by apply incl_refl; reflexivity|]. rewrite !remove_cons. f_equal; apply IH; unfold front, flip; intros g Hg.
    - apply H1. intros z [<-|Hz]; [left; reflexivity|right; apply Hg, Hz].
    - apply H2. intros z Hz. right. apply Hg, Hz.
    - rewrite H1; [reflexivity|]. intros z Hz. right. apply Hg, Hz.
    - apply H2. intros z [<-|Hz]; [left; reflexivity|right; apply Hg, Hz].
  Qed.
  Lemma family_in k k' F F' w : even k -> even k' -> (forall g, incl g w -> k g = k' g) -> (forall r, incl r w -> F r = F' r) -> family_sum k F w = family_sum k' F' w.
  Proof.
    intros E E'. assert (G : forall n w F F', length w <= n -> (forall g, incl g w -> k g = k' g) -> (forall r, incl r w -> F r = F' r) -> family_sum k F w = family_sum k' F' w); [|intros; apply (G (length w)); auto].
    clear w F F'. induction n as [|n IH]; intros [|x w] F F' L HK HF; cbn in L; try lia; try (rewrite !family_nil; apply HF, incl_refl). rewrite !family_cons by assumption.
    assert (I1 : forall g, incl g w -> incl g (x :: w)) by (intros g Hg z Hz; right; apply Hg, Hz). assert (I2 : forall g, incl g w -> incl (x :: g) (x :: w)) by (intros g Hg z [<-|Hz]; [left; reflexivity|right; apply Hg, Hz]). f_equal.
    - apply IH; [lia|auto|]. intros r Hr. apply HF, I2, Hr.
    - rewrite (remove_ext (front x k) (front x k) (family_sum k F) (fun r => if length r <=? length w then family_sum k F r else q0) w), (remove_ext (front x k') (front x k') (family_sum k' F') (fun r => if length r <=? length w then family_sum k' F' r else q0) w);
        [|reflexivity|intros r Lr; rewrite (proj2 (Nat.leb_le _ _) Lr); reflexivity|reflexivity|intros r Lr; rewrite (proj2 (Nat.leb_le _ _) Lr); reflexivity].
      apply remove_in; [intros g Hg; apply HK, I2, Hg|]. intros r Hr. destruct (Nat.leb_spec (length r) (length w)) as [Lr|]; [|reflexivity]. apply IH; [lia|intros g Hg; apply HK, I1; exact (incl_tran Hg Hr)|intros r' Hr'; apply HF, I1; exact (incl_tran Hr' Hr)].
  Qed.

  (** ** Strings whose members are not all in groups *)
  Section Marked.
    Context (P : X -> bool).
    Definition avoids f : Prop := forall g, existsb P g = true -> f g = q0.
    Lemma avoids_front f x : avoids f -> avoids (front x f).
    Proof. intros H g Hg. apply H. cbn. rewrite Hg. apply orb_true_r. Qed.
    Lemma avoids_flip f : avoids f -> avoids (flip f).
    Proof. intros H g Hg. unfold flip. rewrite H by exact Hg. destruct (Nat.odd _); cbn; ring. Qed.
    Lemma remove_marked f F w : avoids f -> forallb P w = true -> remove f F w = (f [] * F w)%alg.
    Proof.
      revert f F. induction w as [|x w IH]; intros f F H Hw; [apply remove_nil|]. cbn [forallb] in Hw. apply andb_true_iff in Hw as [Hx Hw]. rewrite remove_cons, (IH (flip f)) by (try apply avoids_flip; assumption).
      rewrite remove_zero by (intros g _; apply H; cbn; rewrite Hx; reflexivity). unfold flip, front. cbn. ring.
    Qed.
    Lemma remove_suffix f F w1 w2 : avoids f -> forallb P w2 = true -> remove f F (w1 ++ w2) = remove f (fun r => F (r ++ w2)) w1.
    Proof.
      revert f F. induction w1 as [|x w1 IH]; intros f F H Hw; cbn [app]; [rewrite remove_marked by assumption; rewrite remove_nil; reflexivity|]. rewrite !remove_cons, !IH by (try apply avoids_flip; try apply avoids_front; assumption). reflexivity.
    Qed.
    Lemma family_marked k F w : even k -> avoids k -> forallb P w = true -> family_sum k F w = F w.
    Proof.
      intros E H. revert F. induction w as [|x w IH]; intros F Hw; [apply family_nil|]. cbn [forallb] in Hw. apply andb_true_iff in Hw as [Hx Hw]. rewrite family_cons, IH by assumption. rewrite remove_zero by (intros g _; apply H; cbn; rewrite Hx; reflexivity). unfold front. ring.
    Qed.
    Lemma family_suffix k w2 : even k -> avoids k -> forallb P w2 = true -> forall w1 F, family_sum k F (w1 ++ w2) = family_sum k (fun r => F (r ++ w2)) w1.
    Proof.
      intros E H Hw w1. induction w1 as [|x w1 IH] using length_ind; intros F; cbn [app]; [rewrite family_marked by assumption; rewrite family_nil; reflexivity|]. rewrite !family_cons by exact E. f_equal; [apply (IH w1), le_n|].
      rewrite remove_suffix by (try apply avoids_front; assumption). apply remove_ext; [reflexivity|]. intros r Lr. apply IH, Lr.
    Qed.
    Lemma family_prefix k w1 : even k -> avoids k -> forallb P w1 = true -> forall w2 F, family_sum k F (w1 ++ w2) = family_sum k (fun r => F (w1 ++ r)) w2.
    Proof.
      intros E H. induction w1 as [|x w1 IH]; intros Hw w2 F; [reflexivity|]. cbn [forallb] in Hw. apply andb_true_iff in Hw as [Hx Hw]. cbn [app]. rewrite family_cons by exact E. rewrite IH by exact Hw. rewrite remove_zero by (intros g _; apply H; cbn; rewrite Hx; reflexivity). unfold front. ring.
    Qed.
  End Marked.
  (** no group has members of both parts *)
  Theorem family_parts (P : X -> bool) k F w1 w2 : even k -> (forall g, existsb P g = true -> existsb (fun x => negb (P x)) g = true -> k g = q0) ->
    forallb (fun x => negb (P x)) w1 = true -> forallb P w2 = true -> family_sum k F (w1 ++ w2) = family_sum k (fun r1 => family_sum k (fun r2 => F (r1 ++ r2)) w2) w1.
  Proof.
    intros E M H1 H2. set (k1 := fun g => if existsb P g then q0 else k g). set (k2 := fun g => if existsb P g then k g else q0).
    assert (E1 : even k1) by (intros g Hg; unfold k1; destruct (existsb P g); [reflexivity|apply E, Hg]). assert (E2 : even k2) by (intros g Hg; unfold k2; destruct (existsb P g); [apply E, Hg|reflexivity]).
    assert (A1 : avoids P k1) by (intros g Hg; unfold k1; rewrite Hg; reflexivity). assert (A2 : avoids (fun x => negb (P x)) k2) by (intros g Hg; unfold k2; destruct (existsb P g) eqn:Q; [apply M; assumption|reflexivity]).
    assert (E12 : even (plus k1 k2)) by (intros g Hg; unfold plus; rewrite E1, E2 by exact Hg; ring).
    rewrite (family_ext k (plus k1 k2) F F) by (first [exact E|exact E12|reflexivity|intros g _; unfold plus, k1, k2; destruct (existsb P g); ring]).
    rewrite family_family by assumption. rewrite (family_suffix P k1 w2) by assumption.
    assert (N1 : forall g, incl g w1 -> existsb P g = false).
    { intros g Hg. apply not_true_is_false. rewrite existsb_exists. intros (z & Hz & Pz). rewrite forallb_forall in H1. specialize (H1 z (Hg z Hz)). rewrite Pz in H1. discriminate. }
    apply family_in; try assumption; [intros g Hg; unfold k1; rewrite N1 by exact Hg; reflexivity|]. intros r Hr.
    rewrite (family_prefix (fun x => negb (P x)) k2 r) by (try assumption; rewrite forallb_forall in *; intros z Hz; apply H1, Hr, Hz).
    destruct w2 as [|x w2]; [rewrite !family_nil; reflexivity|]. rewrite !family_cons by assumption.
    assert (G : forall w F', forallb P w = true -> family_sum k2 F' w = family_sum k F' w).
    { clear F Hr. induction w as [|y w IH] using length_ind; intros F' Hw; [rewrite !family_nil; reflexivity|]. cbn [forallb] in Hw. apply andb_true_iff in Hw as [Hy Hw]. rewrite !family_cons by assumption. f_equal; [apply (IH w), Hw; apply le_n|].
      rewrite (remove_ext (front y k2) (front y k) (family_sum k2 F') (family_sum k2 F')) by (first [reflexivity|intros g _; unfold front, k2; cbn [existsb]; rewrite Hy; reflexivity]).
      rewrite (remove_ext (front y k) (front y k) (family_sum k2 F') (fun r => if length r <=? length w then family_sum k2 F' r else q0) w), (remove_ext (front y k) (front y k) (family_sum k F') (fun r => if length r <=? length w then family_sum k F' r else q0) w);
        [|reflexivity|intros r' Lr; rewrite (proj2 (Nat.leb_le _ _) Lr); reflexivity|reflexivity|intros r' Lr; rewrite (proj2 (Nat.leb_le _ _) Lr); reflexivity].
      apply remove_in; [reflexivity|]. intros r' Hr. destruct (Nat.leb_spec (length r') (length w)) as [Lr|]; [|reflexivity]. apply IH; [exact Lr|]. rewrite forallb_forall in *. intros z Hz. apply Hw, Hr, Hz. }
    rewrite <- !family_cons by assumption. apply G, H2.
  Qed.

  (** ** Exchange of two neighbours *)
  Lemma remove_swap f M x y : (forall g1 g2, f (g1 ++ x :: y :: g2) = (- f (g1 ++ y :: x :: g2))%alg) -> forall l1 l2,
    (forall r1 r2, length r1 <= length l1 -> length r2 <= length l2 -> M (r1 ++ x :: y :: r2) = (- M (r1 ++ y :: x :: r2))%alg) ->
    remove f M (l1 ++ x :: y :: l2) = (- remove f M (l1 ++ y :: x :: l2))%alg.
  Proof.
    intros Hf l1. revert f M Hf. induction l1 as [|z l1 IH]; intros f M Hf l2 HM; cbn [app].
    - rewrite !remove_cons. rewrite (remove_ext (front y (front x f)) (fun g => (- front x (front y f) g)%alg) M M) by (first [reflexivity|intros g _; exact (Hf [] g)]). rewrite remove_opp.
      rewrite (remove_ext (flip (flip f)) (flip (flip f)) (front y (front x M)) (fun r => (- front x (front y M) r)%alg)) by (first [reflexivity|intros r Lr; exact (HM [] r (le_n _) Lr)]). rewrite remove_rest_opp.
      assert (Q : forall u F', remove (front u (flip f)) F' l2 = (- remove (flip (front u f)) F' l2)%alg).
      { intros u F'. rewrite <- remove_opp. apply remove_ext; [|reflexivity]. intros g _. unfold front, flip. cbn [length]. rewrite Nat.odd_succ, <- Nat.negb_odd. destruct (Nat.odd (length g)); cbn; ring. }
      rewrite !Q. ring.
    - rewrite !remove_cons. rewrite (IH (front z f) M) by (first [intros g1 g2; exact (Hf (z :: g1) g2)|intros r1 r2 L1 L2; apply HM; cbn; lia]).
      rewrite (IH (flip f) (front z M)); [ring| |intros r1 r2 L1 L2; apply (HM (z :: r1) r2); cbn; lia]. intros g1 g2. unfold flip. rewrite !app_length. cbn [length]. rewrite Hf. destruct (Nat.odd _); cbn; ring.
  Qed.
  (** exchanging x and y costs a sign and, in the rest, the number c *)
  Theorem family_swap k x y c : even k -> (forall g1 g2, g1 ++ g2 <> [] -> k (g1 ++ x :: y :: g2) = (- k (g1 ++ y :: x :: g2))%alg) -> (k [x; y] + k [y; x] = - c)%alg ->
    forall l1 l2 F, (forall r1 r2, F (r1 ++ x :: y :: r2) = (- F (r1 ++ y :: x :: r2) + c * F (r1 ++ r2))%alg) ->
    family_sum k F (l1 ++ x :: y :: l2) = (- family_sum k F (l1 ++ y :: x :: l2))%alg.
  Proof.
    intros E Hk Hc. assert (Ex : forall u, graded true (front u k)) by (intros u; apply even_front, E).
    assert (B : forall l F, (forall r1 r2, F (r1 ++ x :: y :: r2) = (- F (r1 ++ y :: x :: r2) + c * F (r1 ++ r2))%alg) -> family_sum k F (x :: y :: l) = (- family_sum k F (y :: x :: l))%alg).
    { intros l F HF.
      assert (Q : forall u w : X, family_sum k F (u :: w :: l) = (family_sum k (front w (front u F)) l + remove (front w k) (family_sum k (front u F)) l + (remove (front w (front u k)) (family_sum k F) l - (remove (front u k) (family_sum k (front w F)) l + remove (front u k) (remove (front w k) (family_sum k F)) l)))%alg).
      { intros u w. rewrite !(family_cons _ _ u), (family_cons _ _ w), remove_cons by exact E. rewrite (remove_flip true (front u k)) by apply Ex.
        rewrite (remove_ext (front u k) (front u k) (front w (family_sum k F)) (plus (family_sum k (front w F)) (remove (front w k) (family_sum k F)))) by (first [reflexivity|intros; apply family_cons, E]). rewrite remove_plus. cbn [signed]. ring. }
      rewrite !Q. rewrite (remove_remove true true (front x k) (front y k)) by apply Ex. cbn [andb signed].
      assert (K2 : remove (front y (front x k)) (family_sum k F) l = (- remove (front x (front y k)) (family_sum k F) l - c * family_sum k F l)%alg).
      { rewrite (remove_ext (front y (front x k)) (plus (fun g => (- front x (front y k) g)%alg) (fun g => match g with [] => (- c)%alg | _ => q0 end)) (family_sum k F) (family_sum k F)); [| |reflexivity].
        - rewrite remove_weight, remove_opp. assert (R : remove (fun g : list X => match g with [] => (- c)%alg | _ => q0 end) (family_sum k F) l = (- c * family_sum k F l)%alg); [|rewrite R; ring].
          rewrite (remove_marked (fun _ => true)); [reflexivity| |]; [intros [|z g] Hg; [discriminate|reflexivity]|]. clear. induction l; [reflexivity|assumption].
        - intros [|z g] _; unfold plus, front; [|pose proof (Hk [] (z :: g) ltac:(discriminate)) as HK; cbn [app] in HK; rewrite HK; ring]. transitivity ((k [x; y] + k [y; x] - k [y; x])%alg); [ring|]. rewrite Hc. ring. }
      rewrite K2. rewrite (family_rest k (front y (front x F)) (plus (fun r => (- front x (front y F) r)%alg) (fun r => (c * F r)%alg)) l) by (first [exact E|intros r _; exact (HF [] r)]). rewrite family_plus, family_scale.
      assert (O : family_sum k (fun r => (- front x (front y F) r)%alg) l = (- family_sum k (front x (front y F)) l)%alg).
      { transitivity (((- q1) * family_sum k (front x (front y F)) l)%alg); [|ring]. rewrite <- family_scale. apply family_rest; [exact E|]. intros; ring. }
      rewrite O. ring. }
    assert (G : forall n l1 l2 F, length l1 + length l2 <= n -> (forall r1 r2, F (r1 ++ x :: y :: r2) = (- F (r1 ++ y :: x :: r2) + c * F (r1 ++ r2))%alg) -> family_sum k F (l1 ++ x :: y :: l2) = (- family_sum k F (l1 ++ y :: x :: l2))%alg).
    { induction n as [|n IH]; intros [|z l1] l2 F L HF; cbn [length] in L; try lia; cbn [app]; [apply B, HF..|]. rewrite !(family_cons _ _ z) by exact E. rewrite (IH l1 l2 (front z F)) by (first [lia|intros r1 r2; exact (HF (z :: r1) r2)]).
      rewrite (remove_swap (front z k) (family_sum k F) x y); [ring|intros g1 g2; apply (Hk (z :: g1) g2); discriminate|]. intros r1 r2 L1 L2. apply IH; [lia|exact HF]. }
    intros l1 l2 F HF. apply (G (length l1 + length l2)); [apply le_n|exact HF].
  Qed.
End Sums.
(** ** Renaming the members *)
Lemma splits_map {X Y} (f : X -> Y) w : splits (map f w) = map (fun p => let '(s, g, r) := p in (s, map f g, map f r)) (splits w).
Proof.
  induction w as [|x w IH]; [reflexivity|]. cbn [map splits]. rewrite IH, !map_app, !map_map. f_equal; apply map_ext; intros [[s g] r]; [reflexivity|]. rewrite map_length. reflexivity.
Qed.
Lemma remove_map {X Y} A (f : X -> Y) k F w : remove A k F (map f w) = remove A (fun g => k (map f g)) (fun r => F (map f r)) w.
Proof. unfold remove. rewrite splits_map, map_map. f_equal. apply map_ext. intros [[s g] r]. reflexivity. Qed.
Lemma family_map {X Y} (A : qalg) (f : X -> Y) k F w : even A k -> family_sum (A := A) k F (map f w) = family_sum (fun g => k (map f g)) (fun r => F (map f r)) w.
Proof.
  intros E. assert (E' : even A (fun g => k (map f g))) by (intros g Hg; apply E; rewrite map_length; exact Hg). revert F. induction w as [|x w IH] using length_ind; intros F; cbn [map]; [rewrite !family_nil; reflexivity|]. rewrite !family_cons by assumption. f_equal; [apply (IH w), le_n|].
  rewrite remove_map. apply remove_ext; [reflexivity|]. intros r Lr. apply IH, Lr.
Qed.
