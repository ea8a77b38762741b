(** Symbolic nested commutators: values of expanded expressions, the binomial formula, and the number of summands. *)
From Coq Require Import Ascii String ZArith QArith Qcanon.
From Verif Require Import PyBase IterProofs TermModel CombineModel ScheduleProofs BchModel BchSpec.
Local Close Scope Q_scope.
Local Close Scope Qc_scope.
Local Open Scope nat_scope.
Local Notation length := List.length.

Lemma Qc_of_Z_0 : Qc_of_Z 0 = Q2Qc 0. Proof. reflexivity. Qed.
Lemma Qc_of_Z_1 : Qc_of_Z 1 = Q2Qc 1. Proof. reflexivity. Qed.

Section Algebra.
  Context (A : ncalg).
  Implicit Types x y z : A.
  Lemma nadd_0r x : nadd x n0 = x. Proof. rewrite nadd_comm. apply nadd_0. Qed.
  Lemma nadd_cancel x y z : nadd x y = nadd x z -> y = z.
  Proof.
    intros H. rewrite <- (nadd_0 A y), <- (nadd_0 A z), <- (nadd_opp A x), (nadd_comm A x (nopp x)), <- !(nadd_assoc A (nopp x) x), H. reflexivity.
  Qed.
  Lemma nscal_0 x : nscal (Q2Qc 0) x = n0.
  Proof. apply (nadd_cancel (nscal (Q2Qc 0) x)). rewrite <- nscal_add, nadd_0r. f_equal. Qed.
  Lemma nopp_scal x : nopp x = nscal (Qc_of_Z (-1)) x.
  Proof.
    apply (nadd_cancel x). rewrite nadd_opp. rewrite <- (nscal_1 A x) at 1. rewrite <- nscal_add. symmetry. apply (nscal_0 x).
  Qed.
  Lemma nmul_0l x : nmul n0 x = n0.
  Proof. rewrite <- (nscal_0 n0) at 1. rewrite nscal_mull. apply nscal_0. Qed.
  Lemma nmul_0r x : nmul x n0 = n0.
  Proof. rewrite <- (nscal_0 n0) at 1. rewrite nscal_mulr. apply nscal_0. Qed.
  Lemma nscal_n0 c : nscal c (@n0 A) = n0.
  Proof. rewrite <- (nscal_0 n0) at 1. rewrite <- nscal_mul. replace (Qcmult c (Q2Qc 0)) with (Q2Qc 0) by ring. apply nscal_0. Qed.
  Lemma nadd_swap x y z u : nadd (nadd x y) (nadd z u) = nadd (nadd x z) (nadd y u).
  Proof. rewrite <- !nadd_assoc. f_equal. rewrite !nadd_assoc. f_equal. apply nadd_comm. Qed.

  Lemma nsum_cons x (l : list A) : nsum (x :: l) = nadd x (nsum l). Proof. reflexivity. Qed.
  Lemma nprod_cons x (l : list A) : nprod (x :: l) = nmul x (nprod l). Proof. reflexivity. Qed.
  Lemma nsum_nil : nsum (@nil A) = n0. Proof. reflexivity. Qed.
  Lemma nprod_nil : nprod (@nil A) = n1. Proof. reflexivity. Qed.
  Lemma nsum_app (l l' : list A) : nsum (l ++ l') = nadd (nsum l) (nsum l').
  Proof. induction l as [|x l IH]; cbn [app map]; rewrite ?nsum_cons, ?nprod_cons; [symmetry; apply nadd_0|]. rewrite IH. apply nadd_assoc. Qed.
  Lemma nsum_perm (l l' : list A) : Permutation l l' -> nsum l = nsum l'.
  Proof.
    induction 1; rewrite ?nsum_cons; [reflexivity|f_equal; assumption| |congruence]. rewrite !nadd_assoc. f_equal. apply nadd_comm.
  Qed.
  Lemma nsum_map_add {X} (f g : X -> A) l : nsum (map (fun i => nadd (f i) (g i)) l) = nadd (nsum (map f l)) (nsum (map g l)).
  Proof. induction l as [|x l IH]; cbn [app map]; rewrite ?nsum_cons, ?nprod_cons; [symmetry; apply nadd_0|]. rewrite IH. apply nadd_swap. Qed.
  Lemma nsum_scal {X} c (f : X -> A) l : nsum (map (fun i => nscal c (f i)) l) = nscal c (nsum (map f l)).
  Proof. induction l as [|x l IH]; cbn [app map]; rewrite ?nsum_cons, ?nprod_cons; [symmetry; apply nscal_n0|]. rewrite IH. symmetry. apply nscal_addr. Qed.
  Lemma nsum_mull {X} (f : X -> A) l y : nsum (map (fun i => nmul (f i) y) l) = nmul (nsum (map f l)) y.
  Proof. induction l as [|x l IH]; cbn [app map]; rewrite ?nsum_cons, ?nprod_cons; [symmetry; apply nmul_0l|]. rewrite IH. symmetry. apply nmul_addl. Qed.
  Lemma nsum_mulr {X} (f : X -> A) l y : nsum (map (fun i => nmul y (f i)) l) = nmul y (nsum (map f l)).
  Proof. induction l as [|x l IH]; cbn [app map]; rewrite ?nsum_cons, ?nprod_cons; [symmetry; apply nmul_0r|]. rewrite IH. symmetry. apply nmul_addr. Qed.
  Lemma nsum_ext {X} (f g : X -> A) l : (forall i, In i l -> f i = g i) -> nsum (map f l) = nsum (map g l).
  Proof. intros H. f_equal. apply map_ext_in, H. Qed.
  Lemma nprod_app (l l' : list A) : nprod (l ++ l') = nmul (nprod l) (nprod l').
  Proof. induction l as [|x l IH]; cbn [app map]; rewrite ?nsum_cons, ?nprod_cons; [symmetry; apply nmul_1l|]. rewrite IH. apply nmul_assoc. Qed.
  Lemma npow_S x k : npow x (S k) = nmul x (npow x k). Proof. reflexivity. Qed.
  Lemma npow_Sr x k : npow x (S k) = nmul (npow x k) x.
  Proof.
    unfold npow. replace (repeat x (S k)) with (repeat x k ++ [x]) by (symmetry; apply repeat_cons). rewrite nprod_app, nprod_cons, nprod_nil, nmul_1r. reflexivity.
  Qed.

  (** *** the binomial formula *)
  Lemma signed_pascal n k : signed_binomial (S n) (S k) = (signed_binomial n (S k) - signed_binomial n k)%Z.
  Proof.
    unfold signed_binomial. change (binomial (S n) (S k)) with (binomial n k + binomial n (S k)). rewrite Nat2Z.inj_add, Nat.even_succ, <- Nat.negb_even.
    destruct (Nat.even k); cbn [negb]; lia.
  Qed.
  Lemma signed_0 n : signed_binomial n 0 = 1%Z.
  Proof. unfold signed_binomial. destruct n; reflexivity. Qed.
  Theorem nested_binomial n x y : nested n x y = binomial_sum n x y.
  Proof.
    induction n as [|n IH].
    - unfold binomial_sum. cbn [seq map Nat.add Nat.sub nested]. rewrite nsum_cons, nsum_nil, signed_0, (eq_refl : npow y 0 = n1), Qc_of_Z_1, nscal_1, nmul_1l, nmul_1r. symmetry. apply nadd_0r.
    - cbn [nested]. unfold bracket. rewrite IH, nopp_scal. unfold binomial_sum.
      set (c n k := Qc_of_Z (signed_binomial n k)). set (g (k j : nat) := nmul (npow y k) (nmul x (npow y j))).
      transitivity (nadd (nsum (map (fun k => nscal (c n k) (g k (S n - k))) (seq 0 (n + 1))))
                         (nsum (map (fun k => nscal (Qcmult (Qc_of_Z (-1)) (c n k)) (g (S k) (n - k))) (seq 0 (n + 1))))).
      + rewrite <- nsum_mull, <- nsum_mulr, <- nsum_scal. f_equal; apply nsum_ext; intros k Hk; apply in_seq in Hk.
        * rewrite nscal_mull. f_equal. unfold g. rewrite <- !nmul_assoc. do 2 f_equal. rewrite <- npow_Sr. f_equal. lia.
        * rewrite nscal_mulr, nscal_mul. do 2 f_equal. unfold g. rewrite npow_S, !nmul_assoc. reflexivity.
      + replace (seq 0 (S n + 1)) with (0 :: map S (seq 0 (n + 1))) by (rewrite seq_shift; reflexivity). cbn [map]. rewrite nsum_cons, map_map.
        transitivity (nadd (nscal (c (S n) 0) (g 0 (S n - 0)))
           (nsum (map (fun k => nadd (nscal (c n (S k)) (g (S k) (n - k))) (nscal (Qcmult (Qc_of_Z (-1)) (c n k)) (g (S k) (n - k)))) (seq 0 (n + 1))))).
        * rewrite nsum_map_add, nadd_assoc. f_equal.
          (* the sums over k <= n of c n k: the term n + 1 vanishes *)
          transitivity (nsum (map (fun k => nscal (c n k) (g k (S n - k))) (0 :: map S (seq 0 (n + 1))))).
          -- replace (0 :: map S (seq 0 (n + 1))) with (seq 0 (n + 1) ++ [n + 1]) by (rewrite seq_shift; change [n + 1] with [0 + (n + 1)]; rewrite <- seq_S; reflexivity).
             rewrite map_app, nsum_app. cbn [map]. rewrite nsum_cons, nsum_nil. unfold c at 3, signed_binomial. rewrite binomial_gt by lia. rewrite Z.mul_0_r, Qc_of_Z_0, nscal_0, !nadd_0r. reflexivity.
          -- cbn [map]. rewrite nsum_cons, map_map. f_equal. unfold c. rewrite !signed_0. reflexivity.
        * f_equal. apply nsum_ext. intros k Hk. rewrite <- nscal_add. f_equal. unfold c. rewrite signed_pascal. replace (signed_binomial n (S k) - signed_binomial n k)%Z with (signed_binomial n (S k) + -1 * signed_binomial n k)%Z by lia.
          rewrite Qc_of_Z_add, Qc_of_Z_mul. reflexivity.
  Qed.

  (** *** values of expanded expressions *)
  Context (v : symbol -> A).
  Lemma poly_value_app p q : poly_value v (p ++ q) = nadd (poly_value v p) (poly_value v q).
  Proof. unfold poly_value. rewrite map_app. apply nsum_app. Qed.
  Lemma poly_value_neg p : poly_value v (pneg p) = nopp (poly_value v p).
  Proof.
    rewrite nopp_scal. unfold poly_value, pneg. rewrite map_map, <- nsum_scal. apply nsum_ext. intros m _. cbn [fst snd].
    rewrite <- nscal_mul, <- Qc_of_Z_mul. do 2 f_equal; try lia.
  Qed.
  Lemma word_value_app w w' : word_value v (w ++ w') = nmul (word_value v w) (word_value v w').
  Proof. unfold word_value. rewrite map_app. apply nprod_app. Qed.
  Lemma poly_value_mul p q : poly_value v (pmul p q) = nmul (poly_value v p) (poly_value v q).
  Proof.
    unfold pmul. induction p as [|m p IH]; [symmetry; apply nmul_0l|]. cbn [flat_map]. rewrite poly_value_app, IH.
    change (poly_value v (m :: p)) with (nadd (nscal (Qc_of_Z (fst m)) (word_value v (snd m))) (poly_value v p)). rewrite nmul_addl. f_equal.
    unfold poly_value. rewrite map_map, nscal_mull, <- nsum_mulr, <- nsum_scal. apply nsum_ext. intros m' _. cbn [fst snd].
    rewrite word_value_app, Qc_of_Z_mul, nscal_mul, nscal_mulr. reflexivity.
  Qed.
  Lemma symbol_eqb_spec a b : symbol_eqb a b = true <-> a = b.
  Proof.
    unfold symbol_eqb. destruct a as [n d], b as [n' d']. cbn [sy_name sy_dagger]. rewrite andb_true_iff, Bool.eqb_true_iff. unfold text_eqb.
    destruct (list_eq_dec ascii_dec n n') as [->|N]; split; [intros [_ ->]; reflexivity|intros H; injection H; auto|intros [F _]; discriminate|intros H; congruence].
  Qed.
  Lemma word_eqb_spec a b : word_eqb a b = true <-> a = b.
  Proof.
    revert b. induction a as [|x a IH]; intros [|y b]; cbn; try (split; congruence). rewrite andb_true_iff, symbol_eqb_spec, IH. split; [intros [-> ->]; reflexivity|intros H; injection H; auto].
  Qed.
  Lemma add_monomial_value m p : poly_value v (add_monomial m p) = nadd (nscal (Qc_of_Z (fst m)) (word_value v (snd m))) (poly_value v p).
  Proof.
    induction p as [|m' p IH]; cbn [add_monomial]; [reflexivity|].
    change (poly_value v (m' :: p)) with (nadd (nscal (Qc_of_Z (fst m')) (word_value v (snd m'))) (poly_value v p)).
    destruct (word_eqb (snd m) (snd m')) eqn:E.
    - apply word_eqb_spec in E. change (poly_value v (((fst m + fst m')%Z, snd m') :: p)) with (nadd (nscal (Qc_of_Z (fst m + fst m')) (word_value v (snd m'))) (poly_value v p)).
      rewrite Qc_of_Z_add, nscal_add, nadd_assoc, E. reflexivity.
    - change (poly_value v (m' :: add_monomial m p)) with (nadd (nscal (Qc_of_Z (fst m')) (word_value v (snd m'))) (poly_value v (add_monomial m p))).
      rewrite IH, !nadd_assoc. f_equal. apply nadd_comm.
  Qed.
  Lemma collected_value p : poly_value v (collected p) = poly_value v p.
  Proof.
    unfold collected. transitivity (poly_value v (fold_left (fun acc m => add_monomial m acc) p [])).
    - generalize (fold_left (fun acc m => add_monomial m acc) p []). intros q0. induction q0 as [|m q IH]; [reflexivity|]. cbn [filter].
      change (poly_value v (m :: q)) with (nadd (nscal (Qc_of_Z (fst m)) (word_value v (snd m))) (poly_value v q)).
      destruct (Z.eqb_spec (fst m) 0) as [E|E]; cbn [negb].
      + rewrite E, Qc_of_Z_0, nscal_0, nadd_0. exact IH.
      + unfold poly_value at 1. cbn [map]. rewrite nsum_cons. f_equal. exact IH.
    - enough (G : forall acc, poly_value v (fold_left (fun acc m => add_monomial m acc) p acc) = nadd (poly_value v p) (poly_value v acc)) by (rewrite G; apply nadd_0r).
      induction p as [|m p IH]; intros acc; cbn [fold_left]; [symmetry; apply nadd_0|]. rewrite IH, add_monomial_value.
      change (poly_value v (m :: p)) with (nadd (nscal (Qc_of_Z (fst m)) (word_value v (snd m))) (poly_value v p)). rewrite !nadd_assoc. f_equal. apply nadd_comm.
  Qed.
  Lemma multiplied_value e : poly_value v (multiplied e) = expr_value v e.
  Proof.
    induction e as [p|a IHa b IHb]; cbn [multiplied expr_value]; [reflexivity|]. unfold padd, bracket. rewrite poly_value_app, poly_value_neg, !poly_value_mul, IHa, IHb. reflexivity.
  Qed.
  Lemma doit_expand_value e : poly_value v (doit_expand e) = expr_value v e.
  Proof. unfold doit_expand. rewrite collected_value. apply multiplied_value. Qed.
  Lemma recursive_value n a b : 1 <= n -> expr_value v (sympy_nested_commutator_recursive n a b) = nested n (expr_value v a) (expr_value v b).
  Proof.
    intros H. destruct n as [|n]; [lia|]. clear H. induction n as [|n IH]; [reflexivity|].
    change (sympy_nested_commutator_recursive (S (S n)) a b) with (Commutator (sympy_nested_commutator_recursive (S n) a b) b). cbn [expr_value].
    rewrite IH. reflexivity.
  Qed.
End Algebra.

(** *** like terms are collected *)
Definition coef (w : word) (p : poly) : Z := fold_right Z.add 0%Z (map fst (filter (fun m => word_eqb w (snd m)) p)).
Lemma word_eqb_refl w : word_eqb w w = true. Proof. apply word_eqb_spec. reflexivity. Qed.
Lemma word_eqb_neq a b : a <> b -> word_eqb a b = false.
Proof. intros N. destruct (word_eqb a b) eqn:E; [|reflexivity]. apply word_eqb_spec in E. contradiction. Qed.
Lemma coef_cons w m p : coef w (m :: p) = ((if word_eqb w (snd m) then fst m else 0) + coef w p)%Z.
Proof. unfold coef. cbn [filter]. destruct (word_eqb w (snd m)); [reflexivity|]. cbn. lia. Qed.
Lemma coef_add w m p : coef w (add_monomial m p) = coef w (m :: p).
Proof.
  induction p as [|m' p IH]; cbn [add_monomial]; [reflexivity|]. destruct (word_eqb (snd m) (snd m')) eqn:E.
  - apply word_eqb_spec in E. rewrite !coef_cons. cbn [fst snd]. rewrite E. destruct (word_eqb w (snd m')); lia.
  - rewrite coef_cons, IH, !coef_cons. lia.
Qed.
Lemma add_monomial_words m p w : In w (map snd (add_monomial m p)) <-> w = snd m \/ In w (map snd p).
Proof.
  induction p as [|m' p IH]; cbn [add_monomial map In]; [intuition|]. destruct (word_eqb (snd m) (snd m')) eqn:E; cbn [map In snd].
  - apply word_eqb_spec in E. rewrite E. intuition.
  - rewrite IH. intuition.
Qed.
Lemma add_monomial_nodup m p : NoDup (map snd p) -> NoDup (map snd (add_monomial m p)).
Proof.
  induction p as [|m' p IH]; cbn [add_monomial map]; intros H; [constructor; [tauto|constructor]|]. inversion H as [|? ? N H' ]; subst.
  destruct (word_eqb (snd m) (snd m')) eqn:E; cbn [map snd]; [exact H|]. constructor; [|apply IH, H']. rewrite add_monomial_words. intros [F|F]; [|contradiction].
  rewrite F, word_eqb_refl in E. discriminate.
Qed.
Definition gathered (p : poly) : poly := fold_left (fun acc m => add_monomial m acc) p [].
Lemma gathered_nodup p : NoDup (map snd (gathered p)).
Proof.
  unfold gathered. enough (G : forall acc, NoDup (map snd acc) -> NoDup (map snd (fold_left (fun acc m => add_monomial m acc) p acc))) by (apply G; constructor).
  induction p as [|m p IH]; intros acc H; cbn; [exact H|]. apply IH, add_monomial_nodup, H.
Qed.
Lemma gathered_coef w p : coef w (gathered p) = coef w p.
Proof.
  unfold gathered. enough (G : forall acc, coef w (fold_left (fun acc m => add_monomial m acc) p acc) = (coef w p + coef w acc)%Z) by (rewrite G; unfold coef; cbn; lia).
  induction p as [|m p IH]; intros acc; cbn [fold_left]; [unfold coef; cbn; lia|]. rewrite IH, coef_add, !coef_cons. lia.
Qed.
Lemma coef_nodup w c p : NoDup (map snd p) -> In (c, w) p -> coef w p = c.
Proof.
  induction p as [|m p IH]; intros N H; [destruct H|]. inversion N as [|? ? N1 N2]; subst. rewrite coef_cons. destruct H as [->|H].
  - cbn [fst snd]. rewrite word_eqb_refl. enough (E : coef w p = 0%Z) by lia. clear IH N2 N. unfold coef. cbn [snd] in N1. induction p as [|m p IH]; [reflexivity|]. cbn [filter].
    rewrite word_eqb_neq; [apply IH; intros F; apply N1; right; exact F|]. intros ->. apply N1. left. reflexivity.
  - rewrite word_eqb_neq; [rewrite (IH N2 H); lia|]. intros E. apply N1. rewrite <- E. apply (in_map snd) in H. exact H.
Qed.
Lemma coef_absent w p : ~ In w (map snd p) -> coef w p = 0%Z.
Proof.
  induction p as [|m p IH]; intros H; [reflexivity|]. rewrite coef_cons, word_eqb_neq; [apply IH; intros F; apply H; right; exact F|]. intros ->. apply H. left. reflexivity.
Qed.
Lemma word_dec (a b : word) : {a = b} + {a <> b}.
Proof. destruct (word_eqb a b) eqn:E; [left; apply word_eqb_spec, E|right; intros F; apply word_eqb_spec in F; congruence]. Qed.
(** the summands of an expanded expression: one for each product with a coefficient other than zero *)
Lemma collected_spec p c w : In (c, w) (collected p) <-> c = coef w p /\ c <> 0%Z.
Proof.
  unfold collected. fold (gathered p). rewrite filter_In. cbn [fst]. rewrite negb_true_iff, Z.eqb_neq. rewrite <- (gathered_coef w p). split.
  - intros [H Z]. split; [|exact Z]. symmetry. apply coef_nodup; [apply gathered_nodup|exact H].
  - intros [-> Z]. split; [|exact Z]. destruct (in_dec word_dec w (map snd (gathered p))) as [I|I].
    + apply in_map_iff in I. destruct I as ([c w'] & <- & I). cbn [snd] in *. rewrite (coef_nodup w' c); [exact I|apply gathered_nodup|exact I].
    + rewrite coef_absent in Z by exact I. contradiction.
Qed.
Lemma NoDup_map_filter {X Y} (f : X -> Y) g l : NoDup (map f l) -> NoDup (map f (filter g l)).
Proof.
  induction l as [|x l IH]; cbn; intros H; [constructor|]. inversion H as [|? ? N H']; subst. destruct (g x); cbn; [|apply IH, H']. constructor; [|apply IH, H'].
  intros F. apply N. apply in_map_iff in F. destruct F as (y & E & F). apply filter_In in F. rewrite <- E. apply in_map, F.
Qed.
Lemma collected_nodup p : NoDup (map snd (collected p)).
Proof. apply NoDup_map_filter, gathered_nodup. Qed.
