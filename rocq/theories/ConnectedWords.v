(** Sums over the products of symbols of an expanded commutator, for any function of the product. *)
From Coq Require Import Ascii String ZArith QArith Qcanon Ring_theory Ring Lia Bool.
From Verif Require Import PyBase SpaceModel IterProofs IndicesModel ElemModel MacroModel WickModel TermModel CombineModel BchModel BchSpec BchProofs TaskProofs ValueSpec ValueProofs FamilyProofs RenameProofs.
Local Close Scope Q_scope.
Local Close Scope Qc_scope.
Local Open Scope nat_scope.
Local Notation length := List.length.

Section Words.
  Context (A : qalg).
  Add Ring alg_ring95 : (q_ring A).
  Definition wsum (f : word -> A) (p : poly) : A := asum (map (fun m => (zin (fst m) * f (snd m))%alg) p).
  Lemma wsum_cons f m p : wsum f (m :: p) = (zin (fst m) * f (snd m) + wsum f p)%alg. Proof. reflexivity. Qed.
  Lemma wsum_app f p q : wsum f (p ++ q) = (wsum f p + wsum f q)%alg.
  Proof. unfold wsum. rewrite map_app. apply (asum_app A). Qed.
  Lemma wsum_neg f p : wsum f (pneg p) = (- wsum f p)%alg.
  Proof. induction p as [|m p IH]; [unfold wsum; cbn [map pneg]; change (@asum A []) with (@q0 A); ring|]. change (pneg (m :: p)) with ((- fst m, snd m)%Z :: pneg p). rewrite !wsum_cons, IH. cbn [fst snd]. rewrite (zin_opp A). ring. Qed.
  Lemma wsum_mul f p q : wsum f (pmul p q) = wsum (fun w => wsum (fun w' => f (w ++ w')) q) p.
  Proof.
    induction p as [|m p IH]; [reflexivity|]. change (pmul (m :: p) q) with (map (fun m' => (fst m * fst m', snd m ++ snd m')%Z) q ++ pmul p q). rewrite wsum_app, wsum_cons, IH. f_equal.
    unfold wsum. rewrite map_map, <- (asum_map_mul A). apply (f_equal asum). apply map_ext. intros m'. cbn [fst snd]. rewrite (zin_mul A). symmetry. apply (Rmul_assoc (q_ring A)).
  Qed.
  Lemma wsum_ext f g p : (forall m, In m p -> f (snd m) = g (snd m)) -> wsum f p = wsum g p.
  Proof. intros H. unfold wsum. apply (f_equal asum). apply map_ext_in. intros m Hm. rewrite H by exact Hm. reflexivity. Qed.
  Lemma wsum_sub f g p : wsum (fun w => (f w - g w)%alg) p = (wsum f p - wsum g p)%alg.
  Proof. induction p as [|m p IH]; [unfold wsum; cbn [map]; change (@asum A []) with (@q0 A); ring|]. rewrite !wsum_cons, IH. ring. Qed.
  Lemma wsum_zero p : wsum (fun _ => q0) p = q0.
  Proof. induction p as [|m p IH]; [reflexivity|]. rewrite wsum_cons, IH. ring. Qed.
  Lemma wsum_swap f p q : wsum (fun w => wsum (fun w' => f w w') q) p = wsum (fun w' => wsum (fun w => f w w') p) q.
  Proof.
    unfold wsum. rewrite (map_ext _ (fun m => asum (map (fun m' => (zin (fst m) * (zin (fst m') * f (snd m) (snd m')))%alg) q))) by (intros m; symmetry; apply (asum_map_mul A)).
    rewrite (asum_swap A). apply (f_equal asum). apply map_ext. intros m'. rewrite <- (asum_map_mul A). apply (f_equal asum). apply map_ext. intros m. ring.
  Qed.
  Lemma wsum_perm f p q : Permutation p q -> wsum f p = wsum f q.
  Proof. intros P. unfold wsum. apply (asum_perm A). apply Permutation_map, P. Qed.
  Lemma wsum_add_monomial f m p : wsum f (add_monomial m p) = (zin (fst m) * f (snd m) + wsum f p)%alg.
  Proof.
    induction p as [|m' p IH]; cbn [add_monomial]; [reflexivity|]. destruct (word_eqb (snd m) (snd m')) eqn:E; rewrite !wsum_cons.
    - apply word_eqb_spec in E. cbn [fst snd]. rewrite (zin_add A), E. ring.
    - rewrite IH. ring.
  Qed.
  Lemma wsum_collected f p : wsum f (collected p) = wsum f p.
  Proof.
    unfold collected. transitivity (wsum f (fold_left (fun acc m => add_monomial m acc) p [])).
    - generalize (fold_left (fun acc m => add_monomial m acc) p []). intros q. induction q as [|m q IH]; [reflexivity|]. cbn [filter]. rewrite wsum_cons. destruct (Z.eqb_spec (fst m) 0) as [E|N]; cbn [negb]; [rewrite IH, E, (zin_0 A); ring|rewrite wsum_cons, IH; reflexivity].
    - assert (G : forall acc, wsum f (fold_left (fun acc m => add_monomial m acc) p acc) = (wsum f p + wsum f acc)%alg); [|rewrite G; change (wsum f []) with (@q0 A); ring].
      induction p as [|m p IH]; intros acc; cbn [fold_left]; [change (wsum f []) with (@q0 A); ring|]. rewrite IH, wsum_add_monomial, wsum_cons. ring.
  Qed.
  (** the expanded commutators of one and two levels *)
  Lemma wsum_one f h b : wsum f (multiplied (sympy_nested_commutator_recursive 1 (Poly h) (Poly b))) = wsum (fun x => wsum (fun y => (f (x ++ y) - f (y ++ x))%alg) b) h.
  Proof.
    cbn [sympy_nested_commutator_recursive multiplied]. unfold padd. rewrite wsum_app, wsum_neg, !wsum_mul. rewrite (wsum_swap (fun w w' => f (w ++ w')) b h).
    rewrite (wsum_ext (fun x => wsum (fun y => (f (x ++ y) - f (y ++ x))%alg) b) (fun x => (wsum (fun y => f (x ++ y)) b - wsum (fun y => f (y ++ x)) b)%alg)) by (intros m _; apply wsum_sub). rewrite wsum_sub. ring.
  Qed.
  Lemma wsum_two f h b : wsum f (multiplied (sympy_nested_commutator_recursive 2 (Poly h) (Poly b))) =
    wsum (fun x => wsum (fun y => wsum (fun z => (f (x ++ y ++ z) - f (y ++ x ++ z) - (f (z ++ x ++ y) - f (z ++ y ++ x)))%alg) b) b) h.
  Proof.
    set (e := Commutator (Poly h) (Poly b)). change (sympy_nested_commutator_recursive 2 (Poly h) (Poly b)) with (Commutator e (Poly b)). cbn [multiplied]. unfold padd. rewrite wsum_app, wsum_neg, !wsum_mul. change e with (sympy_nested_commutator_recursive 1 (Poly h) (Poly b)).
    rewrite (wsum_swap (fun w w' => f (w ++ w')) b). rewrite !wsum_one.
    rewrite (wsum_ext (fun x => wsum (fun y => wsum (fun z => (f (x ++ y ++ z) - f (y ++ x ++ z) - (f (z ++ x ++ y) - f (z ++ y ++ x)))%alg) b) b) (fun x => (wsum (fun y => (wsum (fun w' => f ((x ++ y) ++ w')) b - wsum (fun w' => f ((y ++ x) ++ w')) b)%alg) b - wsum (fun y => (wsum (fun w => f (w ++ x ++ y)) b - wsum (fun w => f (w ++ y ++ x)) b)%alg) b)%alg)).
    - rewrite wsum_sub. ring.
    - intros m _. rewrite <- wsum_sub. apply wsum_ext. intros m' _. rewrite <- !wsum_sub. apply wsum_ext. intros m'' _. rewrite <- !app_assoc. reflexivity.
  Qed.
End Words.
