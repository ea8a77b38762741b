(** A commutative algebra extended by a module with zero products: operators become values. *)
From Coq Require Import Ascii String ZArith QArith Qcanon Ring_theory Ring Lia Bool.
From Verif Require Import PyBase SpaceModel IndicesModel ElemModel TermModel BchSpec ValueSpec ValueProofs FamilySpec FamilyProofs IndicesProofs TermSpec FockSpec.
Local Close Scope Q_scope.
Local Close Scope Qc_scope.
Local Open Scope nat_scope.
Local Notation length := List.length.

Section Laws.
  Context {A : qalg} (B : algebra_over A).
  Implicit Types (x y z : B) (a b : A).
  Add Ring alg_ring31 : (q_ring A).
  Lemma nadd_0r x : nadd x n0 = x.
  Proof. rewrite nadd_comm. apply nadd_0. Qed.
  Lemma nadd_cancel x y z : nadd x z = nadd y z -> x = y.
  Proof. intros H. rewrite <- (nadd_0r x), <- (nadd_0r y), <- (nadd_opp _ z), !nadd_assoc, H. reflexivity. Qed.
  Lemma nopp_unique x y : nadd x y = n0 -> y = nopp x.
  Proof. intros H. apply (nadd_cancel _ _ x). rewrite nadd_comm, H, (nadd_comm _ (nopp x)), nadd_opp. reflexivity. Qed.
  Lemma scal_0l x : scal q0 x = n0.
  Proof. apply (nadd_cancel _ _ (scal q0 x)). rewrite <- scal_add, nadd_0. f_equal. ring. Qed.
  Lemma scal_0r a : scal a (n0 : B) = n0.
  Proof. apply (nadd_cancel _ _ (scal a n0)). rewrite <- scal_addr, !nadd_0. reflexivity. Qed.
  Lemma scal_opp a x : scal (- a)%alg x = nopp (scal a x).
  Proof. apply nopp_unique. rewrite <- scal_add. replace (a + - a)%alg with (@q0 A) by ring. apply scal_0l. Qed.
  Lemma nmul_0l x : nmul n0 x = n0.
  Proof. apply (nadd_cancel _ _ (nmul n0 x)). rewrite <- nmul_addl, !nadd_0. reflexivity. Qed.
  Lemma nmul_0r x : nmul x n0 = n0.
  Proof. apply (nadd_cancel _ _ (nmul x n0)). rewrite <- nmul_addr, !nadd_0. reflexivity. Qed.
  Lemma nadd_swap x y z (t : B) : nadd (nadd x y) (nadd z t) = nadd (nadd x z) (nadd y t).
  Proof. rewrite !nadd_assoc. f_equal. rewrite <- !nadd_assoc. f_equal. apply nadd_comm. Qed.

  (** pairs of a scalar and an operator; products of two operators are zero *)
  Definition ext_car : Type := (A * B)%type.
  Definition ext_add (x y : ext_car) : ext_car := ((fst x + fst y)%alg, nadd (snd x) (snd y)).
  Definition ext_mul (x y : ext_car) : ext_car := ((fst x * fst y)%alg, nadd (scal (fst x) (snd y)) (scal (fst y) (snd x))).
  Definition ext_opp (x : ext_car) : ext_car := ((- fst x)%alg, nopp (snd x)).
  Definition ext_sub (x y : ext_car) : ext_car := ext_add x (ext_opp y).
  Lemma ext_ring : ring_theory (q0, n0) (q1, n0) ext_add ext_mul ext_sub ext_opp (@eq ext_car).
  Proof.
    constructor; intros; unfold ext_sub, ext_add, ext_mul, ext_opp; repeat match goal with x : ext_car |- _ => destruct x | x : (_ * _)%type |- _ => destruct x end; cbn [fst snd]; try reflexivity; apply f_equal2; try ring.
    - apply nadd_0.
    - apply nadd_comm.
    - apply nadd_assoc.
    - rewrite scal_1, scal_0r. apply nadd_0r.
    - apply nadd_comm.
    - rewrite !scal_addr, !nadd_assoc, !scal_mul. f_equal; [f_equal|].
      + rewrite <- !scal_mul. f_equal. ring.
      + rewrite <- !scal_mul. f_equal. ring.
    - rewrite scal_add, scal_addr. apply nadd_swap.
    - apply nadd_opp.
  Qed.
  Definition extension : qalg.
  Proof.
    refine (QAlg ext_car (q0, n0) (q1, n0) ext_add ext_mul ext_sub ext_opp ext_ring (fun c => (inj c, n0)) _ _ _).
    - rewrite inj_one. reflexivity.
    - intros x y. unfold ext_add. cbn [fst snd]. rewrite inj_add, nadd_0. reflexivity.
    - intros x y. unfold ext_mul. cbn [fst snd]. rewrite inj_mul, !scal_0r, nadd_0. reflexivity.
  Defined.
  Definition emb (a : A) : extension := (a, n0).
  Definition oper (x : B) : extension := (q0, x).
  Lemma emb_add a b : emb (a + b)%alg = (emb a + emb b)%alg.
  Proof. unfold emb. cbn. unfold ext_add. cbn. rewrite nadd_0. reflexivity. Qed.
  Lemma emb_mul a b : emb (a * b)%alg = (emb a * emb b)%alg.
  Proof. unfold emb. cbn. unfold ext_mul. cbn. rewrite !scal_0r, nadd_0. reflexivity. Qed.
  Lemma nopp_0 : nopp (n0 : B) = n0.
  Proof. symmetry. apply nopp_unique. apply nadd_0. Qed.
  Lemma emb_opp a : emb (- a)%alg = (- emb a)%alg.
  Proof. unfold emb. cbn. unfold ext_opp. cbn. rewrite nopp_0. reflexivity. Qed.
  Lemma emb_sub a b : emb (a - b)%alg = (emb a - emb b)%alg.
  Proof. transitivity (emb (a + - b)%alg); [f_equal; ring|]. rewrite emb_add, emb_opp. reflexivity. Qed.
  Lemma emb_inj c : emb (inj c) = inj c. Proof. reflexivity. Qed.
  Lemma emb_zin (z : Z) : emb (zin z) = zin z. Proof. reflexivity. Qed.
  Lemma emb_signed s a : emb (signed s a) = signed s (emb a).
  Proof. destruct s; [apply emb_opp|reflexivity]. Qed.
  Lemma emb_aprod l : emb (aprod l) = aprod (map emb l).
  Proof. induction l as [|a l IH]; [reflexivity|]. change (emb (a * aprod l)%alg = (emb a * aprod (map emb l))%alg). rewrite emb_mul, IH. reflexivity. Qed.
  Lemma oper_add x y : oper (nadd x y) = (oper x + oper y)%alg.
  Proof. unfold oper. cbn. unfold ext_add. cbn. f_equal. ring. Qed.
  Lemma oper_0 : oper n0 = q0. Proof. reflexivity. Qed.
  Lemma oper_opp x : oper (nopp x) = (- oper x)%alg.
  Proof. unfold oper. cbn. unfold ext_opp. cbn. f_equal. ring. Qed.
  Lemma oper_scal a x : oper (scal a x) = (emb a * oper x)%alg.
  Proof. unfold oper, emb. cbn. unfold ext_mul. cbn. f_equal; [ring|]. rewrite scal_0l, nadd_0r. reflexivity. Qed.
  Lemma oper_nscal c x : oper (nscal c x) = (inj c * oper x)%alg.
  Proof. rewrite <- scal_inj, oper_scal. reflexivity. Qed.
  Lemma oper_nsum l : oper (nsum l) = asum (map oper l).
  Proof. induction l as [|x l IH]; [reflexivity|]. change (oper (nadd x (nsum l)) = (oper x + asum (map oper l))%alg). rewrite oper_add, IH. reflexivity. Qed.
  Lemma oper_injective x y : oper x = oper y -> x = y.
  Proof. intros H. injection H as H. exact H. Qed.
  Lemma oper_sub x y : (oper x - oper y)%alg = oper (nadd x (nopp y)).
  Proof. rewrite oper_add, oper_opp. reflexivity. Qed.
  Lemma oper_sum_map {Y} (f : Y -> B) l : asum (map (fun i => oper (f i)) l) = oper (nsum (map f l)).
  Proof. rewrite oper_nsum, map_map. reflexivity. Qed.

  (** linear maps of operators *)
  Definition linear (T : B -> B) : Prop := (forall x y, T (nadd x y) = nadd (T x) (T y)) /\ (forall a x, T (scal a x) = scal a (T x)).
  Definition second (T : B -> B) (u : extension) : extension := oper (T (snd u)).
  Lemma linear_0 T : linear T -> T n0 = n0.
  Proof. intros [_ H]. rewrite <- (scal_0l n0), H, !scal_0l. reflexivity. Qed.
  Lemma linear_opp T x : linear T -> T (nopp x) = nopp (T x).
  Proof. intros L. apply nopp_unique. rewrite <- (proj1 L), nadd_opp. apply linear_0, L. Qed.
  Lemma linear_nsum T l : linear T -> T (nsum l) = nsum (map T l).
  Proof. intros L. induction l as [|x l IH]; [apply linear_0, L|]. change (T (nadd x (nsum l)) = nadd (T x) (nsum (map T l))). rewrite (proj1 L), IH. reflexivity. Qed.
  Lemma linear_nscal T c x : linear T -> T (nscal c x) = nscal c (T x).
  Proof. intros L. rewrite <- !scal_inj. apply L. Qed.
  Lemma linear_left z : linear (fun x => nmul z x).
  Proof. split; [intros; apply nmul_addr|intros; apply scal_mulr]. Qed.
  Lemma linear_right z : linear (fun x => nmul x z).
  Proof. split; [intros; apply nmul_addl|intros; apply scal_mull]. Qed.
  Lemma linear_id : linear (fun x => x). Proof. split; reflexivity. Qed.
  Lemma second_sum T l : linear T -> second T (asum l) = asum (map (second T) l).
  Proof.
    intros L. induction l as [|z l IH]; [unfold second; cbn; rewrite (linear_0 T L); reflexivity|]. change (second T (z + asum l)%alg = (second T z + asum (map (second T) l))%alg). rewrite <- IH. unfold second. rewrite <- oper_add. f_equal. cbn. apply L.
  Qed.
  (** a linear map can be applied before or after the sum over families *)
  Lemma family_linear {X} (T : B -> B) (k : list X -> A) (F : list X -> B) w : linear T ->
    second T (family_sum (A := extension) (fun g => emb (k g)) (fun r => oper (F r)) w) = family_sum (fun g => emb (k g)) (fun r => oper (T (F r))) w.
  Proof.
    intros L. unfold family_sum. rewrite second_sum, map_map by exact L. f_equal. apply map_ext. intros [[s gs] r].
    assert (E : forall y, signed s (aprod (map (fun g => emb (k g)) gs) * oper y)%alg = oper (scal (signed s (aprod (map k gs))) y)).
    { intros y. rewrite oper_scal, emb_signed, emb_aprod, map_map, signed_mul. reflexivity. }
    rewrite !E. unfold second. cbn. f_equal. apply L.
  Qed.
  Lemma family_oper {X} (k : list X -> A) (F : list X -> B) w :
    family_sum (A := extension) (fun g => emb (k g)) (fun r => oper (F r)) w = oper (nsum (map (fun p => let '(s, gs, r) := p in scal (signed s (aprod (map k gs))) (F r)) (families (length w) w))).
  Proof.
    unfold family_sum. rewrite oper_nsum, map_map. f_equal. apply map_ext. intros [[s gs] r]. rewrite oper_scal, emb_signed, emb_aprod, map_map, signed_mul. reflexivity.
  Qed.
End Laws.
