(** Fermion operators as matrices: for every number of modes there is an algebra with creators and annihilators (Jordan and Wigner). *)
From Coq Require Import Ascii String ZArith QArith Qcanon Ring_theory Ring Lia Bool.
From Verif Require Import PyBase SpaceModel IndicesModel ElemModel TermModel BchSpec ValueSpec ValueProofs FamilySpec IndicesProofs TermSpec FockSpec ExtensionProofs.
Local Close Scope Q_scope.
Local Close Scope Qc_scope.
Local Open Scope nat_scope.
Local Notation length := List.length.

(** the commutative algebra itself *)
Definition scalar_ring (A : qalg) : ncalg.
Proof.
  pose proof (q_ring A) as RT.
  assert (R1 : forall x : A, (x * q1)%alg = x) by (intros x; rewrite (Rmul_comm RT); apply (Rmul_1_l RT)).
  assert (R2 : forall x y z : A, (x * (y + z))%alg = (x * y + x * z)%alg) by (intros x y z; rewrite !(Rmul_comm RT x); apply (Rdistr_l RT)).
  refine (NcAlg A q0 q1 qadd qmul qopp _ _ _ _ _ _ _ _ _ (fun c x => (inj c * x)%alg) _ _ _ _ _ _).
  - apply (Radd_comm RT).
  - apply (Radd_assoc RT).
  - apply (Radd_0_l RT).
  - apply (Ropp_def RT).
  - apply (Rmul_assoc RT).
  - apply (Rmul_1_l RT).
  - exact R1.
  - apply (Rdistr_l RT).
  - exact R2.
  - intros x. rewrite inj_one. apply (Rmul_1_l RT).
  - intros a b x. rewrite inj_mul. symmetry. apply (Rmul_assoc RT).
  - intros a b x. rewrite inj_add. apply (Rdistr_l RT).
  - intros a x y. apply R2.
  - intros a x y. symmetry. apply (Rmul_assoc RT).
  - intros a x y. rewrite !(Rmul_assoc RT), (Rmul_comm RT x). reflexivity.
Defined.
Definition scalars (A : qalg) : algebra_over A.
Proof.
  refine (AlgOver A (scalar_ring A) (fun a (x : A) => (a * x)%alg : scalar_ring A) _ _ _ _ _ _ _); cbn; intros; pose proof (q_ring A) as RT.
  - apply (Rmul_1_l RT).
  - symmetry. apply (Rmul_assoc RT).
  - apply (Rdistr_l RT).
  - rewrite !(Rmul_comm RT a). apply (Rdistr_l RT).
  - symmetry. apply (Rmul_assoc RT).
  - rewrite !(Rmul_assoc RT), (Rmul_comm RT x). reflexivity.
  - reflexivity.
Defined.

(** 2 x 2 matrices over an algebra *)
Section Matrices.
  Context {A : qalg} (B : algebra_over A).
  Definition mat : Type := (B * B * (B * B))%type.
  Definition mat_add (x y : mat) : mat := (nadd (fst (fst x)) (fst (fst y)), nadd (snd (fst x)) (snd (fst y)), (nadd (fst (snd x)) (fst (snd y)), nadd (snd (snd x)) (snd (snd y)))).
  Definition mat_mul (x y : mat) : mat :=
    (nadd (nmul (fst (fst x)) (fst (fst y))) (nmul (snd (fst x)) (fst (snd y))), nadd (nmul (fst (fst x)) (snd (fst y))) (nmul (snd (fst x)) (snd (snd y))),
     (nadd (nmul (fst (snd x)) (fst (fst y))) (nmul (snd (snd x)) (fst (snd y))), nadd (nmul (fst (snd x)) (snd (fst y))) (nmul (snd (snd x)) (snd (snd y))))).
  Definition mat_map (f : B -> B) (x : mat) : mat := (f (fst (fst x)), f (snd (fst x)), (f (fst (snd x)), f (snd (snd x)))).
  Definition mat_diag (a d : B) : mat := (a, n0, (n0, d)).
  Ltac entries := intros; repeat match goal with x : mat |- _ => destruct x as [[? ?] [? ?]] end; unfold mat_add, mat_mul, mat_map, mat_diag; cbn [fst snd];
    match goal with |- (?a, ?b, (?c, ?d)) = (?a', ?b', (?c', ?d')) => let E := fresh in assert (E : a = a' /\ b = b' /\ c = c' /\ d = d'); [|destruct E as (-> & -> & -> & ->); reflexivity] end.
  Lemma mat_assoc x y z : mat_mul x (mat_mul y z) = mat_mul (mat_mul x y) z.
  Proof. entries. rewrite !nmul_addl, !nmul_addr, !nmul_assoc. repeat split; apply nadd_swap. Qed.
  Definition matrix_ring : ncalg.
  Proof.
    refine (NcAlg mat (n0, n0, (n0, n0)) (mat_diag n1 n1) mat_add mat_mul (mat_map nopp) _ _ _ _ mat_assoc _ _ _ _ (fun c => mat_map (nscal c)) _ _ _ _ _ _).
    - entries. repeat split; apply nadd_comm.
    - entries. repeat split; apply nadd_assoc.
    - entries. repeat split; apply nadd_0.
    - entries. repeat split; apply nadd_opp.
    - entries. rewrite !nmul_1l, !(nmul_0l B), !nadd_0, !(nadd_0r B). auto.
    - entries. rewrite !nmul_1r, !(nmul_0r B), !nadd_0, !(nadd_0r B). auto.
    - entries. rewrite !nmul_addl. repeat split; apply nadd_swap.
    - entries. rewrite !nmul_addr. repeat split; apply nadd_swap.
    - entries. repeat split; apply nscal_1.
    - entries. repeat split; apply nscal_mul.
    - entries. repeat split; apply nscal_add.
    - entries. repeat split; apply nscal_addr.
    - entries. rewrite !nscal_mull, <- !nscal_addr. auto.
    - entries. rewrite !nscal_mulr, <- !nscal_addr. auto.
  Defined.
  Definition matrices : algebra_over A.
  Proof.
    refine (AlgOver A matrix_ring (fun a => (mat_map (scal a) : matrix_ring -> matrix_ring)) _ _ _ _ _ _ _); cbn.
    - entries. repeat split; apply scal_1.
    - entries. repeat split; apply scal_mul.
    - entries. repeat split; apply scal_add.
    - entries. repeat split; apply scal_addr.
    - entries. rewrite !scal_mull, <- !scal_addr. auto.
    - entries. rewrite !scal_mulr, <- !scal_addr. auto.
    - entries. repeat split; apply scal_inj.
  Defined.
End Matrices.

(** one more mode: the new annihilator is the matrix with a one in the upper right corner, the operators of the other modes stand on
    the diagonal with opposite signs *)
Section OneMore.
  Context {A : qalg} (F : fermions A).
  Local Notation M := (matrices F).
  Definition signs (x : F) : M := mat_diag F x (nopp x).
  Definition raise : M := ((n0, n0, (n1, n0)) : mat F).
  Definition lower : M := ((n0, n1, (n0, n0)) : mat F).
  Lemma opp_mul (x y : F) : nmul (nopp x) y = nopp (nmul x y).
  Proof. apply nopp_unique. rewrite <- nmul_addl, nadd_opp. apply nmul_0l. Qed.
  Lemma mul_opp (x y : F) : nmul x (nopp y) = nopp (nmul x y).
  Proof. apply nopp_unique. rewrite <- nmul_addr, nadd_opp. apply nmul_0r. Qed.
  Lemma opp_opp (x : F) : nopp (nopp x) = x.
  Proof. symmetry. apply nopp_unique. rewrite nadd_comm. apply nadd_opp. Qed.
  Ltac simpl_entries := cbn [nadd nmul n0 n1 over matrices matrix_ring signs raise lower mat_diag]; unfold mat_add, mat_mul, signs, raise, lower, mat_diag; cbn [fst snd]; rewrite ?opp_mul, ?mul_opp, ?opp_opp, ?(nmul_0l F), ?(nmul_0r F), ?nmul_1l, ?nmul_1r, ?(nopp_0 F), ?nadd_0, ?(nadd_0r F).
  Lemma signs_pair (x y c : F) : nadd (nmul x y) (nmul y x) = c -> nadd (nmul (signs x) (signs y)) (nmul (signs y) (signs x)) = (mat_diag F c c : M).
  Proof. intros H. simpl_entries. rewrite H. reflexivity. Qed.
  Lemma raise_signs (x : F) : nadd (nmul raise (signs x)) (nmul (signs x) raise) = n0.
  Proof. simpl_entries. rewrite nadd_opp. reflexivity. Qed.
  Lemma lower_signs (x : F) : nadd (nmul lower (signs x)) (nmul (signs x) lower) = n0.
  Proof. simpl_entries. rewrite (nadd_comm _ (nopp x)), nadd_opp. reflexivity. Qed.
  Lemma raise_raise : nadd (nmul raise raise) (nmul raise raise) = n0. Proof. simpl_entries. reflexivity. Qed.
  Lemma lower_lower : nadd (nmul lower lower) (nmul lower lower) = n0. Proof. simpl_entries. reflexivity. Qed.
  Lemma lower_raise : nadd (nmul lower raise) (nmul raise lower) = n1. Proof. simpl_entries. reflexivity. Qed.
  Definition one_more : fermions A.
  Proof.
    refine (Fermions A M (Datatypes.S (modes F)) (fun p => if p =? modes F then raise else signs (creator p)) (fun p => if p =? modes F then lower else signs (annihilator p)) _ _ _).
    - intros p q Hp Hq. destruct (Nat.eqb_spec p (modes F)) as [Ep|Np], (Nat.eqb_spec q (modes F)) as [Eq|Nq]; [apply raise_raise|apply raise_signs|rewrite nadd_comm; apply raise_signs|]. rewrite (signs_pair _ _ n0) by (apply anti_creators; lia). reflexivity.
    - intros p q Hp Hq. destruct (Nat.eqb_spec p (modes F)) as [Ep|Np], (Nat.eqb_spec q (modes F)) as [Eq|Nq]; [apply lower_lower|apply lower_signs|rewrite nadd_comm; apply lower_signs|]. rewrite (signs_pair _ _ n0) by (apply anti_annihilators; lia). reflexivity.
    - intros p q Hp Hq. destruct (Nat.eqb_spec p (modes F)) as [Ep|Np], (Nat.eqb_spec q (modes F)) as [Eq|Nq]; subst.
      + rewrite Nat.eqb_refl. apply lower_raise.
      + rewrite lower_signs. destruct (Nat.eqb_spec (modes F) q); [congruence|reflexivity].
      + rewrite nadd_comm, raise_signs. destruct (Nat.eqb_spec p (modes F)); [congruence|reflexivity].
      + rewrite (signs_pair _ _ _ (anti_mixed _ F p q ltac:(lia) ltac:(lia))). destruct (p =? q); reflexivity.
  Defined.
End OneMore.
Definition no_modes (A : qalg) : fermions A.
Proof. refine (Fermions A (scalars A) 0 (fun _ => q0) (fun _ => q0) _ _ _); intros; lia. Defined.
Fixpoint matrix_fermions (A : qalg) (n : nat) : fermions A := match n with 0 => no_modes A | Datatypes.S m => one_more (matrix_fermions A m) end.
Lemma matrix_modes A n : modes (matrix_fermions A n) = n.
Proof. induction n as [|n IH]; [reflexivity|]. cbn [matrix_fermions one_more modes]. f_equal. exact IH. Qed.

(** ** States *)
(** the expectation value in the uncorrelated state with given occupations *)
Fixpoint matrix_mean (A : qalg) (occ : nat -> A) (n : nat) : matrix_fermions A n -> A :=
  match n with
  | 0 => fun x => x
  | Datatypes.S m => fun x : mat (matrix_fermions A m) => ((q1 - occ m) * matrix_mean A occ m (fst (fst x)) + occ m * matrix_mean A occ m (snd (snd x)))%alg
  end.
Section States.
  Context (A : qalg) (occ : nat -> A).
  Add Ring alg_ring41 : (q_ring A).
  Lemma mean_add n : forall x y, matrix_mean A occ n (nadd x y) = (matrix_mean A occ n x + matrix_mean A occ n y)%alg.
  Proof.
    induction n as [|n IH]; intros x y; [reflexivity|]. change (@nadd (matrix_fermions A (Datatypes.S n)) x y) with (mat_add (matrix_fermions A n) x y). cbn [matrix_mean mat_add fst snd]. unfold mat_add. cbn [fst snd]. rewrite !IH. ring.
  Qed.
  Lemma mean_scal n : forall a x, matrix_mean A occ n (scal a x) = (a * matrix_mean A occ n x)%alg.
  Proof.
    induction n as [|n IH]; intros a x; [reflexivity|]. change (@scal A (matrix_fermions A (Datatypes.S n)) a x) with (mat_map (matrix_fermions A n) (scal a) x). cbn [matrix_mean]. unfold mat_map. cbn [fst snd]. rewrite !IH. ring.
  Qed.
  Lemma mean_one n : matrix_mean A occ n n1 = q1.
  Proof.
    induction n as [|n IH]; [reflexivity|]. change (@n1 (matrix_fermions A (Datatypes.S n))) with (mat_diag (matrix_fermions A n) n1 n1). cbn [matrix_mean]. unfold mat_diag. cbn [fst snd]. rewrite !IH. ring.
  Qed.
End States.
