(** Fermion operators in an algebra, their normal products with respect to given densities and cumulants, and the operator that
    a term stands for. Nothing here refers to the contraction code. *)
From Coq Require Import Ascii String ZArith QArith Qcanon.
From Verif Require Import PyBase SpaceModel IndicesModel ElemModel TermModel BchSpec ValueSpec FamilySpec IndicesProofs TermSpec.
Local Close Scope Q_scope.
Local Close Scope Qc_scope.
Local Open Scope nat_scope.
Local Notation length := List.length.

(** associative algebras over a commutative algebra *)
Record algebra_over (A : qalg) : Type := AlgOver {
  over :> ncalg;
  scal : A -> over -> over;
  scal_1 : forall x, scal q1 x = x;
  scal_mul : forall a b x, scal (a * b)%alg x = scal a (scal b x);
  scal_add : forall a b x, scal (a + b)%alg x = nadd (scal a x) (scal b x);
  scal_addr : forall a x y, scal a (nadd x y) = nadd (scal a x) (scal a y);
  scal_mull : forall a x y, nmul (scal a x) y = scal a (nmul x y);
  scal_mulr : forall a x y, nmul x (scal a y) = scal a (nmul x y);
  scal_inj : forall c x, scal (inj c) x = nscal c x }.
Arguments scal {_ _}.

(** creators and annihilators of a number of modes (spin orbitals) with the canonical anticommutation relations *)
Record fermions (A : qalg) : Type := Fermions {
  fock :> algebra_over A;
  modes : nat;
  creator : nat -> fock;
  annihilator : nat -> fock;
  anti_creators : forall p q, p < modes -> q < modes -> nadd (nmul (creator p) (creator q)) (nmul (creator q) (creator p)) = n0;
  anti_annihilators : forall p q, p < modes -> q < modes -> nadd (nmul (annihilator p) (annihilator q)) (nmul (annihilator q) (annihilator p)) = n0;
  anti_mixed : forall p q, p < modes -> q < modes -> nadd (nmul (annihilator p) (creator q)) (nmul (creator q) (annihilator p)) = if p =? q then n1 else n0 }.
Arguments creator {_ _}. Arguments annihilator {_ _}. Arguments modes {_}.

(** a creator (true) or an annihilator (false) of an orbital *)
Definition factor : Type := (bool * nat)%type.
Definition creators (w : list factor) : list nat := map snd (filter (fun x => fst x) w).
Definition annihilators (w : list factor) : list nat := map snd (filter (fun x => negb (fst x)) w).
(** the number of pairs with an annihilator before a creator *)
Fixpoint crossings (w : list factor) : nat :=
  match w with [] => 0 | x :: w' => (if fst x then 0 else length (creators w')) + crossings w' end.

Section Fock.
  Context {A : qalg} (B : fermions A) (v : tvaluation A).
  (** the product of a string *)
  Definition string_product (w : list factor) : B := nprod (map (fun x : factor => if fst x then creator (snd x) else annihilator (snd x)) w).
  (** The value of the contraction of a group: <a+ a> is the density matrix, <a a+> is delta minus the density matrix; for more legs
      the cumulant of the creators and, from right to left, the annihilators, with the sign of bringing the creators to the front. *)
  Definition contraction (g : list factor) : A :=
    match g with
    | [(false, q); (true, p)] => ((if p =? q then q1 else q0) - vtensor v TCumulant "L" [p] [q])%alg
    | _ => if (0 <? length g) && (length (creators g) =? length (annihilators g))
           then (zin (sgn (crossings g)) * vtensor v TCumulant "L" (creators g) (rev (annihilators g)))%alg else q0
    end.
  (** A string in normal order with respect to the densities: all contractions are subtracted. *)
  Definition normal_product (w : list factor) : B :=
    nsum (map (fun p => let '(s, gs, r) := p in scal (signed s (aprod (map (fun g => (- contraction g)%alg) gs))) (string_product r)) (families (length w) w)).
  (** the string of an operator for given orbitals: creators, then annihilators from right to left *)
  Definition op_string (e : idx -> nat) (o : op) : list factor := map (fun i => (true, e i)) (cre o) ++ map (fun i => (false, e i)) (rev (ann o)).
  (** the operator a term stands for: coefficient times the sum over all orbitals of the tensors times the normal product *)
  Definition term_operator (S : system) (t : term) : B :=
    let I := nodup idx_eq_dec (content_indices (ttensors t) (tsq t)) in
    nscal (tcoeff t) (nsum (map (fun a => let e := env I a in scal (aprod (map (tensor_value v e) (ttensors t))) (normal_product (op_string e (tsq t)))) (assignments S I))).
  (** the operator that a sum of terms stands for *)
  Definition list_operator (S : system) (l : list term) : B := nsum (map (term_operator S) l).
  (** A linear map that keeps the normal products of lo to hi factors and removes those of other lengths up to n. *)
  Record keeps (lo hi : Z) (n : nat) (T : B -> B) : Prop := {
    keeps_add : forall x y, T (nadd x y) = nadd (T x) (T y);
    keeps_scal : forall a x, T (scal a x) = scal a (T x);
    keeps_inside : forall w, Forall (fun x : factor => snd x < modes B) w -> length w <= n -> (lo <= Z.of_nat (length w) <= hi)%Z -> T (normal_product w) = normal_product w;
    keeps_outside : forall w, Forall (fun x : factor => snd x < modes B) w -> length w <= n -> ~ (lo <= Z.of_nat (length w) <= hi)%Z -> T (normal_product w) = n0 }.
End Fock.
(** tensors are antisymmetric in their upper and in their lower indices *)
Definition antisymmetric_tensors {A} (v : tvaluation A) : Prop :=
  (forall c n l, alternates (fun u => vtensor v c n u l)) /\ (forall c n u, alternates (fun l => vtensor v c n u l)).
(** cumulants of more than k bodies are zero; no condition if k is not positive *)
Definition no_cumulants_above {A} (k : Z) (v : tvaluation A) : Prop :=
  forall n us ls, (1 <= k)%Z -> (k < Z.of_nat (length us))%Z -> vtensor v TCumulant n us ls = q0.
