(** Values of lists of terms in algebras that need not be commutative. *)
From Coq Require Import Ascii String ZArith QArith Qcanon.
From Verif Require Import PyBase SpaceModel IndicesModel TermModel CombineModel CombineSpec BchModel BchSpec.
Local Close Scope Q_scope.
Local Close Scope Qc_scope.
Local Open Scope nat_scope.

(** what the product of some tensors with an operator stands for *)
Definition interpretation (A : ncalg) : Type := list (string * list idx * list idx) -> list idx * list idx -> A.
(** the order of the tensors does not matter *)
Definition unsorted {A} (m : interpretation A) : Prop := forall xs xs' o, Permutation xs xs' -> m xs o = m xs' o.
Definition term_meaning {A : ncalg} (m : interpretation A) (t : term) : A := nscal (tcoeff t) (m (fst (labels t)) (snd (labels t))).
Definition meaning {A : ncalg} (m : interpretation A) (l : list term) : A := nsum (map (term_meaning m) l).
(** a rational number that is not taken for zero *)
Definition inv_fact (n : nat) : Qc := Qcinv (Qc_of_Z (Z.of_nat (fact n))).

(** the coefficient is a whole number of units *)
Definition in_units (u : Qc) (t : term) : Prop := exists z : Z, tcoeff t = Qcmult (Qc_of_Z z) u.
(** spin orbital tensors with the names, classes and priorities of the given ones or of the densities *)
Definition drawn_from (tensors : list tensor) (t : term) : Prop :=
  ttype t = SpinOrbital /\
  forall y, In y (ttensors t) -> titype y = SpinOrbital /\ exists x, In x (tensors ++ driver_tensors) /\ tname y = tname x /\ tcls y = tcls x /\ tpriority y = tpriority x.
(** a class of terms for every level, closed under changes of the coefficient that stay in whole units and under copying *)
Record term_class (tensors : list tensor) (unit : nat -> Qc) (member : nat -> term -> Prop) : Prop := {
  tc_terms : forall i t, member i t -> drawn_from tensors t /\ in_units (unit i) t;
  tc_coefficient : forall i t c, member i t -> in_units (unit i) (set_coeff t c) -> member i (set_coeff t c);
  tc_copy : forall i t t', member i t -> from_term t = Ok t' -> member i t' }.
(** [sc] computes 1/i times the commutator at level i *)
Definition computes_commutator {A} (m : interpretation A) (member : nat -> term -> Prop) (sc : nat -> nat -> nat -> term -> term -> pyres (list term)) (rights : list (list term)) : Prop :=
  forall k rs a b l r out, nth_error rights k = Some rs -> In r rs -> member k l -> sc (S k) a b l r = Ok out ->
  Forall (member (S k)) out /\ meaning m out = nscal (inv_nat (S k)) (bracket (term_meaning m l) (term_meaning m r)).
