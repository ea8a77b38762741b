(** Values of contractions and terms in a commutative algebra over the rationals. *)
From Verif Require Import PyBase SpaceModel ElemModel WickModel.
From Coq Require Import ZArith QArith Qcanon Ring_theory.

(** A commutative ring with a ring morphism from the rationals. *)
Record qalg : Type := QAlg {
  car :> Type;
  q0 : car; q1 : car;
  qadd : car -> car -> car; qmul : car -> car -> car; qsub : car -> car -> car; qopp : car -> car;
  q_ring : ring_theory q0 q1 qadd qmul qsub qopp (@eq car);
  inj : Qc -> car;
  inj_one : inj (Q2Qc 1) = q1;
  inj_add : forall x y, inj (Qcplus x y) = qadd (inj x) (inj y);
  inj_mul : forall x y, inj (Qcmult x y) = qmul (inj x) (inj y) }.
Arguments q0 {_}. Arguments q1 {_}. Arguments qadd {_}. Arguments qmul {_}. Arguments qsub {_}. Arguments qopp {_}. Arguments inj {_}.

(** The rationals are such an algebra. *)
Definition Qc_alg : qalg :=
  QAlg Qc (Q2Qc 0) (Q2Qc 1) Qcplus Qcmult Qcminus Qcopp Qcrt (fun x => x) eq_refl (fun _ _ => eq_refl) (fun _ _ => eq_refl).

Declare Scope alg_scope.
Delimit Scope alg_scope with alg.
Infix "+" := qadd : alg_scope.
Infix "*" := qmul : alg_scope.
Infix "-" := qsub : alg_scope.
Notation "- x" := (qopp x) : alg_scope.

Definition zin {A : qalg} (z : Z) : A := inj (Q2Qc (inject_Z z)).
Definition asum {A : qalg} (l : list A) : A := fold_right qadd q0 l.
Definition aprod {A : qalg} (l : list A) : A := fold_right qmul q1 l.

(** Values of densities and of open operators. *)
Record valuation (A : qalg) : Type := Val { vden : density -> A; vop : op -> A }.
Arguments vden {_}. Arguments vop {_}.

Definition entry_value {A} (v : valuation A) (e : entry) : A :=
  (zin (fst (fst e)) * aprod (map (vden v) (snd (fst e))) * vop v (snd e))%alg.
Definition result_value {A} (v : valuation A) (r : list (list entry)) : A := asum (map (entry_value v) (concat r)).

(** <a a+> = delta - <a+ a>, and <a+ a> vanishes for virtual orbitals. *)
Definition holes_ok {A} (v : valuation A) : Prop :=
  forall u l, vden v (Den KHole [u] [l]) =
    (vden v (Den KKronecker [u] [l]) -
     (if space_eqb (lsp (fst u)) Sv || space_eqb (lsp (fst l)) Sv then q0 else vden v (Den KCumulant [u] [l])))%alg.

(** Cumulants are antisymmetric in the upper and in the lower indices. *)
Definition cumulants_antisymmetric {A} (v : valuation A) : Prop :=
  (forall p x y q l, vden v (Den KCumulant (p ++ x :: y :: q) l) = (- vden v (Den KCumulant (p ++ y :: x :: q) l))%alg) /\
  (forall u p x y q, vden v (Den KCumulant u (p ++ x :: y :: q)) = (- vden v (Den KCumulant u (p ++ y :: x :: q)))%alg).
