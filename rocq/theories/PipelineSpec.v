(** The operators that generated code computes. *)
From Coq Require Import Ascii String ZArith QArith Qcanon.
From Verif Require Import PyBase SpaceModel IndexModel IndicesModel ElemModel MacroModel TermModel BchSpec ValueSpec TermSpec SymmetryModel CombineModel FockSpec PropOperator SeriesSpec AmbitModel AmbitSpec.
Local Close Scope Q_scope.
Local Close Scope Qc_scope.
Local Open Scope nat_scope.
Local Notation length := List.length.

Section Stored.
  Context {A : qalg} (B : fermions A) (v : tvaluation A) (S : system).
  (** the n-body operator with the entries of an array: annihilators first, then creators *)
  Definition stored_operator (n : nat) (f : array A) : B :=
    nscal (inv_sq n) (nsum (map (fun o => scal (f o) (normal_product B v (written (skipn n o) (firstn n o)))) (tuples S (2 * n)))).
  (** the sum of the operators in the results C0, C1, ... *)
  Definition stored_sum (bodies : list nat) (results : nat -> array A) : B := nsum (map (fun n => stored_operator n (results n)) bodies).
End Stored.
(** the numbers of creators that occur, each once *)
Definition bodies (input : list term) : list nat := nodup Nat.eq_dec (map (fun t => length (ann (tsq t))) input).
