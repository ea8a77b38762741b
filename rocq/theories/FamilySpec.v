(** Sums over all ways to take disjoint groups out of a string of elementary operators, and fermion operators that are
    normal ordered with respect to given densities. Nothing here refers to the code. *)
From Verif Require Import PyBase ValueSpec.
From Coq Require Import ZArith QArith Qcanon.
Local Close Scope Q_scope.
Local Close Scope Qc_scope.
Local Open Scope nat_scope.
Local Notation length := List.length.

Section Families.
  Context {X : Type}.
  (** every way to move some members of a string to the front; the flag tells whether the permutation is odd *)
  Fixpoint splits (w : list X) : list (bool * list X * list X) :=
    match w with
    | [] => [(false, [], [])]
    | x :: w' =>
        map (fun p => let '(s, g, r) := p in (s, x :: g, r)) (splits w') ++
        map (fun p => let '(s, g, r) := p in (xorb s (Nat.odd (length g)), g, x :: r)) (splits w')
    end.
  (** every way to take disjoint groups out of a string; the flag tells whether the permutation that puts the groups, one after the
      other, before the remaining members is odd. Every set of groups occurs once: a group is taken out when its first member is
      met. [n] is at least the length of the string. *)
  Fixpoint families (n : nat) (w : list X) : list (bool * list (list X) * list X) :=
    match n, w with
    | _, [] => [(false, [], [])]
    | 0, _ => []
    | S n', x :: w' =>
        map (fun p => let '(s, gs, r) := p in (xorb s (Nat.odd (length (concat gs))), gs, x :: r)) (families n' w') ++
        flat_map (fun q => let '(s, g, r) := q in
          map (fun p => let '(s', gs, r') := p in (xorb s s', (x :: g) :: gs, r')) (families n' r)) (splits w')
    end.
  Context {A : qalg}.
  Definition signed (s : bool) (a : A) : A := if s then (- a)%alg else a.
  (** the sum over all families of the product of the weights of the groups and the value of the rest *)
  Definition family_sum (k : list X -> A) (F : list X -> A) (w : list X) : A :=
    asum (map (fun p => let '(s, gs, r) := p in signed s (aprod (map k gs) * F r)%alg) (families (length w) w)).
End Families.
