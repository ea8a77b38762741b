(** Specification of compatibility and of the leg-level backtracking. *)
From Verif Require Import PyBase SpaceModel ElemModel.
From Coq Require Import ZArith.

(** Two contractions share no creator and no annihilator. *)
Definition disjoint_con (e f : econ) : Prop :=
  (forall i, In i (upper e) -> ~ In i (upper f)) /\ (forall i, In i (lower e) -> ~ In i (lower f)).

(** All sublists of a list: one for every subset of the positions. *)
Fixpoint powerset {A} (l : list A) : list (list A) :=
  match l with [] => [[]] | x :: l' => map (cons x) (powerset l') ++ powerset l' end.

(** Two lists of sets (given as lists) contain the same sets the same number of times. *)
Definition same_families {A} (ys zs : list (list A)) : Prop :=
  exists ys', Forall2 (@Permutation A) ys ys' /\ Permutation ys' zs.

(** Every two members are related. *)
Fixpoint pairwise {A} (r : A -> A -> bool) (l : list A) : bool :=
  match l with [] => true | x :: l' => forallb (r x) l' && pairwise r l' end.

(** [ys] lists every set satisfying [P] exactly once (a set is given by a repetition-free list;
    two lists with the same members are the same set). *)
Definition lists_each_set_once {A} (P : list A -> Prop) (ys : list (list A)) : Prop :=
  (forall y, In y ys -> NoDup y /\ P y) /\
  (forall s, NoDup s -> P s -> exists y, In y ys /\ Permutation y s) /\
  (forall i j a b, nth_error ys i = Some a -> nth_error ys j = Some b -> Permutation a b -> i = j).

(** number of members satisfying a test *)
Definition count {A} (p : A -> bool) (l : list A) : nat := List.length (filter p l).
