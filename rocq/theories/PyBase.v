(** Shared vocabulary of the model: Python results, comparison operators of
    tuples and lists, and the few itertools functions used by the code. *)
From Coq Require Export List Arith Bool Lia Permutation.
From Coq Require Import Ascii String.
Export ListNotations.

(** Python exceptions that the modelled functions can raise. *)
Inductive pyexn : Type :=
| ValueError | TypeError | IndexError | KeyError | AttributeError | NotImplementedErr
| FuelExhausted.   (* model artefact: recursion fuel ran out; excluded in every theorem *)

Inductive pyres (A : Type) : Type :=
| Ok (a : A)
| Raise (e : pyexn).
Arguments Ok {A} a.
Arguments Raise {A} e.

Definition pybind {A B} (m : pyres A) (f : A -> pyres B) : pyres B :=
  match m with Ok a => f a | Raise e => Raise e end.

(** [for x in l: ys.append(f(x))] with the first exception propagating. *)
Fixpoint pymap {A B} (f : A -> pyres B) (l : list A) : pyres (list B) :=
  match l with
  | [] => Ok []
  | x :: l' => pybind (f x) (fun y => pybind (pymap f l') (fun ys => Ok (y :: ys)))
  end.

(** The five comparison methods of a Python class. *)
Record pyord (A : Type) : Type := PyOrd {
  peq : A -> A -> bool;      (* __eq__ *)
  plt : A -> A -> bool;      (* __lt__ *)
  ple : A -> A -> bool;      (* __le__ *)
  pgt : A -> A -> bool;      (* __gt__ *)
  pge : A -> A -> bool }.    (* __ge__ *)
Arguments PyOrd {A}.
Arguments peq {A}. Arguments plt {A}. Arguments ple {A}. Arguments pgt {A}. Arguments pge {A}.

(** Python integers (only non-negative ones occur as keys here). *)
Definition nat_ord : pyord nat :=
  PyOrd Nat.eqb Nat.ltb Nat.leb (fun a b => Nat.ltb b a) (fun a b => Nat.leb b a).

(** Tuples [(a1, b1) op (a2, b2)]: CPython's tuple comparison looks for the
    first position where the items differ (by ==) and applies the operator there. *)
Definition pair_op {A B} (oa : pyord A) (opa : A -> A -> bool) (opb : B -> B -> bool)
  (x y : A * B) : bool :=
  if peq oa (fst x) (fst y) then opb (snd x) (snd y) else opa (fst x) (fst y).

Definition pair_ord {A B} (oa : pyord A) (ob : pyord B) : pyord (A * B) :=
  PyOrd (fun x y => peq oa (fst x) (fst y) && peq ob (snd x) (snd y))
        (pair_op oa (plt oa) (plt ob))
        (pair_op oa (ple oa) (ple ob))
        (pair_op oa (pgt oa) (pgt ob))
        (pair_op oa (pge oa) (pge ob)).

(** Lists [l1 op l2]: first differing item, otherwise the lengths are compared. *)
Fixpoint list_op {A} (oa : pyord A) (opa : A -> A -> bool) (opn : nat -> nat -> bool)
  (l1 l2 : list A) : bool :=
  match l1, l2 with
  | a :: l1', b :: l2' => if peq oa a b then list_op oa opa opn l1' l2' else opa a b
  | _, _ => opn (List.length l1) (List.length l2)
  end.

Fixpoint list_eq {A} (oa : pyord A) (l1 l2 : list A) : bool :=
  match l1, l2 with
  | [], [] => true
  | a :: l1', b :: l2' => peq oa a b && list_eq oa l1' l2'
  | _, _ => false
  end.

Definition list_ord {A} (oa : pyord A) : pyord (list A) :=
  PyOrd (list_eq oa)
        (list_op oa (plt oa) Nat.ltb)
        (list_op oa (ple oa) Nat.leb)
        (list_op oa (pgt oa) (fun a b => Nat.ltb b a))
        (list_op oa (pge oa) (fun a b => Nat.leb b a)).

(** Comparison of objects through a key, e.g. [self.comparison_tuple < other.comparison_tuple]. *)
Definition key_ord {A K} (key : A -> K) (ok : pyord K) : pyord A :=
  PyOrd (fun a b => peq ok (key a) (key b)) (fun a b => plt ok (key a) (key b))
        (fun a b => ple ok (key a) (key b)) (fun a b => pgt ok (key a) (key b))
        (fun a b => pge ok (key a) (key b)).

(** Python strings compare by code points. *)
Definition char_ord : pyord ascii := key_ord nat_of_ascii nat_ord.
Definition string_ord : pyord string := key_ord list_ascii_of_string (list_ord char_ord).

(** [(-1) ** n] for a natural number n. *)
From Coq Require Import ZArith.
Definition sgn (n : nat) : Z := if Nat.even n then 1%Z else (-1)%Z.

(** itertools.product of a list of iterables (rightmost varies fastest). *)
Fixpoint iproduct {A} (ls : list (list A)) : list (list A) :=
  match ls with
  | [] => [[]]
  | l :: ls' => flat_map (fun x => map (cons x) (iproduct ls')) l
  end.

(** itertools.combinations(l, r), in the documented lexicographic order. *)
Fixpoint combinations {A} (l : list A) (r : nat) : list (list A) :=
  match r, l with
  | 0, _ => [[]]
  | S _, [] => []
  | S r', x :: l' => map (cons x) (combinations l' r') ++ combinations l' r
  end.

(** All ways to pick one element: (picked, rest), from left to right. *)
Fixpoint picks {A} (l : list A) : list (A * list A) :=
  match l with
  | [] => []
  | x :: l' => (x, l') :: map (fun p => (fst p, x :: snd p)) (picks l')
  end.

(** itertools.permutations(l), in the documented lexicographic (by position) order. *)
Fixpoint permutations_fuel {A} (fuel : nat) (l : list A) : list (list A) :=
  match fuel with
  | 0 => [[]]
  | S fuel' =>
      match l with
      | [] => [[]]
      | _ => flat_map (fun p => map (cons (fst p)) (permutations_fuel fuel' (snd p))) (picks l)
      end
  end.
Definition permutations {A} (l : list A) : list (list A) := permutations_fuel (List.length l) l.

(** Number of inversions of a list with respect to a strict comparison:
    pairs i < j with [ltb l_j l_i]. SymPy's [Permutation(p).inversions()] is
    [inversions Nat.ltb p] for the array form p. *)
Fixpoint inversions {A} (ltb : A -> A -> bool) (l : list A) : nat :=
  match l with
  | [] => 0
  | x :: l' => List.length (filter (fun y => ltb y x) l') + inversions ltb l'
  end.
