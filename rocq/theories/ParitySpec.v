(** Specification of permutation signs, independent of inversion counting. *)
From Verif Require Import PyBase.
From Coq Require Import ZArith.

(** [swaps n l l']: l' is obtained from l by exchanging two neighbours n times. *)
Inductive swaps {A : Type} : nat -> list A -> list A -> Prop :=
| swaps_refl l : swaps 0 l l
| swaps_step n l1 x y l2 l' : swaps n (l1 ++ y :: x :: l2) l' -> swaps (S n) (l1 ++ x :: y :: l2) l'.

(** [s] is the sign of a reordering of [l] into [l']. *)
Definition reorder_sign {A} (l l' : list A) (s : Z) : Prop := exists n, swaps n l l' /\ s = sgn n.

(** The inverted pairs of positions of a list: i < j but l[j] before l[i]. *)
Definition inverted_pairs {A} (ltb : A -> A -> bool) (l : list A) : list (nat * nat) :=
  filter (fun p => (fst p <? snd p) &&
            match nth_error l (fst p), nth_error l (snd p) with
            | Some x, Some y => ltb y x
            | _, _ => false
            end)
         (list_prod (seq 0 (length l)) (seq 0 (length l))).

(** A quantity depending on a list of indices that changes sign when two
    neighbours are exchanged. *)
Definition alternating {A} (f : list A -> Z) : Prop :=
  forall l1 x y l2, f (l1 ++ x :: y :: l2) = (- f (l1 ++ y :: x :: l2))%Z.
