(** Specification of integer partitions. *)
From Verif Require Import PyBase.
From Coq Require Import ZArith Sorting.Sorted.

Definition zsum (p : list Z) : Z := fold_right Z.add 0%Z p.

(** Non-increasing positive parts summing to n. *)
Definition is_partition (n : Z) (p : list Z) : Prop :=
  Forall (fun a => 1 <= a)%Z p /\ StronglySorted (fun a b => b <= a)%Z p /\ zsum p = n.

(** Strict lexicographic order on lists of integers. *)
Fixpoint lex_lt (p q : list Z) : Prop :=
  match p, q with
  | [], _ :: _ => True
  | a :: p', b :: q' => (a < b)%Z \/ (a = b /\ lex_lt p' q')
  | _, _ => False
  end.
