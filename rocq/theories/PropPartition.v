(** Properties C16, C17: integer partitions and two-part splits. *)
From Verif Require Import PyBase PartitionModel PartitionSpec PartitionProofs.
From Coq Require Import ZArith Sorting.Sorted.

(** C16. For n >= 2 every partition of n is yielded exactly once, in strictly
    decreasing lexicographic order, with no exception and finitely many rounds. *)
Theorem C16_integer_partition_complete :
  forall n, 2 <= n ->
  exists l, integer_partition n = Ok l /\ NoDup l /\ StronglySorted (fun p q => lex_lt q p) l /\
    forall p, In p l <-> is_partition (Z.of_nat n) p.
Proof. exact integer_partition_ok. Qed.
Print Assumptions C16_integer_partition_complete.

(** The partition [1] of 1 is never yielded; n = 0 raises. *)
Theorem C16_integer_partition_one_refuted :
  exists n p, 1 <= n /\ is_partition (Z.of_nat n) p /\
    exists l, integer_partition n = Ok l /\ ~ In p l.
Proof.
  exists 1, [1%Z]. split; [lia|]. split.
  - repeat constructor; simpl; lia.
  - exists []. split; [reflexivity|]. intros [].
Qed.
Print Assumptions C16_integer_partition_one_refuted.

Theorem C16_integer_partition_zero : integer_partition 0 = Raise IndexError.
Proof. reflexivity. Qed.
Print Assumptions C16_integer_partition_zero.

Example C16_example :
  integer_partition 4 = Ok [[4]; [3; 1]; [2; 2]; [2; 1; 1]; [1; 1; 1; 1]]%Z.
Proof. reflexivity. Qed.

(** C17. Two-part splits. *)
Theorem C17_integer_separation_complete :
  forall n z i j, In (i, j) (integer_separation n z) <->
    (i + j = n /\ if z then 0 <= i /\ 0 <= j else 1 <= i /\ 1 <= j)%Z.
Proof. exact integer_separation_in. Qed.
Print Assumptions C17_integer_separation_complete.

Theorem C17_integer_separation_increasing :
  forall n z, StronglySorted (fun p q => (fst p < fst q)%Z) (integer_separation n z).
Proof. exact integer_separation_sorted. Qed.
Print Assumptions C17_integer_separation_increasing.

Example C17_example : integer_separation 3 true = [(0, 3); (1, 2); (2, 1); (3, 0)]%Z.
Proof. reflexivity. Qed.
