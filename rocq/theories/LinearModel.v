(** Model of linear_commutator and linear_commutator_amp with their argument lists (phys_op_contraction.py:204-246). *)
From Coq Require Import QArith Qcanon ZArith.
From Verif Require Import PyBase TermModel WickModel CombineModel.

(** phys_op_contraction.py:225-246 [linear_commutator]; the loops are in CombineModel.
    [ws left right] are the set orders, pool schedules and SymPy answers met by the two contract_terms of one single_commutator; expand_hole keeps its default. *)
Definition linear_commutator_py (ws : term -> term -> world * world) (left_terms right_terms : list term) (scale_factor : Qc) (min_n_open max_n_open max_cu : Z)
  (n_process : nat) (for_commutator hermitian_tensor : bool) : pyres (list term) :=
  linear_commutator (fun l r => single_commutator (fst (ws l r)) (snd (ws l r)) l r max_cu max_n_open min_n_open scale_factor for_commutator true n_process hermitian_tensor)
    left_terms right_terms.

(** phys_op_contraction.py:204-222 [linear_commutator_amp] *)
Definition linear_commutator_amp (ws : term -> term -> world * world) (left_terms : list term) (cluster_levels : list nat) (scale_factor : Qc) (min_n_open max_n_open : Z)
  (start n_process : nat) (unitary : bool) (max_cu : Z) (for_commutator single_reference hermitian_tensor : bool) : pyres (list term) :=
  pybind (cluster_operators cluster_levels start unitary single_reference) (fun amps =>
  linear_commutator_py ws left_terms amps scale_factor min_n_open max_n_open max_cu n_process for_commutator hermitian_tensor).
