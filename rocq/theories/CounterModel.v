(** Model of SpaceCounter.py. *)
From Coq Require Import Ascii String.
From Verif Require Import PyBase SpaceModel IndicesModel.
Local Notation length := List.length.

(** The two sides of a Tensor or SecondQuantizedOperator, and its class of indices. *)
Record sided : Type := Sided { s_type : itype; s_upper : list idx; s_lower : list idx }.

(** Names of the attributes of Tensor and SecondQuantizedOperator objects (IndicesPair.py, Tensor.py, SQOperator.py; methods,
    properties and fields). None of the classes defines __getattr__. *)
Definition attributes : list string :=
  ["_upper_indices"; "_lower_indices"; "_name"; "_priority"; "_excitation"; "upper_indices"; "lower_indices"; "n_upper"; "n_lower"; "size"; "n_body";
   "indices_set"; "indices"; "indices_type"; "is_empty"; "clone"; "latex"; "ambit"; "latex_permute_format"; "ambit_permute_format"; "exist_permute_format";
   "n_multiset_permutation"; "any_overlapped_indices"; "diagonal_indices"; "is_spin_conserving"; "canonicalize"; "canonicalize_indices"; "generate_spin_cases";
   "generate_spin_cases_indices"; "generate_singlet_adaptation"; "permute_indices"; "asym_bsgs"; "sym_bsgs"; "base_strong_generating_set"; "name"; "priority";
   "from_indices"; "comparison_tuple"; "downgrade_indices"; "is_all_active"; "subclasses"; "subclasses_alias"; "register_subclass"; "make_tensor"; "make_empty";
   "cre_ops"; "ann_ops"; "n_cre"; "n_ann"; "n_ops"; "is_particle_conserving"; "is_possible_excitation"; "void"; "expand";
   "_is_valid_operand"; "_is_valid_operand_indices"]%string.
Definition get_attribute {A} (name : string) (value : A) : pyres A :=
  if existsb (String.eqb name) attributes then Ok value else Raise AttributeError.

Record counter : Set := Counter { c_upper : list nat; c_lower : list nat; c_nupper : nat; c_nlower : nat }.

(** self._upper[k] += 1 *)
Fixpoint incr (k : nat) (l : list nat) : list nat :=
  match l, k with
  | [], _ => []
  | x :: l', 0 => S x :: l'
  | x :: l', S k' => x :: incr k' l'
  end.
(** _space_priority[index.space]: 6 spaces for spin orbitals, 12 otherwise *)
Definition n_spaces (t : itype) : nat := match t with SpinOrbital => 6 | _ => 12 end.
Fixpoint count_spaces (n : nat) (l : list idx) (counts : list nat) : pyres (list nat) :=
  match l with
  | [] => Ok counts
  | i :: l' => if priority (fst i) <? n then count_spaces n l' (incr (priority (fst i)) counts) else Raise KeyError
  end.
(** A.indices_set & B.indices_set in some order *)
Definition common (a b : list idx) : list idx := filter (fun i => mem_idx i b) a.

(** SpaceCounter.py:24-40 for an object with the attribute [type_of_indices] *)
Definition count_common (t1 t2 : sided) : pyres counter :=
  let n := n_spaces (s_type t1) in
  pybind (count_spaces n (common (s_upper t1) (s_lower t2)) (repeat 0 n)) (fun upper =>
  pybind (count_spaces n (common (s_lower t1) (s_upper t2)) (repeat 0 n)) (fun lower =>
  Ok (Counter upper lower (list_sum upper) (list_sum lower)))).
(** SpaceCounter.py:9-40; [attribute] is the name it reads *)
Definition space_counter_reading (attribute : string) (t1 t2 : sided) : pyres counter :=
  pybind (get_attribute attribute (s_type t1)) (fun a =>
  pybind (get_attribute attribute (s_type t2)) (fun b =>
  match a, b with
  | SpinAdapted, SpinAdapted | Antisymmetric, Antisymmetric | SpinOrbital, SpinOrbital | SpinIntegrated, SpinIntegrated => count_common t1 t2
  | _, _ => Raise ValueError
  end)).
Definition space_counter : sided -> sided -> pyres counter := space_counter_reading "type_of_indices".

(** SpaceCounter.py:58-59 *)
Definition c_size (c : counter) : nat := c_nupper c + c_nlower c.
(** SpaceCounter.py:61-89; the operand check compares the lengths of the lists *)
Definition counts_ord : pyord (list nat * list nat) := pair_ord (list_ord nat_ord) (list_ord nat_ord).
Definition sized_ord : pyord (nat * (list nat * list nat)) := pair_ord nat_ord counts_ord.
Definition counts (c : counter) : list nat * list nat := (c_upper c, c_lower c).
Definition checked {A} (a b : counter) (r : A) : pyres A := if length (c_upper a) =? length (c_upper b) then Ok r else Raise ValueError.
Definition counter_eq (a b : counter) : pyres bool := checked a b (peq counts_ord (counts a) (counts b)).
Definition counter_ne (a b : counter) : pyres bool := checked a b (negb (peq counts_ord (counts a) (counts b))).
Definition counter_lt (a b : counter) : pyres bool := checked a b (plt sized_ord (c_size a, counts a) (c_size b, counts b)).
Definition counter_le (a b : counter) : pyres bool := checked a b (ple sized_ord (c_size a, counts a) (c_size b, counts b)).
Definition counter_gt (a b : counter) : pyres bool := checked a b (pgt sized_ord (c_size a, counts a) (c_size b, counts b)).
Definition counter_ge (a b : counter) : pyres bool := checked a b (pge sized_ord (c_size a, counts a) (c_size b, counts b)).

(** SpaceCounter.py:94-98 *)
Definition transpose (c : counter) : counter := Counter (c_lower c) (c_upper c) (c_nlower c) (c_nupper c).
