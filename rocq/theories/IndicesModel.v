(** Model of dsrg_generator/Indices.py (sorting, signs, spin cases) and the
    corresponding parts of IndicesPair.py, on canonical indices (label, number). *)
From Verif Require Import PyBase SpaceModel.
From Coq Require Import ZArith.

(** Index comparison (Index.py:51-73) on canonical indices. *)
Definition idx_eqb (a b : idx) : bool := label_eqb (fst a) (fst b) && (snd a =? snd b).
Definition idx_key (i : idx) : nat * nat := (priority (fst i), snd i).
Definition idx_ord : pyord idx :=
  let o := pair_ord nat_ord nat_ord in
  PyOrd idx_eqb
        (fun a b => plt o (idx_key a) (idx_key b)) (fun a b => ple o (idx_key a) (idx_key b))
        (fun a b => pgt o (idx_key a) (idx_key b)) (fun a b => pge o (idx_key a) (idx_key b)).

Definition mem_idx (i : idx) (l : list idx) : bool := existsb (idx_eqb i) l.

(** Indices.py:25-53. The positions i, j of the loop are represented by the
    suffixes left[i:], right[j:]; n_left - i is the length of the first suffix. *)
Fixpoint merge_count {A} (le : A -> A -> bool) (left : list A) : list A -> list A * nat :=
  fix inner (right : list A) : list A * nat :=
    match left, right with
    | [], _ => (right, 0)
    | _, [] => (left, 0)
    | x :: left', y :: right' =>
        if le x y
        then let '(r, c) := merge_count le left' right in (x :: r, c)
        else let '(r, c) := inner right' in (y :: r, c + length left)
    end.

(** Indices.py:10-22; recursion on the array length is fuelled. *)
Fixpoint sort_and_count_fuel {A} (fuel : nat) (le : A -> A -> bool) (array : list A) : pyres (list A * nat) :=
  match fuel with
  | 0 => Raise FuelExhausted
  | S fuel' =>
      let n := length array in
      if n <=? 1 then Ok (array, 0)
      else
        let n_half := n / 2 in
        pybind (sort_and_count_fuel fuel' le (firstn n_half array)) (fun lx =>
        pybind (sort_and_count_fuel fuel' le (skipn n_half array)) (fun ry =>
        let '(result, z) := merge_count le (fst lx) (fst ry) in
        Ok (result, snd lx + snd ry + z)))
  end.
Definition sort_and_count_inversions {A} (le : A -> A -> bool) (array : list A) : pyres (list A * nat) :=
  sort_and_count_fuel (S (length array)) le array.

(** The four index classes (Indices.py:367, 427, 497, 532). *)
Inductive itype : Set := SpinAdapted | Antisymmetric | SpinOrbital | SpinIntegrated.
Definition itype_antisymmetric (t : itype) : bool :=
  match t with SpinAdapted => false | _ => true end.

(** Indices.py:263-268 (base, spin-adapted) and 435-444 (antisymmetric). *)
Definition canonicalize_indices (t : itype) (l : list idx) : pyres (list idx * Z) :=
  if itype_antisymmetric t then
    if length l <=? 1 then Ok (l, 1%Z)
    else pybind (sort_and_count_inversions (ple idx_ord) l) (fun rc => Ok (fst rc, sgn (snd rc)))
  else Ok (l, 1%Z).

(** IndicesPair.py:235-242 *)
Definition canonicalize_pair (t : itype) (upper lower : list idx) : pyres (list idx * list idx * Z) :=
  pybind (canonicalize_indices t upper) (fun us =>
  pybind (canonicalize_indices t lower) (fun ls =>
  Ok (fst us, fst ls, (snd us * snd ls)%Z))).

(** Indices.py:203-210 [is_permutation]: equality of the index sets. *)
Definition is_permutation (a b : list idx) : bool :=
  forallb (fun x => mem_idx x b) a && forallb (fun x => mem_idx x a) b.

(** dictionary index -> position (Indices.py:225-227); [None] = KeyError *)
Fixpoint position (x : idx) (l : list idx) : option nat :=
  match l with
  | [] => None
  | y :: l' => if idx_eqb x y then Some 0 else option_map S (position x l')
  end.

(** Indices.py:212-232 *)
Definition count_permutations (self other : list idx) : pyres nat :=
  if is_permutation self other then
    pybind (pymap (fun v => match position v self with Some k => Ok k | None => Raise KeyError end) other)
      (fun permuted => Ok (inversions Nat.ltb permuted))
  else Raise ValueError.

(** Index.py:84-91 on canonical indices *)
Definition idx_beta (i : idx) : bool := lbeta (fst i).
Definition idx_to_beta (i : idx) : idx := (Lab true (lsp (fst i)), snd i).
Definition idx_to_alpha (i : idx) : idx := (Lab false (lsp (fst i)), snd i).

(** Indices.py:355-356 *)
Definition n_beta (l : list idx) : nat := length (filter idx_beta l).

(** Repeated indices are rejected by every constructor (Indices.py:109-113). *)
Fixpoint nodup_idx (l : list idx) : bool :=
  match l with [] => true | x :: l' => negb (mem_idx x l') && nodup_idx l' end.
Definition make_si (l : list idx) : pyres (list idx) := if nodup_idx l then Ok l else Raise ValueError.

(** [indices[idx] = indices[idx].to_beta()] *)
Fixpoint set_beta (k : nat) (l : list idx) : list idx :=
  match l, k with
  | [], _ => []
  | x :: l', 0 => idx_to_beta x :: l'
  | x :: l', S k' => x :: set_beta k' l'
  end.

(** Indices.py:508-528; [None]: all spins, [Some k]: exactly k beta indices. *)
Definition spin_cases_all (l : list idx) : pyres (list (list idx)) :=
  pymap (fun spins => make_si (map (fun p => if snd p =? 0 then fst p else idx_to_beta (fst p)) (combine l spins)))
        (iproduct (repeat [0; 1] (length l))).
Definition spin_cases_k (k : Z) (l : list idx) : pyres (list (list idx)) :=
  if (Z.of_nat (length l) <? k)%Z then Raise ValueError
  else if (k <? 0)%Z then Raise ValueError   (* itertools.combinations: r must be non-negative *)
  else pymap (fun beta_indices => make_si (fold_left (fun is k => set_beta k is) beta_indices l))
             (combinations (seq 0 (length l)) (Z.to_nat k)).

(** IndicesPair.py:158-178 (spin-orbital pairs) *)
Definition spin_cases_pair (particle_conserving : bool) (upper lower : list idx)
  : pyres (list (list idx * list idx)) :=
  if particle_conserving && negb (length upper =? length lower) then Raise ValueError
  else
    pybind (spin_cases_all upper) (fun us =>
    pybind (pymap (fun u =>
              pybind (if particle_conserving then spin_cases_k (Z.of_nat (n_beta u)) lower else spin_cases_all lower)
                     (fun ls => Ok (map (pair u) ls))) us)
           (fun lls => Ok (concat lls))).

(** ** Comparison methods *)

(** Indices.py:146-168: tuples (size, list); comparing different classes raises (137-139). *)
Definition indices_ord : pyord (list idx) :=
  key_ord (fun l => (length l, l)) (pair_ord nat_ord (list_ord idx_ord)).
Definition itype_eqb (a b : itype) : bool :=
  match a, b with
  | SpinAdapted, SpinAdapted | Antisymmetric, Antisymmetric
  | SpinOrbital, SpinOrbital | SpinIntegrated, SpinIntegrated => true
  | _, _ => false
  end.
Definition indices_compare (op : pyord (list idx) -> list idx -> list idx -> bool)
  (a b : itype * list idx) : pyres bool :=
  if itype_eqb (fst a) (fst b) then Ok (op indices_ord (snd a) (snd b)) else Raise TypeError.

(** IndicesPair.py:93-115 (also the comparison methods of SecondQuantizedOperator) *)
Definition pair_indices_ord : pyord (list idx * list idx) := pair_ord indices_ord indices_ord.

(** Tensor.py:69-97; the tensor class itself plays no role in comparisons. *)
From Coq Require Import String.
Record tensor_key : Type := TensorKey {
  k_priority : Z; k_name : string; k_upper : list idx; k_lower : list idx }.
Definition comparison_tuple (t : tensor_key) : Z * (string * (nat * (list idx * list idx))) :=
  (k_priority t, (k_name t, (List.length (k_upper t) + List.length (k_lower t), (k_upper t, k_lower t)))).
Definition tensor_key_ord : pyord tensor_key :=
  key_ord comparison_tuple
    (pair_ord Z_ord (pair_ord string_ord (pair_ord nat_ord (pair_ord indices_ord indices_ord)))).
