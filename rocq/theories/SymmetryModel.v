(** Model of the symmetry generators of dsrg_generator/IndicesPair.py (244-330) and
    dsrg_generator/SQOperator.py (181-191), and of Term.canonicalize_sympy
    (Term.py:681-793). SymPy's [canonicalize] is a parameter; SymPy's
    get_symmetric_group_sgs and bsgs_direct_product are transcribed; the passage from
    generators to a base and strong generating set of the same group
    (schreier_sims, get_minimal_bsgs) is left out. *)
From Coq Require Import Ascii String ZArith QArith Qcanon.
From Verif Require Import PyBase SpaceModel IndicesModel ElemModel MacroModel TermModel.
Local Close Scope Q_scope.
Local Close Scope Qc_scope.
Local Open Scope nat_scope.
Local Notation length := List.length.

(** ** Permutations in array form: the list of the images of 0, 1, ... *)
Definition swapped (i j k : nat) : nat := if k =? i then j else if k =? j then i else k.
(** zip(l[:-1], l[1:]) *)
Definition neighbours {A} (l : list A) : list (A * A) := combine (removelast l) (tl l).
Fixpoint set_nth {A} (k : nat) (v : A) (l : list A) : list A :=
  match l, k with
  | [], _ => []
  | _ :: l', 0 => v :: l'
  | x :: l', S k' => x :: set_nth k' v l'
  end.

(** p = list(range(size)); for i, j in zip(upper, lower): p[i] = j; p[j] = i
    (IndicesPair.py:285-289 and 316-320) *)
Definition exchange_array (size : nat) (pairs : list (nat * nat)) : list nat :=
  fold_left (fun p ij => set_nth (snd ij) (fst ij) (set_nth (fst ij) (snd ij) p)) pairs (seq 0 size).

(** IndicesPair.py:266-294 *)
Definition sym_perms (n_upper n_lower : nat) (hermitian : bool) : pyres (list (list nat)) :=
  if n_lower =? n_upper then
    let n := n_upper in
    let cre := seq 0 n in
    let ann := seq n n in
    let perms := map (fun ij => map (fun k => swapped (fst ij + n) (snd ij + n) (swapped (fst ij) (snd ij) k)) (seq 0 (2 * n + 2)))
                     (neighbours cre) in
    Ok (perms ++ [exchange_array (2 * n + 2) (if hermitian then combine cre ann else [])])
  else Raise ValueError.

(** sympy.combinatorics.tensor_can.get_symmetric_group_sgs(n, 1) *)
Definition get_symmetric_group_sgs (n : nat) : list (list nat) :=
  if n =? 1 then [seq 0 3]
  else map (fun ij => map (swapped (fst ij) (snd ij)) (seq 0 n) ++ [n + 1; n]) (neighbours (seq 0 n)).
(** sympy.combinatorics.tensor_can.bsgs_direct_product, the generators; gens[0] of an empty list is an IndexError *)
Definition direct_product (gens1 gens2 : list (list nat)) : pyres (list (list nat)) :=
  match gens1, gens2 with
  | h1 :: _, h2 :: _ =>
      let n1 := length h1 - 2 in
      let n2 := length h2 - 2 in
      let g1 := map (fun g => firstn n1 g ++ seq n1 n2 ++ map (fun x => x + n2) (skipn n1 g)) gens1 in
      let g2 := map (fun g => seq 0 n1 ++ map (fun x => x + n1) g) gens2 in
      let id_af := seq 0 (n1 + n2 + 2) in
      match filter (fun h => negb (key_eqb h id_af)) (g1 ++ g2) with [] => Ok [id_af] | gs => Ok gs end
  | _, _ => Raise IndexError
  end.

(** IndicesPair.py:296-324 *)
Definition asym_perms (n_upper n_lower : nat) (hermitian : bool) : pyres (list (list nat)) :=
  if hermitian then
    if n_upper =? n_lower then
      let size := n_upper + n_lower in
      let upper := seq 0 n_upper in
      let lower := seq n_upper (size - n_upper) in
      let perms l := map (fun ij => map (fun k => swapped size (size + 1) (swapped (fst ij) (snd ij) k)) (seq 0 (size + 2))) (neighbours l) in
      Ok (perms upper ++ perms lower ++ [exchange_array (size + 2) (combine upper lower)])
    else Raise ValueError
  else direct_product (get_symmetric_group_sgs n_upper) (get_symmetric_group_sgs n_lower).

(** IndicesPair.py:244-264 *)
Definition base_strong_generating_set (t : itype) (n_upper n_lower : nat) (hermitian no_sym : bool) : pyres (list (list nat)) :=
  if n_upper + n_lower =? 0 then Raise ValueError
  else if no_sym then
    if n_lower =? n_upper then Ok [seq 0 (2 * n_lower + 2)] else Raise ValueError
  else if itype_antisymmetric t then asym_perms n_upper n_lower hermitian
  else sym_perms n_upper n_lower hermitian.
(** SQOperator.py:181-191 *)
Definition op_generating_set (t : itype) (o : op) : pyres (list (list nat)) :=
  if itype_antisymmetric t then base_strong_generating_set t (length (cre o)) (length (ann o)) false false
  else base_strong_generating_set t (length (cre o)) (length (ann o)) true true.

(** ** canonicalize_sympy *)
(** itertools.groupby: maximal runs of equal keys *)
Fixpoint groupby {A K} (eqk : K -> K -> bool) (key : A -> K) (l : list A) : list (list A) :=
  match l with
  | [] => []
  | x :: l' =>
      match groupby eqk key l' with
      | (y :: ys) :: gs => if eqk (key x) (key y) then (x :: y :: ys) :: gs else [x] :: (y :: ys) :: gs
      | gs => [x] :: gs
      end
  end.
(** itertools.accumulate *)
Fixpoint accumulate (s : nat) (l : list nat) : list nat :=
  match l with [] => [] | x :: l' => (s + x) :: accumulate (s + x) l' end.

(** the slots of a factor in the order of indices(False): lower indices first (IndicesPair.py:59-63) *)
Definition op_slots (o : op) : list idx := ann o ++ cre o.
Definition tensor_slots (x : tensor) : list idx := tlower x ++ tupper x.

(** Term.py:736-743, the loop building g *)
Fixpoint slot_labels (m : repl) (tracker : list (idx * nat)) (l : list idx) : pyres (list nat) :=
  match l with
  | [] => Ok []
  | i :: l' =>
      pybind (dict_item idx_eqb i m) (fun j =>
      pybind (dict_item idx_eqb j tracker) (fun n =>
      pybind (slot_labels m (dict_set idx_eqb j (S n) tracker) l') (fun g => Ok (n :: g))))
  end.

(** Permutation(g): ValueError unless g is a rearrangement of 0..len(g)-1 *)
Definition is_array (g : list nat) : bool := forallb (fun k => existsb (Nat.eqb k) g) (seq 0 (length g)).

(** x.n_body (IndicesPair.py:49-53) *)
Definition n_body (x : tensor) : pyres nat :=
  if length (tlower x) =? length (tupper x) then Ok (length (tlower x)) else Raise ValueError.
Definition name_body_eqb (a b : string * nat) : bool := String.eqb (fst a) (fst b) && (snd a =? snd b).

(** Term.py:750-758: generators and multiplicity of each run of equivalent tensors *)
Definition tensor_groups (hermitian : bool) (xs : list tensor) : pyres (list (list (list nat) * nat)) :=
  pybind (pymap (fun x => pybind (n_body x) (fun n => Ok (x, n))) xs) (fun keyed =>
  pymap (fun group =>
    match group with
    | [] => Raise IndexError
    | (x, _) :: _ =>
        pybind (base_strong_generating_set (titype x) (length (tupper x)) (length (tlower x)) hermitian false) (fun gens =>
        Ok (gens, length group))
    end) (groupby name_body_eqb (fun xn => (tname (fst xn), snd xn)) keyed)).

(** Term.py:766-783: indices are read back from the canonical slot labels *)
Definition read_indices (t : itype) (dummy : list idx) (gc : list nat) : pyres (list idx) :=
  pybind (pymap (fun x => get_item dummy (x / 2)) gc) (make_typed t).
Fixpoint read_tensors (dummy : list idx) (xs : list tensor) (gc : list nat) : pyres (list tensor) :=
  match xs with
  | [] => Ok []
  | x :: xs' =>
      let nl := length (tlower x) in
      let nu := length (tupper x) in
      pybind (read_indices (titype x) dummy (firstn nl gc)) (fun l =>
      pybind (read_indices (titype x) dummy (firstn nu (skipn nl gc))) (fun u =>
      pybind (from_indices x u l) (fun y =>
      pybind (read_tensors dummy xs' (skipn (nl + nu) gc)) (fun ys => Ok (y :: ys)))))
  end.

(** What is handed to SymPy: the permutation, the ranges of dummies and the symmetries of the slots.
    The answer is an array form, or 0 (None). *)
Definition sympy_oracle := list nat -> list (nat * nat) -> list (list (list nat) * nat) -> pyres (option (list nat)).

(** Term.py:722-733 *)
Definition dummy_ranges (dummy : list idx) : list (nat * nat) :=
  let dummy_group := groupby label_eqb fst dummy in
  let dummy_count := 0 :: accumulate 0 (map (@length idx) dummy_group) in
  map (fun ij => (2 * fst ij, 2 * snd ij)) (neighbours dummy_count).

(** Term.py:681-793 *)
Definition canonicalize_sympy (sympy : sympy_oracle) (core remove_active hermitian : bool) (t0 : term) : pyres term :=
  pybind (simplify core remove_active t0) (fun t =>
  if is_void t then Ok (void t)
  else
    let m := minimal_indices t in
    let dummy := sort_by (plt idx_ord) (map snd m) in
    let dummies := dummy_ranges dummy in
    let tracker := map (fun iv => (snd iv, 2 * fst iv)) (enumerate 0 dummy) in
    pybind (slot_labels m tracker (op_slots (tsq t) ++ flat_map tensor_slots (ttensors t))) (fun g0 =>
    let n := length g0 in
    let g := g0 ++ [n; n + 1] in
    pybind (if length (op_indices (tsq t)) =? 0 then Ok []
            else pybind (op_generating_set (ttype t) (tsq t)) (fun gens => Ok [(gens, 1)])) (fun op_bsgs =>
    pybind (tensor_groups hermitian (ttensors t)) (fun tensor_bsgs =>
    pybind (if is_array g then sympy g dummies (op_bsgs ++ tensor_bsgs) else Raise ValueError) (fun answer =>
    match answer with
    | None => Raise TypeError
    | Some gc =>
        let n_ann := length (ann (tsq t)) in
        let n_ops := length (op_indices (tsq t)) in
        pybind (read_indices (ttype t) dummy (firstn n_ann gc)) (fun a =>
        pybind (read_indices (ttype t) dummy (skipn n_ann (firstn n_ops gc))) (fun c =>
        pybind (read_tensors dummy (ttensors t) (skipn n_ops gc)) (fun ys =>
        let sign := if last g 0 =? last gc 0 then 1%Z else (-1)%Z in
        make_term (ttype t) ys (Op c a) (Qcmult (Qc_of_Z sign) (tcoeff t)))))
    end))))).

(** Term.py:643-661 *)
Definition canonicalize (sympy : sympy_oracle) (core remove_active hermitian : bool) (t : term) : pyres term :=
  match tdiag t with [] => canonicalize_sympy sympy core remove_active hermitian t | _ => Raise NotImplementedErr end.
