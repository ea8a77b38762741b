(** Model of the contraction paths of dsrg_generator/Term.py:1202-1281. *)
From Coq Require Import Ascii String ZArith QArith Qcanon.
From Verif Require Import PyBase SpaceModel IndexModel IndicesModel ElemModel TermModel.
Local Close Scope Q_scope.
Local Close Scope Qc_scope.
Local Open Scope nat_scope.
Local Notation length := List.length.

(** a tensor, or a tuple of two such things *)
Inductive ptree : Type := Leaf (x : tensor) | Node (a b : ptree).

(** collections.Counter of a list of characters, in order of first occurrence *)
Fixpoint char_incr (c : ascii) (d : list (ascii * Z)) : list (ascii * Z) :=
  match d with
  | [] => [(c, 1%Z)]
  | (k, n) :: d' => if Ascii.eqb c k then (k, (n + 1)%Z) :: d' else (k, n) :: char_incr c d'
  end.
Definition char_counter (l : list ascii) : list (ascii * Z) := fold_left (fun d c => char_incr c d) l [].

(** Sets of indices are lists without repetition. The order of the elements decides only the order of
    the keys in the dictionary of a MOSpaceCounter. *)
Definition lower_spaces (s : list idx) : list ascii := map (fun i => to_lower (label_char (fst i))) s.
(** s1 ^ s2 and s1 | s2 *)
Definition sym_diff (s1 s2 : list idx) : list idx :=
  filter (fun i => negb (mem_idx i s2)) s1 ++ filter (fun i => negb (mem_idx i s1)) s2.
Definition set_union (s1 s2 : list idx) : list idx := s1 ++ filter (fun i => negb (mem_idx i s1)) s2.
(** IndicesPair.py:55-57 *)
Definition indices_set (x : tensor) : list idx := dedup (tensor_indices x).

(** MOSpaceCounter(Counter([i.space.lower() for i in s])) *)
Definition space_counter (s : list idx) : pyres counter := make_counter (char_counter (lower_spaces s)).

(** Term.py:1245-1261 *)
Definition contraction_cost (s1 s2 : list idx) : pyres (counter * counter * list idx) :=
  let open_indices := sym_diff s1 s2 in
  let all_indices := set_union s2 s1 in
  pybind (space_counter all_indices) (fun compute =>
  pybind (space_counter open_indices) (fun storage => Ok (compute, storage, open_indices))).

(** pairs i < j < size in the order of the loops *)
Definition pairs_below (size : nat) : list (nat * nat) :=
  flat_map (fun i => map (fun j => (i, j)) (seq (i + 1) (size - (i + 1)))) (seq 0 size).
(** [tensors_left[n] for n in range(size) if n != i and n != j] *)
Definition without {A} (i j : nat) (l : list A) : list A :=
  map snd (filter (fun nx => negb (fst nx =? i) && negb (fst nx =? j)) (enumerate 0 l)).

Definition pstate := (counter * counter * option ptree)%type.
(** body of the loops, Term.py:1230-1238 *)
Definition path_step (tensors_left : list (list idx * ptree)) (so_far : pstate) (ij : nat * nat) : pyres (list (list idx * ptree) * pstate) :=
  let '(i, j) := ij in
  pybind (get_item tensors_left i) (fun ti =>
  pybind (get_item tensors_left j) (fun tj =>
  pybind (contraction_cost (fst ti) (fst tj)) (fun cost =>
  let '(compute, storage, open_indices) := cost in
  let ij_tensors := Node (snd ti) (snd tj) in
  let '(max_compute, max_storage, path) := so_far in
  let max_compute := if pgt counter_ord compute max_compute then compute else max_compute in
  let max_storage := if pgt counter_ord storage max_storage then storage else max_storage in
  let path := match path with
              | None => Some ij_tensors
              | Some p => if length tensors_left =? 2 then Some ij_tensors else Some (Node p ij_tensors)
              end in
  Ok (without i j tensors_left ++ [(open_indices, ij_tensors)], (max_compute, max_storage, path))))).

(** Term.py:1214-1243; every call has one entry less in tensors_left *)
Fixpoint contraction_path (fuel : nat) (tensors_left : list (list idx * ptree)) (so_far : pstate) : pyres (list pstate) :=
  match fuel with
  | 0 => Raise FuelExhausted
  | S fuel' =>
      let size := length tensors_left in
      pybind (pymap (fun ij => pybind (path_step tensors_left so_far ij) (fun st => contraction_path fuel' (fst st) (snd st)))
                    (pairs_below size)) (fun rest =>
      Ok ((if size =? 1 then [so_far] else []) ++ concat rest))
  end.

(** Term.py:1202-1212 *)
Definition contraction_paths (t : term) : pyres (list pstate) :=
  let tensors := ttensors t in
  pybind (match tensors with
          | [x] => space_counter (indices_set x)
          | _ => make_counter [("v"%char, 0%Z); ("c"%char, 0%Z)]
          end) (fun cost =>
  contraction_path (S (length tensors)) (map (fun x => (indices_set x, Leaf x)) tensors) (cost, cost, None)).

(** Term.py:1263-1281 *)
Definition best (lt : counter -> counter -> bool) (opt : option (counter * option ptree)) (c : counter) (p : option ptree) : option (counter * option ptree) :=
  match opt with
  | None => Some (c, p)
  | Some (c0, _) => if lt c c0 then Some (c, p) else opt
  end.
Definition optimal_contraction_cost (t : term) : pyres (option (counter * option ptree) * option (counter * option ptree)) :=
  match ttensors t with
  | [x] => pybind (space_counter (indices_set x)) (fun cost0 => Ok (Some (cost0, None), Some (cost0, None)))
  | _ =>
      pybind (contraction_paths t) (fun paths =>
      Ok (fold_left (fun opt e => let '(compute_cost, storage_cost, path) := e in
                       (best (plt counter_ord) (fst opt) compute_cost path, best (plt counter_ord) (snd opt) storage_cost path))
                    paths (None, None)))
  end.
