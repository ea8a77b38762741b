(** Excitation and diagonal parts of a term, zeroth-order Hamiltonians (Term.py:36-71, 1039-1107). *)
From Coq Require Import Ascii String ZArith QArith Qcanon.
From Verif Require Import PyBase SpaceModel IndicesModel ElemModel MacroModel TermModel SymmetryModel.
Local Close Scope Q_scope.
Local Close Scope Qc_scope.
Local Open Scope nat_scope.
Local Notation length := List.length.

(** SQOperator.py:70-83; the set of spaces equals {'a'} if there is an index and all are active *)
Definition all_active_op (o : op) : bool :=
  match op_indices o with [] => false | l => forallb (fun i => space_eqb (lsp (fst i)) Sa) l end.
Definition is_possible_excitation (o : op) : bool :=
  negb (existsb (fun i => space_eqb (lsp (fst i)) Sc) (cre o)) &&
  negb (existsb (fun i => space_eqb (lsp (fst i)) Sv) (ann o)) && negb (all_active_op o).

(** Term.py:1054-1057 and 1060-1063. [None]: no overlap. overlap.pop() takes the first element; the theorem does not depend on it, the
    overlap has one element there. *)
Definition overlap_label (target s : label) : option label :=
  match inter_label (relation target) (relation s) with
  | [] => None
  | x :: l => if length (x :: l) =? length (relation target) then Some target else Some x
  end.

(** replacement[i] = self._generate_next_index(s, next_index_number) *)
Definition put_fresh (i : idx) (s : label) (st : repl * (label -> nat)) : repl * (label -> nat) :=
  let '(r, next) := st in let '(f, next') := generate_next_index s next in (dict_set idx_eqb i f r, next').
(** Term.py:1053-1058 and 1059-1064 *)
Fixpoint restrict_loop (target : label) (l : list idx) (st : repl * (label -> nat)) : option (repl * (label -> nat)) :=
  match l with
  | [] => Some st
  | i :: l => match overlap_label target (fst i) with None => None | Some s => restrict_loop target l (put_fresh i s st) end
  end.
(** Term.py:1066-1069 and 1100-1103 *)
Definition rest_loop (t : term) (st : repl * (label -> nat)) : repl :=
  fst (fold_left minimal_step (flat_map tensor_indices (ttensors t)) st).
(** Term.py:1071-1073 and 1105-1107: relabel, construct, canonicalize with the default arguments *)
Definition relabel_and_canonicalize (sympy : sympy_oracle) (t : term) (r : repl) : pyres term :=
  pybind (relabel_indices t r) (fun x =>
  let '(sign, xs, o) := x in pybind (make_term (ttype t) xs o (Qcmult (tcoeff t) (Qc_of_Z sign))) (fun t' =>
  canonicalize sympy true true true t')).

(** Term.py:1039-1073 *)
Definition make_excitation (sympy : sympy_oracle) (single_ref : bool) (t : term) : pyres term :=
  if negb (is_possible_excitation (tsq t)) then Ok (void t)
  else
    let hole := Lab false (if single_ref then Sc else Sh) in
    let part := Lab false (if single_ref then Sv else Sp) in
    match restrict_loop part (cre (tsq t)) ([], fun _ => 0) with
    | None => Ok (void t)
    | Some st =>
        match restrict_loop hole (ann (tsq t)) st with
        | None => Ok (void t)
        | Some st => relabel_and_canonicalize sympy t (rest_loop t st)
        end
    end.

(** Term.py:1075-1107; the set [overlap] is iterated in the order of [relation]. 'a' and 'A' are removed if single_ref. *)
Definition make_one_body_diagonal (sympy : sympy_oracle) (single_ref : bool) (t : term) : pyres (list term) :=
  if negb (length (cre (tsq t)) =? length (ann (tsq t))) then Raise ValueError
  else match cre (tsq t), ann (tsq t) with
  | [c], [a] =>
      let overlap := filter (fun s => negb (single_ref && space_eqb (lsp s) Sa)) (inter_label (relation (fst c)) (relation (fst a))) in
      pymap (fun s => relabel_and_canonicalize sympy t (rest_loop t (put_fresh c s (put_fresh a s ([], fun _ => 0))))) overlap
  | _, _ => Raise ValueError
  end.

(** Term.py:36-42 *)
Definition diagonal_fock_operator (sympy : sympy_oracle) (single_ref : bool) : pyres (list term) :=
  pybind (hamiltonian_operator 1 0 SpinOrbital) (make_one_body_diagonal sympy single_ref).

(** Term.py:45-51 *)
Definition active_index (n : nat) : idx := (Lab false Sa, n).
Definition dyall_hamiltonian (sympy : sympy_oracle) : pyres (list term) :=
  pybind (make_tensor THamiltonian SpinOrbital "H" 0 [active_index 2; active_index 3] [active_index 0; active_index 1]) (fun h =>
  pybind (make_term SpinOrbital [h] (Op [active_index 0; active_index 1] [active_index 2; active_index 3]) (Q2Qc (1 # 4))) (fun v =>
  pybind (diagonal_fock_operator sympy false) (fun l => Ok (l ++ [v])))).

(** Term.py:61-71: the creators and the annihilators count the same spaces *)
Definition same_counts (o : op) : bool :=
  forallb (fun s => length (filter (label_eqb s) (map fst (cre o))) =? length (filter (label_eqb s) (map fst (ann o)))) (map fst (op_indices o)).
(** Term.py:54-71 *)
Definition fink_hamiltonian (sympy : sympy_oracle) (single_ref : bool) : pyres (list term) :=
  pybind (diagonal_fock_operator sympy single_ref) (fun h1 =>
  pybind (hamiltonian_operator 2 0 SpinOrbital) (fun h =>
  pybind (expand_composite_indices single_ref 0 h) (fun l => Ok (h1 ++ filter (fun t => same_counts (tsq t)) l)))).
