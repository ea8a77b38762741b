(** Spin-integrated cases of spin-orbital terms (Term.py:989-1004). *)
From Coq Require Import Ascii String ZArith QArith Qcanon.
From Verif Require Import PyBase SpaceModel IndicesModel ElemModel MacroModel TermModel SymmetryModel.
Local Close Scope Q_scope.
Local Close Scope Qc_scope.
Local Open Scope nat_scope.
Local Notation length := List.length.

(** Tensor.py:155-162; the constructor of the class is given index objects, which keep their type *)
Definition tensor_spin_cases (x : tensor) : pyres (list tensor) :=
  pybind (spin_cases_pair true (tupper x) (tlower x)) (fun r =>
  pymap (fun ul => check_tensor (Ten (tcls x) SpinIntegrated (tname x) (tpriority x) (fst ul) (snd ul))) r).
(** SQOperator.py:160-167 *)
Definition op_spin_cases (o : op) : pyres (list op) :=
  pybind (spin_cases_pair true (cre o) (ann o)) (fun r => Ok (map (fun ul => Op (fst ul) (snd ul)) r)).

(** Term.py:998-1004, one element of the product: a ValueError of the constructor or of canonicalize skips it *)
Definition spin_case (sympy : sympy_oracle) (c : Qc) (p : op * list tensor) : pyres (list term) :=
  match pybind (make_term SpinIntegrated (snd p) (fst p) c) (canonicalize sympy true true true) with
  | Ok t => Ok [t]
  | Raise ValueError => Ok []
  | Raise e => Raise e
  end.

(** Term.py:989-1004; the generator is the list of what it yields. itertools.product exhausts its arguments first. *)
Definition generate_spin_cases_naive (sympy : sympy_oracle) (t : term) : pyres (list term) :=
  if negb (itype_eqb (ttype t) SpinOrbital) then Raise TypeError
  else
    pybind (op_spin_cases (tsq t)) (fun ops =>
    pybind (pymap tensor_spin_cases (ttensors t)) (fun tss =>
    pybind (pymap (spin_case sympy (tcoeff t)) (flat_map (fun o => map (pair o) (iproduct tss)) ops)) (fun r => Ok (concat r)))).
