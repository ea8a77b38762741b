(** Singlet adaptation of terms (Term.py:1006-1037). *)
From Coq Require Import Ascii String ZArith QArith Qcanon.
From Verif Require Import PyBase SpaceModel IndicesModel ElemModel MacroModel TermModel SymmetryModel CombineModel PermuteModel ExciteModel.
Local Close Scope Q_scope.
Local Close Scope Qc_scope.
Local Open Scope nat_scope.
Local Notation length := List.length.

(** Term.py:1017-1021; [order] is the order in which the set of the indices of the term is iterated *)
Definition singlet_replacement (order : list idx) (t : term) : repl :=
  fst (fold_left (fun st i => if idx_beta i then put_fresh i (Lab false (lsp (fst i))) st else st) order (map (fun i => (i, i)) order, tnext t)).

(** Term.py:1028-1037 for one element of the product; SecondQuantizedOperator and from_indices with index type 'sa'. The division
    of floating point numbers is exact here. *)
Definition adapted_term (sympy : sympy_oracle) (t : term) (sign_perm : Z) (n_perm : nat) (pairs : list (Z * list idx * list idx)) : pyres term :=
  match pairs with
  | [] => Raise IndexError
  | (s0, u0, l0) :: rest =>
      pybind (make_typed SpinAdapted u0) (fun u0 => pybind (make_typed SpinAdapted l0) (fun l0 =>
      pybind (pymap (fun xp => let '(x, (_, u, l)) := xp in make_tensor (tcls x) SpinAdapted (tname x) (tpriority x) u l) (combine (ttensors t) rest)) (fun xs =>
      let sign := fold_left Z.mul (map (fun p => fst (fst p)) rest) (sign_perm * s0)%Z in
      pybind (make_term SpinAdapted xs (Op u0 l0) (Qcdiv (Qcmult (Qc_of_Z sign) (tcoeff t)) (Qc_of_Z (Z.of_nat n_perm)))) (fun t' =>
      canonicalize sympy true true true t'))))
  end.

(** Term.py:1006-1037; the generator is the list of what it yields. The texts of permute_indices are parsed again by
    SecondQuantizedOperator(cre, ann, 'si'); here the index lists themselves are passed on. *)
Definition generate_singlet_adaptation (sympy : sympy_oracle) (order : list idx) (alpha_major : bool) (t : term) : pyres (list term) :=
  if negb (itype_eqb (ttype t) SpinIntegrated) then Raise TypeError
  else
    let '(p_cre, p_ann) := perm_partition_open t in
    pybind (op_n_multiset_permutation (ttype t) (tsq t) p_cre p_ann) (fun n_perm =>
    let replacement := singlet_replacement order t in
    pybind (permute_indices (ttype t) (tsq t) p_cre p_ann true) (fun perms =>
    pybind (pymap (fun p =>
      let '(sign_perm, cre, ann) := p in
      pybind (make_typed SpinIntegrated cre) (fun cre => pybind (make_typed SpinIntegrated ann) (fun ann =>
      pybind (pymap (fun ul => singlet_adaptation SpinIntegrated (fst ul) (snd ul) replacement alpha_major)
                    ((cre, ann) :: map (fun x => (tupper x, tlower x)) (ttensors t))) (fun choices =>
      pymap (adapted_term sympy t sign_perm n_perm) (iproduct choices)))))
      perms) (fun tss => Ok (concat tss)))).
