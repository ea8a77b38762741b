(** Model of Term.latex, the LaTeX form of coefficients and Term.__repr__ (Term.py:277-278, 313-355), of print_terms_latex
    (phys_op_contraction.py:487-500), and of the equality of terms (Term.py:239-259, 280-281). Python strings are lists of characters. *)
From Coq Require Import Ascii String ZArith QArith Qcanon.
From Verif Require Import PyBase SpaceModel IndexModel IndicesModel ElemModel MacroModel TermModel SymmetryModel CombineModel PermuteModel AmbitModel.
Local Close Scope Q_scope.
Local Close Scope Qc_scope.
Local Open Scope nat_scope.
Local Notation length := List.length.

(** Term.py:313-323 with form = None: str of a Fraction is "n" or "n/d" (fractions.py of the standard library) *)
Definition latex_coeff (value : Qc) : text :=
  let fraction := this (limit_denominator 1000000000 value) in
  if Pos.eqb (Qden fraction) 1 then z_text (Qnum fraction) else z_text (Qnum fraction) ++ str "/" ++ z_text (Z.pos (Qden fraction)).

(** Term.py:325-355 [latex] *)
Definition term_latex (dollar permute_format delimiter backslash : bool) (t : term) : pyres text :=
  let tensors_str := str " " ++ join [sp] (map tensor_text (ttensors t)) in
  pybind (if permute_format then
            let '(p_cre, p_ann) := perm_partition_open t in op_latex_permute_format (ttype t) (tsq t) p_cre p_ann
          else Ok (1, [], op_text (tsq t))) (fun r =>
  let '(n_perm, perm_str, sq_op_str) := r in
  let coeff_str := latex_coeff (Qcdiv (tcoeff t) (Qc_of_Z (Z.of_nat n_perm))) in
  let coeff_str := if delimiter then coeff_str ++ str " &" else coeff_str in
  let perm_str := match perm_str with [] => [] | _ => str " " ++ perm_str end in
  let sq_op_str := match sq_op_str with [] => [] | _ => str " " ++ sq_op_str end in
  let sq_op_str := if backslash then sq_op_str ++ str " \\" else sq_op_str in
  let out := coeff_str ++ perm_str ++ tensors_str ++ sq_op_str in
  Ok (if dollar then str "$" ++ out ++ str "$" else out)).
(** Term.py:277-278 [__repr__]; __hash__ (280-281) is the hash of this text *)
Definition term_repr (t : term) : pyres text := term_latex false false false false t.

(** phys_op_contraction.py:487-500 [print_terms_latex]: the text printed; every print ends with a newline *)
Definition print_terms_latex (input_terms : list term) : pyres text :=
  pybind (categorize_contractions input_terms) (fun block_repr =>
  pybind (pymap (fun block =>
    pybind (pymap (fun pt =>
      pymap (fun it => pybind (term_latex false true true (negb (last_index (snd pt) (fst it))) (snd it)) (fun s => Ok (s ++ [nl])))
        (enumerate 0 (snd pt))) (snd block)) (fun rows =>
    Ok (str "\begin{align}" ++ [nl] ++ concat (concat rows) ++ str "\end{align}" ++ [nl; nl]))) block_repr) (fun l => Ok (concat l))).

(** math.isclose(a, b, abs_tol=1.0e-15) with its default rel_tol = 1e-9, on exact numbers *)
Definition rel_tol : Qc := Q2Qc (1 # 1000000000).
Definition abs_tol : Qc := Q2Qc (1 # 1000000000000000).
Definition Qc_max (a b : Qc) : Qc := if Qclt_le_dec a b then b else a.
Definition isclose (a b : Qc) : bool :=
  if Qclt_le_dec (Qc_max (Qcmult rel_tol (Qc_max (Qc_abs a) (Qc_abs b))) abs_tol) (Qc_abs (Qcminus a b)) then false else true.
(** comparison_tuple_weak() == comparison_tuple_weak() (Term.py:235-236): operators are compared first, which raises TypeError if the
    index types differ (IndicesPair.py:82-91); the lists of tensors only if the operators are equal *)
Definition weak_eq (t t' : term) : pyres bool :=
  if negb (itype_eqb (ttype t) (ttype t')) then Raise TypeError
  else Ok (peq op_ord (tsq t) (tsq t') && peq (list_ord tensor_ord) (ttensors t) (ttensors t')).
(** Term.py:243-248 [__eq__], 250-252 [almost_equal], 254-259 [__ne__] *)
Definition term_eq (t t' : term) : pyres bool := if isclose (tcoeff t) (tcoeff t') then weak_eq t t' else Ok false.
Definition almost_equal (t t' : term) : pyres bool := weak_eq t t'.
Definition term_ne (t t' : term) : pyres bool := if isclose (tcoeff t) (tcoeff t') then pybind (weak_eq t t') (fun b => Ok (negb b)) else Ok true.
