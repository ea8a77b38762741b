(** Model of print_terms_ambit (phys_op_contraction.py:471-485) and save_direct_t3 (write_forte_functions.py:159-197). *)
From Coq Require Import Ascii String ZArith QArith Qcanon.
From Verif Require Import PyBase SpaceModel IndexModel IndicesModel ElemModel MacroModel TermModel SymmetryModel CombineModel PermuteModel AmbitModel FileModel.
Local Close Scope Q_scope.
Local Close Scope Qc_scope.
Local Open Scope nat_scope.
Local Notation length := List.length.

(** phys_op_contraction.py:471-485 [print_terms_ambit]: the text printed; every print ends with a newline *)
Definition print_group (pt : text * list term) : pyres text :=
  pybind (pymap (fun it => pybind (term_ambit (str "C") (negb (last_index (snd pt) (fst it))) (fst it =? 0) true (snd it)) (fun s => Ok (s ++ [nl]))) (enumerate 0 (snd pt))) (fun l =>
  Ok (concat l ++ match fst pt with [] => [nl] | _ => [] end)).
Definition print_terms_ambit (input_terms : list term) : pyres text :=
  pybind (categorize_contractions input_terms) (fun block_repr =>
  pybind (pymap (fun block => pybind (pymap print_group (snd block)) (fun rows => Ok (concat rows))) block_repr) (fun l => Ok (concat l))).

(** forte_templates/direct_t3_template *)
Definition direct_t3_template : text :=
  str "HEADERS" ++ [nl; nl] ++ str "using namespace psi;" ++ [nl; nl] ++ str "namespace forte {" ++ [nl; nl] ++
  str "void NAMESPACE::FUNC_NAME_direct_t3(FUNC_VARIABLES) {" ++ [nl] ++
  str "    BlockedTensor C3 = ambit::BlockedTensor::build(ambit::CoreTensor, ""T3 new"", {""cccvvv""});" ++ [nl] ++
  str "    BlockedTensor temp = ambit::BlockedTensor::build(ambit::CoreTensor, ""temp"", {""cccvvv""});" ++ [nl; nl] ++
  str "    CPP_EXPRESSIONS" ++ [nl; nl] ++
  str "    C3.iterate([&](const std::vector<size_t>& i, const std::vector<SpinType>&, double& value) {" ++ [nl] ++
  str "        value *= renormalized_denominator(Fd[i[0]] + Fd[i[1]] + Fd[i[2]] - Fd[i[3]] - Fd[i[4]] -" ++ [nl] ++
  str "                                          Fd[i[5]]);" ++ [nl] ++ str "    });" ++ [nl; nl] ++
  str "    temp[""ijkabc""] = T3[""ijkabc""];" ++ [nl; nl] ++
  str "    T3.iterate([&](const std::vector<size_t>& i, const std::vector<SpinType>&, double& value) {" ++ [nl] ++
  str "        double delta = Fd[i[0]] + Fd[i[1]] + Fd[i[2]] - Fd[i[3]] - Fd[i[4]] - Fd[i[5]];" ++ [nl] ++
  str "        value *= std::exp(-s_ * delta * delta);" ++ [nl] ++ str "    });" ++ [nl; nl] ++
  str "    C3[""ijkabc""] -= T3[""ijkabc""];" ++ [nl] ++ str "    rms_t3 = C3.norm();" ++ [nl; nl] ++
  str "    T3[""ijkabc""] = C3[""ijkabc""] + temp[""ijkabc""];" ++ [nl; nl] ++ str "    // norm and max" ++ [nl] ++
  str "    T3max = T3.norm(0), T3norm = T3.norm();" ++ [nl] ++ str "}" ++ [nl; nl] ++ str "} // namespace forte".
(** str.lower on ASCII *)
Definition lower_ascii (a : ascii) : ascii := let n := nat_of_ascii a in if (65 <=? n) && (n <=? 90) then ascii_of_nat (n + 32) else a.
(** write_forte_functions.py:159-197 [save_direct_t3]: the name of the file after path_dir, and its content. Lines 170-184 are the loop of
    lines 107-128 without the declaration of temp (initiate_temp = False); sorted(tensors) sorts strings. *)
Definition save_direct_t3 (perm_terms : inner) (func_name namespace : text) : pyres (text * text) :=
  pybind (perms_code [] perm_terms false) (fun r =>
  let '(cpp_func, names, _) := r in
  let tensors := sort_by (plt (list_ord char_ord)) (text_set names) in
  let func_vars := join (str ", ") (map (fun i => str "BlockedTensor& " ++ i) tensors) in
  pybind (multi_gsub [(str "HEADERS", map lower_ascii (str "#include ""mrdsrg-so/" ++ namespace ++ str ".h""")); (str "NAMESPACE", namespace);
                      (str "FUNC_NAME", func_name); (str "FUNC_VARIABLES", func_vars); (str "CPP_EXPRESSIONS", cpp_func)] direct_t3_template) (fun input_string =>
  Ok (str "/" ++ func_name ++ str "_direct_t3.cc", input_string))).
