(** Vocabulary for printed code. *)
From Coq Require Import Ascii String ZArith QArith Qcanon.
From Verif Require Import PyBase SpaceModel IndexModel IndicesModel ElemModel MacroModel TermModel SymmetryModel CombineModel PermuteModel AmbitModel.
Local Close Scope Q_scope.
Local Close Scope Qc_scope.
Local Open Scope nat_scope.

(** the lines of a text *)
Fixpoint split_lines (s : text) : list text :=
  match s with
  | [] => [[]]
  | a :: s' => if Ascii.eqb a nl then [] :: split_lines s' else match split_lines s' with l :: ls => (a :: l) :: ls | [] => [[a]] end
  end.
(** without indentation and empty lines *)
Definition code_lines (s : text) : list text := filter (fun l => match l with [] => false | _ => true end) (map strip (split_lines s)).
(** k is part of s *)
Definition occurs (k s : text) : Prop := exists a b, s = a ++ k ++ b.
(** The file of save_direct_t3 *)
Definition t3_start (header namespace func_name func_vars : text) : text :=
  header ++ [nl; nl] ++ str "using namespace psi;" ++ [nl; nl] ++ str "namespace forte {" ++ [nl; nl] ++
  str "void " ++ namespace ++ str "::" ++ func_name ++ str "_direct_t3(" ++ func_vars ++ str ") {" ++ [nl] ++
  str "    BlockedTensor C3 = ambit::BlockedTensor::build(ambit::CoreTensor, ""T3 new"", {""cccvvv""});" ++ [nl] ++
  str "    BlockedTensor temp = ambit::BlockedTensor::build(ambit::CoreTensor, ""temp"", {""cccvvv""});" ++ [nl; nl] ++ str "    ".
Definition t3_end : text :=
  [nl; nl] ++
  str "    C3.iterate([&](const std::vector<size_t>& i, const std::vector<SpinType>&, double& value) {" ++ [nl] ++
  str "        value *= renormalized_denominator(Fd[i[0]] + Fd[i[1]] + Fd[i[2]] - Fd[i[3]] - Fd[i[4]] -" ++ [nl] ++
  str "                                          Fd[i[5]]);" ++ [nl] ++ str "    });" ++ [nl; nl] ++
  str "    temp[""ijkabc""] = T3[""ijkabc""];" ++ [nl; nl] ++
  str "    T3.iterate([&](const std::vector<size_t>& i, const std::vector<SpinType>&, double& value) {" ++ [nl] ++
  str "        double delta = Fd[i[0]] + Fd[i[1]] + Fd[i[2]] - Fd[i[3]] - Fd[i[4]] - Fd[i[5]];" ++ [nl] ++
  str "        value *= std::exp(-s_ * delta * delta);" ++ [nl] ++ str "    });" ++ [nl; nl] ++
  str "    C3[""ijkabc""] -= T3[""ijkabc""];" ++ [nl] ++ str "    rms_t3 = C3.norm();" ++ [nl; nl] ++
  str "    T3[""ijkabc""] = C3[""ijkabc""] + temp[""ijkabc""];" ++ [nl; nl] ++ str "    // norm and max" ++ [nl] ++
  str "    T3max = T3.norm(0), T3norm = T3.norm();" ++ [nl] ++ str "}" ++ [nl; nl] ++ str "} // namespace forte".
