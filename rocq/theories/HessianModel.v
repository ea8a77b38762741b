(** Diagonal elements of the derivative of a residual with respect to the amplitudes (Term.py:1170-1200). *)
From Coq Require Import Ascii String ZArith QArith Qcanon.
From Verif Require Import PyBase SpaceModel IndicesModel ElemModel MacroModel TermModel GradientModel.
Local Close Scope Q_scope.
Local Close Scope Qc_scope.
Local Open Scope nat_scope.
Local Notation length := List.length.

(** what is returned: a Term, or a tuple of coefficient, tensors and operator *)
Inductive hessian : Type :=
| HTerm (t : term)
| HTuple (c : Qc) (xs : list tensor) (o : op).

(** the property n_body (IndicesPair.py:49-53) *)
Definition pair_n_body (u l : list idx) : pyres nat := if length l =? length u then Ok (length l) else Raise ValueError.
(** the condition of Term.py:1175 *)
Definition is_amplitude_of (t : term) (x : tensor) : pyres bool :=
  if is_cluster x then pybind (pair_n_body (tupper x) (tlower x)) (fun m => pybind (pair_n_body (cre (tsq t)) (ann (tsq t))) (fun n => Ok (m =? n))) else Ok false.
(** the loop of lines 1174-1180 *)
Fixpoint hessian_loop (t : term) (xs : list tensor) (cluster : option tensor) (non_clusters : list tensor) : pyres (option tensor * list tensor) :=
  match xs with
  | [] => Ok (cluster, non_clusters)
  | x :: xs' =>
      pybind (is_amplitude_of t x) (fun b =>
      if b then match cluster with Some _ => Raise NotImplementedErr | None => hessian_loop t xs' (Some x) non_clusters end
      else hessian_loop t xs' cluster (non_clusters ++ [x]))
  end.
(** comparison of lists of spaces *)
Fixpoint labels_eqb (a b : list label) : bool :=
  match a, b with
  | [], [] => true
  | x :: a', y :: b' => label_eqb x y && labels_eqb a' b'
  | _, _ => false
  end.
(** lines 1185-1192: the replacement; zip stops at the shorter list, later pairs overwrite earlier ones *)
Definition hessian_replacement (t : term) (cluster : tensor) : repl :=
  let target := if labels_eqb (map fst (tupper cluster)) (map fst (cre (tsq t))) then cre (tsq t) ++ ann (tsq t) else ann (tsq t) ++ cre (tsq t) in
  dict_update idx_eqb (map (fun i => (i, i)) (tindices t)) (combine (tupper cluster ++ tlower cluster) target).
(** Term.py:1170-1200; SQOperator.make_empty makes an operator without indices *)
Definition diagonal_hessian_t (t : term) : pyres hessian :=
  pybind (hessian_loop t (ttensors t) None []) (fun r =>
  match fst r with
  | None => Ok (HTuple (Q2Qc 0) [] (Op [] []))
  | Some cluster =>
      pybind (replace_tensors_indices (snd r) (hessian_replacement t cluster)) (fun ys =>
      match make_term (ttype t) ys (tsq t) (tcoeff t) with
      | Ok t' => Ok (HTerm t')
      | Raise ValueError => Ok (HTuple (tcoeff t) ys (tsq t))
      | Raise e => Raise e
      end)
  end).
