(** Model of contract_terms and single_commutator for every integer n_process
    (dsrg_generator/phys_op_contraction.py:30-127, 158-181). CombineModel has n_process >= 1. *)
From Coq Require Import ZArith QArith Qcanon.
From Verif Require Import PyBase SpaceModel IndexModel IndicesModel ElemModel MacroModel WickModel TermModel SymmetryModel CombineModel.
Local Close Scope Q_scope.
Local Close Scope Qc_scope.
Local Open Scope nat_scope.

(** What a call does: it returns or raises one of the exceptions of PyBase, or it divides by zero. *)
Inductive outcome (A : Type) : Type := Does (r : pyres A) | DividesByZero.
Arguments Does {A}. Arguments DividesByZero {A}.
Definition then_do {A B} (x : outcome A) (f : A -> outcome B) : outcome B :=
  match x with Does (Ok a) => f a | Does (Raise e) => Does (Raise e) | DividesByZero => DividesByZero end.

(** phys_op_contraction.py:100-127. Pool(n_process) raises ValueError unless there is at least one process, after the
    test for no contractions. *)
Definition canonicalize_batch_at (w : world) (k : nat) (n_process : Z) (contractions : list entry) (tensors : list tensor)
  (coeff : Qc) (simplify hermitian : bool) : pyres (list term) :=
  match contractions with
  | [] => Ok []
  | _ => if (n_process <? 1)%Z then Raise ValueError else canonicalize_contractions_batch w k (Z.to_nat n_process) contractions tensors coeff simplify hermitian
  end.
(** phys_op_contraction.py:79-96 *)
Fixpoint batch_loop_at (w : world) (k : nat) (n_process batch_size : Z) (tensors : list tensor) (coeff : Qc) (hermitian : bool)
  (batches : list (list entry)) (count : nat) (contractions : list entry) (out : list term) : pyres (list term) :=
  match batches with
  | [] => pybind (canonicalize_batch_at w k n_process contractions tensors coeff false hermitian) (fun r => Ok (out ++ r))
  | batch :: batches' =>
      let count := count + length batch in
      let contractions := contractions ++ batch in
      if (Z.of_nat count <? batch_size)%Z then batch_loop_at w k n_process batch_size tensors coeff hermitian batches' count contractions out
      else
        pybind (canonicalize_batch_at w k n_process contractions tensors coeff true hermitian) (fun r =>
        batch_loop_at w (S k) n_process batch_size tensors coeff hermitian batches' 0 [] (out ++ r))
  end.
(** phys_op_contraction.py:30-97. Line 77 divides by n_process before the first contraction is computed; line 93 divides by
    the same number. *)
Definition contract_terms_at (w : world) (terms : list term) (max_cu max_n_open min_n_open : Z) (scale_factor : Qc)
  (for_commutator expand_hole : bool) (n_process : Z) (hermitian : bool) : outcome (list term) :=
  match terms with
  | [] => Does (Raise ValueError)
  | t0 :: _ =>
      let n_process := Z.min n_process (Z.of_nat (w_cpus w)) in
      let coeff := fold_left (fun c t => Qcmult c (tcoeff t)) terms scale_factor in
      let tensors := flat_map ttensors terms in
      let to_contract := filter (fun t => negb (op_is_empty (tsq t))) terms in
      match to_contract with
      | [] => Does (pybind (make_term (ttype t0) tensors (tsq t0) coeff) (fun t => Ok [t]))
      | [t1] => Does (pybind (make_term (ttype t1) tensors (tsq t1) coeff) (fun t => Ok [t]))
      | _ =>
          if (n_process =? 0)%Z then DividesByZero
          else if forallb (fun t => itype_eqb (ttype t) SpinOrbital) to_contract then
            Does (pybind (compute_operator_contractions (w_pick w) (w_pick_connected w) (w_iter w) for_commutator (map tsq to_contract)
                      max_cu max_n_open min_n_open expand_hole) (fun batches =>
            pybind (batch_loop_at w 0 n_process (10000 * Z.max 1 (n_process / 2)) tensors coeff hermitian batches 0 [] []) combine_terms))
          else Does (Raise NotImplementedErr)
      end
  end.
(** phys_op_contraction.py:158-181 *)
Definition single_commutator_at (w1 w2 : world) (left right : term) (max_cu max_n_open min_n_open : Z) (scale_factor : Qc)
  (for_commutator expand_hole : bool) (n_process : Z) (hermitian : bool) : outcome (list term) :=
  if for_commutator && (op_is_empty (tsq left) || op_is_empty (tsq right)) then Does (Ok [])
  else
    then_do (contract_terms_at w1 [left; right] max_cu max_n_open min_n_open scale_factor for_commutator expand_hole n_process hermitian) (fun a =>
    then_do (contract_terms_at w2 [right; left] max_cu max_n_open min_n_open (Qcopp scale_factor) for_commutator expand_hole n_process hermitian) (fun b =>
    Does (combine_terms (a ++ b)))).
