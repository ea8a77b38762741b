(** Vocabulary for products of terms: the terms that can be contracted, and the value of the result of a contraction
    driver for given orbitals. *)
From Coq Require Import ZArith QArith Qcanon.
From Verif Require Import PyBase SpaceModel IndicesModel ElemModel ElemSpec MacroModel WickModel TermModel ValueSpec IndicesProofs TermSpec SymmetryModel CombineModel.
Local Close Scope Q_scope.
Local Close Scope Qc_scope.
Local Open Scope nat_scope.
Local Notation length := List.length.

(** a term over spin orbitals without diagonal indices; its operator has as many creators as annihilators, all different and none
    on a density *)
Record standard (t : term) : Prop := {
  st_made : exists xs, make_term SpinOrbital xs (tsq t) (tcoeff t) = Ok t;
  st_plain : forall i, ~ diagonal_in i (ttensors t) (tsq t);
  st_legs : NoDup (cre (tsq t) ++ ann (tsq t) ++ flat_map tensor_indices (filter is_density (ttensors t)));
  st_alpha : op_alpha (tsq t);
  st_valid : Forall valid_tensor (ttensors t);
  st_active : cumulants_open_active (ttensors t);
  st_balanced : length (cre (tsq t)) = length (ann (tsq t)) }.
(** no index in common *)
Definition apart_terms (t t' : term) : Prop := forall i, In i (tindices t) -> ~ In i (tindices t').

(** all indices of a list of terms *)
Definition all_indices (terms : list term) : list idx := nodup idx_eq_dec (flat_map (fun t => content_indices (ttensors t) (tsq t)) terms).
(** densities and operators for given orbitals *)
Definition at_orbitals {A} (v : tvaluation A) (e : idx -> nat) : valuation A := Val A (fun d => tensor_value v e (tensor_of d)) (fun o => op_value v e o).
(** the sum over all orbitals of the product of all tensors with a contraction result *)
Definition contracted_value {A : qalg} (S : system) (v : tvaluation A) (terms : list term) (result : list (list entry)) : A :=
  sum_over S (all_indices terms) (fun e => (aprod (map (tensor_value v e) (flat_map ttensors terms)) * result_value (at_orbitals v e) result)%alg).
