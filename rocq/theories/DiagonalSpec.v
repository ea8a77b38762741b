(** Terms with diagonal indices on which simplify can be relied upon, and the spaces it gives to these indices. *)
From Coq Require Import ZArith QArith Qcanon.
From Verif Require Import PyBase OrderSpec SpaceModel IndicesModel ElemModel MacroModel TermModel ValueSpec TermSpec SymmetryModel SympyValue ReturnSpec.
Local Close Scope Q_scope.
Local Close Scope Qc_scope.
Local Open Scope nat_scope.
Local Notation length := List.length.

(** non-diagonal indices sit on one density at most, once *)
Definition densities_apart (xs : list tensor) (o : op) : Prop :=
  forall i, ~ diagonal_in i xs o -> idx_times i (flat_map tensor_indices (filter is_density xs)) <= 1.
(** a delta that joins the diagonal index d and the index j: d comes first, j is not diagonal, and no new index is needed *)
Definition harmless (xs : list tensor) (o : op) (d j : idx) : Prop :=
  diagonal_in d xs o -> idx_lt d j = true /\ ~ diagonal_in j xs o /\ ~ (lsp (fst d) = Sp /\ lsp (fst j) = Sh).
Definition diagonals_harmless (core : bool) (xs : list tensor) (o : op) : Prop :=
  forall x u l, In x xs -> joins core x -> tupper x = [u] -> tlower x = [l] -> harmless xs o u l /\ harmless xs o l u.

(** the label x belongs to the diagonal index d and to all that the densities on d demand:
    the two indices of a delta or of a one-body density matrix have x in common, no density matrix or cumulant leaves the
    holes, and cumulants of two and more bodies are active *)
Definition left_over (xs : list tensor) (d : idx) (x : label) : Prop :=
  In x (relation (fst d)) /\ forall y, In y xs -> In d (tensor_indices y) -> is_density y = true ->
    (length (tupper y) = 1 -> forall j, In j (tensor_indices y) -> In x (relation (fst j))) /\
    (tcls y = TCumulant -> lsp x <> Sv) /\
    (tcls y = TCumulant -> length (tupper y) <> 1 -> lsp x = Sa).
