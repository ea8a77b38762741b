(** Terms that canonicalize accepts, and what it may do otherwise. *)
From Coq Require Import ZArith QArith Qcanon.
From Verif Require Import PyBase OrderSpec SpaceModel IndicesModel ElemModel MacroModel TermModel ValueSpec TermSpec SymmetryModel SympyValue.
Local Close Scope Q_scope.
Local Close Scope Qc_scope.
Local Open Scope nat_scope.
Local Notation length := List.length.

(** a factor that only identifies its two indices: a Kronecker delta or, when core densities are
    replaced by deltas, a one-body density matrix over indices that share core orbitals only *)
Definition joins (core : bool) (x : tensor) : Prop :=
  tcls x = TKronecker \/
  (core = true /\ tcls x = TCumulant /\ exists u l, tupper x = [u] /\ tlower x = [l] /\ forall s, In s (relation (fst u)) -> In s (relation (fst l)) -> lsp s = Sc).

(** Contents for which no exception is expected:
    every factor passes the checks of its class and has as many upper as lower indices, one at least;
    factors with the same name have the same class; no two densities share an index;
    every index goes from an upper (creation) to a lower (annihilation) position;
    the indices of a one-body density share a space other than the virtual one, those of a delta share a space;
    amplitudes have no general indices; some factor does more than to identify indices. *)
Record ready (core : bool) (ty : itype) (xs : list tensor) (o : op) : Prop := {
  rd_valid : Forall valid_tensor xs;
  rd_alpha : ty = SpinOrbital -> forall i, In i (content_indices xs o) -> lbeta (fst i) = false;
  rd_bodies : forall x, In x xs -> length (tupper x) = length (tlower x) /\ tupper x <> [];
  rd_classes : classes_by_name xs;
  rd_densities : densities_disjoint xs;
  rd_flow : Permutation (flat_map tupper xs ++ cre o) (flat_map tlower xs ++ ann o);
  rd_cumulant : forall x u l, In x xs -> tcls x = TCumulant -> tupper x = [u] -> tlower x = [l] -> exists s, In s (relation (fst u)) /\ In s (relation (fst l)) /\ lsp s <> Sv;
  rd_kronecker : forall x u l, In x xs -> tcls x = TKronecker -> tupper x = [u] -> tlower x = [l] -> exists s, In s (relation (fst u)) /\ In s (relation (fst l));
  rd_cluster : forall x i, In x xs -> tcls x = TCluster -> In i (tensor_indices x) -> lsp (fst i) <> Sg;
  rd_rest : exists x, In x xs /\ ~ joins core x }.

(** a term is returned, or SymPy was asked and answered 0 (then TypeError) or raised (then the same) *)
Definition returns_or_fails (sympy : sympy_oracle) (r : pyres term) : Prop :=
  (exists tm, r = Ok tm) \/
  (exists g ranges runs, Permutation g (seq 0 (length g)) /\ (sympy g ranges runs = Ok None /\ r = Raise TypeError \/ exists e, sympy g ranges runs = Raise e /\ r = Raise e)).

(** the exceptions that come from SymPy: its own, and the TypeError for the answer 0 *)
Definition sympy_fails (sympy : sympy_oracle) (e : pyexn) : Prop := exists g ranges runs, sympy g ranges runs = Raise e \/ (sympy g ranges runs = Ok None /\ e = TypeError).
Definition raises_only {X} (P : pyexn -> Prop) (r : pyres X) : Prop := forall e, r = Raise e -> P e.
