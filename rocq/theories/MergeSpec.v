(** When two terms are the same up to names of indices, the order of indices on tensors, and the order of tensors; and what it means that SymPy's answer is
    canonical. *)
From Coq Require Import Ascii String ZArith QArith Qcanon.
From Verif Require Import PyBase SpaceModel IndicesModel ElemModel MacroModel TermModel TermSpec SymmetryModel SymmetrySpec CombineModel.
Local Close Scope Q_scope.
Local Close Scope Qc_scope.
Local Open Scope nat_scope.
Local Notation length := List.length.

(** y is x with its indices renamed, upper and lower indices in any order, and upper and lower exchanged if that is allowed *)
Definition symmetric_tensor (hermitian : bool) (rho : idx -> idx) (x y : tensor) : Prop :=
  tcls y = tcls x /\ titype y = titype x /\ tname y = tname x /\ tpriority y = tpriority x /\
  ((Permutation (map rho (tupper x)) (tupper y) /\ Permutation (map rho (tlower x)) (tlower y)) \/
   (hermitian = true /\ Permutation (map rho (tupper x)) (tlower y) /\ Permutation (map rho (tlower x)) (tupper y))).
(** one renaming for the whole term, that keeps the orbital labels and different indices different *)
Definition same_up_to_symmetry (hermitian : bool) (t t' : term) : Prop :=
  exists rho, (forall i, In i (content_indices (ttensors t) (tsq t)) -> fst (rho i) = fst i) /\
    (forall i j, In i (content_indices (ttensors t) (tsq t)) -> In j (content_indices (ttensors t) (tsq t)) -> rho i = rho j -> i = j) /\
    Permutation (map rho (cre (tsq t))) (cre (tsq t')) /\ Permutation (map rho (ann (tsq t))) (ann (tsq t')) /\
    exists ys, Permutation ys (ttensors t') /\ Forall2 (symmetric_tensor hermitian rho) (ttensors t) ys.
(** the same content: the terms differ in their coefficients at most *)
Definition same_content (t t' : term) : Prop := ttensors t = ttensors t' /\ tsq t = tsq t'.

(** no two of the terms are the same up to symmetry *)
Definition all_different (hermitian : bool) (out : list term) : Prop :=
  forall i j t t', nth_error out i = Some t -> nth_error out j = Some t' -> same_up_to_symmetry hermitian t t' -> i = j.

(** tensors of one name are of one class and have one priority *)
Definition names_agree (xs : list tensor) : Prop := forall x y, In x xs -> In y xs -> tname x = tname y -> tcls x = tcls y /\ tpriority x = tpriority y.
(** the two indices of a one-body cumulant are of one space *)
Definition even_cumulant (x : tensor) : Prop := tcls x = TCumulant -> forall u l, tupper x = [u] -> tlower x = [l] -> fst u = fst l.

(** canonicalizing the term again changes neither tensors nor operator, and does not remove it *)
Definition in_canonical_form (sympy : sympy_oracle) (core remove_active hermitian : bool) (t : term) : Prop :=
  forall t', canonicalize sympy core remove_active hermitian t = Ok t' -> same_content t' t /\ is_void t' = false /\ (tcoeff t' = tcoeff t \/ tcoeff t' = Qcopp (tcoeff t)).

(** the form with the opposite sign *)
Definition negated (g : list nat) : list nat := firstn (length g - 2) g ++ rev (skipn (length g - 2) g).
(** equal products get the same answer, up to the sign *)
Definition canonical (sympy : sympy_oracle) : Prop :=
  forall g g' ranges runs gc gc', sympy g ranges runs = Ok (Some gc) -> sympy g' ranges runs = Ok (Some gc') -> length g = length g' ->
    let n := length g - 2 in
    (equivalent_form (slot_symmetries n 0 runs) (dummy_symmetries n ranges) g g' \/ equivalent_form (slot_symmetries n 0 runs) (dummy_symmetries n ranges) g (negated g')) ->
    firstn n gc = firstn n gc'.
