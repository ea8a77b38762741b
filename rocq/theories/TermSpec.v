(** Vocabulary for the statements about terms: occurrence counts and the value of a
    term as a sum over assignments of orbitals to its indices. *)
From Coq Require Import Ascii String ZArith QArith Qcanon.
From Verif Require Import PyBase SpaceModel IndicesModel ElemModel MacroModel TermModel ValueSpec IndicesProofs.
Local Close Scope Q_scope.
Local Close Scope Qc_scope.
Local Open Scope nat_scope.
Local Notation length := List.length.

(** ** Occurrences *)
Definition idx_times (i : idx) (l : list idx) : nat := count_occ idx_eq_dec l i.
(** how often an index occurs on the operator and on the tensors together *)
Definition total_times (i : idx) (xs : list tensor) (o : op) : nat :=
  idx_times i (cre o) + idx_times i (ann o) + list_sum (map (fun x => idx_times i (tupper x) + idx_times i (tlower x)) xs).
(** the index sits on both sides of one factor *)
Definition diagonal_in (i : idx) (xs : list tensor) (o : op) : Prop :=
  (In i (cre o) /\ In i (ann o)) \/ (exists x, In x xs /\ In i (tupper x) /\ In i (tlower x)).

(** every non-diagonal index occurs exactly twice, every diagonal one an even number of times *)
Definition connected (xs : list tensor) (o : op) : Prop :=
  forall i, 0 < total_times i xs o ->
    (diagonal_in i xs o -> Nat.even (total_times i xs o) = true) /\
    (~ diagonal_in i xs o -> total_times i xs o = 2).

(** [generates next l next']: l are the indices produced one after the other by requests for
    indices of the given spaces, starting from the numbers [next]. *)
Inductive generates : (label -> nat) -> list idx -> (label -> nat) -> Prop :=
| gen_nil next : generates next [] next
| gen_cons next s i l next1 next2 : generate_next_index s next = (i, next1) -> generates next1 l next2 -> generates next (i :: l) next2.

(** renaming of the indices of a tensor and of an operator *)
Definition rename_tensor (rho : idx -> idx) (x : tensor) : tensor := Ten (tcls x) (titype x) (tname x) (tpriority x) (map rho (tupper x)) (map rho (tlower x)).
Definition rename_op (rho : idx -> idx) (o : op) : op := Op (map rho (cre o)) (map rho (ann o)).

(** zero, or not closer to zero than 1e-15 *)
Definition zero_or_visible (c : Qc) : Prop :=
  c = Q2Qc 0 \/ Qcle (Q2Qc (1 # 1000000000000000)) c \/ Qcle c (Q2Qc (-1 # 1000000000000000)).

(** ** Values *)
(** Orbitals are the numbers below [norb]; every orbital has a label. *)
Record system : Type := Sys { norb : nat; olabel : nat -> label }.
(** the orbitals over which an index runs *)
Definition orbitals (S : system) (i : idx) : list nat :=
  filter (fun p => mem_label (olabel S p) (relation (fst i))) (seq 0 (norb S)).
(** all ways to give an orbital to each index of a list *)
Definition assignments (S : system) (I : list idx) : list (list nat) := iproduct (map (orbitals S) I).
Definition env (I : list idx) (a : list nat) (i : idx) : nat :=
  match dict_get idx_eqb i (combine I a) with Some p => p | None => 0 end.

(** values of tensors and of normal-ordered operators on orbitals *)
Record tvaluation (A : qalg) : Type := TVal {
  vtensor : tclass -> string -> list nat -> list nat -> A;
  voper : list nat -> list nat -> A }.
Arguments vtensor {_}. Arguments voper {_}.

Definition tensor_value {A} (v : tvaluation A) (e : idx -> nat) (x : tensor) : A :=
  vtensor v (tcls x) (tname x) (map e (tupper x)) (map e (tlower x)).
Definition op_value {A} (v : tvaluation A) (e : idx -> nat) (o : op) : A := voper v (map e (cre o)) (map e (ann o)).
Definition integrand {A} (v : tvaluation A) (xs : list tensor) (o : op) (e : idx -> nat) : A :=
  (aprod (map (tensor_value v e) xs) * op_value v e o)%alg.
Definition sum_over {A : qalg} (S : system) (I : list idx) (F : (idx -> nat) -> A) : A :=
  asum (map (fun a => F (env I a)) (assignments S I)).
(** coefficient times the sum over all assignments of the product of all factors *)
Definition content_value {A} (S : system) (v : tvaluation A) (c : Qc) (xs : list tensor) (o : op) : A :=
  (inj c * sum_over S (nodup idx_eq_dec (content_indices xs o)) (integrand v xs o))%alg.
Definition term_value {A} (S : system) (v : tvaluation A) (t : term) : A := content_value S v (tcoeff t) (ttensors t) (tsq t).

Definition is_core (S : system) (p : nat) : bool := space_eqb (lsp (olabel S p)) Sc.
Definition is_virtual (S : system) (p : nat) : bool := space_eqb (lsp (olabel S p)) Sv.
Definition is_active (S : system) (p : nat) : bool := space_eqb (lsp (olabel S p)) Sa.

(** Kronecker deltas are identities; one-body cumulants (density matrices) vanish on virtual and are the
    identity on core orbitals; higher cumulants live on active orbitals. *)
Record physical {A} (S : system) (v : tvaluation A) : Prop := {
  ph_kronecker : forall n p q, vtensor v TKronecker n [p] [q] = if p =? q then q1 else q0;
  ph_one_virtual : forall n p q, is_virtual S p = true \/ is_virtual S q = true -> vtensor v TCumulant n [p] [q] = q0;
  ph_one_core : forall n p q, is_core S p = true \/ is_core S q = true -> vtensor v TCumulant n [p] [q] = if p =? q then q1 else q0;
  ph_higher : forall n ps qs, length ps <> 1 -> existsb (fun p => negb (is_active S p)) (ps ++ qs) = true -> vtensor v TCumulant n ps qs = q0 }.
(** amplitudes with only active indices are zero *)
Definition no_active_amplitudes {A} (S : system) (v : tvaluation A) : Prop :=
  forall n ps qs, forallb (is_active S) (ps ++ qs) = true -> vtensor v TCluster n ps qs = q0.
(** tensors and operators are antisymmetric in their upper and in their lower arguments *)
Definition alternates {A : qalg} (f : list nat -> A) : Prop :=
  forall p x y q, f (p ++ x :: y :: q) = (- f (p ++ y :: x :: q))%alg.
Record antisymmetric {A} (v : tvaluation A) : Prop := {
  as_upper : forall c n l, alternates (fun u => vtensor v c n u l);
  as_lower : forall c n u, alternates (fun l => vtensor v c n u l);
  as_cre : forall l, alternates (fun u => voper v u l);
  as_ann : forall u, alternates (fun l => voper v u l) }.

(** ** Hypotheses on the terms produced by operator contractions *)
Definition is_density (x : tensor) : bool := match tcls x with TCumulant | TKronecker => true | _ => false end.
(** each index sits on at most one cumulant or Kronecker delta, once *)
Definition densities_disjoint (xs : list tensor) : Prop := NoDup (flat_map tensor_indices (filter is_density xs)).
(** the indices of two- and higher-body cumulants include the active orbitals *)
Definition cumulants_open_active (xs : list tensor) : Prop :=
  forall x i, In x xs -> tcls x = TCumulant -> length (tupper x) <> 1 -> In i (tensor_indices x) -> In Sa (space_elems (lsp (fst i))).
(** the tensor passes the checks of its constructor *)
Definition valid_tensor (x : tensor) : Prop := check_tensor x = Ok x.
