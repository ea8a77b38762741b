(** Elements of the residual of a term, and their derivatives with respect to one element of the amplitudes. *)
From Coq Require Import Ascii String ZArith QArith Qcanon.
From Verif Require Import PyBase SpaceModel IndicesModel IndicesProofs ElemModel MacroModel TermModel ValueSpec TermSpec PropGradient HessianModel.
Local Close Scope Q_scope.
Local Close Scope Qc_scope.
Local Open Scope nat_scope.
Local Notation length := List.length.

(** the indices O have the orbitals e, the others those of e' *)
Definition with_open (O : list idx) (e e' : idx -> nat) (i : idx) : nat := if mem_idx i O then e i else e' i.
(** the indices of the tensors that are not in O *)
Definition summed (xs : list tensor) (O : list idx) : list idx := filter (fun i => negb (mem_idx i O)) (nodup idx_eq_dec (flat_map tensor_indices xs)).
(** the coefficient with which the operator of the orbitals e occurs: the indices O of the operator are fixed, the others are summed *)
Definition element {A} (S : system) (v : tvaluation A) (c : Qc) (xs : list tensor) (O : list idx) (e : idx -> nat) : A :=
  (inj c * sum_over S (summed xs O) (fun e' => aprod (map (tensor_value v (with_open O e e')) xs)))%alg.

(** T[us,ls] + eps at one element of the amplitudes, all the others unchanged (dual numbers: eps^2 = 0) *)
Definition same_numbers (a b : list nat) : bool := if list_eq_dec Nat.eq_dec a b then true else false.
Definition nudged {A : qalg} (v : tvaluation A) (us ls : list nat) : tvaluation (dual A) :=
  TVal (dual A) (fun c n u l => (vtensor v c n u l, match c with TCluster => if same_numbers u us && same_numbers l ls then q1 else q0 | _ => q0 end))
                (fun u l => (voper v u l, q0)).

(** the amplitude x carries the operator's indices as us above ls: creators above annihilators if the spaces fit that way, else annihilators
    above creators; an index of the operator that sits on the amplitude sits at its own place *)
Record fits (o : op) (x : tensor) (us ls : list idx) : Prop := Fits {
  fit_side : us = cre o /\ ls = ann o \/ us = ann o /\ ls = cre o /\ map fst (tupper x) <> map fst (cre o);
  fit_upper : map fst (tupper x) = map fst us;
  fit_lower : map fst (tlower x) = map fst ls;
  fit_distinct : NoDup (tensor_indices x);
  fit_place : forall i j, In (i, j) (combine (tensor_indices x) (us ++ ls)) -> In i (op_indices o) -> i = j }.

(** the returned coefficient and tensors *)
Definition hessian_coeff (r : hessian) : Qc := match r with HTerm t => tcoeff t | HTuple c _ _ => c end.
Definition hessian_tensors (r : hessian) : list tensor := match r with HTerm t => ttensors t | HTuple _ xs _ => xs end.
Definition hessian_op (r : hessian) : op := match r with HTerm t => tsq t | HTuple _ _ o => o end.
