(** Vocabulary for the statements about lists of terms. *)
From Coq Require Import Ascii String ZArith QArith Qcanon.
From Verif Require Import PyBase SpaceModel IndicesModel ElemModel MacroModel TermModel IndicesProofs CombineModel.
Local Close Scope Q_scope.
Local Close Scope Qc_scope.
Local Open Scope nat_scope.
Local Notation length := List.length.

(** what a reader sees of a term apart from its coefficient: names and indices *)
Definition tensor_labels (x : tensor) : string * list idx * list idx := (tname x, tupper x, tlower x).
Definition labels (t : term) : list (string * list idx * list idx) * (list idx * list idx) :=
  (map tensor_labels (ttensors t), (cre (tsq t), ann (tsq t))).
(** ordinary tensor names contain no ^ *)
Definition plain_name (x : tensor) : Prop := ~ In "^"%char (list_ascii_of_string (tname x)).
Definition plain (t : term) : Prop := Forall plain_name (ttensors t).

(** the term without the sets derived from it *)
Definition body (t : term) : itype * list tensor * op := (ttype t, ttensors t, tsq t).
Definition view (t : term) : itype * list tensor * op * Qc := (ttype t, ttensors t, tsq t, tcoeff t).

Definition labels_dec (a b : list (string * list idx * list idx) * (list idx * list idx)) : {a = b} + {a <> b}.
Proof. repeat (decide equality; try apply idx_eq_dec). Defined.
(** the terms of a list with the given labels, and the sum of their coefficients *)
Definition like (t : term) (l : list term) : list term := filter (fun t' => if labels_dec (labels t') (labels t) then true else false) l.
Definition Qc_total (l : list Qc) : Qc := fold_right Qcplus (Q2Qc 0) l.
Definition total (t : term) (l : list term) : Qc := Qc_total (map tcoeff (like t l)).

(** one class of indices, and a tensor name stands for one class of tensors and one priority *)
Definition uniform (l : list term) : Prop :=
  (forall t t', In t l -> In t' l -> ttype t = ttype t') /\
  (forall t t' x x', In t l -> In t' l -> In x (ttensors t) -> In x' (ttensors t') -> tname x = tname x' -> tcls x = tcls x' /\ tpriority x = tpriority x') /\
  (forall t x, In t l -> In x (ttensors t) -> titype x = ttype t).

(** the tensors made by the contraction drivers, for comparison of names *)
Definition driver_tensors : list tensor :=
  [Ten TCumulant SpinOrbital "L" 2%Z [] []; Ten THole SpinOrbital "C" 2%Z [] []; Ten TKronecker SpinOrbital "K" (-1)%Z [] []].
(** a name stands for one class of tensors and one priority, also compared with the densities; no ^ in names *)
Definition consistent_names (xs : list tensor) : Prop :=
  Forall plain_name xs /\
  forall x y, In x (xs ++ driver_tensors) -> In y (xs ++ driver_tensors) -> tname x = tname y -> tcls x = tcls y /\ tpriority x = tpriority y.
(** same outside decisions, except for the number of processors and the order of the workers *)
Definition same_but_scheduling (w w' : world) : Prop :=
  w_sympy w = w_sympy w' /\ w_pick w = w_pick w' /\ w_pick_connected w = w_pick_connected w' /\ w_iter w = w_iter w'.
(** imap_unordered hands over the results in some order *)
Definition unordered (w : world) : Prop := forall k l, Permutation (w_sched w k l) l.
