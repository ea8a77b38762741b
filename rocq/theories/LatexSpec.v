(** Vocabulary for the LaTeX form of terms. *)
From Coq Require Import Ascii String ZArith QArith Qcanon.
From Verif Require Import PyBase SpaceModel IndexModel IndicesModel ParitySpec IndicesProofs ElemModel MacroModel TermModel CombineModel PermuteModel PermuteSpec AmbitModel.
Local Close Scope Q_scope.
Local Close Scope Qc_scope.
Local Open Scope nat_scope.
Local Notation length := List.length.

(** an integer or a quotient of integers in lowest terms *)
Definition rational_text (c : Qc) : text :=
  if (Qden (this c) =? 1)%positive then z_text (Qnum (this c)) else z_text (Qnum (this c)) ++ str "/" ++ decimal (Pos.to_nat (Qden (this c))).
(** {\cal P} ( i j / k ) stands for the sum over all orderings of the indices in which the indices of every block keep their order,
    with the sign of the ordering *)
Definition orderings (part : list (list idx)) (self : list idx) (R : list (Z * list idx)) : Prop :=
  NoDup (map snd R) /\ forall s l, In (s, l) R <-> Permutation l self /\ keeps_blocks part l /\ reorder_sign self l s.
Definition permutation_text (part : list (list idx)) (n : nat) : list text :=
  if n =? 1 then [] else [str "{\cal P} ( " ++ join (str " / ") (map (fun block => join (str " ") (map idx_text block)) part) ++ str " )"].
(** the term with other coefficient and operator; the tensors are the same *)
Definition with_operator (t : term) (c : Qc) (o : op) : term := MkTerm (ttype t) (ttensors t) o c (tindices t) (tnext t) (tdiag t).
