(** Derivatives with respect to the amplitudes (Term.py:1152-1168). *)
From Coq Require Import Ascii String ZArith QArith Qcanon.
From Verif Require Import PyBase SpaceModel IndicesModel ElemModel MacroModel TermModel SymmetryModel.
Local Close Scope Q_scope.
Local Close Scope Qc_scope.
Local Open Scope nat_scope.
Local Notation length := List.length.

(** isinstance(tensor, ClusterAmplitude) *)
Definition is_cluster (x : tensor) : bool := match tcls x with TCluster => true | _ => false end.
(** Term.py:1165-1166: clusters[i] and clusters[:i] + clusters[i + 1:] for every i *)
Fixpoint each_but {B} (before l : list B) : list (B * list B) :=
  match l with [] => [] | x :: l' => (x, before ++ l') :: each_but (before ++ [x]) l' end.
(** Term.py:1152-1168; n_body raises ValueError if the numbers of creators and annihilators differ (IndicesPair.py:50-53) *)
Definition gradient_t (sympy : sympy_oracle) (t : term) : pyres (list term) :=
  if negb (length (cre (tsq t)) =? length (ann (tsq t))) then Raise ValueError
  else if negb (length (ann (tsq t)) =? 0) then Raise NotImplementedErr
  else
    let clusters := filter is_cluster (ttensors t) in
    let non_clusters := filter (fun x => negb (is_cluster x)) (ttensors t) in
    pymap (fun p => pybind (make_term (ttype t) (non_clusters ++ snd p) (Op (tlower (fst p)) (tupper (fst p))) (tcoeff t)) (fun t' =>
      canonicalize sympy true true true t')) (each_but [] clusters).
