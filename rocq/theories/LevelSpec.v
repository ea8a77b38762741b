(** Vocabulary for series of commutators. *)
From Coq Require Import Ascii String ZArith QArith Qcanon.
From Verif Require Import PyBase SpaceModel IndicesModel ElemModel MacroModel WickModel WickSpec TermModel ValueSpec TermSpec CombineModel ContractSpec PropContract.
Local Close Scope Q_scope.
Local Close Scope Qc_scope.
Local Open Scope nat_scope.

(** [x] is the value of the commutator of two terms: the difference of the Wick expansions of the two products, whichever list of
    contractions is used for each; zero if one of the terms has no operator *)
Definition wick_commutator {A : qalg} (S : system) (v : tvaluation A) (max_cu min_o max_o : Z) (l r : term) (x : A) : Prop :=
  (op_is_empty (tsq l) || op_is_empty (tsq r) = true /\ x = q0) \/
  (op_is_empty (tsq l) || op_is_empty (tsq r) = false /\
   (exists rLR rRL, expansion l r max_cu min_o max_o true rLR /\ expansion r l max_cu min_o max_o true rRL) /\
   forall eh1 eh2 rLR rRL, expansion l r max_cu min_o max_o eh1 rLR -> expansion r l max_cu min_o max_o eh2 rRL ->
     x = (inj (Qcmult (tcoeff l) (tcoeff r)) * (contracted_value S v [l; r] rLR - contracted_value S v [r; l] rRL))%alg).

(** the value of [next] is [f] times the sum of the commutators of all terms of [left] with all terms of [right] *)
Definition commutator_level {A : qalg} (S : system) (v : tvaluation A) (max_cu min_o max_o : Z) (f : Qc) (left right next : list term) : Prop :=
  exists table : list (list A),
    Forall2 (fun l row => Forall2 (fun r x => wick_commutator S v max_cu min_o max_o l r x) right row) left table /\
    asum (map (term_value S v) next) = (inj f * asum (map asum table))%alg.
