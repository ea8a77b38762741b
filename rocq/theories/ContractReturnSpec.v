(** Terms that contractions and commutators accept. *)
From Coq Require Import ZArith QArith Qcanon.
From Verif Require Import PyBase SpaceModel IndicesModel ElemModel MacroModel TermModel TermSpec ContractSpec.
Local Close Scope Q_scope.
Local Close Scope Qc_scope.
Local Open Scope nat_scope.
Local Notation length := List.length.

(** Besides being standard: every tensor has as many upper as lower indices, one at least, all different and none of them of
    beta spin; there are no deltas; densities are over active indices, or over hole indices if they are one-body ones;
    amplitudes have no general indices. *)
Record contractible (t : term) : Prop := {
  cb_standard : standard t;
  cb_distinct : forall x, In x (ttensors t) -> NoDup (tupper x ++ tlower x);
  cb_bodies : forall x, In x (ttensors t) -> length (tupper x) = length (tlower x) /\ tupper x <> [];
  cb_alpha : forall x i, In x (ttensors t) -> In i (tupper x ++ tlower x) -> lbeta (fst i) = false;
  cb_no_delta : forall x, In x (ttensors t) -> tcls x <> TKronecker;
  cb_densities : forall x i, In x (ttensors t) -> tcls x = TCumulant -> In i (tupper x ++ tlower x) -> lsp (fst i) = Sa \/ (lsp (fst i) = Sh /\ length (tupper x) = 1);
  cb_amplitudes : forall x i, In x (ttensors t) -> tcls x = TCluster -> In i (tupper x ++ tlower x) -> lsp (fst i) <> Sg }.
