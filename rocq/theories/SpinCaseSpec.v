(** Vocabulary for spin cases: orbitals with their spin forgotten and tensors that conserve spin. *)
From Coq Require Import Ascii String ZArith QArith Qcanon.
From Verif Require Import PyBase SpaceModel IndicesModel ElemModel MacroModel TermModel ValueSpec TermSpec.
Local Close Scope Q_scope.
Local Close Scope Qc_scope.
Local Open Scope nat_scope.
Local Notation length := List.length.

(** the same orbitals, alpha and beta ones in the same spaces: spin-orbital indices run over both *)
Definition both_spins (S : system) : system := Sys (norb S) (fun p => Lab false (lsp (olabel S p))).
Definition beta_orbitals (S : system) (ps : list nat) : nat := length (filter (fun p => lbeta (olabel S p)) ps).
(** a tensor element is zero unless as many beta orbitals go in as come out; nothing is asked of operators *)
Definition conserves_spin {A} (S : system) (v : tvaluation A) : Prop :=
  forall c n ps qs, beta_orbitals S ps <> beta_orbitals S qs -> vtensor v c n ps qs = q0.
