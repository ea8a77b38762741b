(** The operators of the Baker-Campbell-Hausdorff series written out. Nothing here refers to the code. *)
From Coq Require Import Ascii String ZArith QArith Qcanon.
From Verif Require Import PyBase SpaceModel IndicesModel TermModel BchSpec ValueSpec FamilySpec TermSpec FockSpec PropOperator.
Local Close Scope Q_scope.
Local Close Scope Qc_scope.
Local Open Scope nat_scope.

Section Operators.
  Context {A : qalg} (B : fermions A) (v : tvaluation A) (S : system).
  (** creators, then annihilators from right to left *)
  Definition written (c a : list nat) : list factor := map (pair true) c ++ map (pair false) (rev a).
  (** 1/(k!)^2 times the sum over k orbitals of one space and k of another *)
  Definition k_body (l l' : label) (k : nat) (F : list nat -> list nat -> B) : B :=
    nscal (inv_sq k) (nsum (map (fun p => nsum (map (F p) (choices S l' k))) (choices S l k))).
  (** the k-body Hamiltonian, all of it and without active orbitals *)
  Definition hamiltonian_part (k : nat) : B :=
    k_body (Lab false Sg) (Lab false Sg) k (fun p q => scal (vtensor v THamiltonian "H" q p) (normal_product B v (written p q))).
  Definition inactive_hamiltonian (k : nat) : B :=
    k_body (Lab false Sg) (Lab false Sg) k (fun p q => if existsb (is_active S) (p ++ q) then n0 else scal (vtensor v THamiltonian "H" q p) (normal_product B v (written p q))).
  (** k-fold excitations from the orbitals of [hl] to those of [pl], or de-excitations *)
  Definition cluster_part (hl pl : label) (excitation : bool) (k : nat) : B :=
    k_body hl pl k (fun h p => scal (vtensor v TCluster "T" h p) (normal_product B v (if excitation then written p h else written h p))).
  (** T or T - T^+ over core and virtual orbitals, or over holes and particles *)
  Definition amplitude_operator (levels : list nat) (unitary single_reference : bool) : B :=
    let hl := Lab false (if single_reference then Sc else Sh) in
    let pl := Lab false (if single_reference then Sv else Sp) in
    nadd (nsum (map (cluster_part hl pl true) levels)) (nopp (if unitary then nsum (map (cluster_part hl pl false) levels) else n0)).
End Operators.
