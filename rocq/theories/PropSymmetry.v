(** C57: the symmetries handed to SymPy. *)
From Coq Require Import ZArith.
From Verif Require Import PyBase SpaceModel IndicesModel ElemModel MacroModel TermModel ValueSpec SymmetryModel SymmetrySpec SymmetryProofs.
Local Notation length := List.length.

(** C57. A Hermitian tensor with n antisymmetric upper and n antisymmetric lower indices: the generators generate exactly the
    independent permutations of the two blocks, with the product of the parities as the sign, with or without an exchange of
    the blocks. *)
Theorem C57_antisymmetric_hermitian :
  forall t n, itype_antisymmetric t = true -> 1 <= n ->
  exists gens, base_strong_generating_set t n n true false = Ok gens /\
    forall a, generated (2 * n + 2) gens a <-> block_permutation n n a \/ exchanged_permutation n a.
Proof.
  intros t n Ht Hn. unfold base_strong_generating_set. rewrite Ht. replace (n + n =? 0) with false by (symmetry; apply Nat.eqb_neq; lia). apply asym_hermitian_group.
Qed.
Print Assumptions C57_antisymmetric_hermitian.

(** Without the Hermitian exchange the two blocks may differ in size. *)
Theorem C57_antisymmetric_plain :
  forall t n1 n2, itype_antisymmetric t = true -> 1 <= n1 -> 1 <= n2 ->
  exists gens, base_strong_generating_set t n1 n2 false false = Ok gens /\
    forall a, generated (n1 + n2 + 2) gens a <-> block_permutation n1 n2 a.
Proof.
  intros t n1 n2 Ht H1 H2. unfold base_strong_generating_set. rewrite Ht. replace (n1 + n2 =? 0) with false by (symmetry; apply Nat.eqb_neq; lia). apply asym_plain_group; assumption.
Qed.
Print Assumptions C57_antisymmetric_plain.

(** Indices without antisymmetry: simultaneous permutations of the pairs, always with sign +, and the exchange of the two
    blocks if Hermitian. *)
Theorem C57_not_antisymmetric :
  forall t n hermitian, itype_antisymmetric t = false -> 1 <= n ->
  exists gens, base_strong_generating_set t n n hermitian false = Ok gens /\
    forall a, generated (2 * n + 2) gens a <-> pair_permutation n a \/ (hermitian = true /\ exchanged_pair_permutation n a).
Proof.
  intros t n h Ht Hn. unfold base_strong_generating_set. rewrite Ht. replace (n + n =? 0) with false by (symmetry; apply Nat.eqb_neq; lia). apply sym_group.
Qed.
Print Assumptions C57_not_antisymmetric.

(** Operators: antisymmetric ones may be permuted among creators and among annihilators; others have no symmetry at all. *)
Theorem C57_operator :
  forall t o, 1 <= length (cre o) -> 1 <= length (ann o) ->
  (itype_antisymmetric t = true -> exists gens, op_generating_set t o = Ok gens /\
     forall a, generated (length (cre o) + length (ann o) + 2) gens a <-> block_permutation (length (cre o)) (length (ann o)) a) /\
  (itype_antisymmetric t = false -> length (cre o) = length (ann o) -> exists gens, op_generating_set t o = Ok gens /\
     forall a, generated (length (cre o) + length (ann o) + 2) gens a <-> a = seq 0 (length (cre o) + length (ann o) + 2)).
Proof.
  intros t o H1 H2. unfold op_generating_set. split; intros Ht; rewrite Ht.
  - exact (C57_antisymmetric_plain t _ _ Ht H1 H2).
  - intros E. rewrite <- E. unfold base_strong_generating_set. replace (length (cre o) + length (cre o) =? 0) with false by (symmetry; apply Nat.eqb_neq; lia). rewrite Nat.eqb_refl.
    eexists. split; [reflexivity|]. replace (length (cre o) + length (cre o) + 2) with (2 * length (cre o) + 2) by lia. intros a. split; [|intros ->; constructor].
    induction 1 as [|a s _ -> Hs]; [reflexivity|]. destruct Hs as [<-|[]]. apply compose_id. apply seq_length.
Qed.
Print Assumptions C57_operator.

(** The pairs of indices the generators exist for; all others raise. *)
Theorem C57_accepted :
  forall t n_upper n_lower hermitian no_sym,
  (exists gens, base_strong_generating_set t n_upper n_lower hermitian no_sym = Ok gens) <->
  1 <= n_upper /\ 1 <= n_lower /\ (n_upper = n_lower \/ itype_antisymmetric t = true /\ hermitian = false /\ no_sym = false).
Proof.
  intros t nu nl h ns. split.
  - intros [gens H]. unfold base_strong_generating_set in H. destruct (nu + nl =? 0) eqn:E0; [discriminate|]. apply Nat.eqb_neq in E0. destruct ns.
    + destruct (nl =? nu) eqn:E; [|discriminate]. apply Nat.eqb_eq in E. lia.
    + destruct (itype_antisymmetric t) eqn:Et.
      * unfold asym_perms in H. destruct h.
        -- destruct (nu =? nl) eqn:E; [|discriminate]. apply Nat.eqb_eq in E. lia.
        -- destruct nu as [|nu]; [discriminate|]. destruct nl as [|nl]; [|split; [lia|split; [lia|auto]]].
           unfold direct_product in H. change (get_symmetric_group_sgs 0) with (@nil (list nat)) in H. destruct (get_symmetric_group_sgs (S nu)); discriminate.
      * unfold sym_perms in H. destruct (nl =? nu) eqn:E; [|discriminate]. apply Nat.eqb_eq in E. lia.
  - intros (H1 & H2 & H). unfold base_strong_generating_set. replace (nu + nl =? 0) with false by (symmetry; apply Nat.eqb_neq; lia).
    destruct H as [<-|(-> & -> & ->)].
    + rewrite Nat.eqb_refl. destruct ns; [eauto|]. destruct (itype_antisymmetric t).
      * destruct h; [destruct (asym_hermitian_group nu) as (g & E & _)|destruct (asym_plain_group nu nu H1 H1) as (g & E & _)]; eauto.
      * destruct (sym_group nu h) as (g & E & _); eauto.
    + destruct (asym_plain_group nu nl H1 H2) as (g & E & _); eauto.
Qed.
Print Assumptions C57_accepted.

(** Example: two upper and two lower antisymmetric indices; exchanging the blocks and both lower indices has sign -, and a
    single exchange with sign + is not generated *)
Example C57_example :
  itype_antisymmetric SpinOrbital = true /\ itype_antisymmetric SpinAdapted = false /\
  exists gens, base_strong_generating_set SpinOrbital 2 2 true false = Ok gens /\
    gens = [[1; 0; 2; 3; 5; 4]; [0; 1; 3; 2; 5; 4]; [2; 3; 0; 1; 4; 5]] /\
    generated 6 gens [2; 3; 1; 0; 5; 4] /\ ~ generated 6 gens [1; 0; 2; 3; 4; 5].
Proof.
  split; [reflexivity|]. split; [reflexivity|]. destruct (C57_antisymmetric_hermitian SpinOrbital 2 eq_refl ltac:(lia)) as (gens & E & G). exists gens. split; [exact E|].
  split; [vm_compute in E; injection E as <-; reflexivity|]. split.
  - apply (proj2 (G _)). right. exists [2; 3], [1; 0]. split; [reflexivity|]. split; [apply perm_swap|reflexivity].
  - intros H. apply (proj1 (G _)) in H. destruct H as [(b1 & b2 & P1 & P2 & H)|(b1 & b2 & P1 & P2 & H)].
    all: assert (L1 := Permutation_length P1); assert (L2 := Permutation_length P2); destruct b1 as [|x [|y [|? ?]]]; try discriminate L1; destruct b2 as [|z [|w [|? ?]]]; try discriminate L2.
    all: injection H as <- <- <- <- H; vm_compute in H; discriminate H.
Qed.
