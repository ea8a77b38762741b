(** C71: canonicalize returns. *)
From Coq Require Import Ascii String ZArith QArith Qcanon.
From Verif Require Import PyBase OrderSpec SpaceModel IndicesModel IterProofs IndicesProofs ElemModel MacroModel TermModel ValueSpec TermSpec SumProofs TermProofs
  SimplifyProofs SymmetryModel SymmetrySpec SympyProofs SympyValue PropTerm PropSimplify PropCanon ReturnSpec SimplifyReturns.
Local Close Scope Q_scope.
Local Close Scope Qc_scope.
Local Open Scope nat_scope.
Local Notation length := List.length.

(** C71. Canonicalization of a term with ready content raises nothing of its own: it returns a term unless SymPy raises or
    answers 0, for both values of all switches and both ways of ordering. *)
Theorem C71_canonicalize_returns :
  forall sympy core ra hermitian ty xs o c t,
  admissible sympy -> make_term ty xs o c = Ok t -> (forall i, ~ diagonal_in i xs o) -> ready core ty xs o ->
  returns_or_fails sympy (canonicalize sympy core ra hermitian t).
Proof. exact canonicalize_returns. Qed.
Print Assumptions C71_canonicalize_returns.

(** If SymPy always answers with a tensor, a term is returned. *)
Theorem C71_answer_returns :
  forall sympy core ra hermitian ty xs o c t,
  admissible sympy -> (forall g ranges runs, exists gc, sympy g ranges runs = Ok (Some gc)) ->
  make_term ty xs o c = Ok t -> (forall i, ~ diagonal_in i xs o) -> ready core ty xs o ->
  exists tm, canonicalize sympy core ra hermitian t = Ok tm.
Proof.
  intros sympy core ra h ty xs o c t AD AN M ND RD. destruct (canonicalize_returns sympy core ra h ty xs o c t AD M ND RD) as [H|(g & rs & rn & _ & H)]; [exact H|]. destruct (AN g rs rn) as [gc E]. rewrite E in H. destruct H as [[H _]|(e & H & _)]; discriminate.
Qed.
Print Assumptions C71_answer_returns.

(** simplify never asks SymPy: it returns for every ready term *)
Theorem C71_simplify_returns :
  forall core ra ty xs o c t, make_term ty xs o c = Ok t -> (forall i, ~ diagonal_in i xs o) -> ready core ty xs o -> exists t', simplify core ra t = Ok t'.
Proof. intros core ra ty xs o c t M ND RD. destruct (simplify_returns core ra ty xs o c t M ND RD) as (t' & H & _). eauto. Qed.
Print Assumptions C71_simplify_returns.

(** Example: H^{g0,g1}_{g2,g3} T^{h0}_{p0} L^{g2}_{h0} K^{p0}_{g0} a^{g3}_{g1} *)
Definition ready_content : list tensor :=
  [ex_H [xi Sg 0; xi Sg 1] [xi Sg 2; xi Sg 3]; Ten TCluster SpinOrbital "T" 1 [xi Sh 0] [xi Sp 0]; ex_L [xi Sg 2] [xi Sh 0]; ex_K [xi Sp 0] [xi Sg 0]].
Definition ready_op : op := Op [xi Sg 3] [xi Sg 1].
Lemma ready_content_ready : ready true SpinOrbital ready_content ready_op.
Proof.
  constructor.
  - repeat (constructor; [reflexivity|]). constructor.
  - intros _ i Hi. cbn in Hi. intuition (subst; reflexivity).
  - intros x Hx. cbn in Hx. intuition (subst; first [reflexivity|discriminate]).
  - intros x y Hx Hy. cbn in Hx, Hy. intuition (subst; first [reflexivity|discriminate]).
  - unfold densities_disjoint. cbn. repeat (constructor; [cbn; intuition discriminate|]). constructor.
  - cbn. apply NoDup_Permutation; [repeat (constructor; [cbn; intuition discriminate|]); constructor..|]. intros i. cbn. tauto.
  - intros x u l Hx C Eu El. cbn in Hx. destruct Hx as [<-|[<-|[<-|[<-|[]]]]]; cbn in C; try discriminate C. cbn in Eu, El. injection Eu as <-. injection El as <-. exists (Lab false Sa). cbn. repeat split; auto. discriminate.
  - intros x u l Hx C Eu El. cbn in Hx. destruct Hx as [<-|[<-|[<-|[<-|[]]]]]; cbn in C; try discriminate C. cbn in Eu, El. injection Eu as <-. injection El as <-. exists (Lab false Sa). cbn. auto.
  - intros x i Hx C Hi. cbn in Hx. destruct Hx as [<-|[<-|[<-|[<-|[]]]]]; cbn in C; try discriminate C. cbn in Hi. destruct Hi as [<-|[<-|[]]]; discriminate.
  - eexists. split; [left; reflexivity|]. intros [H|(_ & H & _)]; discriminate H.
Qed.
Example C71_example :
  exists t tm, make_term SpinOrbital ready_content ready_op (Q2Qc 2) = Ok t /\ (forall i, ~ diagonal_in i ready_content ready_op) /\
    ready true SpinOrbital ready_content ready_op /\ admissible (one_move []) /\ (forall g ranges runs, exists gc, one_move [] g ranges runs = Ok (Some gc)) /\
    canonicalize (one_move []) true true true t = Ok tm /\
    map (fun x => (tname x, tupper x, tlower x)) (ttensors tm) =
      [("H"%string, [xi Sp 0; xi Sg 1], [xi Sh 0; xi Sg 0]); ("T"%string, [xi Sh 1], [xi Sp 0]); ("L"%string, [xi Sh 0], [xi Sh 1])].
Proof.
  eexists. eexists. split; [vm_compute; reflexivity|]. split; [|split; [exact ready_content_ready|split; [apply one_move_admissible|split; [|split; [vm_compute; reflexivity|]]]]].
  - intros i [[H1 H2]|(x & Hx & H1 & H2)]; [cbn in H1, H2; intuition (subst; discriminate)|]. cbn in Hx. destruct Hx as [<-|[<-|[<-|[<-|[]]]]]; cbn in H1, H2; intuition (subst; discriminate).
  - intros g ranges runs. eexists. reflexivity.
  - cbn. reflexivity.
Qed.

(** The flow of the indices matters: in H^{g0,g1}_{g2,g3} K^{g0}_{g1} a^{g2,g3} the delta makes the two upper indices of H
    equal, and simplify raises. *)
Theorem C71_flow_needed :
  exists xs o t, make_term SpinOrbital xs o (Q2Qc 1) = Ok t /\ (forall i, ~ diagonal_in i xs o) /\ Forall valid_tensor xs /\ densities_disjoint xs /\ classes_by_name xs /\
    (exists x, In x xs /\ ~ joins true x) /\ ~ Permutation (flat_map tupper xs ++ cre o) (flat_map tlower xs ++ ann o) /\ simplify true false t = Raise ValueError.
Proof.
  exists [ex_H [xi Sg 0; xi Sg 1] [xi Sg 2; xi Sg 3]; ex_K [xi Sg 0] [xi Sg 1]], (Op [xi Sg 2; xi Sg 3] []). eexists. split; [reflexivity|]. split; [|split; [|split; [|split; [|split; [|split; [|vm_compute; reflexivity]]]]]].
  - intros i [[H1 H2]|(x & Hx & H1 & H2)]; [cbn in H1, H2; intuition (subst; discriminate)|]. cbn in Hx. destruct Hx as [<-|[<-|[]]]; cbn in H1, H2; intuition (subst; discriminate).
  - repeat (constructor; [reflexivity|]). constructor.
  - unfold densities_disjoint. cbn. repeat (constructor; [cbn; intuition discriminate|]). constructor.
  - intros x y Hx Hy. cbn in Hx, Hy. intuition (subst; first [reflexivity|discriminate]).
  - eexists. split; [left; reflexivity|]. intros [H|(_ & H & _)]; discriminate H.
  - intros P. apply Permutation_length in P. discriminate P.
Qed.
Print Assumptions C71_flow_needed.

(** So does a part that is not a delta: K^{g0}_{g1} a^{g1}_{g0} has balanced flow and raises. *)
Theorem C71_rest_needed :
  exists xs o t, make_term SpinOrbital xs o (Q2Qc 1) = Ok t /\ (forall i, ~ diagonal_in i xs o) /\ Forall valid_tensor xs /\
    Permutation (flat_map tupper xs ++ cre o) (flat_map tlower xs ++ ann o) /\ (forall x, In x xs -> joins true x) /\
    forall sympy ra hermitian, canonicalize sympy true ra hermitian t = Raise ValueError.
Proof.
  exists [ex_K [xi Sg 0] [xi Sg 1]], (Op [xi Sg 1] [xi Sg 0]). eexists. split; [reflexivity|]. split; [|split; [|split; [|split]]].
  - intros i [[H1 H2]|(x & Hx & H1 & H2)]; [cbn in H1, H2; intuition (subst; discriminate)|]. cbn in Hx. destruct Hx as [<-|[]]; cbn in H1, H2; intuition (subst; discriminate).
  - repeat (constructor; [reflexivity|]). constructor.
  - apply perm_swap.
  - intros x [<-|[]]. left. reflexivity.
  - intros sympy [|] h; vm_compute; reflexivity.
Qed.
Print Assumptions C71_rest_needed.

(** Tensors with different numbers of upper and lower indices cannot be canonicalized: ValueError, whatever SymPy does. *)
Theorem C71_legs_needed :
  exists xs o t, make_term SpinOrbital xs o (Q2Qc 1) = Ok t /\ (forall i, ~ diagonal_in i xs o) /\ Permutation (flat_map tupper xs ++ cre o) (flat_map tlower xs ++ ann o) /\
    (exists x, In x xs /\ length (tupper x) <> length (tlower x)) /\ forall sympy ra hermitian, canonicalize sympy true ra hermitian t = Raise ValueError.
Proof.
  exists [Ten TTensor SpinOrbital "X" 0 [xi Sg 0; xi Sg 1] [xi Sg 2]; Ten TTensor SpinOrbital "Y" 0 [xi Sg 2] [xi Sg 3; xi Sg 4]], (Op [xi Sg 3; xi Sg 4] [xi Sg 0; xi Sg 1]). eexists. split; [reflexivity|]. split; [|split; [|split]].
  - intros i [[H1 H2]|(x & Hx & H1 & H2)]; [cbn in H1, H2; intuition (subst; discriminate)|]. cbn in Hx. destruct Hx as [<-|[<-|[]]]; cbn in H1, H2; intuition (subst; discriminate).
  - cbn [flat_map tupper tlower cre ann app]. apply Permutation_sym. change [xi Sg 2; xi Sg 3; xi Sg 4; xi Sg 0; xi Sg 1] with ([xi Sg 2; xi Sg 3; xi Sg 4] ++ [xi Sg 0; xi Sg 1]). apply (Permutation_app_comm [xi Sg 2; xi Sg 3; xi Sg 4] [xi Sg 0; xi Sg 1]).
  - eexists. split; [left; reflexivity|discriminate].
  - intros sympy [|] h; vm_compute; reflexivity.
Qed.
Print Assumptions C71_legs_needed.
