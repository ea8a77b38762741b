(** C84: simplify on terms with diagonal indices. *)
From Coq Require Import Ascii String ZArith QArith Qcanon Sorting.Sorted.
From Verif Require Import PyBase OrderSpec OrderProofs SpaceModel IndicesModel IterProofs IndicesProofs ElemModel MacroModel TermModel ValueSpec ValueProofs TermSpec SumProofs TermProofs RenameProofs
  SimplifyProofs SimplifyValue ReturnSpec SimplifyReturns DiagonalSpec SimplifyDiagonal PropTerm PropSimplify.
Local Close Scope Q_scope.
Local Close Scope Qc_scope.
Local Open Scope nat_scope.
Local Notation length := List.length.

(** C84. simplify keeps the value of every constructed term, with or without diagonal indices, in which each non-diagonal index
    touches at most one density and each delta joins a diagonal index to a later, non-diagonal one. *)
Theorem C84_diagonal_value :
  forall (A : qalg) (S : system) (v : tvaluation A) core ra ty xs o c t t',
  make_term ty xs o c = Ok t -> Forall valid_tensor xs -> densities_apart xs o -> diagonals_harmless core xs o -> cumulants_open_active xs ->
  physical S v -> (ra = true -> no_active_amplitudes S v) -> simplify core ra t = Ok t' ->
  term_value S v t' = term_value S v t.
Proof. exact simplify_diagonal_value. Qed.
Print Assumptions C84_diagonal_value.

(** The factors that remain are renamed alike, and each diagonal index runs over the spaces that its own label and all densities
    on it have in common, not more and not less. *)
Theorem C84_diagonal_space :
  forall core ra ty xs o c t t',
  make_term ty xs o c = Ok t -> Forall valid_tensor xs -> densities_apart xs o -> diagonals_harmless core xs o -> cumulants_open_active xs ->
  simplify core ra t = Ok t' ->
  (ra = true /\ tcoeff t' = Q2Qc 0) \/
  exists rho, tsq t' = rename_op rho o /\ tcoeff t' = c /\
    (forall x, In x xs -> ~ joins core x -> In (rename_tensor rho x) (ttensors t')) /\
    (forall y, In y (ttensors t') -> exists x, In x xs /\ tcls x <> TKronecker /\ y = rename_tensor rho x) /\
    (forall d, diagonal_in d xs o -> forall s, In s (relation (fst (rho d))) <-> left_over xs d s).
Proof.
  intros core ra ty xs o c t t' M HV HD HL HA H. destruct (make_term_fields _ _ _ _ _ M) as (_ & P1 & _ & E2 & E3 & _).
  destruct (simplify_diagonal_inv core ra ty xs o c t t' M HV HD HL HA H) as (HW & _ & _ & rho & _ & HS & [(Er & _ & ->)|(W1 & W2 & W3)]).
  - left. split; [exact Er|reflexivity].
  - right. exists rho. rewrite W2, W3, E2, E3. split; [reflexivity|]. split; [reflexivity|]. split; [|split].
    + intros x Hx N. rewrite W1. apply in_map. apply filter_In. split; [rewrite P1; exact Hx|]. apply negb_true_iff, not_true_iff_false. intros D. apply N. apply not_joins; [exact D|]. rewrite Forall_forall in HV. apply HV, Hx.
    + intros y Hy. rewrite W1 in Hy. apply in_map_iff in Hy as (x & <- & Hx). apply filter_In in Hx as [Hx D]. exists x. split; [rewrite <- P1; exact Hx|]. split; [|reflexivity].
      intros E. unfold is_delta in D. rewrite E in D. discriminate.
    + intros d Dd s. apply (left_over_ok core); [exact HV|exact HW|]. apply HS, Dd.
Qed.
Print Assumptions C84_diagonal_space.

(** Example: tests/test_term.py:238-247 *)
Definition ex_t (u l : list idx) : tensor := Ten TTensor SpinOrbital "t" 1 u l.
Definition diagonal_content : list tensor :=
  [ex_H [xi Sg 0] [xi Sg 0]; ex_t [xi Sh 0] [xi Sp 0]; ex_t [xi Sp 1] [xi Sh 1]; ex_L [xi Sg 0] [xi Sh 1]; ex_L [xi Sh 0] [xi Sg 0]; ex_K [xi Sp 0] [xi Sp 1]].
(** tests/test_term.py:249-257 *)
Definition diagonal_core : list tensor :=
  [ex_H [xi Sg 0] [xi Sg 0]; ex_t [xi Sh 0] [xi Sp 0]; ex_t [xi Sp 1] [xi Sc 1]; ex_L [xi Sg 0] [xi Sc 1]; ex_K [xi Sp 0] [xi Sp 1]].
Local Ltac count i := match goal with |- idx_times i ?l <= 1 =>
  let n := fresh in let q := fresh in destruct (in_dec idx_eq_dec i l) as [n|n]; [cbn in n; repeat (destruct n as [q|n]; [rewrite <- q in *; first [exfalso; congruence|apply Nat.leb_le; vm_compute; reflexivity]|]); destruct n
  |unfold idx_times; rewrite (proj1 (count_occ_not_In idx_eq_dec _ _) n); lia] end.
Lemma diagonal_content_diagonal i : diagonal_in i diagonal_content (Op [] []) <-> i = xi Sg 0.
Proof.
  split; [|intros ->; right; eexists; split; [left; reflexivity|cbn; auto]]. intros [[[] _]|(x & Hx & H1 & H2)]. cbn in Hx.
  destruct Hx as [<-|[<-|[<-|[<-|[<-|[<-|[]]]]]]]; cbn in H1, H2; intuition (subst; try reflexivity; discriminate).
Qed.
Lemma diagonal_core_diagonal i : diagonal_in i diagonal_core (Op [xi Sh 0] [xi Sg 0]) <-> i = xi Sg 0.
Proof.
  split; [|intros ->; right; eexists; split; [left; reflexivity|cbn; auto]]. intros [[H1 H2]|(x & Hx & H1 & H2)]; [cbn in H1, H2; intuition (subst; discriminate)|]. cbn in Hx.
  destruct Hx as [<-|[<-|[<-|[<-|[<-|[]]]]]]; cbn in H1, H2; intuition (subst; try reflexivity; discriminate).
Qed.
Example C84_example :
  (exists t t', make_term SpinOrbital diagonal_content (Op [] []) (Q2Qc 1) = Ok t /\ simplify true true t = Ok t' /\
    map (fun x => (tname x, tupper x, tlower x)) (ttensors t') =
      [("H"%string, [xi Sh 6], [xi Sh 6]); ("t"%string, [xi Sp 1], [xi Sh 3]); ("t"%string, [xi Sh 4], [xi Sp 1]); ("L"%string, [xi Sh 6], [xi Sh 3]); ("L"%string, [xi Sh 4], [xi Sh 6])]) /\
  Forall valid_tensor diagonal_content /\ densities_apart diagonal_content (Op [] []) /\ diagonals_harmless true diagonal_content (Op [] []) /\ cumulants_open_active diagonal_content.
Proof.
  split; [eexists; eexists; split; [reflexivity|split; vm_compute; reflexivity]|]. split; [repeat (constructor; [reflexivity|]); constructor|]. split; [|split].
  - intros i Hi. rewrite diagonal_content_diagonal in Hi. count i.
  - intros x u l Hx J Eu El. unfold harmless. rewrite !diagonal_content_diagonal. cbn in Hx. destruct Hx as [<-|[<-|[<-|[<-|[<-|[<-|[]]]]]]]; cbn in Eu, El; injection Eu as <-; injection El as <-;
      try (destruct J as [J|(_ & J & _)]; discriminate); try (split; intros; discriminate).
    + exfalso. destruct J as [J|(_ & _ & u & l & E1 & E2 & J)]; [discriminate|]. injection E1 as <-. injection E2 as <-. specialize (J (Lab false Sa)). cbn in J. assert (Q : Sa = Sc) by (apply J; auto). discriminate.
    + exfalso. destruct J as [J|(_ & _ & u & l & E1 & E2 & J)]; [discriminate|]. injection E1 as <-. injection E2 as <-. specialize (J (Lab false Sa)). cbn in J. assert (Q : Sa = Sc) by (apply J; auto). discriminate.
  - intros x i Hx Ec L. cbn in Hx. destruct Hx as [<-|[<-|[<-|[<-|[<-|[<-|[]]]]]]]; try discriminate; cbn in L; congruence.
Qed.
(** the density matrix over the diagonal index and a core index becomes a delta *)
Example C84_core_example :
  (exists t t', make_term SpinOrbital diagonal_core (Op [xi Sh 0] [xi Sg 0]) (Q2Qc 1) = Ok t /\ simplify true true t = Ok t' /\
    map (fun x => (tname x, tupper x, tlower x)) (ttensors t') = [("H"%string, [xi Sc 2], [xi Sc 2]); ("t"%string, [xi Sp 1], [xi Sc 2]); ("t"%string, [xi Sh 0], [xi Sp 1])] /\ tsq t' = Op [xi Sh 0] [xi Sc 2]) /\
  Forall valid_tensor diagonal_core /\ densities_apart diagonal_core (Op [xi Sh 0] [xi Sg 0]) /\ diagonals_harmless true diagonal_core (Op [xi Sh 0] [xi Sg 0]) /\ cumulants_open_active diagonal_core.
Proof.
  split; [eexists; eexists; split; [reflexivity|split; [vm_compute; reflexivity|split; vm_compute; reflexivity]]|]. split; [repeat (constructor; [reflexivity|]); constructor|]. split; [|split].
  - intros i Hi. rewrite diagonal_core_diagonal in Hi. count i.
  - intros x u l Hx J Eu El. unfold harmless. rewrite !diagonal_core_diagonal. cbn in Hx. destruct Hx as [<-|[<-|[<-|[<-|[<-|[]]]]]]; cbn in Eu, El; injection Eu as <-; injection El as <-;
      try (destruct J as [J|(_ & J & _)]; discriminate); (split; intros Q; try discriminate). split; [reflexivity|]. split; [discriminate|]. intros [K _]. discriminate.
  - intros x i Hx Ec L. cbn in Hx. destruct Hx as [<-|[<-|[<-|[<-|[<-|[]]]]]]; try discriminate; cbn in L; congruence.
Qed.

(** Each part of the condition on the deltas is needed; only the condition named is violated. *)
Definition changes_value (xs : list tensor) (o : op) : Prop :=
  exists (S : system) (v : tvaluation Qc_alg) t t', physical S v /\ make_term SpinOrbital xs o (Q2Qc 1) = Ok t /\ Forall valid_tensor xs /\ densities_apart xs o /\ cumulants_open_active xs /\
    simplify true false t = Ok t' /\ term_value S v t' <> term_value S v t.
Local Ltac wrong S P := exists S, no_cumulants; eexists; eexists; split; [exact P|]; split; [reflexivity|]; split; [repeat (constructor; [reflexivity|]); constructor|]; split; [|split; [|split; [vm_compute; reflexivity|]]];
  [|intros x i Hx Ec; cbn in Hx; repeat (destruct Hx as [<-|Hx]; [discriminate|]); destruct Hx|intros H; apply (f_equal this) in H; vm_compute in H; discriminate].
Definition two_active : system := Sys 2 (fun _ => Lab false Sa).
Lemma two_active_physical : physical two_active no_cumulants.
Proof.
  constructor; cbn; try reflexivity.
  - intros _ p q. unfold delta_val. destruct (list_eq_dec _ [p] [q]) as [E|E]; destruct (Nat.eqb_spec p q) as [E'|E']; try reflexivity; exfalso; congruence.
  - intros _ p q [H|H]; discriminate.
Qed.
(** the diagonal index comes second: H^{v0}_{v0} K^{p0}_{v0} a^{v0}_{p0} becomes H^{v1}_{v1} a^{v1}_{v0} *)
Theorem C84_second_refuted : exists d j xs o, In (ex_K [j] [d]) xs /\ diagonal_in d xs o /\ ~ diagonal_in j xs o /\ ~ (lsp (fst d) = Sp /\ lsp (fst j) = Sh) /\ changes_value xs o.
Proof.
  exists (xi Sv 0), (xi Sp 0), [ex_H [xi Sv 0] [xi Sv 0]; ex_K [xi Sp 0] [xi Sv 0]], (Op [xi Sv 0] [xi Sp 0]). split; [cbn; auto|]. split; [right; eexists; split; [left; reflexivity|cbn; auto]|]. split; [|split].
  - intros [[H1 H2]|(x & Hx & H1 & H2)]; [cbn in H1, H2; intuition discriminate|]. cbn in Hx. destruct Hx as [<-|[<-|[]]]; cbn in H1, H2; intuition discriminate.
  - intros [H _]. discriminate.
  - wrong two_virtual no_cumulants_physical. intros i _. count i.
Qed.
Print Assumptions C84_second_refuted.
(** both indices are diagonal: H^{g0}_{g0} H^{v0}_{v0} K^{g0}_{v0} a^{v0}_{g0} *)
Theorem C84_two_diagonals_refuted : exists d j xs o, In (ex_K [d] [j]) xs /\ diagonal_in d xs o /\ diagonal_in j xs o /\ idx_lt d j = true /\ ~ (lsp (fst d) = Sp /\ lsp (fst j) = Sh) /\ changes_value xs o.
Proof.
  exists (xi Sg 0), (xi Sv 0), [ex_H [xi Sg 0] [xi Sg 0]; ex_H [xi Sv 0] [xi Sv 0]; ex_K [xi Sg 0] [xi Sv 0]], (Op [xi Sv 0] [xi Sg 0]). split; [cbn; auto|].
  split; [right; eexists; split; [left; reflexivity|cbn; auto]|]. split; [right; eexists; split; [right; left; reflexivity|cbn; auto]|]. split; [reflexivity|]. split; [intros [H _]; discriminate|].
  wrong two_virtual no_cumulants_physical. intros i _. count i.
Qed.
Print Assumptions C84_two_diagonals_refuted.
(** a particle and a hole index: H^{p0}_{p0} K^{p0}_{h0} a^{h0}_{p0}; they become different active indices *)
Theorem C84_particle_hole_refuted : exists d j xs o, In (ex_K [d] [j]) xs /\ diagonal_in d xs o /\ ~ diagonal_in j xs o /\ idx_lt d j = true /\ changes_value xs o.
Proof.
  exists (xi Sp 0), (xi Sh 0), [ex_H [xi Sp 0] [xi Sp 0]; ex_K [xi Sp 0] [xi Sh 0]], (Op [xi Sh 0] [xi Sp 0]). split; [cbn; auto|]. split; [right; eexists; split; [left; reflexivity|cbn; auto]|]. split; [|split; [reflexivity|]].
  - intros [[H1 H2]|(x & Hx & H1 & H2)]; [cbn in H1, H2; intuition discriminate|]. cbn in Hx. destruct Hx as [<-|[<-|[]]]; cbn in H1, H2; intuition discriminate.
  - wrong two_active two_active_physical. intros i _. count i.
Qed.
Print Assumptions C84_particle_hole_refuted.
