(** C39-C41: simplify and canonicalize_simple. *)
From Coq Require Import Ascii String ZArith QArith Qcanon Sorting.Sorted.
From Verif Require Import PyBase OrderSpec OrderProofs SpaceModel IndicesModel IterProofs IndicesProofs ElemModel MacroModel TermModel ValueSpec ValueProofs TermSpec SumProofs TermProofs RenameProofs
  SimplifyProofs SimplifyValue FreshProofs CanonProofs PropTerm.
Local Close Scope Q_scope.
Local Close Scope Qc_scope.
Local Open Scope nat_scope.
Local Notation length := List.length.

(** C39. The indices generated one after the other from the numbers of a constructed term are pairwise different and new. *)
Theorem C39_generated_fresh :
  forall ty xs o c t l next', make_term ty xs o c = Ok t -> generates (tnext t) l next' ->
  NoDup l /\ (forall i, In i l -> ~ In i (tindices t)) /\
  (forall i, In i l -> total_times i xs o = 0).
Proof.
  intros ty xs o c t l next' M G. destruct (make_term_fields _ _ _ _ _ M) as (_ & _ & _ & _ & _ & _ & F7 & F8 & _). destruct (generates_spec _ _ _ G) as (N & _ & H).
  assert (Q : forall i, In i l -> ~ In i (tindices t)).
  { intros [s n] Hi Ht. apply H in Hi. assert (n < tnext t s) by (apply F8; exists (s, n); auto). lia. }
  split; [exact N|]. split; [exact Q|]. intros i Hi. specialize (Q i Hi). rewrite F7 in Q. lia.
Qed.
Print Assumptions C39_generated_fresh.

(** Everything simplify introduces is generated in this way: the indices of the simplified term, and those on its factors,
    are old ones or fresh ones. *)
Theorem C39_simplify_fresh :
  forall core ra ty xs o c t t', make_term ty xs o c = Ok t -> simplify core ra t = Ok t' ->
  exists l, generates (tnext t) l (tnext t') /\ NoDup l /\ (forall i, In i l -> ~ In i (tindices t)) /\
    (forall i, In i (tindices t') -> In i (tindices t) \/ In i l) /\
    (forall i, 0 < total_times i (ttensors t') (tsq t') -> In i (tindices t')).
Proof.
  intros core ra ty xs o c t t' M H. destruct (make_term_fields _ _ _ _ _ M) as (_ & P & _ & E & _ & _ & F7 & _).
  destruct (simplify_fresh core ra t t' H) as (l & G & I & J).
  { intros i Hi. apply F7. rewrite <- content_times. apply idx_times_in. rewrite E in Hi. apply (content_perm _ _ _ i P), Hi. }
  exists l. destruct (C39_generated_fresh _ _ _ _ _ _ _ M G) as (N & Q & _). repeat (split; [assumption|]).
  intros i Hi. apply J. apply idx_times_in. rewrite content_times. exact Hi.
Qed.
Print Assumptions C39_simplify_fresh.

(** Example: L^{g0}_{g1} K^{p0}_{h1} H^{g1,h1}_{g0,p0}; the cumulant needs two new hole indices, the delta a new active one *)
Definition ex_L (u l : list idx) : tensor := Ten TCumulant SpinOrbital "L" 1000 u l.
Definition ex_K (u l : list idx) : tensor := Ten TKronecker SpinOrbital "K" (-1) u l.
Definition ex_content : list tensor := [ex_L [xi Sg 0] [xi Sg 1]; ex_K [xi Sp 0] [xi Sh 1]; ex_H [xi Sg 1; xi Sh 1] [xi Sg 0; xi Sp 0]].
Example C39_C40_example :
  exists t t', make_term SpinOrbital ex_content (Op [] []) (Q2Qc 1) = Ok t /\ simplify true false t = Ok t' /\
    map (fun x => (tname x, tupper x, tlower x)) (ttensors t') = [("H"%string, [xi Sh 3; xi Sa 0], [xi Sh 2; xi Sa 0]); ("L"%string, [xi Sh 2], [xi Sh 3])] /\
  (forall i, ~ diagonal_in i ex_content (Op [] [])) /\ Forall valid_tensor ex_content /\ densities_disjoint ex_content /\ cumulants_open_active ex_content.
Proof.
  eexists. eexists. split; [reflexivity|]. split; [vm_compute; reflexivity|]. split; [reflexivity|]. split; [|split; [|split]].
  - intros i [[[] _]|(x & Hx & H1 & H2)]. cbn in Hx. destruct Hx as [<-|[<-|[<-|[]]]]; cbn in H1, H2; intuition (subst; discriminate).
  - repeat (constructor; [reflexivity|]). constructor.
  - unfold densities_disjoint. cbn. repeat (constructor; [cbn; intuition discriminate|]). constructor.
  - intros x i Hx Ec L. cbn in Hx. destruct Hx as [<-|[<-|[<-|[]]]]; try discriminate. cbn in L. congruence.
Qed.

(** C40. simplify keeps the value of every constructed term without diagonal indices in which each index touches at most one
    density and the indices of many-body cumulants can be active; for every system of orbitals, every commutative ring over the
    rationals and every physical valuation. *)
Theorem C40_simplify_value :
  forall (A : qalg) (S : system) (v : tvaluation A) core ra ty xs o c t t',
  make_term ty xs o c = Ok t -> (forall i, ~ diagonal_in i xs o) -> Forall valid_tensor xs -> densities_disjoint xs -> cumulants_open_active xs ->
  physical S v -> (ra = true -> no_active_amplitudes S v) -> simplify core ra t = Ok t' ->
  term_value S v t' = term_value S v t.
Proof. exact simplify_value. Qed.
Print Assumptions C40_simplify_value.

(** a physical valuation: deltas on Kronecker tensors, cumulants zero except the identity on core orbitals *)
Definition delta_val (ps qs : list nat) : Qc := if list_eq_dec Nat.eq_dec ps qs then Q2Qc 1 else Q2Qc 0.
Definition two_virtual : system := Sys 2 (fun _ => Lab false Sv).
Definition no_cumulants : tvaluation Qc_alg :=
  TVal Qc_alg (fun c _ ps qs => match c with TKronecker => delta_val ps qs | TCumulant => Q2Qc 0 | _ => Q2Qc 1 end) (fun _ _ => Q2Qc 1).
Lemma no_cumulants_physical : physical two_virtual no_cumulants.
Proof.
  constructor; cbn; try reflexivity.
  - intros _ p q. unfold delta_val. destruct (list_eq_dec _ [p] [q]) as [E|E]; destruct (Nat.eqb_spec p q) as [E'|E']; try reflexivity; exfalso; congruence.
  - intros _ p q [H|H]; discriminate.
Qed.
(** Chained deltas: K^{g0}_{g1} K^{g1}_{g2} H^{g2}_{g0} is the trace of H, simplify turns it into H^{g2}_{g1}. *)
Theorem C40_chained_deltas_refuted :
  exists (S : system) (v : tvaluation Qc_alg) xs o t t', physical S v /\ make_term SpinOrbital xs o (Q2Qc 1) = Ok t /\ (forall i, ~ diagonal_in i xs o) /\ Forall valid_tensor xs /\
    cumulants_open_active xs /\ simplify true false t = Ok t' /\ term_value S v t' <> term_value S v t.
Proof.
  exists two_virtual, no_cumulants, [ex_K [xi Sg 0] [xi Sg 1]; ex_K [xi Sg 1] [xi Sg 2]; ex_H [xi Sg 2] [xi Sg 0]], (Op [] []). eexists. eexists.
  split; [exact no_cumulants_physical|]. split; [reflexivity|]. split; [|split; [|split; [|split; [vm_compute; reflexivity|]]]].
  - intros i [[[] _]|(x & Hx & H1 & H2)]. cbn in Hx. destruct Hx as [<-|[<-|[<-|[]]]]; cbn in H1, H2; intuition (subst; discriminate).
  - repeat (constructor; [reflexivity|]). constructor.
  - intros x i Hx Ec. cbn in Hx. destruct Hx as [<-|[<-|[<-|[]]]]; discriminate.
  - intros H. apply (f_equal this) in H. vm_compute in H. discriminate.
Qed.
Print Assumptions C40_chained_deltas_refuted.

(** Two-body cumulants with a core index: the value is zero, after simplify the core index has become active. *)
Definition core_and_active : system := Sys 2 (fun p => match p with 0 => Lab false Sc | _ => Lab false Sa end).
Definition all_active_ps (ps qs : list nat) : bool := forallb (is_active core_and_active) (ps ++ qs).
Definition active_cumulants : tvaluation Qc_alg :=
  TVal Qc_alg (fun c _ ps qs => match c with
    | TKronecker => delta_val ps qs
    | TCumulant => if length ps =? 1 then delta_val ps qs else if all_active_ps ps qs then Q2Qc 1 else Q2Qc 0
    | _ => Q2Qc 1 end) (fun _ _ => Q2Qc 1).
Lemma delta_val_one p q : delta_val [p] [q] = if p =? q then Q2Qc 1 else Q2Qc 0.
Proof. unfold delta_val. destruct (list_eq_dec _ [p] [q]) as [E|E]; destruct (Nat.eqb_spec p q) as [E'|E']; try reflexivity; exfalso; congruence. Qed.
Lemma active_cumulants_physical : physical core_and_active active_cumulants.
Proof.
  constructor; cbn [vtensor active_cumulants length Nat.eqb].
  - intros _ p q. apply delta_val_one.
  - intros _ p q [H|H]; [destruct p|destruct q]; discriminate.
  - intros _ p q _. apply delta_val_one.
  - intros _ ps qs L H. destruct (Nat.eqb_spec (length ps) 1) as [E|E]; [congruence|]. replace (all_active_ps ps qs) with false; [reflexivity|]. symmetry. unfold all_active_ps.
    apply existsb_exists in H as (p & Hp & H). apply not_true_iff_false. intros Q. rewrite forallb_forall in Q. rewrite (Q p Hp) in H. discriminate.
Qed.
Theorem C40_core_cumulant_refuted :
  exists (S : system) (v : tvaluation Qc_alg) xs o t t', physical S v /\ make_term SpinOrbital xs o (Q2Qc 1) = Ok t /\ (forall i, ~ diagonal_in i xs o) /\ Forall valid_tensor xs /\
    densities_disjoint xs /\ simplify true false t = Ok t' /\ term_value S v t' <> term_value S v t.
Proof.
  exists core_and_active, active_cumulants, [ex_L [xi Sc 0; xi Sa 0] [xi Sa 1; xi Sa 2]; ex_H [xi Sa 1; xi Sa 2] [xi Sc 0; xi Sa 0]], (Op [] []). eexists. eexists.
  split; [exact active_cumulants_physical|]. split; [reflexivity|]. split; [|split; [|split; [|split; [vm_compute; reflexivity|]]]].
  - intros i [[[] _]|(x & Hx & H1 & H2)]. cbn in Hx. destruct Hx as [<-|[<-|[]]]; cbn in H1, H2; intuition (subst; discriminate).
  - repeat (constructor; [reflexivity|]). constructor.
  - unfold densities_disjoint. cbn. repeat (constructor; [cbn; intuition discriminate|]). constructor.
  - intros H. apply (f_equal this) in H. vm_compute in H. discriminate.
Qed.
Print Assumptions C40_core_cumulant_refuted.
(** If only deltas are left simplify raises: K^{g0}_{g1} a^{g1}_{g0}. *)
Theorem C40_only_deltas_raises :
  exists xs o t, make_term SpinOrbital xs o (Q2Qc 1) = Ok t /\ (forall i, ~ diagonal_in i xs o) /\ Forall valid_tensor xs /\ densities_disjoint xs /\ simplify true false t = Raise ValueError.
Proof.
  exists [ex_K [xi Sg 0] [xi Sg 1]], (Op [xi Sg 1] [xi Sg 0]). eexists. split; [reflexivity|]. split; [|split; [|split; [|vm_compute; reflexivity]]].
  - intros i [[H1 H2]|(x & Hx & H1 & H2)]; [cbn in H1, H2; intuition (subst; discriminate)|]. cbn in Hx. destruct Hx as [<-|[]]; cbn in H1, H2; intuition (subst; discriminate).
  - repeat (constructor; [reflexivity|]). constructor.
  - unfold densities_disjoint. cbn. repeat (constructor; [cbn; intuition discriminate|]). constructor.
Qed.
Print Assumptions C40_only_deltas_raises.

(** C41. The canonicalized term has the value of the simplified one; the numbers of its indices are 0..k-1 in every space; the
    index lists of its factors are sorted. The coefficient must be zero or at least 1e-15 in absolute value (is_void). *)
Theorem C41_canonicalize_value :
  forall (A : qalg) (S : system) (v : tvaluation A) core ra t t' tm,
  simplify core ra t = Ok t' -> canonicalize_simple core ra t = Ok tm ->
  (itype_antisymmetric (ttype t') = true -> antisymmetric v) -> zero_or_visible (tcoeff t') ->
  term_value S v tm = term_value S v t' /\
  (exists k : label -> nat, forall s n, In (s, n) (tindices tm) <-> n < k s) /\
  (itype_antisymmetric (ttype t') = true -> idx_sorted (cre (tsq tm)) /\ idx_sorted (ann (tsq tm)) /\ Forall (fun x => idx_sorted (tupper x) /\ idx_sorted (tlower x)) (ttensors tm)).
Proof. intros A S v core ra t t' tm H1 H2 AS V. apply (canonicalize_simple_ok A S v core ra t t' tm H1 H2 AS). exact (visible_void _ V). Qed.
Print Assumptions C41_canonicalize_value.

Lemma simplify_type core ra t t' : simplify core ra t = Ok t' -> ttype t' = ttype t /\ (tcoeff t' = tcoeff t \/ tcoeff t' = Q2Qc 0).
Proof.
  intros H. unfold simplify in H.
  repeat (match type of H with pybind ?a _ = _ => destruct a as [?|] eqn:?E; cbn [pybind] in H; [|discriminate] | (let (_, _) := ?p in _) = _ => destruct p | (if ?b then _ else _) = _ => destruct b end).
  all: injection H as <-; cbn; auto.
Qed.
(** both together: canonicalize(simplify) keeps the value of the term *)
Theorem C41_canonicalize_simple_value :
  forall (A : qalg) (S : system) (v : tvaluation A) core ra ty xs o c t tm,
  make_term ty xs o c = Ok t -> (forall i, ~ diagonal_in i xs o) -> Forall valid_tensor xs -> densities_disjoint xs -> cumulants_open_active xs ->
  physical S v -> (ra = true -> no_active_amplitudes S v) -> (itype_antisymmetric ty = true -> antisymmetric v) ->
  zero_or_visible c -> canonicalize_simple core ra t = Ok tm ->
  term_value S v tm = term_value S v t.
Proof.
  intros A S v core ra ty xs o c t tm M ND HV HD HA P NA AS HC H. pose proof H as H'. unfold canonicalize_simple in H'. destruct (simplify core ra t) as [t'|] eqn:E; [|discriminate]. clear H'.
  destruct (make_term_fields _ _ _ _ _ M) as (E1 & _ & _ & _ & E5 & _). destruct (simplify_type _ _ _ _ E) as [T C]. rewrite <- (simplify_value A S v core ra ty xs o c t t'); try assumption.
  apply (canonicalize_simple_ok A S v core ra t t' tm E H).
  - rewrite T, E1. exact AS.
  - unfold is_void. intros V. destruct C as [C|C]; [|exact C]. rewrite C, E5 in *. exact (visible_void _ HC V).
Qed.
Print Assumptions C41_canonicalize_simple_value.

Example C41_example :
  exists t tm, make_term SpinOrbital [ex_L [xi Sg 5] [xi Sg 7]; ex_H [xi Sg 7; xi Sp 4] [xi Sg 5; xi Sv 9]] (Op [xi Sv 9] [xi Sp 4]) (Q2Qc 1) = Ok t /\
    canonicalize_simple true false t = Ok tm /\ map (fun x => (tname x, tupper x, tlower x)) (ttensors tm) = [("H"%string, [xi Sp 0; xi Sh 0], [xi Sh 1; xi Sv 0]); ("L"%string, [xi Sh 1], [xi Sh 0])] /\
    (cre (tsq tm), ann (tsq tm), this (tcoeff tm)) = ([xi Sv 0], [xi Sp 0], (-1)%Q).
Proof. eexists. eexists. split; [reflexivity|]. split; [vm_compute; reflexivity|]. split; reflexivity. Qed.
