(** Replacement maps: renaming of indices, minimal labels, expansion of composite indices. *)
From Coq Require Import Ascii String ZArith QArith Qcanon Sorting.Sorted Ring_theory Ring.
From Verif Require Import PyBase OrderSpec OrderProofs SpaceModel IndicesModel IterProofs IndicesProofs SpinProofs SpaceProofs SortProofs ElemModel ElemSpec ElemProofs MacroModel TermModel ValueSpec ValueProofs TermSpec SumProofs TermProofs.
Local Close Scope Q_scope.
Local Close Scope Qc_scope.
Local Open Scope nat_scope.
Local Notation length := List.length.

Lemma dget_set {V} i j (v : V) d : dict_get idx_eqb i (dict_set idx_eqb j v d) = if idx_eqb i j then Some v else dict_get idx_eqb i d.
Proof.
  induction d as [|[k w] d IH]; cbn [dict_set dict_get]; [destruct (idx_eqb i j); reflexivity|].
  destruct (idx_eqb j k) eqn:E; cbn [dict_get].
  - apply idx_eqb_eq in E as ->. destruct (idx_eqb i k); reflexivity.
  - rewrite IH. destruct (idx_eqb i k) eqn:E2; [|reflexivity]. apply idx_eqb_eq in E2 as ->. destruct (idx_eqb k j) eqn:E3; [|reflexivity].
    apply idx_eqb_eq in E3 as ->. rewrite idx_eqb_refl in E. discriminate.
Qed.
Lemma dget_app {V} i (d e : list (idx * V)) : dict_get idx_eqb i (d ++ e) = match dict_get idx_eqb i d with Some v => Some v | None => dict_get idx_eqb i e end.
Proof. induction d as [|[k w] d IH]; cbn [app dict_get]; [reflexivity|]. destruct (idx_eqb i k); [reflexivity|exact IH]. Qed.
Lemma dget_in {V} i (v : V) d : dict_get idx_eqb i d = Some v -> In (i, v) d.
Proof. induction d as [|[k w] d IH]; cbn [dict_get]; [discriminate|]. destruct (idx_eqb i k) eqn:E; intros H; [apply idx_eqb_eq in E as ->; injection H as ->; left; reflexivity|right; auto]. Qed.
Lemma dget_some {V} i (v : V) d : NoDup (map fst d) -> In (i, v) d -> dict_get idx_eqb i d = Some v.
Proof. intros N H. apply (ElemProofs.dict_get_in idx_eqb idx_eqb_eq); assumption. Qed.
Lemma dget_none {V} i (d : list (idx * V)) : dict_get idx_eqb i d = None <-> ~ In i (map fst d).
Proof. apply (SpaceProofs.dict_get_none idx_eqb idx_eqb_eq). Qed.
Lemma dget_update {V} i (d e : list (idx * V)) : NoDup (map fst e) ->
  dict_get idx_eqb i (dict_update idx_eqb d e) = match dict_get idx_eqb i e with Some v => Some v | None => dict_get idx_eqb i d end.
Proof.
  unfold dict_update. revert d. induction e as [|[k v] e IH]; intros d N; cbn [fold_left dict_get fst snd]; [reflexivity|]. inversion N as [|? ? N1 N2]; subst. rewrite IH by exact N2. rewrite dget_set.
  destruct (idx_eqb i k) eqn:E; [|reflexivity]. apply idx_eqb_eq in E as ->. rewrite (proj2 (dget_none k e)) by exact N1. reflexivity.
Qed.

(** a replacement map as a function *)
Definition rename (r : repl) (i : idx) : idx := match dict_get idx_eqb i r with Some j => j | None => i end.

Lemma replace_ok r l m : replace r l = Ok m -> m = map (rename r) l.
Proof.
  unfold replace. revert m. induction l as [|x l IH]; intros m H; cbn [pymap] in H; [injection H as <-; reflexivity|].
  unfold dict_item at 1 in H. cbn [map]. unfold rename at 1. destruct (dict_get idx_eqb x r) as [y|]; [|discriminate]. cbn in H.
  destruct (pymap _ l) as [ys|] eqn:E; [|discriminate]. cbn in H. injection H as <-. f_equal. apply IH. reflexivity.
Qed.
Lemma replace_total r l : incl l (map fst r) -> replace r l = Ok (map (rename r) l).
Proof.
  intros H. unfold replace. induction l as [|x l IH]; [reflexivity|]. cbn [pymap map]. unfold dict_item at 1. unfold rename at 1.
  destruct (dict_get idx_eqb x r) as [y|] eqn:E; [|apply dget_none in E; exfalso; apply E, H; left; reflexivity]. cbn.
  rewrite IH by (intros z Hz; apply H; right; exact Hz). reflexivity.
Qed.
Lemma make_typed_ok t l m : make_typed t l = Ok m -> m = l /\ NoDup l.
Proof.
  unfold make_typed. destruct (nodup_idx l) eqn:E; [|discriminate]. destruct (_ && _); [discriminate|]. intros H. injection H as <-. split; [reflexivity|]. apply nodup_idx_spec, E.
Qed.
Lemma check_tensor_ok x y : check_tensor x = Ok y -> y = x.
Proof.
  unfold check_tensor, is_spin_conserving. destruct (tcls x), (length (tupper x) =? length (tlower x)); cbn [pybind];
    repeat match goal with |- context [if ?b then _ else _] => destruct b end; cbn [pybind]; intros H; inversion H; reflexivity.
Qed.
Lemma replace_tensor_ok r x y : replace_tensor r x = Ok y -> y = rename_tensor (rename r) x /\ NoDup (tupper y) /\ NoDup (tlower y).
Proof.
  unfold replace_tensor. destruct (replace r (tupper x)) as [u|] eqn:E1; [|discriminate]. cbn [pybind]. destruct (make_typed _ u) as [u'|] eqn:E2; [|discriminate]. cbn [pybind].
  destruct (replace r (tlower x)) as [l|] eqn:E3; [|discriminate]. cbn [pybind]. destruct (make_typed _ l) as [l'|] eqn:E4; [|discriminate]. cbn [pybind].
  unfold from_indices. intros H. apply check_tensor_ok in H. apply make_typed_ok in E2 as [-> N1]. apply make_typed_ok in E4 as [-> N2]. subst y. cbn [tupper tlower].
  apply replace_ok in E1 as ->. apply replace_ok in E3 as ->. split; [reflexivity|]. split; assumption.
Qed.
Lemma pymap_map {B C} (f : B -> pyres C) (g : B -> C) l m : (forall x y, In x l -> f x = Ok y -> y = g x) -> pymap f l = Ok m -> m = map g l.
Proof.
  intros H. revert m. induction l as [|x l IH]; intros m E; cbn [pymap] in E; [injection E as <-; reflexivity|].
  destruct (f x) as [y|] eqn:E1; [|discriminate]. cbn in E. destruct (pymap f l) as [ys|] eqn:E2; [|discriminate]. cbn in E. injection E as <-. cbn [map]. f_equal.
  - apply H; [left; reflexivity|exact E1].
  - apply IH; [|reflexivity]. intros z w Hz. apply H. right. exact Hz.
Qed.
Lemma pymap_forall2 {B C} (f : B -> pyres C) l m : pymap f l = Ok m -> Forall2 (fun x y => f x = Ok y) l m.
Proof.
  revert m. induction l as [|x l IH]; intros m E; cbn [pymap] in E; [injection E as <-; constructor|].
  destruct (f x) as [y|] eqn:E1; [|discriminate]. cbn in E. destruct (pymap f l) as [ys|] eqn:E2; [|discriminate]. cbn in E. injection E as <-. constructor; [exact E1|]. apply IH. reflexivity.
Qed.
Lemma replace_tensors_ok xs r ys : replace_tensors_indices xs r = Ok ys -> xs <> [] /\ ys = map (rename_tensor (rename r)) xs.
Proof.
  unfold replace_tensors_indices. destruct xs as [|x xs]; [discriminate|]. intros H. split; [discriminate|]. revert H. apply pymap_map. intros z w _ H. apply replace_tensor_ok in H. tauto.
Qed.
Lemma replace_op_ok t o r o' : replace_op_indices t o r = Ok o' -> o' = rename_op (rename r) o /\ NoDup (cre o') /\ NoDup (ann o').
Proof.
  unfold replace_op_indices. destruct (replace r (cre o)) as [u|] eqn:E1; [|discriminate]. cbn [pybind]. destruct (make_typed _ u) as [u'|] eqn:E2; [|discriminate]. cbn [pybind].
  destruct (replace r (ann o)) as [l|] eqn:E3; [|discriminate]. cbn [pybind]. destruct (make_typed _ l) as [l'|] eqn:E4; [|discriminate]. cbn [pybind].
  intros H. injection H as <-. apply make_typed_ok in E2 as [-> N1]. apply make_typed_ok in E4 as [-> N2]. cbn [cre ann].
  apply replace_ok in E1 as ->. apply replace_ok in E3 as ->. split; [reflexivity|]. split; assumption.
Qed.

(** ** minimal labels *)
Lemma minimal_fold l : forall r next, NoDup (map fst r) -> exists ev next',
  fold_left minimal_step l (r, next) = (r ++ ev, next') /\ NoDup (map fst (r ++ ev)) /\ incl (map fst ev) l /\ incl l (map fst (r ++ ev)) /\
  generates next (map snd ev) next' /\ (forall i j, In (i, j) ev -> fst j = fst i).
Proof.
  induction l as [|x l IH]; intros r next N; cbn [fold_left].
  - exists [], next. rewrite app_nil_r. split; [reflexivity|]. split; [exact N|]. split; [intros i []|]. split; [intros i []|]. split; [constructor|]. intros i j [].
  - unfold minimal_step at 2. destruct (dict_get idx_eqb x r) as [y|] eqn:E.
    + destruct (IH r next N) as (ev & next' & H1 & H2 & H3 & H4 & H5 & H6). exists ev, next'. split; [exact H1|]. split; [exact H2|]. split; [intros i Hi; right; auto|].
      split; [|split; assumption]. intros i [<-|Hi]; [|auto]. rewrite map_app. apply in_or_app. left. apply dget_in in E. exact (in_map fst _ _ E).
    + unfold generate_next_index. apply dget_none in E. rewrite (dict_set_fresh idx_eqb idx_eqb_eq) by exact E.
      assert (N' : NoDup (map fst (r ++ [(x, (fst x, next (fst x)))]))).
      { rewrite map_app. cbn [map fst]. apply NoDup_app_intro; [exact N|repeat constructor; intros []|]. intros y Hy [<-|[]]. contradiction. }
      destruct (IH _ (bump next (fst x)) N') as (ev & next' & H1 & H2 & H3 & H4 & H5 & H6). rewrite <- app_assoc in H1, H2, H4. cbn [app] in H1, H2, H4.
      exists ((x, (fst x, next (fst x))) :: ev), next'. split; [exact H1|]. split; [exact H2|]. split; [|split; [|split]].
      * intros i [<-|Hi]; [left; reflexivity|right; auto].
      * intros i [<-|Hi]; [|auto]. rewrite map_app. apply in_or_app. right. left. reflexivity.
      * cbn [map snd]. econstructor; [reflexivity|exact H5].
      * intros i j [H|H]; [injection H as <- <-; reflexivity|eauto].
Qed.

(** a map with distinct values is injective on its keys *)
Lemma rename_inj r i j : NoDup (map snd r) -> In i (map fst r) -> In j (map fst r) -> rename r i = rename r j -> i = j.
Proof.
  intros N Hi Hj. unfold rename. destruct (dict_get idx_eqb i r) as [a|] eqn:E1; [|apply dget_none in E1; contradiction].
  destruct (dict_get idx_eqb j r) as [b|] eqn:E2; [|apply dget_none in E2; contradiction]. intros <-. apply dget_in in E1, E2.
  clear -N E1 E2. induction r as [|[k w] r IH]; [destruct E1|]. cbn [map snd] in N. inversion N as [|? ? N1 N2]; subst.
  destruct E1 as [E1|E1], E2 as [E2|E2].
  - congruence.
  - injection E1 as -> ->. apply (in_map snd) in E2. contradiction.
  - injection E2 as -> ->. apply (in_map snd) in E1. contradiction.
  - apply IH; assumption.
Qed.
Lemma rename_in r i : In i (map fst r) -> In (i, rename r i) r.
Proof. intros H. unfold rename. destruct (dict_get idx_eqb i r) as [a|] eqn:E; [apply dget_in, E|apply dget_none in E; contradiction]. Qed.
Lemma in_rename r i j : NoDup (map fst r) -> In (i, j) r -> rename r i = j.
Proof. intros N H. unfold rename. rewrite (dget_some i j r N H). reflexivity. Qed.

Lemma minimal_indices_spec t : exists next', 
  NoDup (map fst (minimal_indices t)) /\ (forall i, In i (map fst (minimal_indices t)) <-> In i (content_indices (ttensors t) (tsq t))) /\
  generates (fun _ => 0) (map snd (minimal_indices t)) next' /\ (forall i j, In (i, j) (minimal_indices t) -> fst j = fst i).
Proof.
  unfold minimal_indices. destruct (minimal_fold (content_indices (ttensors t) (tsq t)) [] (fun _ => 0) (NoDup_nil _)) as (ev & next' & H1 & H2 & H3 & H4 & H5 & H6).
  exists next'. rewrite H1. cbn [app fst] in *. split; [exact H2|]. split; [|split; assumption]. intros i. split; [apply H3|apply H4].
Qed.

(** ** ddca replacement *)
Lemma ddca_fold ps : forall r next, NoDup (map fst r ++ map fst ps) -> exists gens next',
  fold_left (fun st p => let '(r, next) := st in let '(f, next') := generate_next_index (snd p) next in (dict_set idx_eqb (fst p) f r, next')) ps (r, next)
    = (r ++ combine (map fst ps) gens, next') /\ generates next gens next' /\ map fst gens = map snd ps.
Proof.
  induction ps as [|[i s] ps IH]; intros r next N; cbn [fold_left map fst snd].
  - exists [], next. cbn. rewrite app_nil_r. split; [reflexivity|]. split; [constructor|reflexivity].
  - unfold generate_next_index at 2. cbn [map fst] in N. assert (Ni : ~ In i (map fst r)).
    { intros H. apply NoDup_remove_2 in N. apply N, in_or_app. left. exact H. }
    rewrite (dict_set_fresh idx_eqb idx_eqb_eq) by exact Ni.
    destruct (IH (r ++ [(i, (s, next s))]) (bump next s)) as (gens & next' & H1 & H2 & H3).
    { rewrite map_app. cbn [map fst]. rewrite <- app_assoc. exact N. }
    exists ((s, next s) :: gens), next'. rewrite <- app_assoc in H1. cbn [app combine] in *. split; [exact H1|]. split; [econstructor; [reflexivity|exact H2]|].
    cbn [map fst]. rewrite H3. reflexivity.
Qed.

Lemma Forall2_in_combine {B C} (P : B -> C -> Prop) l m x y : Forall2 P l m -> In (x, y) (combine l m) -> P x y.
Proof. induction 1; intros Hin; [destruct Hin|]. destruct Hin as [E|Hin]; [injection E as <- <-; assumption|auto]. Qed.
Lemma map_snd_combine {B C} (l : list B) (m : list C) : length m = length l -> map snd (combine l m) = m.
Proof. revert m. induction l as [|x l IH]; intros [|y m] H; try discriminate; [reflexivity|]. cbn in *. f_equal. apply IH. lia. Qed.
Lemma map_fst_combine {B C} (l : list B) (m : list C) : length m = length l -> map fst (combine l m) = l.
Proof. revert m. induction l as [|x l IH]; intros [|y m] H; try discriminate; [reflexivity|]. cbn in *. f_equal. apply IH. lia. Qed.
Lemma map_rename_combine r l m : NoDup (map fst r) -> length m = length l -> (forall i j, In (i, j) (combine l m) -> In (i, j) r) -> map (rename r) l = m.
Proof.
  intros N. revert m. induction l as [|x l IH]; intros [|y m] L H; try discriminate; [reflexivity|]. cbn [map]. f_equal.
  - apply in_rename; [exact N|]. apply H. left. reflexivity.
  - apply IH; [cbn in L; lia|]. intros i j Hij. apply H. right. exact Hij.
Qed.

(** the replacement chosen for one block of spaces *)
Lemma ddca_replacement_spec start t spaces : NoDup (op_indices (tsq t)) -> length spaces = length (op_indices (tsq t)) ->
  let r := ddca_replacement start t spaces in
  NoDup (map fst r) /\ NoDup (map snd r) /\ (forall i, In i (op_indices (tsq t)) \/ In i (tindices t) <-> In i (map fst r)) /\
  map (fun i => fst (rename r i)) (op_indices (tsq t)) = spaces /\
  (forall i, In i (map fst r) -> ~ In i (op_indices (tsq t)) -> fst (rename r i) = fst i) /\
  (forall i, In i (map fst r) -> start <= snd (rename r i)).
Proof.
  intros N L. cbv zeta. set (r := ddca_replacement start t spaces). set (O := op_indices (tsq t)) in *.
  assert (EO : map fst (combine O spaces) = O) by (apply map_fst_combine; lia).
  destruct (ddca_fold (combine O spaces) [] (fun _ => start)) as (gens & next1 & H1 & H2 & H3). { cbn [map app]. rewrite EO. exact N. }
  rewrite EO in H1. rewrite map_snd_combine in H3 by lia. cbn [app] in H1.
  assert (Lg : length gens = length O). { apply (f_equal (@length label)) in H3. rewrite map_length in H3. exact (eq_trans H3 L). }
  destruct (minimal_fold (tindices t) (combine O gens) next1) as (ev & next2 & G1 & G2 & G3 & G4 & G5 & G6). { rewrite map_fst_combine by exact Lg. exact N. }
  assert (Er : r = combine O gens ++ ev). { unfold r, ddca_replacement. fold O. cbv zeta. etransitivity; [apply (f_equal (fun st => fst (fold_left minimal_step (tindices t) st)) H1)|]. rewrite G1. reflexivity. }
  assert (Egen : generates (fun _ => start) (map snd r) next2). { rewrite Er, map_app, map_snd_combine by exact Lg. eapply generates_app; eassumption. }
  destruct (generates_spec _ _ _ Egen) as (Nv & _ & Hv).
  assert (Nk : NoDup (map fst r)) by (rewrite Er; exact G2).
  split; [exact Nk|]. split; [exact Nv|]. split; [|split; [|split]].
  - intros i. rewrite Er, map_app, in_app_iff, map_fst_combine by exact Lg. split.
    + intros [H|H]; [left; exact H|]. apply G4 in H. rewrite map_app, in_app_iff, map_fst_combine in H by exact Lg. exact H.
    + intros [H|H]; [left; exact H|right; apply G3, H].
  - rewrite <- (map_map (rename r) fst). rewrite (map_rename_combine r O gens Nk Lg); [exact H3|]. intros i j Hij. rewrite Er. apply in_or_app. left. exact Hij.
  - intros i Hi Ho. pose proof (rename_in r i Hi) as Hr. rewrite Er in Hr at 2. apply in_app_or in Hr as [Hr|Hr]; [|apply G6, Hr].
    apply in_combine_l in Hr. contradiction.
  - intros i Hi. pose proof (rename_in r i Hi) as Hr. apply (in_map snd) in Hr. cbn [snd] in Hr. destruct (rename r i) as [s n]. apply Hv in Hr. cbn. lia.
Qed.

Section RenameValues.
  Context (A : qalg) (S : system).
  Add Ring alg_ring : (q_ring A).

  Lemma content_perm xs ys o i : Permutation xs ys -> (In i (content_indices xs o) <-> In i (content_indices ys o)).
  Proof.
    intros P. unfold content_indices. rewrite !in_app_iff, !in_flat_map. split; (intros [H|(x & Hx & H)]; [left; exact H|right; exists x; split; [|exact H]]).
    - apply (Permutation_in _ P Hx).
    - apply (Permutation_in _ (Permutation_sym P) Hx).
  Qed.
  Lemma content_value_perm (v : tvaluation A) c xs ys o : Permutation xs ys -> content_value S v c xs o = content_value S v c ys o.
  Proof.
    intros P. unfold content_value. f_equal. rewrite (sum_over_same A S _ (nodup idx_eq_dec (content_indices ys o))).
    - apply sum_over_ext; [|apply NoDup_nodup]. intros e _. unfold integrand. rewrite (aprod_perm A _ _ (Permutation_map (tensor_value v e) P)). reflexivity.
    - apply NoDup_nodup.
    - apply NoDup_nodup.
    - intros i. rewrite !nodup_In. apply content_perm, P.
    - apply integrand_depends.
  Qed.

  (** any list with the same indices may be summed over *)
  Lemma content_value_list (v : tvaluation A) c xs o I : NoDup I -> (forall i, In i I <-> In i (content_indices xs o)) ->
    content_value S v c xs o = (inj c * sum_over S I (integrand v xs o))%alg.
  Proof.
    intros N H. unfold content_value. f_equal. apply sum_over_same; [apply NoDup_nodup|exact N| |apply integrand_depends]. intros i. rewrite nodup_In, H. tauto.
  Qed.

  (** value of a renamed content *)
  Lemma content_value_rename (v : tvaluation A) c xs o rho :
    (forall i, In i (content_indices xs o) -> incl (orbitals S (rho i)) (orbitals S i)) ->
    content_value S v c (map (rename_tensor rho) xs) (rename_op rho o) =
    (inj c * sum_over S (nodup idx_eq_dec (content_indices xs o)) (fun e => if compat S rho (nodup idx_eq_dec (content_indices xs o)) e then integrand v xs o e else q0))%alg.
  Proof.
    intros HR. unfold content_value. f_equal. rewrite <- (sum_factor A S rho _ (nodup idx_eq_dec (content_indices (map (rename_tensor rho) xs) (rename_op rho o)))).
    - apply sum_over_ext; [|apply NoDup_nodup]. intros e _. apply integrand_rename.
    - apply NoDup_nodup.
    - apply NoDup_nodup.
    - intros j. rewrite nodup_In, content_rename, in_map_iff. split.
      + intros (i & E & H). exists i. rewrite nodup_In. auto.
      + intros (i & H & E). exists i. rewrite nodup_In in H. auto.
    - intros i Hi. apply nodup_In in Hi. auto.
    - apply integrand_depends.
  Qed.
  Lemma content_value_rename_inj (v : tvaluation A) c xs o rho :
    (forall i, In i (content_indices xs o) -> fst (rho i) = fst i) ->
    (forall i j, In i (content_indices xs o) -> In j (content_indices xs o) -> rho i = rho j -> i = j) ->
    content_value S v c (map (rename_tensor rho) xs) (rename_op rho o) = content_value S v c xs o.
  Proof.
    intros HL HI. assert (HO : forall i, In i (content_indices xs o) -> orbitals S (rho i) = orbitals S i) by (intros i Hi; unfold orbitals; rewrite HL by exact Hi; reflexivity).
    rewrite content_value_rename; [|intros i Hi; rewrite HO by exact Hi; intros p Hp; exact Hp]. unfold content_value. f_equal.
    apply sum_over_ext; [|apply NoDup_nodup]. intros e He. rewrite (proj2 (compat_spec S rho _ e)); [reflexivity|]. split.
    - intros i Hi. pose proof (He i Hi) as H. rewrite HO; [exact H|apply nodup_In in Hi; exact Hi].
    - intros i j Hi Hj E. apply nodup_In in Hi, Hj. rewrite (HI i j); auto.
  Qed.

  Lemma asum_single {B} (g : B -> A) l x : NoDup l -> In x l -> (forall y, In y l -> y <> x -> g y = q0) -> asum (map g l) = g x.
  Proof.
    assert (Z : forall m, (forall y, In y m -> g y = q0) -> asum (map g m) = q0).
    { induction m as [|z m IH]; intros H; [reflexivity|]. unfold asum in *. cbn [map fold_right]. rewrite IH by (intros y Hy; apply H; right; exact Hy). rewrite (H z (or_introl eq_refl)). ring. }
    induction 1 as [|y l Hy N IH]; intros Hx H; [destruct Hx|]. unfold asum in *. cbn [map fold_right]. destruct Hx as [<-|Hx].
    - rewrite Z; [ring|]. intros z Hz. apply H; [right; exact Hz|]. intros ->. contradiction.
    - rewrite IH; [|exact Hx|intros z Hz; apply H; right; exact Hz]. rewrite (H y); [ring|left; reflexivity|]. intros ->. contradiction.
  Qed.
  Lemma asum_zero {B} (l : list B) : asum (map (fun _ => @q0 A) l) = q0.
  Proof. induction l as [|x l IH]; [reflexivity|]. unfold asum in *. cbn [map fold_right]. rewrite IH. ring. Qed.
  Lemma asum_plus {B} (f g : B -> A) l : asum (map (fun x => (f x + g x)%alg) l) = (asum (map f l) + asum (map g l))%alg.
  Proof. induction l as [|x l IH]; unfold asum in *; cbn [map fold_right]; [ring|]. rewrite IH. ring. Qed.
  Lemma asum_swap {B C} (f : B -> C -> A) l m : asum (map (fun x => asum (map (f x) m)) l) = asum (map (fun y => asum (map (fun x => f x y) l)) m).
  Proof.
    induction l as [|x l IH].
    - cbn [map]. change (asum (@nil A)) with (@q0 A). symmetry. apply asum_zero.
    - cbn [map]. change (asum (?a :: ?b)) with (a + asum b)%alg. rewrite IH, <- asum_plus. apply asum_map_ext. intros y _. reflexivity.
  Qed.
End RenameValues.

(** ** make_ddca *)
Lemma relation_nodup l : NoDup (relation l).
Proof. destruct l as [b s]. destruct b, s; cbn; repeat (first [apply NoDup_nil|apply NoDup_cons]); cbn; intuition discriminate. Qed.
Lemma relation_elem x l : In x (relation l) -> relation x = [x].
Proof. destruct l as [b s]. destruct b, s; cbn; intuition (subst; reflexivity). Qed.

Lemma count_in_times s l : count_in s l = length (filter (fun x => space_eqb (lsp x) s) l).
Proof. reflexivity. Qed.
Lemma ddca_kept_spec mc mv sr b : ddca_kept mc mv sr b = true <->
  (Z.of_nat (count_in Sc b) <= mc)%Z /\ (Z.of_nat (count_in Sv b) <= mv)%Z /\ (sr = true -> ~ exists x, In x b /\ lsp x = Sa).
Proof.
  unfold ddca_kept. rewrite andb_true_iff, !negb_true_iff, orb_false_iff, !Z.ltb_ge. 
  assert (Q : count_in Sa b = 0 <-> ~ exists x, In x b /\ lsp x = Sa).
  { unfold count_in. split.
    - intros H (x & Hx & E). assert (I : In x (filter (fun x => space_eqb (lsp x) Sa) b)) by (apply filter_In; split; [exact Hx|apply space_eqb_eq, E]).
      destruct (filter _ b); [destruct I|discriminate].
    - intros H. destruct (filter (fun x => space_eqb (lsp x) Sa) b) as [|x l] eqn:E; [reflexivity|]. exfalso. apply H. exists x.
      assert (I : In x (filter (fun x => space_eqb (lsp x) Sa) b)) by (rewrite E; left; reflexivity). apply filter_In in I as [I1 I2]. apply space_eqb_eq in I2. auto. }
  rewrite andb_false_iff, negb_false_iff, Nat.eqb_eq, Q. destruct sr; intuition congruence.
Qed.

Lemma make_ddca_ok mc mv sr start t ts : make_ddca mc mv sr start t = Ok ts ->
  Forall2 (fun b t' => make_term (ttype t) (map (rename_tensor (rename (ddca_replacement start t b))) (ttensors t)) (rename_op (rename (ddca_replacement start t b)) (tsq t)) (tcoeff t) = Ok t')
    (filter (ddca_kept mc mv sr) (iproduct (map (fun i => relation (fst i)) (op_indices (tsq t))))) ts.
Proof.
  unfold make_ddca. intros H. apply pymap_forall2 in H. induction H as [|b t' bs ts H HF IH]; [constructor|]. constructor; [|exact IH].
  cbv zeta in H. destruct (replace_op_indices _ _ _) as [o|] eqn:E1; [|discriminate]. cbn [pybind] in H. destruct (replace_tensors_indices _ _) as [ys|] eqn:E2; [|discriminate]. cbn [pybind] in H.
  apply replace_op_ok in E1 as [-> _]. apply replace_tensors_ok in E2 as [_ ->]. exact H.
Qed.

Lemma in_blocks l b : In b (iproduct (map (fun i : idx => relation (fst i)) l)) <-> Forall2 (fun s i => In s (relation (fst i))) b l.
Proof.
  rewrite in_iproduct. revert b. induction l as [|i l IH]; intros b; cbn [map]; split; intros H; inversion H; subst; constructor; auto; apply IH; assumption.
Qed.
Lemma nodup_blocks l : NoDup (iproduct (map (fun i : idx => relation (fst i)) l)).
Proof. apply nodup_iproduct. apply Forall_forall. intros x Hx. apply in_map_iff in Hx as [i [<- _]]. apply relation_nodup. Qed.

Lemma Forall2_impl_in {B C} (P Q : B -> C -> Prop) l m : (forall x y, In x l -> In y m -> P x y -> Q x y) -> Forall2 P l m -> Forall2 Q l m.
Proof. intros H F. induction F; constructor; [apply H; [left; reflexivity|left; reflexivity|assumption]|]. apply IHF. intros z w Hz Hw. apply H; right; assumption. Qed.

Lemma make_ddca_spec mc mv sr start ty xs o c t ts : make_term ty xs o c = Ok t -> NoDup (op_indices o) -> make_ddca mc mv sr start t = Ok ts ->
  exists bs, NoDup bs /\
    (forall b, In b bs <-> Forall2 (fun s i => In s (relation (fst i))) b (op_indices o) /\
       (Z.of_nat (count_in Sc b) <= mc)%Z /\ (Z.of_nat (count_in Sv b) <= mv)%Z /\ (sr = true -> ~ exists x, In x b /\ lsp x = Sa)) /\
    Forall2 (fun b t' => map fst (op_indices (tsq t')) = b /\ ttype t' = ty /\ tcoeff t' = c /\
      exists rho, tsq t' = rename_op rho o /\ Permutation (ttensors t') (map (rename_tensor rho) xs) /\
        (forall i, In i (content_indices xs o) -> ~ In i (op_indices o) -> fst (rho i) = fst i) /\
        (forall i, In i (content_indices xs o) -> start <= snd (rho i)) /\
        (forall i j, In i (content_indices xs o) -> In j (content_indices xs o) -> rho i = rho j -> i = j)) bs ts.
Proof.
  intros M N H. exists (filter (ddca_kept mc mv sr) (iproduct (map (fun i => relation (fst i)) (op_indices o)))).
  destruct (make_term_fields _ _ _ _ _ M) as (E1 & P1 & _ & E2 & E3 & N1 & K1 & _).
  split; [apply NoDup_filter', nodup_blocks|]. split.
  - intros b. rewrite filter_In, in_blocks, ddca_kept_spec. tauto.
  - apply make_ddca_ok in H. rewrite E1, E2, E3 in H. revert H. apply Forall2_impl_in. intros b t' Hb _ H. apply filter_In in Hb as [Hb _]. apply in_blocks in Hb.
    assert (L : length b = length (op_indices o)) by (clear -Hb; induction Hb; cbn; congruence).
    rewrite <- E2 in N, L. destruct (ddca_replacement_spec start t b N L) as (R1 & R2 & R3 & R4 & R5 & R6). rewrite E2 in *.
    assert (K : forall i, In i (content_indices xs o) -> In i (map fst (ddca_replacement start t b))).
    { intros i Hi. apply R3. right. apply K1. rewrite <- content_times, <- idx_times_in. exact Hi. }
    apply make_term_fields in H as (G1 & G2 & _ & G4 & G5 & _). split; [|split; [exact G1|split; [exact G5|]]].
    + rewrite G4. unfold op_indices, rename_op. cbn [cre ann]. rewrite <- map_app, map_map. exact R4.
    + exists (rename (ddca_replacement start t b)). split; [exact G4|]. split; [rewrite G2; apply Permutation_map, P1|]. split; [|split].
      * intros i Hi Ho. apply R5; auto.
      * intros i Hi. apply R6. auto.
      * intros i j Hi Hj. apply rename_inj; auto.
Qed.

Definition label_dec (x y : label) : {x = y} + {x <> y}.
Proof. destruct (label_eqb x y) eqn:E; [left; apply label_ext, E|right; intros H; apply label_ext in H; congruence]. Defined.

Lemma count_in_le s b : count_in s b <= length b.
Proof. unfold count_in. induction b as [|x b IH]; cbn; [lia|]. destruct (space_eqb _ _); cbn; lia. Qed.

Lemma expand_value_ok (A : qalg) (S : system) (v : tvaluation A) start ty xs o c t ts : make_term ty xs o c = Ok t -> NoDup (op_indices o) ->
  expand_composite_indices false start t = Ok ts -> asum (map (term_value S v) ts) = term_value S v t.
Proof.
  intros M N H. unfold expand_composite_indices in H. destruct (make_ddca_spec _ _ _ _ _ _ _ _ _ _ M N H) as (bs & Nb & Hb & F). clear H.
  destruct (make_term_fields _ _ _ _ _ M) as (E1 & P1 & _ & E2 & E3 & _). rewrite E2 in *.
  assert (Hb' : forall b, In b bs <-> Forall2 (fun s i => In s (relation (fst i))) b (op_indices o)).
  { intros b. rewrite Hb. split; [tauto|]. intros Fb. assert (L : length b = length (op_indices o)) by (clear -Fb; induction Fb; cbn; congruence).
    pose proof (count_in_le Sc b). pose proof (count_in_le Sv b). split; [exact Fb|]. split; [lia|]. split; [lia|discriminate]. } clear Hb.
  set (I := nodup idx_eq_dec (content_indices xs o)).
  assert (NI : NoDup I) by apply NoDup_nodup.
  assert (OI : forall i, In i (op_indices o) -> In i I). { intros i Hi. apply nodup_In. unfold content_indices. apply in_or_app. left. exact Hi. }
  assert (ET : term_value S v t = (inj c * sum_over S I (integrand v xs o))%alg).
  { unfold term_value. rewrite E2, E3, (content_value_perm A S v c _ _ o P1). reflexivity. }
  rewrite ET.
  set (sel := fun (b : list label) (e : idx -> nat) => if list_eq_dec label_dec b (map (fun i => olabel S (e i)) (op_indices o)) then integrand v xs o e else q0).
  assert (EV : map (term_value S v) ts = map (fun b => (inj c * sum_over S I (sel b))%alg) bs).
  { assert (IN : forall b, In b bs -> Forall2 (fun s i => In s (relation (fst i))) b (op_indices o)) by (intros b; apply Hb'). clear Hb' Nb.
    induction F as [|b t' bs ts (B1 & B2 & B3 & rho & B4 & B5 & B6 & B7 & B8) F IH]; [reflexivity|]. cbn [map]. f_equal; [|apply IH; intros b' Hb'; apply IN; right; exact Hb'].
    unfold term_value. rewrite B3, B4, (content_value_perm A S v c _ _ _ B5). 
    specialize (IN b (or_introl eq_refl)).
    assert (EL : map (fun i => fst (rho i)) (op_indices o) = b). { rewrite <- B1, B4. unfold op_indices, rename_op. cbn [cre ann]. rewrite <- map_app, map_map. reflexivity. }
    assert (RO : forall i, In i (op_indices o) -> In (fst (rho i)) (relation (fst i))).
    { rewrite <- EL in IN. clear -IN. induction (op_indices o) as [|x l IH]; intros i Hi; [destruct Hi|]. cbn [map] in IN. inversion IN; subst. destruct Hi as [<-|Hi]; [assumption|]. apply IH; assumption. }
    assert (RI : forall i p, In i (content_indices xs o) -> In p (orbitals S (rho i)) -> In p (orbitals S i)).
    { intros i p Hi Hp. apply orbitals_in in Hp as [Hp1 Hp2]. apply orbitals_in. split; [exact Hp1|]. destruct (in_dec idx_eq_dec i (op_indices o)) as [Ho|Ho].
      - pose proof (RO i Ho) as R. rewrite (relation_elem _ _ R) in Hp2. destruct Hp2 as [<-|[]]. exact R.
      - rewrite (B6 i Hi Ho) in Hp2. exact Hp2. }
    rewrite content_value_rename by (intros i Hi p; apply RI, Hi). f_equal. fold I. apply sum_over_ext; [|exact NI]. intros e He.
    unfold sel. destruct (list_eq_dec _ b _) as [Eb|Eb].
    - rewrite (proj2 (compat_spec S rho I e)); [reflexivity|]. split.
      + intros i Hi. pose proof (He i Hi) as Hi'. apply orbitals_in in Hi' as [Hi1 Hi2]. apply orbitals_in. split; [exact Hi1|]. destruct (in_dec idx_eq_dec i (op_indices o)) as [Ho|Ho].
        * rewrite (relation_elem _ _ (RO i Ho)). left. rewrite <- EL in Eb. clear -Eb Ho. induction (op_indices o) as [|x l IH]; [destruct Ho|]. cbn [map] in Eb. inversion Eb. destruct Ho as [<-|Ho]; auto.
        * rewrite (B6 i) by (try exact Ho; apply nodup_In in Hi; exact Hi). exact Hi2.
      + intros i j Hi Hj Er. apply nodup_In in Hi, Hj. rewrite (B8 i j); auto.
    - destruct (compat S rho I e) eqn:Ec; [|reflexivity]. exfalso. apply Eb. rewrite <- EL. apply map_ext_in. intros i Hi. apply compat_spec in Ec as [Ec _]. specialize (Ec i (OI i Hi)).
      apply orbitals_in in Ec as [_ Ec]. rewrite (relation_elem _ _ (RO i Hi)) in Ec. destruct Ec as [Ec|[]]. exact Ec. }
  rewrite EV, asum_map_mul. f_equal. unfold sum_over. rewrite asum_swap. apply asum_map_ext. intros a Ha.
  apply (in_assignments S I a NI) in Ha as (f & -> & Hf). set (e := env I (map f I)).
  rewrite (asum_single A (fun b => sel b e) bs (map (fun i => olabel S (e i)) (op_indices o)) Nb).
  - unfold sel. destruct (list_eq_dec _ _ _); [reflexivity|contradiction].
  - apply Hb'.
    assert (G : forall l, incl l I -> Forall2 (fun s i => In s (relation (fst i))) (map (fun i => olabel S (e i)) l) l).
    { induction l as [|x l IH]; intros Hl; cbn [map]; constructor; [|apply IH; intros z Hz; apply Hl; right; exact Hz].
      unfold e. rewrite env_map by (apply Hl; left; reflexivity). specialize (Hf x (Hl x (or_introl eq_refl))). apply orbitals_in in Hf. tauto. }
    apply G. intros i Hi. apply OI, Hi.
  - intros b _ Hne. unfold sel. destruct (list_eq_dec _ _ _); [contradiction|reflexivity].
Qed.
