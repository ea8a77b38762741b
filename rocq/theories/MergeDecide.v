(** Canonical forms decide whether two terms are the same up to symmetry. *)
From Coq Require Import Ascii String ZArith QArith Qcanon Sorting.Sorted Lia Bool.
From Verif Require BacktrackProofs SortProofs.
From Verif Require Import PyBase OrderSpec OrderProofs ParitySpec SpaceModel IndexModel IndexProofs IndicesModel IterProofs IndicesProofs SpaceProofs ElemModel ElemSpec CompatSpec MacroModel WickModel WickSpec WickProofs TermModel BchSpec ValueSpec ValueProofs TermSpec SumProofs TermProofs RenameProofs
  DriverProofs ConnectedProofs CommProofs OperatorProofs SimplifyProofs SimplifyValue SymmetryModel SymmetrySpec SympyValue SympyShape CombineModel BchModel CombineSpec CombineProofs CombineValue PropSimplify PropWick PropCanon ScheduleProofs ContractSpec ContractValue PropContract LoopSpec BchLoop LevelSpec ClosureProofs LevelProofs ContractReturns
  MergeSpec MergeWords MergeProofs MergeClosed.
Local Close Scope Q_scope.
Local Close Scope Qc_scope.
Local Open Scope nat_scope.
Local Notation length := List.length.

Lemma settled_kept core x : settled x -> is_delta core x = false.
Proof.
  intros S. destruct core; [apply settled_not_delta, S|]. destruct S as [S _]. unfold is_delta, core_delta. destruct (tcls x) eqn:E; try reflexivity; try (exfalso; apply S; reflexivity). cbn [tclass_eqb orb].
  destruct (tupper x) as [|u [|? ?]]; try reflexivity. destruct (tlower x) as [|l [|? ?]]; try reflexivity. destruct (downgrade_cumulant u l); [apply andb_false_r|reflexivity].
Qed.
Lemma request_label core x i s : settled x -> even_cumulant x -> In (i, s) (requests core x) -> s = fst i.
Proof.
  intros [_ S] EV H. unfold requests in H. destruct (tcls x) eqn:E; try contradiction. specialize (S eq_refl). unfold tensor_indices in S. destruct (length (tupper x) =? 1) eqn:L.
  - destruct (tupper x) as [|u [|? ?]] eqn:EU; try contradiction. destruct (tlower x) as [|l [|? ?]] eqn:EL; try contradiction. pose proof (EV E u l EU EL) as Q. pose proof (S u (or_introl eq_refl)) as Su.
    assert (D : downgrade_cumulant u l = Some (fst u)). { destruct u as [[b sp] n], l as [lb m]. cbn [fst lsp] in *. subst lb. unfold downgrade_cumulant. cbn [fst]. destruct Su as [->|[-> _]], b; reflexivity. }
    rewrite D in H. destruct (space_eqb (lsp (fst u)) Sc && core); [destruct H|]. destruct H as [[= <- <-]|[[= <- <-]|[]]]; [reflexivity|exact Q].
  - apply in_map_iff in H as (j & [= <- <-] & Hj). apply Nat.eqb_neq in L. destruct (S j) as [Q|[_ Q]]; [exact Hj| |contradiction]. unfold active_label. destruct j as [[b sp] n]. cbn in *. subst. reflexivity.
Qed.
Lemma void_true ty next : is_void (void_term ty next) = true.
Proof. reflexivity. Qed.

Definition all_in_active (x : tensor) : Prop := tcls x = TCluster /\ forall i, In i (tensor_indices x) -> lsp (fst i) = Sa.
Lemma simplify_either core ra t s : regular t -> Forall even_cumulant (ttensors t) -> simplify core ra t = Ok s ->
  (is_void s = true /\ ra = true /\ exists x, In x (ttensors t) /\ all_in_active x) \/
  exists tau, (forall i, In i (content_indices (ttensors t) (tsq t)) -> fst (tau i) = fst i) /\ (forall i j, In i (content_indices (ttensors t) (tsq t)) -> In j (content_indices (ttensors t) (tsq t)) -> tau i = tau j -> i = j) /\
    ttype s = SpinOrbital /\ ttensors s = map (rename_tensor tau) (ttensors t) /\ tsq s = rename_op tau (tsq t) /\ tcoeff s = tcoeff t.
Proof.
  intros R EV HS. pose proof (regular_standard t R) as ST. destruct R as [[xs MK] TD AL VT BL]. destruct ST as [_ PL LG _ _ _ _]. destruct (make_term_fields _ _ _ _ _ MK) as (F1 & F2 & F3 & F4 & F5 & F6 & F7 & F8 & F9 & F10).
  assert (Hd : tdiag t = []). { destruct (tdiag t) as [|[i n] d]; [reflexivity|]. exfalso. apply (PL i). assert (Q : diagonal_in i xs (tsq t)) by (apply (F10 i n); left; reflexivity). destruct Q as [Q|(x & Hx & Q)]; [left; exact Q|right; exists x; split; [rewrite F2; exact Hx|exact Q]]. }
  assert (HI : forall i, In i (content_indices (ttensors t) (tsq t)) -> In i (tindices t)).
  { intros i Hi. apply F7. rewrite <- content_times. apply idx_times_in. unfold content_indices in *. apply in_app_or in Hi as [Hi|Hi]; apply in_or_app; [auto|right]. apply in_flat_map in Hi as (x & Hx & Hi). apply in_flat_map. exists x. split; [exact (Permutation_in _ F2 Hx)|exact Hi]. }
  destruct (simplify_inv core ra t s HS Hd F6 HI) as (r & rho & SM & RR & _ & _ & D).
  - intros i Hi. apply F8. exists i. auto.
  - exact VT.
  - unfold densities_disjoint. apply NoDup_app_remove_l in LG. apply NoDup_app_remove_l in LG. exact LG.
  - rewrite Forall_forall in EV.
    assert (NK : forall x, In x (ttensors t) -> is_delta core x = false) by (intros x Hx; apply settled_kept, (td_settled _ _ TD x Hx)).
    assert (LB : forall i, In i (content_indices (ttensors t) (tsq t)) -> fst (rho i) = fst i).
    { intros i Hi. destruct (sm_other _ _ _ _ SM i (HI i Hi)) as [->|[(x & q & Hx & Hq)|(x & Hx & Q & _)]]; [reflexivity| |rewrite NK in Q by exact Hx; discriminate].
      rewrite (sm_request _ _ _ _ SM x i q Hx Hq). apply (request_label core x); [apply (td_settled _ _ TD x Hx)|apply EV, Hx|exact Hq]. }
    destruct D as [[[Q (x & Hx & _ & Cx & Ax)] EV0]|E].
    + left. split; [rewrite EV0; apply void_true|]. split; [exact Q|]. exists x. split; [exact Hx|]. split; [exact Cx|]. intros i Hi. rewrite <- (LB i) by exact (tensor_content _ _ x i Hx Hi). apply Ax, Hi.
    + right. exists (rename r). split; [|split; [|rewrite E; cbn [ttype ttensors tsq tcoeff]]].
      * intros i Hi. rewrite RR by (apply HI, Hi). apply LB, Hi.
      * intros i j Hi Hj Q. rewrite !RR in Q by (apply HI; assumption). destruct (sm_fiber _ _ _ _ SM i j (HI i Hi) (HI j Hj) Q) as [->|(x & Hx & K & _)]; [reflexivity|]. rewrite NK in K by exact Hx. discriminate.
      * split; [exact F1|]. split; [|auto]. f_equal. clear - NK. induction (ttensors t) as [|x l IH]; [reflexivity|]. cbn [filter]. rewrite NK by (left; reflexivity). cbn [negb]. f_equal. apply IH. intros y Hy. apply NK. right. exact Hy.
Qed.
(** what simplify leaves has no active amplitudes, unless it is void *)
Lemma left_active core t s : simplify core true t = Ok s -> is_void s = false -> forall y, In y (ttensors s) -> ~ all_in_active y.
Proof.
  intros H V. unfold simplify in H. cbv zeta in H.
  match type of H with pybind ?a _ = _ => destruct a as [[ys [[rcu next1] rd1]]|] end; [|discriminate]. cbn [pybind] in H.
  match type of H with pybind ?a _ = _ => destruct a as [[zs [[rde next2] rd2]]|] end; [|discriminate]. cbn [pybind] in H.
  destruct (diagonal_loop _ _ _ _ _) as [[r next3]|]; [|discriminate]. cbn [pybind] in H. destruct (replace_op_indices _ _ _) as [o|]; [|discriminate]. cbn [pybind] in H.
  destruct (any_active_amplitude r zs) as [[|]|] eqn:Ea; [| |discriminate]; cbn [pybind] in H; [injection H as <-; rewrite void_true in V; discriminate|].
  destruct (replace_tensors_indices zs r) as [ws|] eqn:Et; [|discriminate]. cbn [pybind] in H. match type of H with pybind ?a _ = _ => destruct a as [d|] end; [|discriminate]. cbn [pybind] in H. injection H as <-. cbn [ttensors]. apply replace_tensors_ok in Et as [_ ->].
  intros y Hy [C A]. apply in_map_iff in Hy as (x & <- & Hx). cbn [rename_tensor tcls] in C.
  clear V. revert Hx Ea. induction zs as [|z zs IH]; intros [].
  - subst z. cbn [any_active_amplitude]. rewrite C. cbn [tclass_eqb]. unfold all_active. destruct (replace r (tensor_indices x)) as [l|] eqn:El; [|discriminate]. cbn [pybind]. apply replace_ok in El as ->. destruct (forallb _ _) eqn:Ef; [discriminate|]. exfalso.
    apply not_true_iff_false in Ef. apply Ef. apply forallb_forall. intros i Hi. apply space_eqb_eq. apply A. unfold tensor_indices, rename_tensor in *. cbn [tupper tlower]. rewrite <- map_app. exact Hi.
  - cbn [any_active_amplitude]. destruct (tclass_eqb (tcls z) TCluster); [|apply IH; assumption]. destruct (all_active r z) as [[|]|]; cbn [pybind]; try discriminate. apply IH. assumption.
Qed.
Lemma parts_active h xs o xs' o' : same_parts h xs o xs' o' -> (forall x, In x xs -> ~ all_in_active x) -> forall y, In y xs' -> ~ all_in_active y.
Proof.
  intros S N. apply same_parts_sym in S. destruct S as (rho & HL & _ & _ & _ & ys & PY & F). intros y Hy [C A]. assert (G : exists x, In x ys /\ symmetric_tensor h rho y x). { clear - F Hy. induction F as [|a b l m Q F IH]; [destruct Hy|]. destruct Hy as [<-|Hy]; [exists b; split; [left; reflexivity|exact Q]|]. destruct (IH Hy) as (x & Hx & Q'). exists x. split; [right; exact Hx|exact Q']. }
  destruct G as (x & Hx & E1 & _ & _ & _ & Q). rewrite PY in Hx. apply (N x Hx). split; [congruence|]. intros i Hi.
  assert (P : Permutation (map rho (tensor_indices y)) (tensor_indices x)). { unfold tensor_indices. rewrite map_app. destruct Q as [[P1 P2]|(_ & P1 & P2)]; rewrite P1, P2; [reflexivity|apply Permutation_app_comm]. }
  rewrite <- P in Hi. apply in_map_iff in Hi as (j & <- & Hj). rewrite HL by exact (tensor_content _ _ y j Hy Hj). apply A, Hj.
Qed.
Lemma simplify_live core ra t s : regular t -> Forall even_cumulant (ttensors t) -> (ra = true -> forall x, In x (ttensors t) -> ~ all_in_active x) -> is_void t = false -> simplify core ra t = Ok s -> is_void s = false.
Proof.
  intros R EV NA V H. destruct (simplify_either core ra t s R EV H) as [(_ & E & x & Hx & A)|(tau & _ & _ & _ & _ & _ & E)]; [exfalso; exact (NA E x Hx A)|]. unfold is_void in *. rewrite E. exact V.
Qed.
Lemma simplify_still core ra t s : regular t -> Forall even_cumulant (ttensors t) -> simplify core ra t = Ok s -> is_void s = false ->
  exists tau, (forall i, In i (content_indices (ttensors t) (tsq t)) -> fst (tau i) = fst i) /\ (forall i j, In i (content_indices (ttensors t) (tsq t)) -> In j (content_indices (ttensors t) (tsq t)) -> tau i = tau j -> i = j) /\
    ttype s = SpinOrbital /\ ttensors s = map (rename_tensor tau) (ttensors t) /\ tsq s = rename_op tau (tsq t) /\ tcoeff s = tcoeff t.
Proof.
  intros R EV H V. destruct (simplify_either core ra t s R EV H) as [(Q & _)|D]; [congruence|exact D].
Qed.

Lemma rename_parts h xs o tau : (forall i, In i (content_indices xs o) -> fst (tau i) = fst i) -> (forall i j, In i (content_indices xs o) -> In j (content_indices xs o) -> tau i = tau j -> i = j) ->
  same_parts h xs o (map (rename_tensor tau) xs) (rename_op tau o).
Proof.
  intros T J. exists tau. split; [exact T|]. split; [exact J|]. split; [reflexivity|]. split; [reflexivity|]. exists (map (rename_tensor tau) xs). split; [reflexivity|]. clear. induction xs as [|x xs IH]; constructor; [|exact IH]. repeat (split; [reflexivity|]). left. split; reflexivity.
Qed.

(** everything known about the simplified term *)
Record settled_form (h : bool) (t s : term) : Prop := {
  sf_type : ttype s = SpinOrbital;
  sf_typed : Forall (fun x => titype x = SpinOrbital) (ttensors s);
  sf_kinds : kinds (ttensors s);
  sf_order : in_order (ttensors s);
  sf_balanced : length (cre (tsq s)) = length (ann (tsq s));
  sf_paired : paired (ttensors s) (tsq s);
  sf_shape : shape (tsq s) (ttensors s);
  sf_same : same_parts h (ttensors t) (tsq t) (ttensors s) (tsq s);
  sf_coeff : tcoeff s = tcoeff t }.
Lemma made_typed t : regular t -> Forall (fun x => titype x = SpinOrbital) (ttensors t).
Proof.
  intros [[xs MK] _ _ _ _]. destruct (make_term_inv _ _ _ _ _ MK) as (FT & _). destruct (make_term_fields _ _ _ _ _ MK) as (_ & F2 & _). rewrite Forall_forall in *. intros x Hx. apply FT. exact (Permutation_in _ F2 Hx).
Qed.
Lemma regular_kinds t : regular t -> names_agree (ttensors t) -> kinds (ttensors t).
Proof.
  intros R N x y Hx Hy E. pose proof (made_typed t R) as T. rewrite Forall_forall in T. destruct (N x y Hx Hy E) as [N1 N2]. split; [exact N1|]. split; [rewrite (T x Hx), (T y Hy); reflexivity|exact N2].
Qed.
Lemma simplify_form core ra h t s : regular t -> names_agree (ttensors t) -> Forall even_cumulant (ttensors t) -> simplify core ra t = Ok s -> is_void s = false -> settled_form h t s.
Proof.
  intros R NA EV HS V. destruct (simplify_still core ra t s R EV HS V) as (tau & TL & TJ & E1 & E2 & E3 & E4). pose proof (regular_standard t R) as ST. pose proof (regular_kinds t R NA) as K0. pose proof (made_typed t R) as TY. destruct R as [[xs MK] TD AL VT BL]. destruct ST as [_ PL LG _ _ _ _]. destruct (make_term_fields _ _ _ _ _ MK) as (F1 & F2 & F3 & F4 & F5 & F6 & F7 & F8 & F9 & F10).
  assert (LD : densities_disjoint (ttensors t)) by (unfold densities_disjoint; apply NoDup_app_remove_l in LG; apply NoDup_app_remove_l in LG; exact LG).
  destruct (simplify_keeps core ra _ _ _ _ t s MK) as (K1 & K2 & K3 & K4 & K5).
  { intros i Q. apply (PL i). destruct Q as [Q|(x & Hx & Q)]; [left; exact Q|right; exists x; split; [rewrite F2; exact Hx|exact Q]]. }
  { rewrite Forall_forall in *. intros x Hx. apply VT. rewrite F2. exact Hx. }
  { unfold densities_disjoint in *. eapply Permutation_NoDup; [|exact LD]. apply Permutation_flat_map, BacktrackProofs.perm_filter. exact F2. }
  { exact HS. }
  constructor; try assumption.
  - rewrite E2. apply (kinds_alike (ttensors t)); [|exact K0]. intros y Hy. apply in_map_iff in Hy as (x & <- & Hx). exists x. split; [exact Hx|reflexivity].
  - rewrite E2. apply order_rename. unfold in_order. clear - F3. induction F3 as [|x l S IH F]; cbn [map]; constructor; [exact IH|]. rewrite Forall_forall in *. intros k Hk. apply in_map_iff in Hk as (y & <- & Hy). apply tensor_after, F, Hy.
  - apply K5. exact BL.
  - rewrite E2, E3. apply (mv_rename _ (shape_movable true)); [|exact TL|exact TJ]. split; [|exact TD]. intros x y Hx Hy E. apply (K0 x y Hx Hy E).
  - rewrite E2, E3. apply rename_parts; assumption.
Qed.

Lemma canonical_parts sympy core ra h t u : admissible sympy -> regular t -> names_agree (ttensors t) -> Forall even_cumulant (ttensors t) -> canonicalize sympy core ra h t = Ok u -> is_void u = false ->
  exists s, simplify core ra t = Ok s /\ is_void s = false /\ canonicalize_sympy sympy core ra h t = Ok u /\ settled_form h t s /\ same_parts h (ttensors t) (tsq t) (ttensors u) (tsq u) /\ regular u.
Proof.
  intros AD R NA EV H V. unfold canonicalize in H. destruct (tdiag t); [|discriminate].
  assert (exists s, simplify core ra t = Ok s) as [s HS]. { unfold canonicalize_sympy in H. destruct (simplify core ra t) as [s|]; [eauto|discriminate]. }
  assert (VS : is_void s = false). { destruct (is_void s) eqn:E; [|reflexivity]. exfalso. unfold canonicalize_sympy in H. rewrite HS in H. cbn [pybind] in H. rewrite E in H. injection H as <-. unfold void in V. rewrite void_true in V. discriminate. }
  pose proof (simplify_form core ra h t s R NA EV HS VS) as SF. exists s. split; [exact HS|]. split; [exact VS|]. split; [exact H|]. split; [exact SF|]. destruct SF as [S1 S2 S3 S4 S5 S6 S7 S8 S9].
  split.
  - destruct (sympy_shape _ sympy core ra h t s u (same_movable h (ttensors s) (tsq s)) AD HS H) as [[Q _]|(ys & o & c' & dummy & M' & [_ P] & _)]; try assumption.
    + rewrite S1. exact S2.
    + split; [exact S3|]. apply same_parts_perm. reflexivity.
    + congruence.
    + destruct (make_term_fields _ _ _ _ _ M') as (_ & G2 & _ & G4 & _). eapply same_parts_trans; [exact S8|]. eapply same_parts_trans; [exact P|]. rewrite G4. apply same_parts_perm. symmetry. exact G2.
  - destruct (sympy_shape shape sympy core ra h t s u (shape_movable h) AD HS H) as [[Q _]|(ys & o & c' & dummy & M' & P & VV & B & ALP & _)]; try assumption.
    + rewrite S1. exact S2.
    + congruence.
    + rewrite S1 in M', ALP. destruct P as [_ P]. apply (made_regular _ _ _ _ M' P (beta_alpha _ (ALP eq_refl)) VV B).
Qed.
Lemma parts_names h xs o xs' o' : same_parts h xs o xs' o' -> names_agree xs -> names_agree xs'.
Proof.
  intros (rho & _ & _ & _ & _ & ys & PY & F) N. assert (G : forall y, In y xs' -> exists x, In x xs /\ tcls y = tcls x /\ tname y = tname x /\ tpriority y = tpriority x).
  { intros y Hy. rewrite <- PY in Hy. clear - F Hy. induction F as [|x z xs ys (E1 & _ & E3 & E4 & _) F IH]; [destruct Hy|]. destruct Hy as [<-|Hy]; [exists x; split; [left; reflexivity|auto]|]. destruct (IH Hy) as (w & Hw & Q). exists w. split; [right; exact Hw|exact Q]. }
  intros y z Hy Hz E. destruct (G y Hy) as (a & Ha & A1 & A2 & A3). destruct (G z Hz) as (b & Hb & B1 & B2 & B3). destruct (N a b Ha Hb) as [N1 N2]; [congruence|]. split; congruence.
Qed.
Lemma canonical_unique sympy core ra h t t' u u' : admissible sympy -> canonical sympy -> regular t -> regular t' -> names_agree (ttensors t) -> names_agree (ttensors t') -> Forall even_cumulant (ttensors t) -> Forall even_cumulant (ttensors t') ->
  canonicalize sympy core ra h t = Ok u -> canonicalize sympy core ra h t' = Ok u' -> is_void u = false -> is_void u' = false -> same_up_to_symmetry h t t' -> same_content u u'.
Proof.
  intros AD CA R R' N N' E E' H H' V V' S. change (same_parts h (ttensors t) (tsq t) (ttensors t') (tsq t')) in S.
  destruct (canonical_parts _ _ _ _ _ _ AD R N E H V) as (s & HS & VS & HC & [S1 S2 S3 S4 S5 S6 S7 S8 S9] & P & _). destruct (canonical_parts _ _ _ _ _ _ AD R' N' E' H' V') as (s' & HS' & VS' & HC' & [T1 T2 T3 T4 T5 T6 T7 T8 T9] & P' & _).
  apply (merged_canonical sympy core ra h t t' s s' u u'); try assumption; [congruence|rewrite S1; reflexivity|rewrite S1; exact S2|intros x y Hx Hy Q; apply (S3 x y Hx Hy Q)|].
  change (same_parts h (ttensors s) (tsq s) (ttensors s') (tsq s')). eapply same_parts_trans; [apply same_parts_sym; exact S8|]. eapply same_parts_trans; [exact S|exact T8].
Qed.

Lemma void_opp c : is_void_coeff (Qcopp c) = is_void_coeff c.
Proof.
  assert (E : Qc_abs (Qcopp c) = Qc_abs c); [|unfold is_void_coeff; rewrite E; reflexivity]. unfold Qc_abs. destruct (Qclt_le_dec (Qcopp c) (Q2Qc 0)) as [L|L], (Qclt_le_dec c (Q2Qc 0)) as [M|M].
  - exfalso. apply (Qclt_not_le _ _ L). apply Qclt_le_weak in M. apply Qcopp_le_compat in M. exact M.
  - ring.
  - reflexivity.
  - apply Qcopp_le_compat in L. replace (Qcopp (Qcopp c)) with c in L by ring. pose proof (Qcle_antisym _ _ M L) as <-. apply Qc_is_canon. reflexivity.
Qed.
Lemma coefficient_kept sympy core ra h t s u : simplify core ra t = Ok s -> is_void s = false -> canonicalize_sympy sympy core ra h t = Ok u -> tcoeff u = tcoeff s \/ tcoeff u = Qcopp (tcoeff s).
Proof.
  intros HS V H. unfold canonicalize_sympy in H. rewrite HS in H. cbn [pybind] in H. rewrite V in H. cbv zeta in H.
  destruct (slot_labels _ _ _) as [g0|]; [|discriminate]. cbn [pybind] in H. destruct (if length (op_indices (tsq s)) =? 0 then _ else _) as [ob|]; [|discriminate]. cbn [pybind] in H. destruct (tensor_groups h (ttensors s)) as [tb|]; [|discriminate]. cbn [pybind] in H.
  destruct (if is_array _ then _ else _) as [[gc|]|]; try discriminate. cbn [pybind] in H. destruct (read_indices _ _ _) as [a|]; [|discriminate]. cbn [pybind] in H. destruct (read_indices _ _ _) as [c|]; [|discriminate]. cbn [pybind] in H. destruct (read_tensors _ _ _) as [ys|]; [|discriminate]. cbn [pybind] in H.
  destruct (make_term_fields _ _ _ _ _ H) as (_ & _ & _ & _ & F5 & _). rewrite F5. destruct (last _ 0 =? last gc 0); [left|right]; unfold Qc_of_Z; change (Q2Qc (inject_Z 1)) with (Q2Qc 1); change (Q2Qc (inject_Z (-1))) with (Qcopp (Q2Qc 1)); ring.
Qed.
Lemma canonical_live sympy core ra h t u : regular t -> Forall even_cumulant (ttensors t) -> (ra = true -> forall x, In x (ttensors t) -> ~ all_in_active x) -> is_void t = false -> canonicalize sympy core ra h t = Ok u -> is_void u = false.
Proof.
  intros R E NA V H. unfold canonicalize in H. destruct (tdiag t); [|discriminate]. assert (exists s, simplify core ra t = Ok s) as [s HS]. { unfold canonicalize_sympy in H. destruct (simplify core ra t) as [s|]; [eauto|discriminate]. }
  pose proof (simplify_live core ra t s R E NA V HS) as VS. unfold is_void in *. destruct (coefficient_kept sympy core ra h t s u HS VS H) as [-> | ->]; [exact VS|rewrite void_opp; exact VS].
Qed.
Lemma canonical_coefficient sympy core ra h t u : admissible sympy -> regular t -> names_agree (ttensors t) -> Forall even_cumulant (ttensors t) -> canonicalize sympy core ra h t = Ok u -> is_void u = false -> tcoeff u = tcoeff t \/ tcoeff u = Qcopp (tcoeff t).
Proof.
  intros AD R N E H V. destruct (canonical_parts _ _ _ _ _ _ AD R N E H V) as (s & HS & VS & HC & SF & _). rewrite <- (sf_coeff _ _ _ SF). exact (coefficient_kept _ _ _ _ _ _ _ HS VS HC).
Qed.
(** canonical forms are canonical *)
Lemma canonical_fixed sympy core ra h t u : admissible sympy -> canonical sympy -> regular t -> names_agree (ttensors t) -> Forall even_cumulant (ttensors t) -> canonicalize sympy core ra h t = Ok u -> is_void u = false -> in_canonical_form sympy core ra h u.
Proof.
  intros AD CA R N E H V u' H'. destruct (canonical_parts _ _ _ _ _ _ AD R N E H V) as (s & HS & VS & HC & SF & P & RU). pose proof (parts_names h _ _ _ _ P N) as N'. pose proof (even_parts h _ _ _ _ P E) as E'.
  assert (NA : ra = true -> forall x, In x (ttensors u) -> ~ all_in_active x). { intros ->. apply (parts_active h (ttensors s) (tsq s) _ (tsq u)); [|exact (left_active core t s HS VS)]. eapply same_parts_trans; [apply same_parts_sym; exact (sf_same _ _ _ SF)|exact P]. }
  pose proof (canonical_live sympy core ra h u u' RU E' NA V H') as V'. split; [|split; [exact V'|exact (canonical_coefficient sympy core ra h u u' AD RU N' E' H' V')]].
  destruct (canonical_unique sympy core ra h t u u u' AD CA R RU N N' E E' H H' V V' P) as [Q1 Q2]. split; congruence.
Qed.
Lemma formed_fixed sympy h t : admissible sympy -> canonical sympy -> formed sympy h t -> is_void t = false -> in_canonical_form sympy true true h t.
Proof.
  intros AD CA [[RD _] R] V t' H. destruct RD as [[E1 E2]|(t0 & s & u & HS & VS & HC & [U1 U2] & T & TT & K & O & B & D & P & EV)].
  - assert (EV : Forall even_cumulant (ttensors t)) by (rewrite E1; constructor). assert (N : names_agree (ttensors t)) by (rewrite E1; intros x y []).
    assert (NA : true = true -> forall x, In x (ttensors t) -> ~ all_in_active x) by (rewrite E1; intros _ x []). pose proof (canonical_live sympy true true h t t' R EV NA V H) as V'. split; [|split; [exact V'|exact (canonical_coefficient sympy true true h t t' AD R N EV H V')]].
    destruct (canonical_parts _ _ _ _ _ _ AD R N EV H V') as (_ & _ & _ & _ & _ & P & _). rewrite E1, E2 in P. apply empty_same in P as [Q1 Q2]. split; congruence.
  - assert (N : names_agree (ttensors t)) by (apply (parts_names h _ _ _ _ P); intros x y Hx Hy Q; destruct (K x y Hx Hy Q) as (Q1 & _ & Q2); auto).
    assert (NA : true = true -> forall x, In x (ttensors t) -> ~ all_in_active x) by (intros _; exact (parts_active h _ _ _ _ P (left_active true t0 s HS VS))).
    pose proof (canonical_live sympy true true h t t' R EV NA V H) as V'. split; [|split; [exact V'|exact (canonical_coefficient sympy true true h t t' AD R N EV H V')]].
    destruct (canonical_parts _ _ _ _ _ _ AD R N EV H V') as (s' & HS' & VS' & HC' & [T1 T2 T3 T4 T5 T6 T7 T8 T9] & _ & _).
    destruct (merged_canonical sympy true true h t0 t s s' u t') as [M1 M2]; try assumption; [congruence|rewrite T; reflexivity|rewrite T; exact TT|intros x y Hx Hy Q; apply (K x y Hx Hy Q)| |split; congruence].
    change (same_parts h (ttensors s) (tsq s) (ttensors s') (tsq s')). eapply same_parts_trans; [exact P|exact T8].
Qed.
