(** The terms returned by contractions and commutators can be contracted again: they satisfy the conditions of the value
    theorems, and their index numbers are bounded by the number of their indices. *)
From Coq Require Import Ascii String ZArith QArith Qcanon Sorting.Sorted Lia.
From Verif Require BacktrackProofs SortProofs.
From Verif Require Import PyBase OrderSpec OrderProofs ParitySpec SpaceModel IndexModel IndicesModel IterProofs IndicesProofs SpaceProofs ElemModel ElemSpec CompatSpec MacroModel WickModel WickSpec WickProofs TermModel ValueSpec ValueProofs TermSpec SumProofs TermProofs RenameProofs
  DriverProofs ConnectedProofs CommProofs OperatorProofs SimplifyProofs SimplifyValue SymmetryModel SymmetrySpec SympyValue SympyShape CombineModel BchModel CombineSpec CombineProofs CombineValue PropSimplify PropWick PropCanon ScheduleProofs ContractSpec ContractValue.
Local Close Scope Q_scope.
Local Close Scope Qc_scope.
Local Open Scope nat_scope.
Local Notation length := List.length.

(** no Kronecker delta, and a cumulant that [simplify] leaves alone *)
Definition settled (x : tensor) : Prop :=
  tcls x <> TKronecker /\ (tcls x = TCumulant -> forall i, In i (tensor_indices x) -> lsp (fst i) = Sa \/ (lsp (fst i) = Sh /\ length (tupper x) = 1)).
Record tidy (o : op) (xs : list tensor) : Prop := {
  td_legs : NoDup (op_indices o ++ flat_map tensor_indices (filter is_density xs));
  td_tensors : forall x, In x xs -> NoDup (tensor_indices x);
  td_settled : forall x, In x xs -> settled x }.
Definition shape (o : op) (xs : list tensor) : Prop := classes_by_name xs /\ tidy o xs.
Record regular (t : term) : Prop := {
  rg_made : exists xs, make_term SpinOrbital xs (tsq t) (tcoeff t) = Ok t;
  rg_tidy : tidy (tsq t) (ttensors t);
  rg_alpha : op_alpha (tsq t);
  rg_valid : Forall valid_tensor (ttensors t);
  rg_balanced : length (cre (tsq t)) = length (ann (tsq t)) }.

Lemma settled_alike x y : alike x y -> (forall i, In i (tensor_indices y) -> In i (tensor_indices x)) -> settled x -> settled y.
Proof.
  intros [A1 _ _ _ A5 _] I [S1 S2]. split; [congruence|]. intros C i Hi. rewrite A5. apply S2; [congruence|]. apply I, Hi.
Qed.
Lemma density_class x y : tcls y = tcls x -> is_density y = is_density x.
Proof. unfold is_density. intros ->. reflexivity. Qed.
Lemma filter_indices l1 x l2 : flat_map tensor_indices (filter is_density (l1 ++ x :: l2)) =
  flat_map tensor_indices (filter is_density l1) ++ (if is_density x then tensor_indices x else []) ++ flat_map tensor_indices (filter is_density l2).
Proof. rewrite filter_app, flat_map_app. cbn [filter]. destruct (is_density x); reflexivity. Qed.
Lemma in_replace {X} (l1 : list X) x l2 y z : In z (l1 ++ y :: l2) -> z = y \/ In z (l1 ++ x :: l2).
Proof. rewrite !in_app_iff. cbn. intuition. Qed.

Lemma shape_tensor o l1 x x' l2 : shape o (l1 ++ x :: l2) -> alike x x' -> Permutation (tensor_indices x') (tensor_indices x) -> shape o (l1 ++ x' :: l2).
Proof.
  intros [C [T1 T2 T3]] A P. assert (Hx : In x (l1 ++ x :: l2)) by apply in_elt. split; [|constructor].
  - intros y z Hy Hz E. assert (G : forall y, In y (l1 ++ x' :: l2) -> exists y0, In y0 (l1 ++ x :: l2) /\ tname y0 = tname y /\ tcls y0 = tcls y).
    { intros w Hw. destruct (in_replace _ x _ _ _ Hw) as [->|Hw']; [exists x; rewrite (ak_name _ _ A), (ak_class _ _ A); auto|exists w; auto]. }
    destruct (G y Hy) as (y0 & Y1 & Y2 & Y3), (G z Hz) as (z0 & Z1 & Z2 & Z3). rewrite <- Y3, <- Z3. apply C; [assumption..|congruence].
  - rewrite filter_indices in *. rewrite (density_class _ _ (ak_class _ _ A)). destruct (is_density x); [|exact T1]. eapply Permutation_NoDup; [|exact T1]. apply Permutation_app_head, Permutation_app_head, Permutation_app_tail. symmetry. exact P.
  - intros y Hy. destruct (in_replace _ x _ _ _ Hy) as [->|Hy']; [|auto]. eapply Permutation_NoDup; [symmetry; exact P|auto].
  - intros y Hy. destruct (in_replace _ x _ _ _ Hy) as [->|Hy']; [|auto]. apply (settled_alike x); [exact A| |auto]. intros i Hi. exact (Permutation_in _ P Hi).
Qed.
Lemma shape_exchange o l1 x y x' y' l2 : shape o (l1 ++ x :: y :: l2) -> alike x x' -> alike y y' -> tname y = tname x -> length (tlower y) = length (tlower x) -> length (tupper y) = length (tupper x) ->
  tensor_slots x' = tensor_slots y -> tensor_slots y' = tensor_slots x -> shape o (l1 ++ x' :: y' :: l2).
Proof.
  intros [C [T1 T2 T3]] A B EN _ EU E1 E2. assert (Hx : In x (l1 ++ x :: y :: l2)) by apply in_elt. assert (Hy : In y (l1 ++ x :: y :: l2)) by (apply in_or_app; right; right; left; reflexivity).
  assert (EC : tcls y = tcls x) by (apply C; assumption).
  assert (P1 : Permutation (tensor_indices x') (tensor_indices y)) by (rewrite <- !slots_indices, E1; reflexivity).
  assert (P2 : Permutation (tensor_indices y') (tensor_indices x)) by (rewrite <- !slots_indices, E2; reflexivity).
  assert (IN : forall z, In z (l1 ++ x' :: y' :: l2) -> z = x' \/ z = y' \/ In z (l1 ++ x :: y :: l2)) by (intros z; rewrite !in_app_iff; cbn; intuition).
  split; [|constructor].
  - assert (G : forall z, In z (l1 ++ x' :: y' :: l2) -> exists y0, In y0 (l1 ++ x :: y :: l2) /\ tname y0 = tname z /\ tcls y0 = tcls z).
    { intros z Hz. destruct (IN z Hz) as [->|[->|H]]; [exists x; rewrite (ak_name _ _ A), (ak_class _ _ A); auto|exists y; rewrite (ak_name _ _ B), (ak_class _ _ B); auto|exists z; auto]. }
    intros u z Hu Hz E. destruct (G u Hu) as (u0 & Y1 & Y2 & Y3), (G z Hz) as (z0 & Z1 & Z2 & Z3). rewrite <- Y3, <- Z3. apply C; [assumption..|congruence].
  - rewrite filter_indices in *. cbn [filter] in *. rewrite (density_class _ _ (ak_class _ _ A)), (density_class _ _ (ak_class _ _ B)). rewrite (density_class _ _ EC) in *. destruct (is_density x); [|exact T1]. cbn [flat_map] in *.
    eapply Permutation_NoDup; [|exact T1]. apply Permutation_app_head, Permutation_app_head. rewrite !app_assoc. apply Permutation_app_tail. rewrite P1, P2. apply Permutation_app_comm.
  - intros z Hz. destruct (IN z Hz) as [->|[->|H]]; [| |auto]; (eapply Permutation_NoDup; [symmetry; eassumption|auto]).
  - intros z Hz. destruct (IN z Hz) as [->|[->|H]]; [| |auto].
    + destruct (T3 y Hy) as [S1 S2]. split; [rewrite (ak_class _ _ A); congruence|]. intros Cx i Hi. rewrite (ak_upper _ _ A), <- EU. apply S2; [rewrite EC, <- (ak_class _ _ A); exact Cx|]. exact (Permutation_in _ P1 Hi).
    + destruct (T3 x Hx) as [S1 S2]. split; [rewrite (ak_class _ _ B); congruence|]. intros Cx i Hi. rewrite (ak_upper _ _ B), EU. apply S2; [rewrite <- EC, <- (ak_class _ _ B); exact Cx|]. exact (Permutation_in _ P2 Hi).
Qed.
Lemma rename_indices tau x : tensor_indices (rename_tensor tau x) = map tau (tensor_indices x).
Proof. unfold tensor_indices, rename_tensor. cbn [tupper tlower]. rewrite map_app. reflexivity. Qed.
Lemma rename_op_indices tau o : op_indices (rename_op tau o) = map tau (op_indices o).
Proof. unfold op_indices, rename_op. cbn [cre ann]. rewrite map_app. reflexivity. Qed.
Lemma rename_densities tau xs : flat_map tensor_indices (filter is_density (map (rename_tensor tau) xs)) = map tau (flat_map tensor_indices (filter is_density xs)).
Proof.
  induction xs as [|x xs IH]; [reflexivity|]. cbn [map filter]. change (is_density (rename_tensor tau x)) with (is_density x). destruct (is_density x); [|exact IH]. cbn [flat_map]. rewrite map_app, IH, rename_indices. reflexivity.
Qed.
Lemma NoDup_map_in {X Y} (f : X -> Y) l : NoDup l -> (forall x y, In x l -> In y l -> f x = f y -> x = y) -> NoDup (map f l).
Proof.
  intros N. induction N as [|x l H N IH]; intros J; [constructor|]. cbn [map]. constructor.
  - intros Q. apply in_map_iff in Q as (y & E & Hy). apply H. rewrite <- (J y x); auto using in_eq, in_cons.
  - apply IH. intros; apply J; auto using in_cons.
Qed.
Lemma shape_rename o xs tau : shape o xs -> (forall i, In i (content_indices xs o) -> fst (tau i) = fst i) -> (forall i j, In i (content_indices xs o) -> In j (content_indices xs o) -> tau i = tau j -> i = j) ->
  shape (rename_op tau o) (map (rename_tensor tau) xs).
Proof.
  intros [C [T1 T2 T3]] F J. assert (I : forall x i, In x xs -> In i (tensor_indices x) -> In i (content_indices xs o)) by (intros x i Hx Hi; unfold content_indices; apply in_or_app; right; apply in_flat_map; exists x; auto).
  split; [|constructor].
  - intros y z Hy Hz E. apply in_map_iff in Hy as (y0 & <- & Hy). apply in_map_iff in Hz as (z0 & <- & Hz). exact (C y0 z0 Hy Hz E).
  - rewrite rename_densities, rename_op_indices, <- map_app. apply NoDup_map_in; [exact T1|]. assert (K : forall i, In i (op_indices o ++ flat_map tensor_indices (filter is_density xs)) -> In i (content_indices xs o)).
    { intros i Hi. apply in_app_or in Hi as [Hi|Hi]; [unfold content_indices; apply in_or_app; auto|]. apply in_flat_map in Hi as (x & Hx & Hi). apply filter_In in Hx as [Hx _]. eauto. }
    intros i j Hi Hj. apply J; auto.
  - intros y Hy. apply in_map_iff in Hy as (x & <- & Hx). rewrite rename_indices. apply NoDup_map_in; [auto|]. intros i j Hi Hj. apply J; eauto.
  - intros y Hy. apply in_map_iff in Hy as (x & <- & Hx). destruct (T3 x Hx) as [S1 S2]. split; [exact S1|]. intros Cx i Hi. rewrite rename_indices in Hi. apply in_map_iff in Hi as (j & <- & Hj). rewrite F by eauto. cbn [rename_tensor tupper]. rewrite map_length. auto.
Qed.
Lemma shape_movable h : movable h shape.
Proof.
  constructor.
  - intros o o' xs [C [T1 T2 T3]] P1 P2. split; [exact C|]. constructor; [|exact T2|exact T3]. eapply Permutation_NoDup; [|exact T1]. apply Permutation_app_tail. symmetry. apply Permutation_app; assumption.
  - intros o l1 x x' l2 H A Q. apply (shape_tensor o l1 x); [exact H|exact A|]. unfold tensor_indices. destruct Q as [[Q1 Q2]|(_ & Q1 & Q2)]; rewrite Q1, Q2; [reflexivity|apply Permutation_app_comm].
  - apply shape_exchange.
  - apply shape_rename.
Qed.

(** ** Terms made of tidy contents *)
Lemma tidy_perm o xs ys : Permutation xs ys -> tidy o xs -> tidy o ys.
Proof.
  intros P [T1 T2 T3]. constructor.
  - eapply Permutation_NoDup; [|exact T1]. apply Permutation_app_head, Permutation_flat_map, BacktrackProofs.perm_filter, P.
  - intros x Hx. apply T2. exact (Permutation_in _ (Permutation_sym P) Hx).
  - intros x Hx. apply T3. exact (Permutation_in _ (Permutation_sym P) Hx).
Qed.
Lemma made_regular xs o c t : make_term SpinOrbital xs o c = Ok t -> tidy o xs -> op_alpha o -> Forall valid_tensor xs -> length (cre o) = length (ann o) -> regular t.
Proof.
  intros M T A V B. destruct (make_term_fields _ _ _ _ _ M) as (_ & F2 & _ & F4 & F5 & _). constructor; rewrite ?F4, ?F5.
  - eauto.
  - apply (tidy_perm _ xs); [symmetry; exact F2|exact T].
  - exact A.
  - rewrite Forall_forall in *. intros x Hx. apply V. exact (Permutation_in _ F2 Hx).
  - exact B.
Qed.
Lemma make_set_coeff ty xs o c t c' : make_term ty xs o c = Ok t -> make_term ty xs o c' = Ok (set_coeff t c').
Proof.
  unfold make_term. destruct (forallb _ _); [|discriminate]. destruct (existsb _ _); [discriminate|]. destruct (existsb _ _); [discriminate|]. intros E. injection E as <-. reflexivity.
Qed.
Lemma set_coeff_regular t c : regular t -> regular (set_coeff t c).
Proof. intros [[xs M] T A V B]. constructor; try assumption. exists xs. apply (make_set_coeff _ _ _ _ _ _ M). Qed.
Lemma regular_standard t : regular t -> standard t.
Proof.
  intros [M [T1 T2 T3] A V B]. constructor; try assumption.
  - intros i [[H1 H2]|(x & Hx & H1 & H2)].
    + apply NoDup_app_remove_r in T1. exact (nodup_sides _ _ _ T1 H1 H2).
    + exact (nodup_sides _ _ _ (T2 x Hx) H1 H2).
  - unfold op_indices in T1. rewrite <- app_assoc in T1. exact T1.
  - intros x i Hx C L Hi. destruct (T3 x Hx) as [_ S]. destruct (S C i Hi) as [E|[_ E]]; [rewrite E; cbn; auto|contradiction].
Qed.
Lemma void_regular : forall t, ttype t = SpinOrbital -> regular (void t).
Proof.
  intros t E. unfold void. rewrite E. apply (made_regular [] (Op [] []) (Q2Qc 0)); [reflexivity| | |constructor|reflexivity].
  - constructor; [constructor|intros ? []|intros ? []].
  - split; constructor.
Qed.
Lemma settled_not_delta x : settled x -> is_delta true x = false.
Proof.
  intros [S1 S2]. unfold is_delta. destruct (tclass_eqb (tcls x) TKronecker) eqn:E; [exfalso; apply S1; destruct (tcls x); try discriminate; reflexivity|]. cbn [orb].
  unfold core_delta. destruct (tcls x); try reflexivity. specialize (S2 eq_refl). unfold tensor_indices in S2. destruct (tupper x) as [|u [|? ?]]; try reflexivity. destruct (tlower x) as [|l [|? ?]]; try reflexivity.
  destruct (downgrade_cumulant u l) as [s|] eqn:D; [|reflexivity]. rewrite andb_true_r. destruct (space_eqb (lsp s) Sc) eqn:K; [|reflexivity]. exfalso. assert (Ks : lsp s = Sc) by (destruct (lsp s); try discriminate; reflexivity).
  assert (G : forall i : idx, lsp (fst i) = Sa \/ lsp (fst i) = Sh -> In (Lab (lbeta (fst i)) Sa) (relation (fst i))) by (intros [[b sp] n]; cbn [fst lsp lbeta]; intros [->| ->]; unfold relation; cbn; auto).
  pose proof (cumulant_spin _ _ _ D) as SP.
  assert (Q : lsp (Lab (lbeta (fst u)) Sa) = Sc); [|discriminate]. apply (cumulant_core u l s); [exact D|exact Ks| |rewrite SP]; apply G.
  - destruct (S2 u) as [H|[H _]]; [cbn; auto|auto|auto].
  - destruct (S2 l) as [H|[H _]]; [cbn; auto|auto|auto].
Qed.
Lemma kept_label u l s : downgrade_cumulant u l = Some s -> lsp s <> Sc -> lsp s = Sa \/ lsp s = Sh.
Proof.
  intros D N. assert (G : forall x, In x (relation s) -> lsp x <> Sv) by (intros x Hx; apply (cumulant_relation u l s x D), Hx). destruct s as [b sp]. cbn [lsp] in *. unfold relation in G.
  destruct sp; auto; try contradiction; exfalso; (apply (G (Lab b Sv)); [cbn; auto|reflexivity]).
Qed.

(** ** Simplified entries *)
(** the legs of a pair contraction belong to different terms *)
Definition crosses (terms : list term) (d : density) : Prop :=
  length (dupper d) = 1 -> forall i j t, In i (dupper d) -> In j (dlower d) -> In t terms -> In i (tindices t) -> In j (tindices t) -> False.

Section Entry.
  Context (terms : list term) (RG : Forall regular terms) (AP : ForallOrdPairs apart_terms terms) (CN : consistent_names (flat_map ttensors terms)).
  Context (ds : list density) (sq : op) (PL : Permutation (written_string (map tsq terms)) (flat_map density_legs ds ++ open_string sq)) (SH : Forall density_shape ds) (CR : Forall (crosses terms) ds).
  Local Notation tensors := (flat_map ttensors terms).
  Local Notation entry_tensors := (tensors ++ map tensor_of ds).
  Local Notation legs_of := (flat_map (fun t => op_indices (tsq t)) terms).
  Lemma regular_all : Forall standard terms.
  Proof. eapply Forall_impl; [|exact RG]. apply regular_standard. Qed.
  Context (c : Qc) (t0 t' : term) (M : make_term SpinOrbital entry_tensors sq c = Ok t0) (HS : simplify true true t0 = Ok t').

  Lemma old_not_delta x : In x tensors -> is_delta true x = false.
  Proof. intros H. apply in_flat_map in H as (t & Ht & Hx). rewrite Forall_forall in RG. apply settled_not_delta, (td_settled _ _ (rg_tidy _ (RG t Ht))), Hx. Qed.
  Lemma delta_new x : In x entry_tensors -> is_delta true x = true -> exists d, In d ds /\ x = tensor_of d.
  Proof.
    intros H D. apply in_app_or in H as [H|H]; [rewrite old_not_delta in D by exact H; discriminate|]. apply in_map_iff in H as (d & <- & H). eauto.
  Qed.
  Lemma delta_leg x i : In x entry_tensors -> is_delta true x = true -> In i (tensor_indices x) -> In i (flat_map tensor_indices (map tensor_of ds)).
  Proof. intros H D Hi. destruct (delta_new x H D) as (d & Hd & ->). apply in_flat_map. exists (tensor_of d). split; [apply in_map, Hd|exact Hi]. Qed.
  (** legs that remain, and legs of densities that are kept, are not joined *)
  Lemma open_apart x i : In x entry_tensors -> is_delta true x = true -> In i (tensor_indices x) -> ~ In i (op_indices sq).
  Proof. intros H D Hi Q. exact (nodup_sides _ _ _ (entry_legs_nodup terms regular_all AP ds sq PL) Q (delta_leg x i H D Hi)). Qed.
  Lemma new_apart x d i : In x entry_tensors -> is_delta true x = true -> In i (tensor_indices x) -> In d ds -> is_delta true (tensor_of d) = false -> ~ In i (tensor_indices (tensor_of d)).
  Proof.
    intros H D Hi Hd K Q. destruct (delta_new x H D) as (d' & Hd' & ->). pose proof (NoDup_app_remove_l _ _ (entry_legs_nodup terms regular_all AP ds sq PL)) as N.
    assert (E : tensor_of d' = tensor_of d) by (apply (nodup_flat_map_unique tensor_indices (map tensor_of ds) _ _ i N); auto using in_map). congruence.
  Qed.
  Lemma leg_in i : In i (flat_map tensor_indices (map tensor_of ds)) -> In i legs_of.
  Proof. intros H. apply (Permutation_in _ (entry_indices terms ds sq PL)). apply in_or_app. auto. Qed.
  Lemma old_apart x y i : In x entry_tensors -> is_delta true x = true -> In i (tensor_indices x) -> In y tensors -> is_density y = true -> ~ In i (tensor_indices y).
  Proof.
    intros H D Hi Hy Dy Q. apply (nodup_sides _ _ i (legs_densities_nodup terms regular_all AP)); [exact (leg_in i (delta_leg x i H D Hi))|]. exact (density_in y _ i Hy Dy Q).
  Qed.

  Lemma simplified_shape : ttype t' = SpinOrbital /\ Forall (fun x => titype x = SpinOrbital) (ttensors t') /\ paired (ttensors t') (tsq t') /\ length (cre (tsq t')) = length (ann (tsq t')) /\ shape (tsq t') (ttensors t') /\
    length (nodup idx_eq_dec (content_indices (ttensors t') (tsq t'))) <= length (all_indices terms).
  Proof.
    pose proof regular_all as ST.
    pose proof (entry_plain terms ST AP ds sq PL) as ND. pose proof (entry_valid terms ST ds sq PL SH) as HV. pose proof (entry_disjoint terms ST AP ds sq PL) as HD.
    destruct (simplify_keeps _ _ _ _ _ _ _ _ M ND HV HD HS) as (K1 & K2 & K3 & K4 & K5). split; [exact K1|]. split; [exact K2|]. split; [exact K3|]. split; [apply K5, (entry_balanced terms ST ds sq PL SH)|].
    specialize (K4 (consistent_classes _ ds CN)).
    destruct (make_term_fields _ _ _ _ _ M) as (F1 & F2 & _ & F4 & F5 & F6 & F7 & F8 & F9 & F10).
    assert (Hd : tdiag t0 = []). { destruct (tdiag t0) as [|[i n] d]; [reflexivity|]. exfalso. apply (ND i). apply (F10 i n). left. reflexivity. }
    assert (PC : Permutation (content_indices (ttensors t0) (tsq t0)) (content_indices entry_tensors sq)) by (rewrite F4; unfold content_indices; apply Permutation_app_head, Permutation_flat_map, F2).
    assert (HI : forall i, In i (content_indices entry_tensors sq) <-> In i (tindices t0)) by (intros i; rewrite F7, <- content_times; apply idx_times_in).
    destruct (simplify_inv true true t0 t' HS Hd F6) as (r & rho & SM & R1 & R2 & _ & D).
    { intros i Hi. apply HI. exact (Permutation_in _ PC Hi). }
    { intros i Hi. apply F8. exists i. auto. }
    { rewrite Forall_forall in *. intros x Hx. apply HV. exact (Permutation_in _ F2 Hx). }
    { unfold densities_disjoint. eapply Permutation_NoDup; [|exact HD]. apply Permutation_flat_map, BacktrackProofs.perm_filter. symmetry. exact F2. }
    assert (IN : forall x i, In x entry_tensors -> In i (tensor_indices x) -> In i (tindices t0)) by (intros x i Hx Hi; apply HI; unfold content_indices; apply in_or_app; right; apply in_flat_map; exists x; auto).
    assert (IO : forall i, In i (op_indices sq) -> In i (tindices t0)) by (intros i Hi; apply HI; unfold content_indices; apply in_or_app; auto).
    assert (MG : forall i j, In i (tindices t0) -> In j (tindices t0) -> rename r i = rename r j -> i = j \/ exists x, In x entry_tensors /\ is_delta true x = true /\ In i (tensor_indices x) /\ In j (tensor_indices x)).
    { intros i j Hi Hj E. rewrite !R1 in E by assumption. destruct (sm_fiber _ _ _ _ SM i j Hi Hj E) as [Q|(x & X1 & X2)]; [auto|right]. exists x. split; [exact (Permutation_in _ F2 X1)|exact X2]. }
    destruct D as [[_ D]|D].
    { assert (E : ttensors t' = [] /\ tsq t' = Op [] []) by (rewrite D; split; reflexivity). destruct E as [E1 E2]. rewrite E1, E2 in *. split; [|cbn; lia]. split; [exact K4|]. constructor; [constructor|intros ? []|intros ? []]. }
    assert (ET : ttensors t' = map (rename_tensor (rename r)) (filter (fun x => negb (is_delta true x)) (ttensors t0)) /\ tsq t' = rename_op (rename r) sq) by (rewrite D, <- F4; split; reflexivity).
    destruct ET as [ET EO]. set (kept := filter (fun x => negb (is_delta true x)) (ttensors t0)) in *.
    assert (HK : forall x, In x kept -> In x entry_tensors /\ is_delta true x = false) by (intros x Hx; apply filter_In in Hx as [H1 H2]; apply negb_true_iff in H2; split; [exact (Permutation_in _ F2 H1)|exact H2]).
    rewrite ET, EO. split; [split; [rewrite <- ET; exact K4|]; constructor|].
    - rewrite rename_densities, rename_op_indices, <- map_app.
      assert (IK : forall i, In i (op_indices sq ++ flat_map tensor_indices (filter is_density kept)) -> In i (tindices t0) /\ forall x, In x entry_tensors -> is_delta true x = true -> ~ In i (tensor_indices x)).
      { intros i Hi. apply in_app_or in Hi as [Hi|Hi].
        - split; [apply IO, Hi|]. intros x X1 X2 X3. exact (open_apart x i X1 X2 X3 Hi).
        - apply in_flat_map in Hi as (y & Hy & Hi). apply filter_In in Hy as [Hy Dy]. destruct (HK y Hy) as [Y1 Y2]. split; [exact (IN y i Y1 Hi)|]. intros x X1 X2 X3. apply in_app_or in Y1 as [Y1|Y1]; [exact (old_apart x y i X1 X2 X3 Y1 Dy Hi)|].
          apply in_map_iff in Y1 as (d & <- & Hdd). exact (new_apart x d i X1 X2 X3 Hdd Y2 Hi). }
      apply NoDup_map_in.
      + assert (PK : exists rest, Permutation (filter is_density entry_tensors) (filter is_density kept ++ rest)).
        { exists (filter is_density (filter (is_delta true) (ttensors t0))). rewrite <- filter_app. apply BacktrackProofs.perm_filter. rewrite <- F2. apply filter_split. }
        destruct PK as [rest PK]. apply NoDup_app_iff. split; [exact (NoDup_app_remove_r _ _ (entry_legs_nodup terms ST AP ds sq PL))|]. split.
        * unfold densities_disjoint in HD. eapply Permutation_NoDup in HD; [|apply Permutation_flat_map, PK]. rewrite flat_map_app in HD. exact (NoDup_app_remove_r _ _ HD).
        * intros i Hi Q. apply in_flat_map in Q as (y & Hy & Q). apply filter_In in Hy as [Hy Dy]. destruct (HK y Hy) as [Y1 Y2]. apply in_app_or in Y1 as [Y1|Y1].
          -- apply (nodup_sides _ _ i (legs_densities_nodup terms ST AP)); [|exact (density_in y _ i Y1 Dy Q)]. apply (Permutation_in _ (entry_indices terms ds sq PL)). apply in_or_app. auto.
          -- apply (nodup_sides _ _ i (entry_legs_nodup terms ST AP ds sq PL) Hi). apply in_flat_map. exists y. auto.
      + intros i j Hi Hj E. destruct (IK i Hi) as [I1 I2], (IK j Hj) as [J1 _]. destruct (MG i j I1 J1 E) as [Q|(x & X1 & X2 & X3 & _)]; [exact Q|]. exfalso. exact (I2 x X1 X2 X3).
    - intros y Hy. apply in_map_iff in Hy as (x & <- & Hx). destruct (HK x Hx) as [X1 X2]. rewrite rename_indices. apply NoDup_map_in.
      + apply in_app_or in X1 as [X1|X1].
        * apply in_flat_map in X1 as (t & Ht & X1). rewrite Forall_forall in RG. exact (td_tensors _ _ (rg_tidy _ (RG t Ht)) x X1).
        * exact (NoDup_flat_in _ _ _ (NoDup_app_remove_l _ _ (entry_legs_nodup terms ST AP ds sq PL)) X1).
      + intros i j Hi Hj E. destruct (MG i j (IN x i X1 Hi) (IN x j X1 Hj) E) as [Q|(y & Y1 & Y2 & Y3 & Y4)]; [exact Q|]. destruct (idx_eq_dec i j) as [Q|NE]; [exact Q|exfalso]. apply in_app_or in X1 as [X1|X1].
        * destruct (delta_new y Y1 Y2) as (d & Hdd & ->). rewrite Forall_forall in HV. destruct (delta_shape true _ (HV _ Y1) Y2) as (u & l & U & L). destruct (tensor_of_sides d) as (T1 & T2 & _). rewrite T1 in U. rewrite T2 in L.
          rewrite Forall_forall in CR. pose proof (CR d Hdd) as C. unfold crosses in C. rewrite U, L in C. specialize (C eq_refl). unfold tensor_indices in Y3, Y4. rewrite T1, T2, U, L in Y3, Y4.
          apply in_flat_map in X1 as (t & Ht & X1). assert (S : standard t) by (rewrite Forall_forall in ST; auto).
          assert (JN : forall k, In k (tensor_indices x) -> In k (tindices t)) by (intros k Hk; apply standard_indices; [exact S|]; unfold content_indices; apply in_or_app; right; apply in_flat_map; exists x; auto).
          destruct Y3 as [<-|[<-|[]]], Y4 as [<-|[<-|[]]]; try (apply NE; reflexivity).
          -- apply (C u l t); auto using in_eq.
          -- apply (C u l t); auto using in_eq.
        * apply in_map_iff in X1 as (d & <- & Hdd). exact (new_apart y d i Y1 Y2 Y3 Hdd X2 Hi).
    - intros y Hy. apply in_map_iff in Hy as (x & <- & Hx). destruct (HK x Hx) as [X1 X2]. assert (XT : In x (ttensors t0)) by (apply filter_In in Hx; apply Hx). split.
      + cbn [rename_tensor tcls]. intros Q. unfold is_delta in X2. rewrite Q in X2. discriminate.
      + cbn [rename_tensor tcls tupper]. intros C i Hi. rewrite rename_indices in Hi. apply in_map_iff in Hi as (j & <- & Hj). rewrite R1 by (eapply IN; eassumption). rewrite map_length.
        unfold is_delta in X2. rewrite C in X2. cbn [tclass_eqb orb] in X2. destruct (length (tupper x) =? 1) eqn:L1.
        * apply Nat.eqb_eq in L1. destruct (sm_cumulant _ _ _ _ SM x XT C L1) as (u & l & s & U & L & DG).
          assert (NS : lsp s <> Sc). { intros Q. unfold core_delta in X2. rewrite C, U, L, DG, Q in X2. discriminate. }
          assert (RQ : requests true x = [(u, s); (l, s)]) by (unfold requests; rewrite C, L1, U, L, DG; cbn [Nat.eqb]; replace (space_eqb (lsp s) Sc) with false; [reflexivity|]; symmetry; destruct (lsp s); try reflexivity; contradiction).
          assert (ES : fst (rho j) = s). { unfold tensor_indices in Hj. rewrite U, L in Hj. apply (sm_request _ _ _ _ SM x j s XT). rewrite RQ. destruct Hj as [<-|[<-|[]]]; cbn; auto. }
          rewrite ES. destruct (kept_label _ _ _ DG NS) as [Q|Q]; [left; exact Q|right; split; [exact Q|exact L1]].
        * left. assert (ES : fst (rho j) = active_label j). { apply (sm_request _ _ _ _ SM x j (active_label j) XT). unfold requests. rewrite C, L1. apply in_map_iff. exists j. split; [reflexivity|exact Hj]. }
          rewrite ES. reflexivity.
    - transitivity (length (map (rename r) (nodup idx_eq_dec (content_indices entry_tensors sq)))).
      + apply NoDup_incl_length; [apply NoDup_nodup|]. intros i Hi. apply nodup_In in Hi. unfold content_indices in Hi. apply in_map_iff. apply in_app_or in Hi as [Hi|Hi].
        * rewrite rename_op_indices in Hi. apply in_map_iff in Hi as (j & <- & Hj). exists j. split; [reflexivity|]. apply nodup_In. unfold content_indices. apply in_or_app. auto.
        * apply in_flat_map in Hi as (y & Hy & Hi). apply in_map_iff in Hy as (x & <- & Hx). rewrite rename_indices in Hi. apply in_map_iff in Hi as (j & <- & Hj). exists j. split; [reflexivity|]. apply nodup_In. unfold content_indices. apply in_or_app. right. apply in_flat_map. exists x. split; [apply HK, Hx|exact Hj].
      + rewrite map_length. unfold all_indices. apply NoDup_incl_length; [apply NoDup_nodup|]. intros i Hi. apply nodup_In in Hi. apply nodup_In. exact (Permutation_in _ (entry_content terms ds sq PL) Hi).
  Qed.
End Entry.

(** ** Pair contractions cross *)
Lemma pairs_nth {X} (R : X -> X -> Prop) (l : list X) : ForallOrdPairs R l -> forall i j x y, i < j -> nth_error l i = Some x -> nth_error l j = Some y -> R x y.
Proof.
  induction 1 as [|z l F _ IH]; intros i j x y L Hi Hj; [destruct i; discriminate|]. destruct j as [|j]; [lia|]. destruct i as [|i].
  - cbn in Hi, Hj. injection Hi as ->. rewrite Forall_forall in F. apply F. exact (nth_error_In _ _ Hj).
  - cbn in Hi, Hj. apply (IH i j); [lia|assumption..].
Qed.
Lemma apart_positions terms i j t t' k : ForallOrdPairs apart_terms terms -> nth_error terms i = Some t -> nth_error terms j = Some t' -> In k (tindices t) -> In k (tindices t') -> i = j.
Proof.
  intros AP Hi Hj K K'. destruct (lt_eq_lt_dec i j) as [[L|E]|L]; [|exact E|]; exfalso; [exact (pairs_nth _ _ AP _ _ _ _ L Hi Hj k K K')|exact (pairs_nth _ _ AP _ _ _ _ L Hj Hi k K' K)].
Qed.
Lemma pair_crosses terms key e : Forall standard terms -> ForallOrdPairs apart_terms terms -> pair_contraction (map tsq terms) key e -> crosses terms (density_of e).
Proof.
  intros ST AP P _ i j t Hi Hj Ht Ti Tj. rewrite Forall_forall in ST. apply In_nth_error in Ht as [p Ht].
  assert (G : forall a b left right u l, a < b -> nth_error (map tsq terms) a = Some left -> nth_error (map tsq terms) b = Some right -> In u (op_indices left) -> In l (op_indices right) -> In u (tindices t) -> In l (tindices t) -> False).
  { intros a b left right u l L A B U V Tu Tl. rewrite nth_error_map in A, B. destruct (nth_error terms a) as [ta|] eqn:Ea; [|discriminate]. destruct (nth_error terms b) as [tb|] eqn:Eb; [|discriminate]. cbn [option_map] in A, B. injection A as <-. injection B as <-.
    assert (I : forall n s k, nth_error terms n = Some s -> In k (op_indices (tsq s)) -> In k (tindices s)) by (intros n s k Hn Hk; apply standard_indices; [apply ST, (nth_error_In _ _ Hn)|]; unfold content_indices; apply in_or_app; auto).
    assert (a = p) by (apply (apart_positions terms a p ta t u); eauto). assert (b = p) by (apply (apart_positions terms b p tb t l); eauto). lia. }
  destruct P as [a b left right u l L A B U V _|a b left right u l L A B U V _]; cbn in Hi, Hj; destruct Hi as [<-|[]], Hj as [<-|[]].
  - apply (G a b left right u l); auto; unfold op_indices; apply in_or_app; auto.
  - apply (G a b left right l u); auto; unfold op_indices; apply in_or_app; auto.
Qed.
Lemma allowed_crosses terms K e : Forall standard terms -> ForallOrdPairs apart_terms terms -> allowed (map tsq terms) K e -> crosses terms (density_of e).
Proof.
  intros ST AP [key H|k c a Hk _ _ Lc _ _ ->]; [exact (pair_crosses _ _ _ ST AP H)|]. intros L. exfalso. unfold density_of in L. cbn in L. rewrite map_length in L. lia.
Qed.
Lemma expand_sides ds z l : In (z, l) (expand_hole_densities ds) -> forall y, In y l -> exists d, In d ds /\ dupper y = dupper d /\ dlower y = dlower d.
Proof.
  intros H. unfold expand_hole_densities in H.
  assert (G : forall bad e, In e (iproduct (map expand_hole_density bad)) -> forall y, In y e -> exists d, In d bad /\ dupper y = dupper d /\ dlower y = dlower d).
  { clear. induction bad as [|d bad IH]; cbn [map iproduct]; intros e H y Hy; [destruct H as [<-|[]]; destruct Hy|].
    apply in_flat_map in H as (y0 & Hy0 & H). apply in_map_iff in H as (e' & <- & H). destruct Hy as [->|Hy].
    - exists d. split; [left; reflexivity|]. unfold expand_hole_density in Hy0. destruct (_ || _)%bool; destruct Hy0 as [<-|Hy0]; try destruct Hy0 as [<-|[]]; try destruct Hy0; auto.
    - destruct (IH e' H y Hy) as (d' & D1 & D2). exists d'. split; [right; exact D1|exact D2]. }
  set (bad := filter is_hole ds) in *. destruct (map expand_hole_density bad) as [|x xs] eqn:E.
  - destruct H as [[= <- <-]|[]]. intros y Hy. exists y. auto.
  - rewrite <- E in *. apply in_map_iff in H as (e & [= _ <-] & H). intros y Hy. apply in_app_or in Hy as [Hy|Hy].
    + apply filter_In in Hy as [Hy _]. exists y. auto.
    + destruct (G bad e H y Hy) as (d & D1 & D2). apply filter_In in D1 as [D1 _]. eauto.
Qed.
Lemma entry_crosses terms expand (P : list econ -> Prop) K lo hi r z ds sq : Forall standard terms -> ForallOrdPairs apart_terms terms -> (forall s, P s -> wick_set (map tsq terms) K lo hi s) -> wick_sum (map tsq terms) expand P r -> In (z, ds, sq) (concat r) ->
  Forall (crosses terms) ds.
Proof.
  intros ST AP Hp (sets & blocks & (O & _) & F & E) H. rewrite E in H. apply in_concat in H as [b [Hb H]]. destruct (Forall2_in_r _ _ _ _ F Hb) as [s [Hs Es]].
  pose proof (ws_allowed _ _ _ _ _ (Hp s (proj2 (O s Hs)))) as A. destruct Es as (cons & sign & sq' & PC & _ & ->). apply in_map_iff in H as [[z' ds'] [[= _ <- _] H]]. cbn [fst snd] in *.
  assert (S : Forall (crosses terms) (map density_of cons)).
  { apply Forall_forall. intros d Hd. apply in_map_iff in Hd as (e & <- & He). apply (Permutation_in _ PC) in He. rewrite Forall_forall in A. exact (allowed_crosses _ _ _ ST AP (A e He)). }
  destruct expand; [|destruct H as [[= _ <-]|[]]; exact S]. apply Forall_forall. intros y Hy. destruct (expand_sides _ _ _ H y Hy) as (d & D1 & D2 & D3). rewrite Forall_forall in S. specialize (S d D1). unfold crosses in *. rewrite D2, D3. exact S.
Qed.
Lemma crosses_all terms d : Forall standard terms -> (forall i, In i (dupper d ++ dlower d) -> In i (flat_map (fun t => op_indices (tsq t)) terms)) ->
  crosses (filter (fun t => negb (op_is_empty (tsq t))) terms) d -> ForallOrdPairs apart_terms terms -> crosses terms d.
Proof.
  intros ST L C AP E i j t Hi Hj Ht Ti Tj. destruct (op_is_empty (tsq t)) eqn:O.
  - assert (I : In i (flat_map (fun t => op_indices (tsq t)) terms)) by (apply L, in_or_app; auto). apply in_flat_map in I as (t1 & H1 & I). rewrite Forall_forall in ST.
    assert (T1 : In i (tindices t1)) by (apply standard_indices; [auto|]; unfold content_indices; apply in_or_app; auto).
    apply In_nth_error in Ht as [p Hp]. apply In_nth_error in H1 as [q Hq]. assert (p = q) by (apply (apart_positions terms p q t t1 i); assumption). subst q. rewrite Hp in Hq. injection Hq as <-.
    unfold op_is_empty in O. unfold op_indices in I. destruct (cre (tsq t)), (ann (tsq t)); try discriminate. destruct I.
  - apply (C E i j t); auto. apply filter_In. rewrite O. auto.
Qed.

(** ** Canonical forms *)
(** index numbers below N, at most N indices *)
Definition small (N : nat) (t : term) : Prop := (forall i, In i (tindices t) -> snd i < N) /\ length (tindices t) <= N.
Lemma set_coeff_small N t c : small N t -> small N (set_coeff t c).
Proof. exact (fun H => H). Qed.
Lemma small_le N N' t : N <= N' -> small N t -> small N' t.
Proof. intros L [H1 H2]. split; [intros i Hi; specialize (H1 i Hi); lia|lia]. Qed.
Lemma beta_alpha o : (forall i, In i (op_indices o) -> idx_beta i = false) -> op_alpha o.
Proof. intros H. split; apply Forall_forall; intros i Hi; unfold alpha; apply H; unfold op_indices; apply in_or_app; auto. Qed.
Lemma canonical_regular w terms hermitian c z ds sq tm N : admissible (w_sympy w) -> Forall regular terms -> ForallOrdPairs apart_terms terms -> consistent_names (flat_map ttensors terms) ->
  Permutation (written_string (map tsq terms)) (flat_map density_legs ds ++ open_string sq) -> Forall density_shape ds -> Forall (crosses terms) ds -> length (all_indices terms) <= N ->
  canonicalize_contraction w (flat_map ttensors terms) c hermitian (z, ds, sq) = Ok tm -> regular tm /\ small N tm.
Proof.
  intros AD RG AP CN PL SH CR LN H. unfold canonicalize_contraction in H. destruct (make_term _ _ _ _) as [t0|] eqn:M; [|discriminate]. cbn [pybind] in H.
  assert (exists t', simplify true true t0 = Ok t') as [t' HS]. { unfold canonicalize_sympy in H. destruct (simplify true true t0) as [t'|]; [eauto|discriminate]. }
  destruct (simplified_shape terms RG AP CN ds sq PL SH CR _ t0 t' M HS) as (S1 & S2 & S3 & S4 & S5 & S6).
  destruct (sympy_shape shape (w_sympy w) true true hermitian t0 t' tm (shape_movable hermitian) AD HS H) as [[_ ->]|(ys & o & c' & dummy & M' & P & V & B & AL & NB & ND & IN & LD)]; try assumption.
  - rewrite S1. exact S2.
  - split; [apply void_regular, S1|]. split; [intros ? []|cbn; lia].
  - rewrite S1 in M', AL. destruct P as [_ P]. split; [apply (made_regular _ _ _ _ M' P (beta_alpha _ (AL eq_refl)) V B)|].
    destruct (make_term_fields _ _ _ _ _ M') as (_ & _ & _ & _ & _ & F6 & F7 & _). assert (HI : forall i, In i (tindices tm) -> In i (content_indices ys o)) by (intros i Hi; apply F7 in Hi; rewrite <- content_times in Hi; apply idx_times_in, Hi).
    split.
    + intros i Hi. specialize (NB i (HI i Hi)). lia.
    + assert (Q : length (tindices tm) <= length dummy) by (apply NoDup_incl_length; [exact F6|intros i Hi; apply IN, HI, Hi]). lia.
Qed.

(** ** Sums of like terms *)
Section Combine.
  Context (P : term -> Prop) (HP : forall t c, P t -> P (set_coeff t c)).
  Lemma dict_set_in {K V} eqb (k : K) (x : V) d : forall k' y, In (k', y) (dict_set eqb k x d) -> y = x \/ In (k', y) d.
  Proof.
    induction d as [|[k0 y0] d IH]; intros k' y H; cbn [dict_set] in H; [destruct H as [[= <- <-]|[]]; auto|]. destruct (eqb k k0).
    - destruct H as [[= <- <-]|H]; [auto|right; right; exact H].
    - destruct H as [[= <- <-]|H]; [right; left; reflexivity|]. destruct (IH _ _ H); [auto|right; right; assumption].
  Qed.
  Lemma collect_in l : forall dc, (forall k t, In (k, t) (fst dc) -> P t) -> Forall P l ->
    forall k t, In (k, t) (fst (fold_left (fun dc t => (dict_set text_eqb (hash_term t) t (fst dc), dict_append text_eqb (hash_term t) (tcoeff t) (snd dc))) l dc)) -> P t.
  Proof.
    induction l as [|x l IH]; intros dc H F; [exact H|]. cbn [fold_left]. inversion F; subst. apply IH; [|assumption]. intros k t Q. cbn [fst] in Q. apply dict_set_in in Q as [->|Q]; [assumption|eauto].
  Qed.
  Lemma combine_all l out : Forall P l -> combine_terms l = Ok out -> Forall P out.
  Proof.
    intros F H. unfold combine_terms in H. destruct (collect_values l) as [items coeffs] eqn:E. unfold sorted_terms in H. destruct (same_types _); [|discriminate]. injection H as <-. apply Forall_forall. intros t Ht.
    apply (Permutation_in _ (SortProofs.sort_by_perm _ _)) in Ht. apply filter_In in Ht as [Ht _]. apply in_map_iff in Ht as ([k t0] & <- & Ht). cbn [fst snd]. apply HP.
    apply (collect_in l ([], [])) with (k := k); [intros ? ? []|exact F|]. unfold collect_values in E. rewrite E. exact Ht.
  Qed.
  Context (w : world) (UN : unordered w) (tensors : list tensor) (c : Qc) (h : bool).
  Local Notation can := (canonicalize_contraction w tensors c h).
  Lemma batch_all k n es s out : (forall e t, In e es -> can e = Ok t -> P t) -> canonicalize_contractions_batch w k n es tensors c s h = Ok out -> Forall P out.
  Proof.
    intros G H. unfold canonicalize_contractions_batch in H. destruct es as [|e es]; [injection H as <-; constructor|]. destruct (pymap can (e :: es)) as [rs|] eqn:R; [|discriminate]. cbn [pybind] in H. cbv zeta in H.
    assert (F : Forall P rs).
    { apply pymap_forall2 in R. clear -R G. revert G. induction R as [|e1 t l m E _ IH]; intros G; constructor; [apply (G e1); [left; reflexivity|exact E]|apply IH; intros; eapply G; [right|]; eassumption]. }
    assert (F' : Forall P (if n =? 1 then rs else w_sched w k rs)).
    { destruct (n =? 1); [exact F|]. rewrite Forall_forall in *. intros t Ht. apply F. exact (Permutation_in _ (UN k rs) Ht). }
    destruct s; [exact (combine_all _ _ F' H)|]. injection H as <-. exact F'.
  Qed.
  Lemma loop_all n bs batches : forall k count es out fin, (forall e t, In e (es ++ concat batches) -> can e = Ok t -> P t) -> Forall P out ->
    batch_loop w k n bs tensors c h batches count es out = Ok fin -> Forall P fin.
  Proof.
    induction batches as [|b batches IH]; intros k count es out fin G F H; cbn [batch_loop] in H.
    - destruct (canonicalize_contractions_batch _ _ _ _ _ _ _ _) as [r|] eqn:E; [|discriminate]. cbn [pybind] in H. injection H as <-. apply Forall_app. split; [exact F|]. eapply batch_all; [|exact E]. intros e t He. apply G. apply in_or_app. auto.
    - cbv zeta in H. cbn [concat] in G. destruct (_ <? _).
      + apply (IH k _ _ _ _) in H; [exact H| |exact F]. intros e t He. apply G. rewrite !in_app_iff in *. tauto.
      + destruct (canonicalize_contractions_batch _ _ _ _ _ _ _ _) as [r|] eqn:E; [|discriminate]. cbn [pybind] in H. apply (IH (S k) _ _ _ _) in H; [exact H| |].
        * intros e t He. apply G. cbn [app] in He. rewrite !in_app_iff. tauto.
        * apply Forall_app. split; [exact F|]. eapply batch_all; [|exact E]. intros e t He. apply G. rewrite !in_app_iff in *. tauto.
  Qed.
End Combine.

(** ** Contractions and commutators *)
Lemma all_indices_in terms i : Forall standard terms -> In i (all_indices terms) <-> exists t, In t terms /\ In i (tindices t).
Proof.
  intros ST. unfold all_indices. rewrite nodup_In, in_flat_map. rewrite Forall_forall in ST. split; intros (t & Ht & Hi); exists t; (split; [exact Ht|]); apply (standard_indices t i (ST t Ht)); exact Hi.
Qed.
Definition within (N : nat) (terms : list term) : Prop := length (all_indices terms) <= N /\ forall t i, In t terms -> In i (tindices t) -> snd i < N.

Lemma product_closed terms o c t N : Forall regular terms -> ForallOrdPairs apart_terms terms -> within N terms -> op_alpha o -> length (cre o) = length (ann o) -> flat_map (fun t => op_indices (tsq t)) terms = op_indices o ->
  make_term SpinOrbital (flat_map ttensors terms) o c = Ok t -> regular t /\ small N t.
Proof.
  intros RG AP [N1 N2] AL B EO M. pose proof (regular_all terms RG) as ST. split.
  - apply (made_regular _ _ _ _ M); [|exact AL| |exact B].
    + rewrite Forall_forall in RG. constructor.
      * rewrite <- EO. apply legs_densities_nodup; assumption.
      * intros x Hx. apply in_flat_map in Hx as (t1 & H1 & Hx). exact (td_tensors _ _ (rg_tidy _ (RG t1 H1)) x Hx).
      * intros x Hx. apply in_flat_map in Hx as (t1 & H1 & Hx). exact (td_settled _ _ (rg_tidy _ (RG t1 H1)) x Hx).
    + apply Forall_forall. intros x Hx. apply in_flat_map in Hx as (t1 & H1 & Hx). rewrite Forall_forall in RG. pose proof (rg_valid _ (RG t1 H1)) as V. rewrite Forall_forall in V. auto.
  - destruct (make_term_fields _ _ _ _ _ M) as (_ & _ & _ & _ & _ & F6 & F7 & _).
    assert (HI : forall i, In i (tindices t) -> In i (all_indices terms)).
    { intros i Hi. apply F7 in Hi. rewrite <- content_times in Hi. apply idx_times_in in Hi. unfold all_indices. apply nodup_In. apply (Permutation_in _ (Permutation_sym (all_perm terms))). rewrite EO. exact Hi. }
    split; [|etransitivity; [|exact N1]; apply NoDup_incl_length; [exact F6|exact HI]]. intros i Hi. apply HI, (all_indices_in _ _ ST) in Hi as (t1 & H1 & Hi). eauto.
Qed.

Theorem contract_closed w terms max_cu max_o min_o sc fc eh n hermitian out N :
  unordered w -> (forall l, Permutation (w_iter w l) l) -> admissible (w_sympy w) -> Forall regular terms -> ForallOrdPairs apart_terms terms -> consistent_names (flat_map ttensors terms) -> within N terms ->
  contract_terms w terms max_cu max_o min_o sc fc eh n hermitian = Ok out -> Forall (fun t => regular t /\ small N t) out.
Proof.
  intros UN IT AD RG AP CN WN H. pose proof (regular_all terms RG) as ST. unfold contract_terms in H. destruct terms as [|t0 ts]; [discriminate|]. assert (H0 : In t0 (t0 :: ts)) by (left; reflexivity). set (terms := t0 :: ts) in *. clearbody terms. cbv zeta in H.
  assert (RG' := RG). rewrite Forall_forall in RG'. assert (ST' := ST). rewrite Forall_forall in ST'.
  assert (SE : length (filter (fun t => negb (op_is_empty (tsq t))) terms) <= 1 -> forall t1, In t1 terms -> tsq t1 = whole_op terms -> forall c t, make_term (ttype t1) (flat_map ttensors terms) (tsq t1) c = Ok t -> regular t /\ small N t).
  { intros L t1 H1 E c t M. rewrite (standard_type t1 (ST' t1 H1)) in M. apply (product_closed terms (tsq t1) c t N); try assumption; [apply rg_alpha, RG', H1|apply rg_balanced, RG', H1|]. rewrite E. apply whole_indices, L. }
  unfold whole_op in SE. destruct (filter (fun t => negb (op_is_empty (tsq t))) terms) as [|t1 [|t2 tc]] eqn:F.
  - destruct (make_term _ _ _ _) as [t|] eqn:M; [|discriminate]. cbn [pybind] in H. injection H as <-. constructor; [|constructor]. apply (SE (le_0_n 1) t0 H0) with (2 := M).
    destruct (op_is_empty (tsq t0)) eqn:Q; [unfold op_is_empty in Q; destruct (tsq t0) as [[|] [|]]; try discriminate; reflexivity|]. exfalso. assert (I : In t0 (filter (fun t => negb (op_is_empty (tsq t))) terms)) by (apply filter_In; rewrite Q; auto). rewrite F in I. destruct I.
  - destruct (make_term _ _ _ _) as [t|] eqn:M; [|discriminate]. cbn [pybind] in H. injection H as <-. constructor; [|constructor].
    apply (SE (le_n 1) t1) with (3 := M); [|reflexivity]. assert (I : In t1 [t1]) by (left; reflexivity). rewrite <- F in I. apply filter_In in I. apply I.
  - clear SE. rewrite <- F in *. set (ops := map tsq (filter (fun t => negb (op_is_empty (tsq t))) terms)) in *.
    destruct (forallb _ (filter _ terms)) in H; [|discriminate]. pose proof (standard_alpha terms ST) as Hal. pose proof (standard_distinct terms ST AP) as D. fold ops in Hal, D, H.
    assert (G : exists result (P : list econ -> Prop), compute_operator_contractions (w_pick w) (w_pick_connected w) (w_iter w) fc ops max_cu max_o min_o eh = Ok result /\ wick_sum ops eh P result /\
      (forall s, P s -> wick_set ops (cumulant_level ops max_cu) min_o max_o s)).
    { destruct fc.
      - destruct (connected_driver_ok (w_pick_connected w) ops max_cu max_o min_o eh Hal D) as (r & P & E & W & P1 & P2). exists r, P. split; [exact E|]. split; [exact W|]. intros s Hs. destruct (P1 s Hs) as (Q1 & _). exact Q1.
      - destruct (C32_entry_point (w_pick w) (w_pick_connected w) (w_iter w) ops max_cu max_o min_o eh Hal IT D) as (r & E & W). exists r, (wick_set ops (cumulant_level ops max_cu) min_o max_o). split; [exact E|]. split; [exact W|]. auto. }
    destruct G as (r & P & E & W & P1). rewrite E in H. cbn [pybind] in H. destruct (batch_loop w _ _ _ _ _ _ _ _ _ _) as [fin|] eqn:EL; [|discriminate]. cbn [pybind] in H.
    set (Q := fun t => regular t /\ small N t). assert (HQ : forall t c, Q t -> Q (set_coeff t c)) by (intros t c [Q1 Q2]; split; [apply set_coeff_regular, Q1|apply set_coeff_small, Q2]).
    assert (AP' : ForallOrdPairs apart_terms (filter (fun t => negb (op_is_empty (tsq t))) terms)).
    { clear -AP. induction AP as [|x l F _ IH]; cbn [filter]; [constructor|]. destruct (negb _); [|exact IH]. constructor; [|exact IH]. rewrite Forall_forall in *. intros y Hy. apply filter_In in Hy. apply F, Hy. }
    assert (ST2 : Forall standard (filter (fun t => negb (op_is_empty (tsq t))) terms)) by (apply Forall_forall; intros t Ht; apply filter_In in Ht; apply ST', Ht).
    apply (combine_all Q HQ fin out); [|exact H]. apply (loop_all Q HQ w UN _ _ hermitian _ _ r 0 0 [] [] fin) with (3 := EL); [|constructor].
    intros [[z ds] sq] t He Ht. cbn [app] in He. destruct (result_legs ops eh P _ _ _ r z ds sq P1 W He) as (L1 & L2 & _). unfold ops in L1. rewrite filter_empty_ops in L1.
    match type of Ht with canonicalize_contraction _ _ ?cc _ _ = _ => apply (canonical_regular w terms hermitian cc z ds sq t N AD RG AP CN L1) end; [exact (entry_shapes ops eh P _ _ _ r z ds sq P1 W He)| |apply WN|exact Ht].
    pose proof (entry_crosses _ eh P _ _ _ r z ds sq ST2 AP' P1 W He) as CR. rewrite Forall_forall in *. intros d Hd. apply crosses_all; [apply Forall_forall; exact ST'| |apply CR, Hd|exact AP].
    intros i Hi. apply (leg_in terms ds sq L1). apply in_flat_map. exists (tensor_of d). split; [apply in_map, Hd|]. unfold tensor_indices. destruct (tensor_of_sides d) as (-> & -> & _). exact Hi.
Qed.
Lemma within_two N a b : standard a -> standard b -> length (tindices a) + length (tindices b) <= N -> (forall i, In i (tindices a) -> snd i < N) -> (forall i, In i (tindices b) -> snd i < N) -> within N [a; b] /\ within N [b; a].
Proof.
  intros Sa Sb L A B. assert (G : forall a b, standard a -> standard b -> length (all_indices [a; b]) <= length (tindices a) + length (tindices b)).
  { clear. intros a b Sa Sb. rewrite <- app_length. apply NoDup_incl_length; [apply NoDup_nodup|]. intros i Hi. apply all_indices_in in Hi; [|auto]. destruct Hi as (t & [<-|[<-|[]]] & Hi); apply in_or_app; auto. }
  split; (split; [etransitivity; [apply G; assumption|lia]|]); intros t i [<-|[<-|[]]]; auto.
Qed.
Theorem commutator_closed w1 w2 a b max_cu max_o min_o sc fc eh n hermitian out N :
  unordered w1 -> unordered w2 -> (forall l, Permutation (w_iter w1 l) l) -> (forall l, Permutation (w_iter w2 l) l) -> admissible (w_sympy w1) -> admissible (w_sympy w2) ->
  regular a -> regular b -> apart_terms a b -> consistent_names (ttensors a ++ ttensors b) ->
  length (tindices a) + length (tindices b) <= N -> (forall i, In i (tindices a) -> snd i < N) -> (forall i, In i (tindices b) -> snd i < N) ->
  single_commutator w1 w2 a b max_cu max_o min_o sc fc eh n hermitian = Ok out -> Forall (fun t => regular t /\ small N t) out.
Proof.
  intros U1 U2 I1 I2 A1 A2 Ra Rb AP CN L La Lb H. unfold single_commutator in H. destruct (fc && _); [injection H as <-; constructor|].
  destruct (contract_terms w1 _ _ _ _ _ _ _ _ _) as [oa|] eqn:E1; [|discriminate]. cbn [pybind] in H. destruct (contract_terms w2 _ _ _ _ _ _ _ _ _) as [ob|] eqn:E2; [|discriminate]. cbn [pybind] in H.
  destruct (within_two N a b (regular_standard _ Ra) (regular_standard _ Rb) L La Lb) as [W1 W2].
  apply (combine_all (fun t => regular t /\ small N t)) with (l := oa ++ ob); [intros t c [Q1 Q2]; split; [apply set_coeff_regular, Q1|apply set_coeff_small, Q2]| |exact H]. apply Forall_app. split.
  - apply (contract_closed w1 [a; b] _ _ _ _ _ _ _ _ _ N U1 I1 A1) in E1; try assumption; [auto|constructor; [constructor; [exact AP|constructor]|constructor; [constructor|constructor]]|cbn [flat_map]; rewrite app_nil_r; exact CN].
  - apply (contract_closed w2 [b; a] _ _ _ _ _ _ _ _ _ N U2 I2 A2) in E2; try assumption; [auto|constructor; [constructor; [intros i Hi Q; exact (AP i Q Hi)|constructor]|constructor; [constructor|constructor]]|].
    cbn [flat_map]. rewrite app_nil_r. destruct CN as [C1 C2]. split; [apply Forall_app; apply Forall_app in C1; tauto|]. intros x y Hx Hy. apply C2; rewrite !in_app_iff in *; tauto.
Qed.
Lemma from_term_closed t t' N : regular t -> small N t -> from_term t = Ok t' -> regular t' /\ small N t' /\ tcoeff t' = tcoeff t /\ Permutation (ttensors t') (ttensors t) /\ tsq t' = tsq t.
Proof.
  intros R [S1 S2] H. unfold from_term in H. pose proof (regular_standard _ R) as ST. rewrite (standard_type _ ST) in H. split.
  - apply (made_regular _ _ _ _ H); apply R.
  - destruct (make_term_fields _ _ _ _ _ H) as (_ & F2 & _ & F4 & F5 & F6 & F7 & _). split; [|auto].
    assert (HI : forall i, In i (tindices t') -> In i (tindices t)) by (intros i Hi; apply F7 in Hi; rewrite <- content_times in Hi; apply idx_times_in in Hi; apply standard_indices; assumption).
    split; [auto|]. etransitivity; [|exact S2]. apply NoDup_incl_length; assumption.
Qed.
