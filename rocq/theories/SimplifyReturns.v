(** simplify and canonicalize return for the contents of ReturnSpec. *)
From Coq Require Import Ascii String ZArith QArith Qcanon Sorting.Sorted.
From Verif Require Import PyBase OrderSpec OrderProofs SortProofs ParitySpec ParityProofs SpaceModel IndicesModel IterProofs IndicesProofs SpaceProofs ElemModel MacroModel TermModel ValueSpec ValueProofs TermSpec SumProofs TermProofs RenameProofs
  SimplifyProofs SimplifyValue CanonProofs SymmetryModel SymmetrySpec SymmetryProofs SympyProofs SympyValue SympyShape ReturnSpec ReturnProofs.
Local Close Scope Q_scope.
Local Close Scope Qc_scope.
Local Open Scope nat_scope.
Local Notation length := List.length.

(** ** The two loops *)
Lemma cumulant_meets u l s : In s (relation (fst u)) -> In s (relation (fst l)) -> lsp s <> Sv -> exists w, downgrade_cumulant u l = Some w.
Proof.
  intros Hu Hl N. unfold downgrade_cumulant. assert (H : In s (inter_label (relation (fst u)) (relation (fst l)))) by (apply inter_in; auto). destruct (inter_label _ _) as [|x [|y m]]; [destruct H| |destruct (subset_label _ _); eauto].
  destruct H as [->|[]]. destruct (space_eqb (lsp s) Sv) eqn:E; [apply space_eqb_eq in E; contradiction|eauto].
Qed.
Lemma kronecker_meets u l s : In s (relation (fst u)) -> In s (relation (fst l)) -> exists w, downgrade_kronecker u l = Some w.
Proof.
  intros Hu Hl. unfold downgrade_kronecker. destruct (idx_lt l u).
  - assert (H : In s (inter_label (relation (fst l)) (relation (fst u)))) by (apply inter_in; auto). destruct (inter_label _ _); [destruct H|]. destruct (_ && _); eauto.
  - assert (H : In s (inter_label (relation (fst u)) (relation (fst l)))) by (apply inter_in; auto). destruct (inter_label _ _); [destruct H|]. destruct (_ && _); eauto.
Qed.

Definition loop_ready (x : tensor) : Prop :=
  valid_tensor x /\
  (tcls x = TCumulant -> forall u l, tupper x = [u] -> tlower x = [l] -> exists s, In s (relation (fst u)) /\ In s (relation (fst l)) /\ lsp s <> Sv) /\
  (tcls x = TKronecker -> forall u l, tupper x = [u] -> tlower x = [l] -> exists s, In s (relation (fst u)) /\ In s (relation (fst l))).
Lemma valid_lengths x : valid_tensor x -> tcls x <> TTensor -> length (tupper x) = length (tlower x).
Proof.
  unfold valid_tensor, check_tensor, is_spin_conserving. intros H N. destruct (length (tupper x) =? length (tlower x)) eqn:E; [apply Nat.eqb_eq, E|]. exfalso. destruct (tcls x); try contradiction; cbn [pybind] in H; try discriminate; destruct (_ && _); discriminate.
Qed.
Lemma downgrade_returns core xs : Forall loop_ready xs -> forall st, exists ys st', downgrade_loop core xs st = Ok (ys, st').
Proof.
  induction xs as [|x xs IH]; intros F st; cbn [downgrade_loop]; [eauto|]. apply Forall_cons_iff in F as [(V & C & _) F]. assert (G : exists y st1, downgrade_step core x st = Ok (y, st1)).
  { unfold downgrade_step. destruct (tcls x) eqn:E; try (eauto; fail). destruct (length (tupper x) =? 1) eqn:L; [|eauto]. apply Nat.eqb_eq in L. assert (LL := valid_lengths x V). rewrite E in LL. specialize (LL ltac:(discriminate)).
    destruct (tupper x) as [|u [|? ?]] eqn:Eu; try discriminate. destruct (tlower x) as [|l [|? ?]] eqn:El; try discriminate. destruct (C eq_refl u l eq_refl eq_refl) as (s & H1 & H2 & H3). destruct (cumulant_meets u l s H1 H2 H3) as [w Hw]. rewrite Hw.
    destruct (_ && core); [|eauto]. unfold valid_tensor, check_tensor in V. rewrite E, Eu, El in V. unfold check_tensor. cbn [tcls tupper tlower length Nat.eqb andb]. destruct (is_spin_conserving [u] [l]) as [[|]|]; try discriminate. cbn [pybind]. eauto. }
  destruct G as (y & st1 & ->). cbn [pybind fst snd]. destruct (IH F st1) as (ys & st2 & ->). cbn [pybind fst snd]. eauto.
Qed.
Lemma delta_returns core xs : Forall loop_ready xs -> forall st, exists zs st', delta_loop (map (as_delta core) xs) st = Ok (zs, st').
Proof.
  induction xs as [|x xs IH]; intros F st; cbn [map delta_loop]; [eauto|]. apply Forall_cons_iff in F as [(V & C & K) F]. rewrite as_delta_class. destruct (is_delta core x) eqn:D.
  - destruct (delta_shape core x V D) as (u & l & Eu & El). unfold delta_step. rewrite as_delta_upper, as_delta_lower, Eu, El. assert (G : exists w, downgrade_kronecker u l = Some w).
    { unfold is_delta in D. apply orb_true_iff in D as [D|D]; [apply tclass_eqb_eq in D; destruct (K D u l Eu El) as (s & H1 & H2); apply (kronecker_meets u l s H1 H2)|].
      apply core_delta_density in D. destruct (C D u l Eu El) as (s & H1 & H2 & _). apply (kronecker_meets u l s H1 H2). }
    destruct G as [w ->]. destruct (high_low u l) as [high low]. destruct st as [[r next] rd]. destruct (_ && _); cbn [pybind]; [destruct (generate_next_index _ _) as [f next']; cbn [pybind]|]; apply IH; exact F.
  - destruct (IH F st) as (zs & st' & ->). cbn [pybind fst snd]. eauto.
Qed.
Lemma downgrade_list core xs st ys st' : downgrade_loop core xs st = Ok (ys, st') -> ys = map (as_delta core) xs.
Proof.
  revert st ys st'. induction xs as [|x xs IH]; intros st ys st' H; cbn [downgrade_loop] in H; [injection H as <- <-; reflexivity|]. destruct (downgrade_step core x st) as [[y st1]|] eqn:E1; [|discriminate]. cbn [pybind fst snd] in H.
  destruct (downgrade_loop core xs st1) as [[ys' st2]|] eqn:E2; [|discriminate]. cbn [pybind fst snd] in H. injection H as <- <-. cbn [map]. f_equal; [|eapply IH; exact E2]. destruct st as [[r next] rd]. clear IH E2. 
  unfold downgrade_step in E1. unfold as_delta, core_delta. destruct (tcls x) eqn:E; try (injection E1 as <- <-; reflexivity). destruct (length (tupper x) =? 1) eqn:L.
  - destruct (tupper x) as [|u [|? ?]]; try discriminate. destruct (tlower x) as [|l [|? ?]]; try discriminate. destruct (downgrade_cumulant u l) as [s|]; [|discriminate]. destruct (_ && core); [|injection E1 as <- <-; reflexivity].
    destruct (check_tensor _) as [k|] eqn:Ek in E1; [|discriminate]. cbn [pybind] in E1. injection E1 as <- <-. apply check_tensor_ok in Ek. exact Ek.
  - injection E1 as <- <-. destruct (tupper x) as [|u [|? ?]]; try reflexivity; discriminate.
Qed.

(** ** Labels after the replacement *)
Definition narrower (s s' : label) : Prop := lbeta s' = lbeta s /\ (lsp s' = Sa \/ incl (relation s') (relation s)).
Lemma relation_spin s x : In x (relation s) -> lbeta x = lbeta s.
Proof. unfold relation. intros H. apply in_map_iff in H as (e & <- & _). reflexivity. Qed.
Lemma relation_some s : exists x, In x (relation s).
Proof. destruct s as [b sp]. unfold relation. destruct sp; cbn; eauto. Qed.
Lemma incl_narrower s s' : incl (relation s') (relation s) -> narrower s s'.
Proof. intros I. split; [|auto]. destruct (relation_some s') as [x Hx]. rewrite <- (relation_spin s' x Hx). apply (relation_spin s x), I, Hx. Qed.
Lemma simplified_narrower core xs I rho : simplified core xs I rho -> forall i, In i I -> narrower (fst i) (fst (rho i)).
Proof.
  intros SM i Hi. destruct (sm_other _ _ _ _ SM i Hi) as [E|[(x & s & Hx & Hr)|(x & Hx & D & Hi')]].
  - rewrite E. apply incl_narrower, incl_refl.
  - rewrite (sm_request _ _ _ _ SM x i s Hx Hr). unfold requests in Hr. destruct (tcls x); try destruct Hr. destruct (length (tupper x) =? 1).
    + destruct (tupper x) as [|u [|? ?]]; try destruct Hr. destruct (tlower x) as [|l [|? ?]]; try destruct Hr. destruct (downgrade_cumulant u l) as [w|] eqn:E; [|destruct Hr]. destruct (_ && _); [destruct Hr|].
      apply incl_narrower. intros z Hz. cbn in Hr. destruct Hr as [Hr|[Hr|[]]]; injection Hr as <- <-; apply (cumulant_relation u l w z E) in Hz; tauto.
    + apply in_map_iff in Hr as (j & E & _). injection E as -> <-. split; [reflexivity|left; reflexivity].
  - destruct (sm_delta _ _ _ _ SM x Hx D) as (u & l & w & Eu & El & K & E1 & E2). apply incl_narrower. intros z Hz. unfold tensor_indices in Hi'. rewrite Eu, El in Hi'. cbn in Hi'. 
    destruct Hi' as [<-|[<-|[]]]; [rewrite E2 in Hz|rewrite <- E1, E2 in Hz]; apply (kronecker_relation u l w z K) in Hz; tauto.
Qed.
Lemma general_narrower s s' : lsp s <> Sg -> narrower s s' -> lsp s' <> Sg.
Proof.
  intros G [B [E|I]] E'; [congruence|]. apply G. destruct s as [b x], s' as [b' x']. cbn [lbeta lsp] in *. subst x' b'. assert (H : forall y, In y (space_elems Sg) -> In y (space_elems x)).
  { intros y Hy. assert (Q : In (Lab b y) (relation (Lab b x))) by (apply I; unfold relation; cbn [lbeta lsp]; apply in_map, Hy). unfold relation in Q. cbn [lbeta lsp] in Q. apply in_map_iff in Q as (z & [= ->] & Q). exact Q. }
  destruct x; try reflexivity; exfalso; (pose proof (H Sc ltac:(cbn; tauto)); pose proof (H Sv ltac:(cbn; tauto))); cbn in *; intuition discriminate.
Qed.
Lemma hole_narrower i j : lsp (fst i) <> Sg -> narrower (fst i) (fst j) -> hole_like j = true -> hole_like i = true.
Proof.
  intros G [B H] L. unfold hole_like in L. apply andb_true_iff in L as [L1 L2]. apply negb_true_iff in L1. destruct H as [H|H]; [rewrite H in L1; discriminate|].
  destruct i as [[b sp] n], j as [[b' sp'] n']. unfold lower_label in *. cbn [fst lsp lbeta] in *. subst b'.
  assert (Q : In (Lab b Sc) (relation (Lab b sp))) by (apply H; destruct sp'; try discriminate L1; try discriminate L2; cbn; auto).
  destruct sp; try reflexivity; try contradiction; exfalso; cbn in Q; intuition discriminate.
Qed.
Lemma particle_narrower i j : lsp (fst i) <> Sg -> narrower (fst i) (fst j) -> particle_like j = true -> particle_like i = true.
Proof.
  intros G [B H] L. unfold particle_like in L. apply andb_true_iff in L as [L1 L2]. apply negb_true_iff in L1. destruct H as [H|H]; [rewrite H in L1; discriminate|].
  destruct i as [[b sp] n], j as [[b' sp'] n']. unfold lower_label in *. cbn [fst lsp lbeta] in *. subst b'.
  assert (Q : In (Lab b Sv) (relation (Lab b sp))) by (apply H; destruct sp'; try discriminate L1; try discriminate L2; cbn; auto).
  destruct sp; try reflexivity; try contradiction; exfalso; cbn in Q; intuition discriminate.
Qed.
Lemma mixed_narrower (rho : idx -> idx) l : (forall i, In i l -> lsp (fst i) <> Sg) -> (forall i, In i l -> narrower (fst i) (fst (rho i))) -> mixed_block l = false -> mixed_block (map rho l) = false.
Proof.
  intros G N M. destruct (mixed_block (map rho l)) eqn:E; [|reflexivity]. exfalso. apply andb_true_iff in E as [E1 E2]. apply existsb_exists in E1 as (a & Ha & A). apply existsb_exists in E2 as (b & Hb & B).
  apply in_map_iff in Ha as (i & <- & Hi). apply in_map_iff in Hb as (j & <- & Hj). assert (Q : mixed_block l = true); [|congruence]. apply andb_true_iff. split; apply existsb_exists; [exists i|exists j]; (split; [assumption|]).
  - apply (hole_narrower i (rho i)); auto.
  - apply (particle_narrower j (rho j)); auto.
Qed.
Lemma betas_narrower (rho : idx -> idx) l : (forall i, In i l -> narrower (fst i) (fst (rho i))) -> n_beta (map rho l) = n_beta l.
Proof.
  intros N. unfold n_beta. induction l as [|i l IH]; [reflexivity|]. cbn [map filter]. destruct (N i (or_introl eq_refl)) as [E _]. replace (idx_beta (rho i)) with (idx_beta i) by (symmetry; exact E). destruct (idx_beta i); cbn [length]; rewrite IH by (intros j Hj; apply N; right; exact Hj); reflexivity.
Qed.
Lemma valid_narrower (rho : idx -> idx) x : valid_tensor x -> (tcls x = TCluster -> forall i, In i (tensor_indices x) -> lsp (fst i) <> Sg) -> (forall i, In i (tensor_indices x) -> narrower (fst i) (fst (rho i))) -> valid_tensor (rename_tensor rho x).
Proof.
  intros V G N. assert (IU : forall i, In i (tupper x) -> In i (tensor_indices x)) by (intros i Hi; unfold tensor_indices; apply in_or_app; auto). assert (IL : forall i, In i (tlower x) -> In i (tensor_indices x)) by (intros i Hi; unfold tensor_indices; apply in_or_app; auto).
  assert (BU : n_beta (map rho (tupper x)) = n_beta (tupper x)) by (apply betas_narrower; auto). assert (BL : n_beta (map rho (tlower x)) = n_beta (tlower x)) by (apply betas_narrower; auto).
  unfold valid_tensor, check_tensor, is_spin_conserving in *. cbn [rename_tensor tcls tupper tlower titype tname tpriority] in *. rewrite !map_length, BU, BL. destruct (tcls x) eqn:E; try reflexivity.
  all: try (repeat match goal with |- context [if ?b then _ else _] => destruct b; cbn [pybind] in * end; try discriminate V; reflexivity).
  destruct (length (tupper x) =? length (tlower x)); [|discriminate V]. cbn [pybind] in *. destruct (n_beta (tupper x) =? n_beta (tlower x)); [|discriminate V].
  destruct (mixed_block (tupper x)) eqn:M1; [discriminate V|]. destruct (mixed_block (tlower x)) eqn:M2; [discriminate V|]. rewrite !mixed_narrower; auto. 
Qed.

(** ** simplify *)
Lemma replace_returns (r : repl) l : (forall i, In i l -> In i (map fst r)) -> replace r l = Ok (map (rename r) l).
Proof.
  intros H. unfold replace. apply pymap_total. intros i Hi. unfold dict_item, rename. destruct (dict_get idx_eqb i r) as [z|] eqn:E; [reflexivity|]. apply dget_none in E. destruct (E (H i Hi)).
Qed.
Lemma active_returns (r : repl) xs : (forall x i, In x xs -> In i (tensor_indices x) -> In i (map fst r)) -> exists b, any_active_amplitude r xs = Ok b.
Proof.
  induction xs as [|x xs IH]; intros H; cbn [any_active_amplitude]; [eauto|]. assert (IH' := IH (fun y i Hy => H y i (or_intror Hy))). destruct (tclass_eqb (tcls x) TCluster); [|exact IH']. unfold all_active. rewrite replace_returns by (intros i; apply H; left; reflexivity). cbn [pybind].
  destruct (forallb _ _); [eauto|exact IH'].
Qed.

(** What simplify needs of a content. Instead of the flow of the indices, it is required that the replacement of indices does
    not identify two upper or two lower indices of one factor. *)
Record prepared (core : bool) (ty : itype) (xs : list tensor) (o : op) (t : term) : Prop := {
  pp_valid : Forall valid_tensor xs;
  pp_alpha : ty = SpinOrbital -> forall i, In i (content_indices xs o) -> lbeta (fst i) = false;
  pp_bodies : forall x, In x xs -> length (tupper x) = length (tlower x) /\ tupper x <> [];
  pp_classes : classes_by_name xs;
  pp_densities : densities_disjoint xs;
  pp_once : forall x, In x xs -> NoDup (tupper x) /\ NoDup (tlower x);
  pp_cre : NoDup (cre o);
  pp_ann : NoDup (ann o);
  pp_balanced : length (cre o) = length (ann o);
  pp_apart : forall rho, simplified core (ttensors t) (tindices t) rho ->
    (forall x i j, In x xs -> is_delta core x = false -> In i (tupper x) /\ In j (tupper x) \/ In i (tlower x) /\ In j (tlower x) -> rho i = rho j -> i = j) /\
    (forall i j, In i (cre o) /\ In j (cre o) \/ In i (ann o) /\ In j (ann o) -> rho i = rho j -> i = j);
  pp_cumulant : forall x u l, In x xs -> tcls x = TCumulant -> tupper x = [u] -> tlower x = [l] -> exists s, In s (relation (fst u)) /\ In s (relation (fst l)) /\ lsp s <> Sv;
  pp_kronecker : forall x u l, In x xs -> tcls x = TKronecker -> tupper x = [u] -> tlower x = [l] -> exists s, In s (relation (fst u)) /\ In s (relation (fst l));
  pp_cluster : forall x i, In x xs -> tcls x = TCluster -> In i (tensor_indices x) -> lsp (fst i) <> Sg;
  pp_rest : exists x, In x xs /\ ~ joins core x }.
Lemma not_joins core x : is_delta core x = true -> valid_tensor x -> joins core x.
Proof.
  intros D V. unfold is_delta in D. apply orb_true_iff in D as [D|D]; [left; apply tclass_eqb_eq, D|right]. unfold core_delta in D. destruct (tcls x) eqn:E; try discriminate. destruct (tupper x) as [|u [|? ?]] eqn:Eu; try discriminate. destruct (tlower x) as [|l [|? ?]] eqn:El; try discriminate.
  destruct (downgrade_cumulant u l) as [s|] eqn:K; [|discriminate]. apply andb_true_iff in D as [D1 D2]. apply space_eqb_eq in D1. split; [exact D2|]. split; [reflexivity|]. exists u, l. split; [reflexivity|]. split; [reflexivity|]. intros z H1 H2. exact (cumulant_core u l s z K D1 H1 H2).
Qed.

Section Prepared.
  Context (core ra : bool) (ty : itype) (xs : list tensor) (o : op) (c : Qc) (t : term) (M : make_term ty xs o c = Ok t) (ND : forall i, ~ diagonal_in i xs o) (PR : prepared core ty xs o t).
  Lemma simplify_prepared : exists t', simplify core ra t = Ok t' /\
    (is_void t' = false -> Forall bodied (ttensors t') /\ length (cre (tsq t')) = length (ann (tsq t')) /\ sound (ttype t') (tsq t') (ttensors t') /\
      forall y i, In y (ttensors t') -> tcls y = TCluster -> In i (tensor_indices y) -> lsp (fst i) <> Sg).
  Proof.
    pose proof (pp_valid _ _ _ _ _ PR) as HV.
    destruct (make_term_inv _ _ _ _ _ M) as (FT & _). destruct (make_term_fields _ _ _ _ _ M) as (F1 & F2 & _ & F4 & F5 & F6 & F7 & F8 & F9 & F10).
    assert (Hd : tdiag t = []). { destruct (tdiag t) as [|[i n] d]; [reflexivity|]. exfalso. apply (ND i). apply (F10 i n). left. reflexivity. }
    assert (PC : Permutation (content_indices (ttensors t) (tsq t)) (content_indices xs o)) by (rewrite F4; unfold content_indices; apply Permutation_app_head, Permutation_flat_map, F2).
    assert (HI : forall i, In i (content_indices xs o) <-> In i (tindices t)) by (intros i; rewrite F7, <- content_times; apply idx_times_in).
    assert (LR : Forall loop_ready (ttensors t)).
    { apply Forall_forall. intros x Hx. apply (Permutation_in _ F2) in Hx. rewrite Forall_forall in HV. split; [apply HV, Hx|]. split; intros E u l Eu El; [apply (pp_cumulant _ _ _ _ _ PR x)|apply (pp_kronecker _ _ _ _ _ PR x)]; assumption. }
    destruct (downgrade_returns core _ LR ([], tnext t, [])) as (ys & [[rcu next1] rd1] & E1). pose proof (downgrade_list _ _ _ _ _ E1) as Ey. destruct (delta_returns core _ LR ([], next1, [])) as (zs & [[rde next2] rd2] & E2). rewrite <- Ey in E2.
    assert (HIt : forall i, In i (content_indices (ttensors t) (tsq t)) -> In i (tindices t)) by (intros i Hi; apply HI; exact (Permutation_in _ PC Hi)).
    destruct (loops_inv core t ys rcu next1 rd1 zs rde next2 rd2 E1 E2 F6 HIt) as (Ez & r & rho & gs & Er & SM & RR & KR & RK & GA & VR).
    { intros i Hi. apply F8. exists i. auto. }
    { rewrite Forall_forall in *. intros x Hx. apply HV. exact (Permutation_in _ F2 Hx). }
    { unfold densities_disjoint. eapply Permutation_NoDup; [|exact (pp_densities _ _ _ _ _ PR)]. apply Permutation_flat_map, BacktrackProofs.perm_filter. symmetry. exact F2. }
    destruct (pp_apart _ _ _ _ _ PR rho SM) as [AX AO]. pose proof (simplified_narrower _ _ _ _ SM) as NR.
    assert (IX : forall x i, In x xs -> In i (tensor_indices x) -> In i (tindices t)) by (intros x i Hx Hi; apply HI; unfold content_indices; apply in_or_app; right; apply in_flat_map; eauto).
    assert (IO : forall i, In i (op_indices o) -> In i (tindices t)) by (intros i Hi; apply HI; unfold content_indices; apply in_or_app; auto).
    assert (IC : forall i, In i (cre o) -> In i (tindices t)) by (intros i Hi; apply IO; unfold op_indices; apply in_or_app; auto). assert (IA : forall i, In i (ann o) -> In i (tindices t)) by (intros i Hi; apply IO; unfold op_indices; apply in_or_app; auto).
    assert (ALW : forall l : list idx, (forall i, In i l -> In i (tindices t)) -> alpha_ok ty (map (rename r) l)).
    { intros l Hl E i Hi. apply in_map_iff in Hi as (j & <- & Hj). rewrite RR by auto. destruct (NR j (Hl j Hj)) as [B _]. unfold idx_beta. rewrite B. apply (pp_alpha _ _ _ _ _ PR E), HI, Hl, Hj. }
    pose proof (pp_cre _ _ _ _ _ PR) as Nc. pose proof (pp_ann _ _ _ _ _ PR) as Na. pose proof (fun x Hx => proj1 (pp_once _ _ _ _ _ PR x Hx)) as Nu. pose proof (fun x Hx => proj2 (pp_once _ _ _ _ _ PR x Hx)) as Nl.
    assert (NDr : forall l : list idx, NoDup l -> (forall i, In i l -> In i (tindices t)) -> (forall i j, In i l -> In j l -> rho i = rho j -> i = j) -> NoDup (map (rename r) l)).
    { intros l N I J. apply NoDup_map_in; [|exact N]. intros i j Hi Hj E. rewrite !RR in E by auto. auto. }
    assert (EO : replace_op_indices ty o r = Ok (rename_op (rename r) o)).
    { unfold replace_op_indices. rewrite replace_returns by auto. cbn [pybind]. rewrite typed_returns; [|apply NDr; auto|apply ALW; auto]. cbn [pybind]. rewrite replace_returns by auto. cbn [pybind]. rewrite typed_returns; [|apply NDr; auto|apply ALW; auto]. reflexivity. }
    assert (HK : forall x, In x zs -> In x xs /\ is_delta core x = false) by (rewrite Ez; intros x Hx; apply filter_In in Hx as [H1 H2]; apply negb_true_iff in H2; split; [exact (Permutation_in _ F2 H1)|exact H2]).
    assert (TS : forall x, In x zs -> NoDup (map (rename r) (tupper x)) /\ NoDup (map (rename r) (tlower x)) /\ valid_tensor (rename_tensor (rename r) x) /\ titype x = ty /\ alpha_ok ty (map (rename r) (tupper x)) /\ alpha_ok ty (map (rename r) (tlower x))).
    { intros x Hx. destruct (HK x Hx) as [H1 H2]. assert (IU : forall i, In i (tupper x) -> In i (tindices t)) by (intros i Hi; apply (IX x i H1); unfold tensor_indices; apply in_or_app; auto). assert (IL : forall i, In i (tlower x) -> In i (tindices t)) by (intros i Hi; apply (IX x i H1); unfold tensor_indices; apply in_or_app; auto).
      split; [apply NDr; [apply Nu, H1|exact IU|intros i j Hi Hj; apply (AX x); auto]|]. split; [apply NDr; [apply Nl, H1|exact IL|intros i j Hi Hj; apply (AX x); auto]|]. rewrite Forall_forall in HV, FT. split; [|split; [apply FT, H1|split; apply ALW; assumption]].
      apply valid_narrower; [apply HV, H1|intros C i; apply (pp_cluster _ _ _ _ _ PR x i H1 C)|]. intros i Hi. rewrite RR by (apply (IX x); assumption). apply NR, (IX x); assumption. }
    assert (ET : replace_tensors_indices zs r = Ok (map (rename_tensor (rename r)) zs)).
    { unfold replace_tensors_indices. destruct (pp_rest _ _ _ _ _ PR) as (x & Hx & Jx). assert (Hz : In x zs). { rewrite Ez. apply filter_In. split; [exact (Permutation_in _ (Permutation_sym F2) Hx)|]. apply negb_true_iff. destruct (is_delta core x) eqn:D; [|reflexivity]. exfalso. apply Jx, not_joins; [exact D|]. rewrite Forall_forall in HV. auto. }
      destruct zs as [|z0 zs0] eqn:Ezs; [destruct Hz|]. rewrite <- Ezs in *. apply pymap_total. intros y Hy. destruct (TS y Hy) as (T1 & T2 & T3 & T4 & T5 & T6). destruct (HK y Hy) as [H1 _]. unfold replace_tensor. rewrite T4.
      rewrite replace_returns by (intros i Hi; apply RK, (IX y i H1); unfold tensor_indices; apply in_or_app; auto). cbn [pybind]. rewrite typed_returns by assumption. cbn [pybind].
      rewrite replace_returns by (intros i Hi; apply RK, (IX y i H1); unfold tensor_indices; apply in_or_app; auto). cbn [pybind]. rewrite typed_returns by assumption. cbn [pybind]. exact T3. }
    assert (G : exists t', simplify core ra t = Ok t').
    { unfold simplify. rewrite Hd. match goal with |- context [downgrade_loop core (ttensors t) ?st]  => replace (downgrade_loop core (ttensors t) st) with (Ok (ys, (rcu, next1, rd1))) by (symmetry; exact E1) end. cbn [pybind]. match goal with |- context [delta_loop ys ?st]  => replace (delta_loop ys st) with (Ok (zs, (rde, next2, rd2))) by (symmetry; exact E2) end. cbn [pybind diagonal_loop]. rewrite <- Er, F1, F4, EO. cbn [pybind].
      destruct (active_returns r zs) as [b Hb]. { intros x i Hx Hi. destruct (HK x Hx) as [H1 _]. apply RK, (IX x); assumption. }
      assert (Eb : exists b, (if ra then any_active_amplitude r zs else Ok false) = Ok b) by (destruct ra; eauto). destruct Eb as [b' ->]. cbn [pybind]. destruct b'; [eauto|]. rewrite ET. cbn [pybind pymap fold_left]. eauto. }
    destruct G as [t' HS]. exists t'. split; [exact HS|]. intros NV.
    destruct (simplify_keeps _ _ _ _ _ _ _ _ M ND HV (pp_densities _ _ _ _ _ PR) HS) as (K1 & K2 & K3 & K4 & K5). specialize (K4 (pp_classes _ _ _ _ _ PR)). specialize (K5 (pp_balanced _ _ _ _ _ PR)).
    assert (EQ : ttensors t' = map (rename_tensor (rename r)) zs /\ tsq t' = rename_op (rename r) o).
    { unfold simplify in HS. rewrite Hd in HS. revert HS. match goal with |- context [downgrade_loop core (ttensors t) ?st]  => replace (downgrade_loop core (ttensors t) st) with (Ok (ys, (rcu, next1, rd1))) by (symmetry; exact E1) end. cbn [pybind]. match goal with |- context [delta_loop ys ?st]  => replace (delta_loop ys st) with (Ok (zs, (rde, next2, rd2))) by (symmetry; exact E2) end. cbn [pybind diagonal_loop]. intros HS. rewrite <- Er, F1, F4, EO in HS. cbn [pybind] in HS.
      destruct (if ra then any_active_amplitude r zs else Ok false) as [[|]|]; [injection HS as <-; discriminate NV| |discriminate HS]. cbn [pybind] in HS. rewrite ET in HS. cbn [pybind pymap fold_left] in HS. injection HS as <-. split; reflexivity. }
    destruct EQ as [EQ1 EQ2]. split; [|split; [exact K5|split]].
    - rewrite EQ1. apply Forall_forall. intros y Hy. apply in_map_iff in Hy as (x & <- & Hx). destruct (HK x Hx) as [H1 _]. destruct (pp_bodies _ _ _ _ _ PR x H1) as [B1 B2]. unfold bodied, rename_tensor. cbn [tupper tlower]. rewrite !map_length. split; [exact B1|]. rewrite <- B1. destruct (tupper x); [contradiction|cbn; lia].
    - rewrite K1. constructor; try assumption.
      + rewrite EQ2. cbn [rename_op cre]. apply NDr; auto.
      + rewrite EQ2. cbn [rename_op ann]. apply NDr; auto.
      + rewrite EQ2. unfold op_indices. cbn [rename_op cre ann]. rewrite <- map_app. apply ALW. exact IO.
      + rewrite EQ1. intros y Hy. apply in_map_iff in Hy as (x & <- & Hx). destruct (TS x Hx) as (T1 & T2 & T3 & T4 & T5 & T6). split; [exact T1|]. split; [exact T2|]. split; [exact T3|]. split; [exact T4|]. unfold tensor_indices. cbn [rename_tensor tupper tlower]. intros E i Hi. apply in_app_or in Hi as [Hi|Hi]; [apply (T5 E i Hi)|apply (T6 E i Hi)].
    - rewrite EQ1. intros y i Hy C Hi. apply in_map_iff in Hy as (x & <- & Hx). destruct (HK x Hx) as [H1 _]. unfold tensor_indices in Hi. cbn [rename_tensor tupper tlower] in Hi. rewrite <- map_app in Hi. apply in_map_iff in Hi as (j & <- & Hj). change (tupper x ++ tlower x) with (tensor_indices x) in Hj.
      rewrite RR by (apply (IX x); assumption). apply (general_narrower (fst j)); [exact (pp_cluster _ _ _ _ _ PR x j H1 C Hj)|apply NR, (IX x); assumption].
  Qed.
End Prepared.

Section Ready.
  Context (core ra : bool) (ty : itype) (xs : list tensor) (o : op) (c : Qc) (t : term) (M : make_term ty xs o c = Ok t) (ND : forall i, ~ diagonal_in i xs o) (RD : ready core ty xs o).

  Lemma ready_once : NoDup (flat_map tupper xs ++ cre o) /\ NoDup (flat_map tlower xs ++ ann o).
  Proof.
    destruct (make_term_inv _ _ _ _ _ M) as (_ & CN & _). pose proof (rd_flow _ _ _ _ RD) as P.
    assert (PC : Permutation (content_indices xs o) ((flat_map tupper xs ++ cre o) ++ (flat_map tlower xs ++ ann o))).
    { unfold content_indices, op_indices. clear. induction xs as [|x l IH]; cbn [flat_map]; [rewrite app_nil_r; reflexivity|]. unfold tensor_indices at 1. rewrite Permutation_app_swap_app, <- app_assoc, IH. rewrite (Permutation_app_swap_app (tlower x)). rewrite <- !app_assoc. reflexivity. }
    assert (C : forall i, idx_times i (flat_map tupper xs ++ cre o) <= 1).
    { intros i. assert (E : total_times i xs o = idx_times i (flat_map tupper xs ++ cre o) + idx_times i (flat_map tlower xs ++ ann o)) by (rewrite <- content_times, (idx_times_perm i _ _ PC); apply count_occ_app).
      rewrite <- (idx_times_perm i _ _ P) in E. destruct (idx_times i (flat_map tupper xs ++ cre o)) eqn:K; [lia|]. destruct (CN i) as [_ Q]; [lia|]. specialize (Q (ND i)). lia. }
    assert (N : NoDup (flat_map tupper xs ++ cre o)) by (apply (NoDup_count_occ idx_eq_dec); exact C). split; [exact N|]. eapply Permutation_NoDup; [exact P|exact N].
  Qed.
  Lemma ready_balanced : length (cre o) = length (ann o).
  Proof.
    pose proof (Permutation_length (rd_flow _ _ _ _ RD)) as P. rewrite !app_length in P. assert (E : length (flat_map tupper xs) = length (flat_map tlower xs)); [|lia]. pose proof (rd_bodies _ _ _ _ RD) as B. clear -B.
    induction xs as [|x l IH]; [reflexivity|]. cbn [flat_map]. rewrite !app_length. destruct (B x (or_introl eq_refl)) as [-> _]. rewrite IH by (intros y Hy; apply B; right; exact Hy). reflexivity.
  Qed.
  (** indices of one side are not identified *)
  Lemma ready_apart rho : simplified core (ttensors t) (tindices t) rho -> (forall x i j, In x xs -> is_delta core x = false -> In i (tupper x) /\ In j (tupper x) \/ In i (tlower x) /\ In j (tlower x) -> rho i = rho j -> i = j) /\
    (forall i j, In i (cre o) /\ In j (cre o) \/ In i (ann o) /\ In j (ann o) -> rho i = rho j -> i = j).
  Proof.
    intros SM. destruct ready_once as [N1 N2]. destruct (make_term_fields _ _ _ _ _ M) as (F1 & F2 & _ & F4 & F5 & F6 & F7 & F8 & F9 & F10).
    assert (HI : forall i, In i (content_indices xs o) <-> In i (tindices t)) by (intros i; rewrite F7, <- content_times; apply idx_times_in).
    assert (G : forall i j, In i (content_indices xs o) -> In j (content_indices xs o) -> rho i = rho j -> i = j \/ exists y u l, In y xs /\ is_delta core y = true /\ In u (tupper y) /\ In l (tlower y) /\ (i = u /\ j = l \/ i = l /\ j = u)).
    { intros i j Hi Hj E. destruct (sm_fiber _ _ _ _ SM i j (proj1 (HI i) Hi) (proj1 (HI j) Hj) E) as [Q|(y & Hy & D & Yi & Yj)]; [auto|]. destruct (idx_eq_dec i j) as [Q|NE]; [auto|right].
      apply (Permutation_in _ F2) in Hy. pose proof (rd_valid _ _ _ _ RD) as V. rewrite Forall_forall in V. destruct (delta_shape core y (V y Hy) D) as (u & l & Eu & El). exists y, u, l. split; [exact Hy|]. split; [exact D|]. rewrite Eu, El. split; [left; reflexivity|]. split; [left; reflexivity|].
      unfold tensor_indices in Yi, Yj. rewrite Eu, El in Yi, Yj. cbn in Yi, Yj. destruct Yi as [<-|[<-|[]]], Yj as [<-|[<-|[]]]; auto; contradiction. }
    assert (IX : forall x i, In x xs -> In i (tupper x) \/ In i (tlower x) -> In i (content_indices xs o)) by (intros x i Hx Hi; unfold content_indices; apply in_or_app; right; apply in_flat_map; exists x; split; [exact Hx|]; unfold tensor_indices; apply in_or_app; exact Hi).
    assert (IO : forall i, In i (cre o) \/ In i (ann o) -> In i (content_indices xs o)) by (intros i Hi; unfold content_indices, op_indices; apply in_or_app; left; apply in_or_app; exact Hi).
    split.
    - intros x i j Hx D H E. destruct (G i j) as [Q|(y & u & l & Hy & Dy & Hu & Hl & Q)]; [apply (IX x); [exact Hx|tauto]|apply (IX x); [exact Hx|tauto]|exact E|exact Q|exfalso].
      assert (NE : x <> y) by congruence. destruct H as [[H1 H2]|[H1 H2]].
      + assert (U : In u (tupper x)) by (destruct Q as [[-> _]|[_ ->]]; assumption). apply NE. apply NoDup_app_elim in N1 as (N1 & _ & _). exact (nodup_flat_map_unique tupper xs x y u N1 Hx Hy U Hu).
      + assert (U : In l (tlower x)) by (destruct Q as [[_ ->]|[-> _]]; assumption). apply NE. apply NoDup_app_elim in N2 as (N2 & _ & _). exact (nodup_flat_map_unique tlower xs x y l N2 Hx Hy U Hl).
    - intros i j H E. destruct (G i j) as [Q|(y & u & l & Hy & Dy & Hu & Hl & Q)]; [apply IO; tauto|apply IO; tauto|exact E|exact Q|exfalso]. destruct H as [[H1 H2]|[H1 H2]].
      + assert (U : In u (cre o)) by (destruct Q as [[-> _]|[_ ->]]; assumption). apply NoDup_app_elim in N1 as (_ & _ & N1). apply (N1 u); [apply in_flat_map; eauto|exact U].
      + assert (U : In l (ann o)) by (destruct Q as [[_ ->]|[-> _]]; assumption). apply NoDup_app_elim in N2 as (_ & _ & N2). apply (N2 l); [apply in_flat_map; eauto|exact U].
  Qed.

  Lemma ready_prepared : prepared core ty xs o t.
  Proof.
    destruct ready_once as [N1 N2].
    assert (UN : forall (f : tensor -> list idx) l, NoDup (flat_map f xs ++ l) -> NoDup l /\ forall x, In x xs -> NoDup (f x)).
    { intros f l N. apply NoDup_app_elim in N as (Na & Nb & _). split; [exact Nb|]. clear -Na. induction xs as [|y m IH]; intros x []; cbn [flat_map] in Na; apply NoDup_app_elim in Na as (H1 & H2 & _); [subst; exact H1|apply IH; assumption]. }
    destruct (UN tupper _ N1) as [Nc Nu]. destruct (UN tlower _ N2) as [Na Nl]. clear UN.
    constructor; try apply RD; auto using ready_balanced, ready_apart.
  Qed.
  Lemma simplify_returns : exists t', simplify core ra t = Ok t' /\
    (is_void t' = false -> Forall bodied (ttensors t') /\ length (cre (tsq t')) = length (ann (tsq t')) /\ sound (ttype t') (tsq t') (ttensors t')).
  Proof. destruct (simplify_prepared core ra ty xs o c t M ND ready_prepared) as (t' & H & G). exists t'. split; [exact H|]. intros V. destruct (G V) as (G1 & G2 & G3 & _). auto. Qed.
End Ready.

Lemma canonicalize_returns sympy core ra herm ty xs o c t : admissible sympy -> make_term ty xs o c = Ok t -> (forall i, ~ diagonal_in i xs o) -> ready core ty xs o -> returns_or_fails sympy (canonicalize sympy core ra herm t).
Proof.
  intros HS M ND RD. destruct (simplify_returns core ra ty xs o c t M ND RD) as (t' & E & H). assert (Hd : tdiag t = []).
  { destruct (make_term_fields _ _ _ _ _ M) as (_ & _ & _ & _ & _ & _ & _ & _ & _ & F10). destruct (tdiag t) as [|[i n] d]; [reflexivity|]. exfalso. apply (ND i). apply (F10 i n). left. reflexivity. }
  unfold canonicalize. rewrite Hd. exact (sympy_returns sympy core ra herm t t' HS E H).
Qed.
