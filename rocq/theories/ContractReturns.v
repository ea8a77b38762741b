(** Contractions and commutators return: the only exceptions are those of SymPy. *)
From Coq Require Import Ascii String ZArith QArith Qcanon Sorting.Sorted Lia.
From Verif Require BacktrackProofs SortProofs.
From Verif Require Import PyBase OrderSpec OrderProofs ParitySpec SpaceModel IndexModel IndicesModel IterProofs IndicesProofs SpaceProofs ElemModel ElemSpec CompatSpec MacroModel WickModel WickSpec WickProofs TermModel ValueSpec ValueProofs TermSpec SumProofs TermProofs RenameProofs
  DriverProofs ConnectedProofs CommProofs OperatorProofs SimplifyProofs SimplifyValue SymmetryModel SymmetrySpec SympyValue SympyShape CombineModel BchModel CombineSpec CombineProofs CombineValue PropSimplify PropWick PropCanon ScheduleProofs BchLoop ContractSpec ContractValue ClosureProofs LevelProofs
  ReturnSpec ReturnProofs SimplifyReturns.
Local Close Scope Q_scope.
Local Close Scope Qc_scope.
Local Open Scope nat_scope.
Local Notation length := List.length.

(** ** Exceptions of compositions *)
Lemma only_bind {X Y} P (r : pyres X) (f : X -> pyres Y) : raises_only P r -> (forall x, r = Ok x -> raises_only P (f x)) -> raises_only P (pybind r f).
Proof. intros H F e E. destruct r as [x|e']; cbn [pybind] in E; [exact (F x eq_refl e E)|]. injection E as ->. apply H. reflexivity. Qed.
Lemma only_ok {X} P (x : X) : raises_only P (Ok x).
Proof. intros e E. discriminate. Qed.
Lemma only_map {X Y} P (f : X -> pyres Y) l : (forall x, In x l -> raises_only P (f x)) -> raises_only P (pymap f l).
Proof.
  induction l as [|x l IH]; intros H; [apply only_ok|]. cbn [pymap]. apply only_bind; [apply H; left; reflexivity|]. intros y _. apply only_bind; [apply IH; intros z Hz; apply H; right; exact Hz|]. intros ys _. apply only_ok.
Qed.
Lemma only_weaken {X} (P Q : pyexn -> Prop) (r : pyres X) : (forall e, P e -> Q e) -> raises_only P r -> raises_only Q r.
Proof. intros I H e E. apply I, H, E. Qed.
Lemma only_false {X} (r : pyres X) : raises_only (fun _ => False) r -> exists x, r = Ok x.
Proof. intros H. destruct r as [x|e]; [eauto|]. destruct (H e eq_refl). Qed.

(** ** Spaces of the densities *)
Definition density_spaces (d : density) : Prop := dupper d <> [] /\ forall u l, dupper d = [u] -> dlower d = [l] ->
  match kind d with KCumulant => cumulant_nonzero u l | KHole => hole_nonzero u l | KKronecker => exists s, share_space s u l end.
Lemma allowed_spaces ops K e : allowed ops K e -> density_spaces (density_of e).
Proof.
  intros [key H|k c a Hk Hc Ha Lc La _ ->]; (split; [|intros u l Eu El]).
  - destruct H; discriminate.
  - destruct H; cbn in Eu, El |- *; injection Eu as <-; injection El as <-; assumption.
  - cbn [density_of upper dupper]. intros E. apply (f_equal (@length idx)) in E. rewrite map_length in E. cbn in E. lia.
  - cbn [density_of upper dupper] in Eu. apply (f_equal (@length idx)) in Eu. rewrite map_length in Eu. cbn in Eu. lia.
Qed.
Lemma hole_expanded u l : hole_nonzero u l -> (exists s, share_space s u l) /\ (space_eqb (lsp (fst u)) Sv || space_eqb (lsp (fst l)) Sv = false -> cumulant_nonzero u l)%bool.
Proof.
  intros (s & Hs & H1 & H2). split; [exists s; split; assumption|]. intros E. apply orb_false_iff in E as [E1 E2]. unfold cumulant_nonzero, share_space.
  destruct (lsp (fst u)), (lsp (fst l)); cbn in H1, H2, E1, E2 |- *; try discriminate; try (exists Sa; split; [discriminate|]; tauto); try (exists Sc; split; [discriminate|]; tauto); exfalso; intuition congruence.
Qed.
Lemma expand_spaces ds z l : In (z, l) (expand_hole_densities ds) -> Forall density_spaces ds -> Forall density_shape ds -> Forall density_spaces l.
Proof.
  intros H F FS. rewrite Forall_forall in F, FS. unfold expand_hole_densities in H.
  assert (G : forall bad, (forall d, In d bad -> density_spaces d /\ kind d = KHole) -> forall e, In e (iproduct (map expand_hole_density bad)) -> Forall density_spaces e).
  { clear. induction bad as [|d bad IH]; cbn [map iproduct]; intros B e H; [destruct H as [<-|[]]; constructor|].
    apply in_flat_map in H as (y & Hy & H). apply in_map_iff in H as (e' & <- & H). constructor; [|apply IH; [intros; apply B; right; assumption|exact H]].
    destruct (B d (or_introl eq_refl)) as [[D0 D] K]. unfold expand_hole_density in Hy.
    assert (Q : dupper y = dupper d /\ dlower y = dlower d) by (destruct (_ || _)%bool; destruct Hy as [<-|Hy]; try destruct Hy as [<-|[]]; try destruct Hy; auto). destruct Q as [Q1 Q2]. split; [rewrite Q1; exact D0|]. intros u l0 Eu El. rewrite Q1 in Eu. rewrite Q2 in El. specialize (D u l0 Eu El). rewrite K in D. destruct (hole_expanded u l0 D) as [A1 A2].
    rewrite Eu, El in Hy. cbn [virtual_head] in Hy. destruct (_ || _)%bool eqn:O; [destruct Hy as [<-|[]]; exact A1|]. destruct Hy as [<-|[<-|[]]]; [exact A1|exact (A2 eq_refl)]. }
  set (bad := filter is_hole ds) in *. assert (B : forall d, In d bad -> density_spaces d /\ kind d = KHole).
  { intros d Hd. apply filter_In in Hd as [Hd1 Hd2]. split; [apply F, Hd1|]. unfold is_hole in Hd2. destruct (kind d); (reflexivity || discriminate). }
  destruct (map expand_hole_density bad) as [|x xs] eqn:E.
  - destruct H as [[= <- <-]|[]]. apply Forall_forall, F.
  - rewrite <- E in *. apply in_map_iff in H as (e & [= _ <-] & H). apply Forall_app. split; [|exact (G bad B e H)]. apply Forall_forall. intros d Hd. apply filter_In in Hd as [Hd _]. apply F, Hd.
Qed.
Lemma entry_spaces ops expand (P : list econ -> Prop) K lo hi r z ds sq : (forall s, P s -> wick_set ops K lo hi s) -> wick_sum ops expand P r -> In (z, ds, sq) (concat r) -> Forall density_spaces ds.
Proof.
  intros Hp (sets & blocks & (O & _) & F & E) H. rewrite E in H. apply in_concat in H as [b [Hb H]]. destruct (Forall2_in_r _ _ _ _ F Hb) as [s [Hs Es]].
  pose proof (ws_allowed _ _ _ _ _ (Hp s (proj2 (O s Hs)))) as A. destruct Es as (cons & sign & sq' & PC & _ & ->). apply in_map_iff in H as [[z' ds'] [[= _ <- _] H]]. cbn [fst snd] in *.
  assert (S : Forall density_spaces (map density_of cons) /\ Forall density_shape (map density_of cons)).
  { split; apply Forall_forall; intros d Hd; apply in_map_iff in Hd as (e & <- & He); apply (Permutation_in _ PC) in He; rewrite Forall_forall in A; [exact (allowed_spaces _ _ _ (A e He))|exact (allowed_shape _ _ _ (A e He))]. }
  destruct S as [S1 S2]. destruct expand; [exact (expand_spaces _ _ _ H S1 S2)|]. destruct H as [[= _ <-]|[]]. exact S1.
Qed.

(** ** Contents that remain acceptable *)
Definition fit (o : op) (xs : list tensor) : Prop :=
  (forall i, In i (content_indices xs o) -> lbeta (fst i) = false) /\ Forall bodied xs /\ (forall x i, In x xs -> tcls x = TCluster -> In i (tensor_indices x) -> lsp (fst i) <> Sg).
Lemma fit_perm o xs ys : Permutation xs ys -> fit o xs -> fit o ys.
Proof.
  intros P (F1 & F2 & F3). split; [|split].
  - intros i Hi. apply F1. revert Hi. unfold content_indices. rewrite !in_app_iff. intros [Hi|Hi]; [auto|right]. exact (Permutation_in _ (Permutation_sym (Permutation_flat_map _ P)) Hi).
  - rewrite Forall_forall in *. intros x Hx. apply F2. exact (Permutation_in _ (Permutation_sym P) Hx).
  - intros x i Hx. apply F3. exact (Permutation_in _ (Permutation_sym P) Hx).
Qed.
Lemma slots_split (x y : tensor) : length (tlower x) = length (tlower y) -> tensor_slots x = tensor_slots y -> tlower x = tlower y /\ tupper x = tupper y.
Proof.
  unfold tensor_slots. generalize (tlower x) (tlower y). intros a b L. revert b L. induction a as [|i a IH]; intros [|j b] L E; try discriminate L; [split; [reflexivity|exact E]|]. cbn [app] in E. injection E as <- E. destruct (IH b) as [-> E2]; [cbn in L; lia|exact E|auto].
Qed.
Lemma fit_movable h : movable h (fun o xs => shape o xs /\ fit o xs).
Proof.
  constructor.
  - intros o o' xs [S (F1 & F2 & F3)] P1 P2. split; [exact (mv_op _ (shape_movable h) o o' xs S P1 P2)|]. split; [|split; [exact F2|exact F3]]. intros i Hi. apply F1. revert Hi. unfold content_indices, op_indices. rewrite !in_app_iff. intros [[Hi|Hi]|Hi]; [left; left; exact (Permutation_in _ P1 Hi)|left; right; exact (Permutation_in _ P2 Hi)|auto].
  - intros o l1 x x' l2 [S (F1 & F2 & F3)] A Q. split; [exact (mv_tensor _ (shape_movable h) o l1 x x' l2 S A Q)|].
    assert (PI : forall i, In i (tensor_indices x') -> In i (tensor_indices x)) by (unfold tensor_indices; intros i Hi; destruct Q as [[Q1 Q2]|(_ & Q1 & Q2)]; apply in_app_or in Hi as [Hi|Hi]; [apply (Permutation_in _ Q1) in Hi|apply (Permutation_in _ Q2) in Hi|apply (Permutation_in _ Q1) in Hi|apply (Permutation_in _ Q2) in Hi]; apply in_or_app; auto).
    split; [|split].
    + intros i Hi. apply F1. revert Hi. unfold content_indices. rewrite !flat_map_app. cbn [flat_map]. rewrite !in_app_iff. intuition.
    + apply Forall_app in F2 as [F2 F2']. inversion F2' as [|? ? F4 F5]; subst. apply Forall_app. split; [exact F2|]. constructor; [|exact F5]. unfold bodied in *. rewrite (ak_upper _ _ A), (ak_lower _ _ A). exact F4.
    + intros y i Hy C Hi. apply in_app_or in Hy as [Hy|[<-|Hy]]; [apply (F3 y); auto using in_or_app| |apply (F3 y); [apply in_or_app; right; right; exact Hy|exact C|exact Hi]]. apply (F3 x); [apply in_or_app; right; left; reflexivity|rewrite <- (ak_class _ _ A); exact C|apply PI, Hi].
  - intros o l1 x y x' y' l2 [S (F1 & F2 & F3)] Ax Ay N L U E1 E2. split; [exact (mv_exchange _ (shape_movable h) o l1 x y x' y' l2 S Ax Ay N L U E1 E2)|]. apply slots_split in E1 as [X1 X2]; [|rewrite (ak_lower _ _ Ax); symmetry; exact L]. apply slots_split in E2 as [Y1 Y2]; [|rewrite (ak_lower _ _ Ay); exact L].
    assert (EX : tensor_indices x' = tensor_indices y) by (unfold tensor_indices; congruence). assert (EY : tensor_indices y' = tensor_indices x) by (unfold tensor_indices; congruence).
    assert (IX : In x (l1 ++ x :: y :: l2)) by (apply in_or_app; right; left; reflexivity). assert (IY : In y (l1 ++ x :: y :: l2)) by (apply in_or_app; right; right; left; reflexivity).
    assert (CL : tcls x = tcls y) by (destruct S as [S _]; apply S; [exact IX|exact IY|symmetry; exact N]).
    split; [|split].
    + intros i Hi. apply F1. revert Hi. unfold content_indices. rewrite !flat_map_app. cbn [flat_map]. rewrite EX, EY, !in_app_iff. tauto.
    + apply Forall_app in F2 as [F2 F2']. inversion F2' as [|? ? F4 F5]; subst. inversion F5 as [|? ? F6 F7]; subst. apply Forall_app. split; [exact F2|]. unfold bodied in *. constructor; [rewrite (ak_upper _ _ Ax), (ak_lower _ _ Ax); exact F4|]. constructor; [rewrite (ak_upper _ _ Ay), (ak_lower _ _ Ay); exact F6|exact F7].
    + intros z i Hz C Hi. apply in_app_or in Hz as [Hz|[<-|[<-|Hz]]]; [apply (F3 z); auto using in_or_app| | |apply (F3 z); [apply in_or_app; right; right; right; exact Hz|exact C|exact Hi]].
      * rewrite EX in Hi. apply (F3 y); [exact IY|rewrite <- CL, <- (ak_class _ _ Ax); exact C|exact Hi].
      * rewrite EY in Hi. apply (F3 x); [exact IX|rewrite CL, <- (ak_class _ _ Ay); exact C|exact Hi].
  - intros o xs tau [S (F1 & F2 & F3)] T J. split; [exact (mv_rename _ (shape_movable h) o xs tau S T J)|].
    assert (I : forall x i, In x xs -> In i (tensor_indices x) -> In i (content_indices xs o)) by (intros x i Hx Hi; unfold content_indices; apply in_or_app; right; apply in_flat_map; exists x; auto).
    split; [|split].
    + intros i Hi. unfold content_indices in Hi. apply in_app_or in Hi as [Hi|Hi].
      * rewrite rename_op_indices in Hi. apply in_map_iff in Hi as (j & <- & Hj). assert (Hc : In j (content_indices xs o)) by (unfold content_indices; apply in_or_app; auto). rewrite T by exact Hc. apply F1, Hc.
      * apply in_flat_map in Hi as (y & Hy & Hi). apply in_map_iff in Hy as (x & <- & Hx). rewrite rename_indices in Hi. apply in_map_iff in Hi as (j & <- & Hj). rewrite T by eauto. eauto.
    + rewrite Forall_forall in *. intros y Hy. apply in_map_iff in Hy as (x & <- & Hx). unfold bodied, rename_tensor. cbn [tupper tlower]. rewrite !map_length. apply F2, Hx.
    + intros y i Hy C Hi. apply in_map_iff in Hy as (x & <- & Hx). rewrite rename_indices in Hi. apply in_map_iff in Hi as (j & <- & Hj). rewrite T by eauto. apply (F3 x); assumption.
Qed.
Lemma void_fit t : fit (tsq (void t)) (ttensors (void t)).
Proof. split; [intros i []|split; [constructor|intros x i []]]. Qed.

(** ** Entries *)
Definition tangible (t : term) : Prop := exists x, In x (ttensors t) /\ tcls x <> TKronecker /\ tcls x <> TCumulant.
Section Entry.
  Context (terms : list term) (RG : Forall regular terms) (FT : Forall (fun t => fit (tsq t) (ttensors t)) terms) (AP : ForallOrdPairs apart_terms terms) (CN : consistent_names (flat_map ttensors terms)).
  Context (TG : Exists tangible terms).
  Context (ds : list density) (sq : op) (PL : Permutation (written_string (map tsq terms)) (flat_map density_legs ds ++ open_string sq)) (SH : Forall density_shape ds) (CR : Forall (crosses terms) ds) (SP : Forall density_spaces ds).
  Local Notation tensors := (flat_map ttensors terms).
  Local Notation entry_tensors := (tensors ++ map tensor_of ds).
  Context (c : Qc) (t0 : term) (M : make_term SpinOrbital entry_tensors sq c = Ok t0).

  Lemma entry_all_alpha i : In i (content_indices entry_tensors sq) -> lbeta (fst i) = false.
  Proof.
    intros H. apply (Permutation_in _ (entry_content terms ds sq PL)) in H. apply in_flat_map in H as (t & Ht & Hi). rewrite Forall_forall in FT. apply (FT t Ht), Hi.
  Qed.
  Lemma relation_shared s u l : In u (content_indices entry_tensors sq) -> In l (content_indices entry_tensors sq) -> share_space s u l -> In (Lab false s) (relation (fst u)) /\ In (Lab false s) (relation (fst l)).
  Proof. intros Hu Hl [S1 S2]. unfold relation. rewrite (entry_all_alpha u Hu), (entry_all_alpha l Hl). split; apply in_map; assumption. Qed.
  Lemma entry_in x i : In x entry_tensors -> In i (tensor_indices x) -> In i (content_indices entry_tensors sq).
  Proof. intros Hx Hi. unfold content_indices. apply in_or_app. right. apply in_flat_map. eauto. Qed.

  Lemma entry_apart rho : simplified true (ttensors t0) (tindices t0) rho ->
    (forall x i j, In x entry_tensors -> is_delta true x = false -> In i (tensor_indices x) -> In j (tensor_indices x) -> rho i = rho j -> i = j) /\
    (forall i j, In i (op_indices sq) -> In j (op_indices sq) -> rho i = rho j -> i = j).
  Proof.
    intros SM. pose proof (regular_all terms RG) as ST. pose proof (entry_valid terms ST ds sq PL SH) as HV.
    destruct (make_term_fields _ _ _ _ _ M) as (F1 & F2 & _ & F4 & F5 & F6 & F7 & F8 & F9 & F10).
    assert (HI : forall i, In i (content_indices entry_tensors sq) -> In i (tindices t0)) by (intros i Hi; rewrite F7, <- content_times; apply idx_times_in, Hi).
    assert (IO : forall i, In i (op_indices sq) -> In i (tindices t0)) by (intros i Hi; apply HI; unfold content_indices; apply in_or_app; auto).
    assert (MG : forall i j, In i (tindices t0) -> In j (tindices t0) -> rho i = rho j -> i = j \/ exists x, In x entry_tensors /\ is_delta true x = true /\ In i (tensor_indices x) /\ In j (tensor_indices x)).
    { intros i j Hi Hj E. destruct (sm_fiber _ _ _ _ SM i j Hi Hj E) as [Q|(x & X1 & X2)]; [auto|right]. exists x. split; [exact (Permutation_in _ F2 X1)|exact X2]. }
    split.
    - intros x i j X1 X2 Hi Hj E. destruct (MG i j (HI i (entry_in x i X1 Hi)) (HI j (entry_in x j X1 Hj)) E) as [Q|(y & Y1 & Y2 & Y3 & Y4)]; [exact Q|]. destruct (idx_eq_dec i j) as [Q|NE]; [exact Q|exfalso]. apply in_app_or in X1 as [X1|X1].
      + destruct (delta_new terms RG ds y Y1 Y2) as (d & Hdd & ->). rewrite Forall_forall in HV. destruct (delta_shape true _ (HV _ Y1) Y2) as (u & l & U & L). destruct (tensor_of_sides d) as (T1 & T2 & _). rewrite T1 in U. rewrite T2 in L.
        rewrite Forall_forall in CR. pose proof (CR d Hdd) as C. unfold crosses in C. rewrite U, L in C. specialize (C eq_refl). unfold tensor_indices in Y3, Y4. rewrite T1, T2, U, L in Y3, Y4.
        apply in_flat_map in X1 as (t & Ht & X1). assert (S : standard t) by (rewrite Forall_forall in ST; auto).
        assert (JN : forall k, In k (tensor_indices x) -> In k (tindices t)) by (intros k Hk; apply standard_indices; [exact S|]; unfold content_indices; apply in_or_app; right; apply in_flat_map; exists x; auto).
        destruct Y3 as [<-|[<-|[]]], Y4 as [<-|[<-|[]]]; try (apply NE; reflexivity).
        * apply (C u l t); auto using in_eq.
        * apply (C u l t); auto using in_eq.
      + apply in_map_iff in X1 as (d & <- & Hdd). exact (new_apart terms RG AP ds sq PL y d i Y1 Y2 Y3 Hdd X2 Hi).
    - intros i j Hi Hj E. destruct (MG i j (IO i Hi) (IO j Hj) E) as [Q|(y & Y1 & Y2 & Y3 & _)]; [exact Q|exfalso]. exact (open_apart terms RG AP ds sq PL y i Y1 Y2 Y3 Hi).
  Qed.

  Lemma entry_prepared : prepared true SpinOrbital entry_tensors sq t0.
  Proof.
    pose proof (regular_all terms RG) as ST. pose proof (entry_legs_nodup terms ST AP ds sq PL) as NL. pose proof (entry_valid terms ST ds sq PL SH) as HV.
    assert (ONCE : forall x, In x entry_tensors -> NoDup (tensor_indices x)).
    { intros x X1. apply in_app_or in X1 as [X1|X1].
      - apply in_flat_map in X1 as (t & Ht & X1). rewrite Forall_forall in RG. exact (td_tensors _ _ (rg_tidy _ (RG t Ht)) x X1).
      - exact (NoDup_flat_in _ _ _ (NoDup_app_remove_l _ _ NL) X1). }
    assert (NO : NoDup (op_indices sq)) by exact (NoDup_app_remove_r _ _ NL).
    assert (SPC : forall x u l, In x entry_tensors -> tupper x = [u] -> tlower x = [l] ->
      (tcls x = TCumulant -> cumulant_nonzero u l) /\ (tcls x = TKronecker -> exists s, share_space s u l)).
    { intros x u l X1 U L. apply in_app_or in X1 as [X1|X1].
      - apply in_flat_map in X1 as (t & Ht & X1). rewrite Forall_forall in RG. destruct (td_settled _ _ (rg_tidy _ (RG t Ht)) x X1) as [S1 S2]. split; [|intros; contradiction]. intros C. exists Sa. split; [discriminate|].
        assert (A : forall i, In i (tensor_indices x) -> In Sa (space_elems (lsp (fst i)))) by (intros i Hi; destruct (S2 C i Hi) as [->|[-> _]]; cbn; auto). unfold tensor_indices in A. rewrite U, L in A. split; apply A; cbn; auto.
      - apply in_map_iff in X1 as (d & <- & Hd). rewrite Forall_forall in SP. destruct (tensor_of_sides d) as (T1 & T2 & _). rewrite T1 in U. rewrite T2 in L. destruct (SP d Hd) as [_ SP']. specialize (SP' u l U L). unfold tensor_of. destruct (kind d); cbn [tcls]; split; intros; try discriminate; exact SP'. }
    assert (IN : forall x u l, In x entry_tensors -> tupper x = [u] -> tlower x = [l] -> In u (content_indices entry_tensors sq) /\ In l (content_indices entry_tensors sq)).
    { intros x u l Hx U L. split; apply (entry_in x); try exact Hx; unfold tensor_indices; rewrite U, L; cbn; auto. }
    constructor.
    - exact HV.
    - intros _. exact entry_all_alpha.
    - intros x X1. apply in_app_or in X1 as [X1|X1].
      + apply in_flat_map in X1 as (t & Ht & X1). rewrite Forall_forall in FT. destruct (FT t Ht) as (_ & B & _). rewrite Forall_forall in B. destruct (B x X1) as [B1 B2]. split; [exact B1|]. intros E. rewrite E in B1. cbn in B1. lia.
      + apply in_map_iff in X1 as (d & <- & Hd). destruct (tensor_of_sides d) as (-> & -> & _). rewrite Forall_forall in SH. destruct (SH d Hd) as (L1 & L2 & L3). split; [exact L1|]. rewrite Forall_forall in SP. apply (SP d Hd).
    - exact (consistent_classes _ ds CN).
    - exact (entry_disjoint terms ST AP ds sq PL).
    - intros x Hx. pose proof (ONCE x Hx) as N. unfold tensor_indices in N. apply NoDup_app_elim in N as (N1 & N2 & _). auto.
    - unfold op_indices in NO. apply NoDup_app_elim in NO as (N1 & _ & _). exact N1.
    - unfold op_indices in NO. apply NoDup_app_elim in NO as (_ & N1 & _). exact N1.
    - exact (entry_balanced terms ST ds sq PL SH).
    - intros rho SM. destruct (entry_apart rho SM) as [A1 A2]. split.
      + intros x i j Hx D H. apply (A1 x); [exact Hx|exact D|..]; unfold tensor_indices; apply in_or_app; tauto.
      + intros i j H. apply A2; unfold op_indices; apply in_or_app; tauto.
    - intros x u l Hx C U L. destruct (SPC x u l Hx U L) as [S1 _]. destruct (S1 C) as (s & Hs & Q). destruct (IN x u l Hx U L) as [I1 I2]. destruct (relation_shared s u l I1 I2 Q) as [R1 R2]. exists (Lab false s). auto.
    - intros x u l Hx C U L. destruct (SPC x u l Hx U L) as [_ S1]. destruct (S1 C) as (s & Q). destruct (IN x u l Hx U L) as [I1 I2]. destruct (relation_shared s u l I1 I2 Q) as [R1 R2]. exists (Lab false s). auto.
    - intros x i X1 C Hi. apply in_app_or in X1 as [X1|X1].
      + apply in_flat_map in X1 as (t & Ht & X1). rewrite Forall_forall in FT. destruct (FT t Ht) as (_ & _ & B). exact (B x i X1 C Hi).
      + apply in_map_iff in X1 as (d & <- & Hd). unfold tensor_of in C. destruct (kind d); discriminate C.
    - apply Exists_exists in TG as (t & Ht & x & Hx & C1 & C2). exists x. split; [apply in_or_app; left; apply in_flat_map; eauto|]. intros [J|(_ & J & _)]; contradiction.
  Qed.
End Entry.

Lemma entry_returns w terms hermitian c z ds sq : admissible (w_sympy w) -> Forall regular terms -> Forall (fun t => fit (tsq t) (ttensors t)) terms -> ForallOrdPairs apart_terms terms -> consistent_names (flat_map ttensors terms) -> Exists tangible terms ->
  Permutation (written_string (map tsq terms)) (flat_map density_legs ds ++ open_string sq) -> Forall density_shape ds -> Forall (crosses terms) ds -> Forall density_spaces ds ->
  raises_only (sympy_fails (w_sympy w)) (canonicalize_contraction w (flat_map ttensors terms) c hermitian (z, ds, sq)) /\
  forall tm, canonicalize_contraction w (flat_map ttensors terms) c hermitian (z, ds, sq) = Ok tm -> fit (tsq tm) (ttensors tm).
Proof.
  intros AD RG FT AP CN TG PL SH CR SP. pose proof (regular_all terms RG) as ST. unfold canonicalize_contraction.
  destruct (make_term_ok SpinOrbital (flat_map ttensors terms ++ map tensor_of ds) sq (Qcmult (Qc_of_Z z) c)) as [t0 M]; [apply (entry_types terms ST ds)|apply (entry_connected terms ST AP ds sq PL)|]. rewrite M. cbn [pybind].
  pose proof (entry_plain terms ST AP ds sq PL) as ND.
  destruct (simplify_prepared true true _ _ _ _ _ M ND (entry_prepared terms RG FT AP CN TG ds sq PL SH CR SP _ t0 M)) as (t' & HS & G). split.
  - intros e E. destruct (sympy_returns (w_sympy w) true true hermitian t0 t' AD HS) as [[tm R]|(g & rs & rn & _ & [[R1 R2]|(e' & R1 & R2)])].
    + intros V. destruct (G V) as (G1 & G2 & G3 & _). auto.
    + congruence.
    + exists g, rs, rn. right. split; [exact R1|congruence].
    + exists g, rs, rn. left. congruence.
  - intros tm H. destruct (is_void t') eqn:V.
    + unfold canonicalize_sympy in H. rewrite HS in H. cbn [pybind] in H. rewrite V in H. injection H as <-. apply void_fit.
    + destruct (G eq_refl) as (G1 & G2 & G3 & G4). destruct (simplified_shape terms RG AP CN ds sq PL SH CR _ t0 t' M HS) as (S1 & S2 & S3 & S4 & S5 & S6).
      assert (FT' : fit (tsq t') (ttensors t')).
      { split; [|split; [exact G1|exact G4]]. intros i Hi. unfold content_indices in Hi. apply in_app_or in Hi as [Hi|Hi]; [exact (sd_op _ _ _ G3 S1 i Hi)|]. apply in_flat_map in Hi as (x & Hx & Hi). apply (sd_tensors _ _ _ G3) in Hx as (_ & _ & _ & _ & A). exact (A S1 i Hi). }
      destruct (sympy_shape _ (w_sympy w) true true hermitian t0 t' tm (fit_movable hermitian) AD HS H) as [[V' _]|(ys & o & c' & dummy & M' & [_ P] & _)]; try assumption; [rewrite S1; exact S2|auto|congruence|].
      destruct (make_term_fields _ _ _ _ _ M') as (_ & F2 & _ & F4 & _). rewrite F4. apply (fit_perm _ ys); [symmetry; exact F2|exact P].
Qed.

(** ** Sums of like terms, batches *)
Lemma combine_returns l : Forall (fun t => ttype t = SpinOrbital) l -> exists out, combine_terms l = Ok out.
Proof.
  intros F. unfold combine_terms. destruct (collect_values l) as [items coeffs] eqn:E. unfold sorted_terms.
  assert (G : forall t, In t (filter (fun t => negb (is_void t)) (map (fun it => set_coeff (snd it) (Qc_sum (dict_list text_eqb (fst it) coeffs))) items)) -> ttype t = SpinOrbital).
  { intros t Ht. apply filter_In in Ht as [Ht _]. apply in_map_iff in Ht as ([k t1] & <- & Ht). cbn [fst snd]. change (ttype t1 = SpinOrbital).
    pose proof (collect_in (fun t => ttype t = SpinOrbital) l ([], [])) as C. fold (collect_values l) in C. rewrite E in C. cbn [fst] in C. apply (C ltac:(intros ? ? []) F k t1 Ht). }
  destruct (filter _ _) as [|t1 ts]; [eexists; reflexivity|]. cbn [same_types]. replace (forallb _ ts) with true; [eexists; reflexivity|]. symmetry. apply forallb_forall. intros t Ht. rewrite (G t1 (or_introl eq_refl)), (G t (or_intror Ht)). reflexivity.
Qed.
Lemma combine_only P l : Forall (fun t => ttype t = SpinOrbital) l -> raises_only P (combine_terms l).
Proof. intros F. destruct (combine_returns l F) as [out ->]. apply only_ok. Qed.
Lemma typed_set : forall t c, ttype t = SpinOrbital -> ttype (set_coeff t c) = SpinOrbital.
Proof. auto. Qed.
Lemma can_typed w tensors c h e t : canonicalize_contraction w tensors c h e = Ok t -> ttype t = SpinOrbital.
Proof. intros H. destruct (canonicalize_good w tensors c h e t H) as [[T _] _]. exact T. Qed.
Lemma batch_only P w k n es tensors c s h : unordered w -> (forall e, In e es -> raises_only P (canonicalize_contraction w tensors c h e)) -> raises_only P (canonicalize_contractions_batch w k n es tensors c s h).
Proof.
  intros UN H. unfold canonicalize_contractions_batch. destruct es as [|e0 es0] eqn:E; [apply only_ok|]. rewrite <- E in *. apply only_bind; [apply only_map, H|]. intros rs R. destruct s; [|apply only_ok]. apply combine_only.
  assert (F : Forall (fun t => ttype t = SpinOrbital) rs) by (apply pymap_forall2 in R; clear E H; induction R as [|e t l m Q _ IH]; constructor; [exact (can_typed _ _ _ _ _ _ Q)|exact IH]).
  destruct (n =? 1); [exact F|]. rewrite Forall_forall in *. intros t Ht. apply F. exact (Permutation_in _ (UN k rs) Ht).
Qed.
Lemma loop_only P w tensors c h n bs batches : unordered w -> forall k count es out, (forall e, In e (es ++ concat batches) -> raises_only P (canonicalize_contraction w tensors c h e)) ->
  raises_only P (batch_loop w k n bs tensors c h batches count es out).
Proof.
  intros UN. induction batches as [|b batches IH]; intros k count es out G; cbn [batch_loop].
  - apply only_bind; [|intros; apply only_ok]. apply batch_only; [exact UN|]. intros e He. apply G. cbn [concat]. rewrite app_nil_r. exact He.
  - cbn [concat] in G. destruct (_ <? bs); [apply IH; rewrite <- app_assoc; exact G|]. apply only_bind; [apply batch_only; [exact UN|]; intros e He; apply G; rewrite app_assoc; apply in_or_app; auto|]. intros r _. apply IH. intros e He. apply G. cbn [app] in He. rewrite !in_app_iff. auto.
Qed.

(** ** contract_terms *)
Record workable (base : list tensor) (N : nat) (t : term) : Prop := {
  wk_regular : regular t;
  wk_fit : fit (tsq t) (ttensors t);
  wk_small : small N t;
  wk_clean : clean base t }.
Lemma set_coeff_workable base N t c : workable base N t -> workable base N (set_coeff t c).
Proof. intros [W1 W2 W3 W4]. constructor; [apply set_coeff_regular, W1|exact W2|exact W3|exact W4]. Qed.

Lemma driver_sum w fc ops max_cu max_o min_o eh : (forall l, Permutation (w_iter w l) l) -> Forall op_alpha ops -> distinct_legs ops ->
  exists result (P : list econ -> Prop), compute_operator_contractions (w_pick w) (w_pick_connected w) (w_iter w) fc ops max_cu max_o min_o eh = Ok result /\ wick_sum ops eh P result /\
    (forall s, P s -> wick_set ops (cumulant_level ops max_cu) min_o max_o s).
Proof.
  intros IT Hal D. destruct fc.
  - destruct (connected_driver_ok (w_pick_connected w) ops max_cu max_o min_o eh Hal D) as (r & P & E & W & P1 & P2). exists r, P. split; [exact E|]. split; [exact W|]. intros s Hs. destruct (P1 s Hs) as (Q1 & _). exact Q1.
  - destruct (C32_entry_point (w_pick w) (w_pick_connected w) (w_iter w) ops max_cu max_o min_o eh Hal IT D) as (r & E & W). exists r, (wick_set ops (cumulant_level ops max_cu) min_o max_o). split; [exact E|]. split; [exact W|]. auto.
Qed.
Lemma product_connected terms o : Forall standard terms -> ForallOrdPairs apart_terms terms -> flat_map (fun t => op_indices (tsq t)) terms = op_indices o -> connected (flat_map ttensors terms) o.
Proof.
  intros ST AP E. assert (PC : Permutation (content_indices (flat_map ttensors terms) o) (flat_map (fun t => content_indices (ttensors t) (tsq t)) terms)) by (unfold content_indices at 1; rewrite <- E; symmetry; apply all_perm).
  intros i Hi. rewrite <- content_times in Hi |- *. rewrite (idx_times_perm i _ _ PC) in Hi |- *. assert (I : In i (flat_map (fun t => content_indices (ttensors t) (tsq t)) terms)) by (apply idx_times_in; exact Hi). rewrite (all_twice terms ST AP i I). split; intros; reflexivity.
Qed.

Lemma base_trans base xs t : (forall y, In y xs -> exists x, In x (base ++ driver_tensors) /\ tname y = tname x /\ tcls y = tcls x /\ tpriority y = tpriority x) -> clean xs t -> clean base t.
Proof.
  intros H [T1 T2]. split; [exact T1|]. intros y Hy. destruct (T2 y Hy) as (Y & x & Hx & E1 & E2 & E3). split; [exact Y|]. apply in_app_or in Hx as [Hx|Hx].
  - destruct (H x Hx) as (x' & X & -> & -> & ->) in E1, E2, E3 |- *. exists x'. auto.
  - exists x. split; [apply in_or_app; auto|auto].
Qed.
Lemma product_fit terms o : Forall (fun t => fit (tsq t) (ttensors t)) terms -> flat_map (fun t => op_indices (tsq t)) terms = op_indices o -> fit o (flat_map ttensors terms).
Proof.
  intros F E. rewrite Forall_forall in F. split; [|split].
  - intros i Hi. unfold content_indices in Hi. rewrite <- E in Hi. apply in_app_or in Hi as [Hi|Hi]; apply in_flat_map in Hi as (t & Ht & Hi).
    + destruct (F t Ht) as (A & _). apply A. unfold content_indices. apply in_or_app. auto.
    + apply in_flat_map in Ht as (t1 & H1 & Ht). destruct (F t1 H1) as (A & _). apply A. unfold content_indices. apply in_or_app. right. apply in_flat_map. eauto.
  - apply Forall_forall. intros x Hx. apply in_flat_map in Hx as (t & Ht & Hx). destruct (F t Ht) as (_ & A & _). rewrite Forall_forall in A. auto.
  - intros x i Hx. apply in_flat_map in Hx as (t & Ht & Hx). destruct (F t Ht) as (_ & _ & A). exact (A x i Hx).
Qed.

(** the legs of an operator are not on densities *)
Lemma leg_tangible t : standard t -> op_is_empty (tsq t) = false -> tangible t.
Proof.
  intros ST E. assert (exists i, In i (op_indices (tsq t))) as [i Hi] by (unfold op_is_empty in E; unfold op_indices; destruct (cre (tsq t)) as [|i ?]; [destruct (ann (tsq t)) as [|i ?]; [discriminate|]|]; exists i; left; reflexivity).
  assert (C : In i (content_indices (ttensors t) (tsq t))) by (unfold content_indices; apply in_or_app; auto). pose proof (standard_twice t i ST C) as T. unfold content_indices in T. unfold idx_times in T. rewrite count_occ_app in T.
  pose proof (st_legs _ ST) as N. rewrite app_assoc in N. change (cre (tsq t) ++ ann (tsq t)) with (op_indices (tsq t)) in N.
  pose proof (proj1 (NoDup_count_occ idx_eq_dec _) (NoDup_app_remove_r _ _ N) i) as N1.
  assert (I : In i (flat_map tensor_indices (ttensors t))) by (apply (count_occ_In idx_eq_dec); lia). apply in_flat_map in I as (x & Hx & I). exists x. split; [exact Hx|].
  assert (D : is_density x = false) by (destruct (is_density x) eqn:D; [|reflexivity]; exfalso; exact (nodup_sides _ _ i N Hi (density_in x _ i Hx D I))). unfold is_density in D. split; intros Q; rewrite Q in D; discriminate.
Qed.

Theorem contract_only base w terms max_cu max_o min_o sc fc eh n hermitian N :
  unordered w -> (forall l, Permutation (w_iter w l) l) -> admissible (w_sympy w) -> consistent_names base -> Forall (workable base N) terms -> ForallOrdPairs apart_terms terms -> terms <> [] -> forall N', within N' terms ->
  raises_only (sympy_fails (w_sympy w)) (contract_terms w terms max_cu max_o min_o sc fc eh n hermitian) /\
  forall out, contract_terms w terms max_cu max_o min_o sc fc eh n hermitian = Ok out -> Forall (workable base N') out.
Proof.
  intros UN IT AD CB WK AP NE N' WN.
  assert (RG : Forall regular terms) by (eapply Forall_impl; [|exact WK]; intros t W; apply W). assert (FT : Forall (fun t => fit (tsq t) (ttensors t)) terms) by (eapply Forall_impl; [|exact WK]; intros t W; apply W).
  pose proof (regular_all terms RG) as ST. assert (ST' := ST). rewrite Forall_forall in ST'. assert (RG' := RG). rewrite Forall_forall in RG'.
  assert (CB' : forall y, In y (flat_map ttensors terms) -> exists x, In x (base ++ driver_tensors) /\ tname y = tname x /\ tcls y = tcls x /\ tpriority y = tpriority x).
  { intros y Hy. apply in_flat_map in Hy as (t & Ht & Hy). rewrite Forall_forall in WK. apply (wk_clean _ _ _ (WK t Ht)), Hy. }
  assert (CN : consistent_names (flat_map ttensors terms)) by (apply (clean_consistent base); assumption).
  set (P := workable base N'). assert (HP : forall t c, P t -> P (set_coeff t c)) by (intros; apply set_coeff_workable; assumption).
  unfold contract_terms. destruct terms as [|t0 ts] eqn:ET; [contradiction|]. rewrite <- ET in *. assert (H0 : In t0 terms) by (rewrite ET; left; reflexivity). clear ET. cbv zeta.
  assert (SE : length (filter (fun t => negb (op_is_empty (tsq t))) terms) <= 1 -> forall t1, In t1 terms -> tsq t1 = whole_op terms -> forall c, exists t, make_term (ttype t1) (flat_map ttensors terms) (tsq t1) c = Ok t /\ P t).
  { intros L t1 H1 E c. rewrite (standard_type t1 (ST' t1 H1)). assert (WI : flat_map (fun t => op_indices (tsq t)) terms = op_indices (tsq t1)) by (rewrite E; apply whole_indices, L).
    assert (TY : Forall (fun x => titype x = SpinOrbital) (flat_map ttensors terms)) by (apply Forall_forall; intros x Hx; apply in_flat_map in Hx as (t & Ht & Hx); destruct (standard_fields t (ST' t Ht)) as (_ & TF & _); rewrite Forall_forall in TF; auto).
    destruct (make_term_ok SpinOrbital (flat_map ttensors terms) (tsq t1) c TY (product_connected terms _ ST AP WI)) as [t M]. exists t. split; [exact M|].
    destruct (product_closed terms (tsq t1) c t N' RG AP WN (rg_alpha _ (RG' t1 H1)) (rg_balanced _ (RG' t1 H1)) WI M) as [Q1 Q2]. destruct (make_term_fields _ _ _ _ _ M) as (F1 & F2 & _ & F4 & _). constructor; [exact Q1| |exact Q2|].
    - rewrite F4. apply (fit_perm _ (flat_map ttensors terms)); [symmetry; exact F2|]. apply product_fit; assumption.
    - apply (base_trans base (flat_map ttensors terms) t CB'). split; [exact F1|]. intros y Hy. apply (Permutation_in _ F2) in Hy. split; [rewrite Forall_forall in TY; auto|]. exists y. split; [apply in_or_app; auto|auto]. }
  unfold whole_op in SE. destruct (filter (fun t => negb (op_is_empty (tsq t))) terms) as [|t1 [|t2 tc]] eqn:F.
  - destruct (SE (le_0_n 1) t0 H0) with (c := fold_left (fun c t => Qcmult c (tcoeff t)) terms sc) as (t & M & Pt).
    { destruct (op_is_empty (tsq t0)) eqn:Q; [unfold op_is_empty in Q; destruct (tsq t0) as [[|] [|]]; try discriminate; reflexivity|]. exfalso. assert (I : In t0 (filter (fun t => negb (op_is_empty (tsq t))) terms)) by (apply filter_In; rewrite Q; auto). rewrite F in I. destruct I. }
    rewrite M. cbn [pybind]. split; [apply only_ok|]. intros out [= <-]. auto.
  - assert (H1 : In t1 terms) by (assert (I : In t1 [t1]) by (left; reflexivity); rewrite <- F in I; apply filter_In in I; apply I).
    destruct (SE (le_n 1) t1 H1 eq_refl (fold_left (fun c t => Qcmult c (tcoeff t)) terms sc)) as (t & M & Pt). rewrite M. cbn [pybind]. split; [apply only_ok|]. intros out [= <-]. auto.
  - clear SE. assert (TG : Exists tangible terms).
    { assert (I : In t1 (filter (fun t => negb (op_is_empty (tsq t))) terms)) by (rewrite F; left; reflexivity). apply filter_In in I as [I1 I2]. apply negb_true_iff in I2. apply Exists_exists. exists t1. split; [exact I1|]. apply leg_tangible; auto. }
    rewrite <- F in *. set (ops := map tsq (filter (fun t => negb (op_is_empty (tsq t))) terms)) in *.
    replace (forallb (fun t => itype_eqb (ttype t) SpinOrbital) (filter (fun t => negb (op_is_empty (tsq t))) terms)) with true.
    2: { symmetry. apply forallb_forall. intros t Ht. apply filter_In in Ht as [Ht _]. rewrite (standard_type t (ST' t Ht)). reflexivity. }
    destruct (driver_sum w fc ops max_cu max_o min_o eh IT (standard_alpha terms ST) (standard_distinct terms ST AP)) as (r & Q & E & W & P1). rewrite E. cbn [pybind].
    assert (AP' : ForallOrdPairs apart_terms (filter (fun t => negb (op_is_empty (tsq t))) terms)).
    { clear -AP. induction AP as [|x l F _ IH]; cbn [filter]; [constructor|]. destruct (negb _); [|exact IH]. constructor; [|exact IH]. rewrite Forall_forall in *. intros y Hy. apply filter_In in Hy. apply F, Hy. }
    assert (ST2 : Forall standard (filter (fun t => negb (op_is_empty (tsq t))) terms)) by (apply Forall_forall; intros t Ht; apply filter_In in Ht; apply ST', Ht).
    set (c := fold_left (fun c t => Qcmult c (tcoeff t)) terms sc).
    assert (EN : forall z ds sq, In (z, ds, sq) (concat r) -> raises_only (sympy_fails (w_sympy w)) (canonicalize_contraction w (flat_map ttensors terms) c hermitian (z, ds, sq)) /\
      forall tm, canonicalize_contraction w (flat_map ttensors terms) c hermitian (z, ds, sq) = Ok tm -> P tm).
    { intros z ds sq He. destruct (result_legs ops eh Q _ _ _ r z ds sq P1 W He) as (L1 & L2 & _). unfold ops in L1. rewrite filter_empty_ops in L1. pose proof (entry_shapes ops eh Q _ _ _ r z ds sq P1 W He) as SH. pose proof (entry_spaces ops eh Q _ _ _ r z ds sq P1 W He) as SP.
      assert (CR : Forall (crosses terms) ds).
      { pose proof (entry_crosses _ eh Q _ _ _ r z ds sq ST2 AP' P1 W He) as CR. rewrite Forall_forall in *. intros d Hd. apply crosses_all; [apply Forall_forall; exact ST'| |apply CR, Hd|exact AP].
        intros i Hi. apply (leg_in terms ds sq L1). apply in_flat_map. exists (tensor_of d). split; [apply in_map, Hd|]. unfold tensor_indices. destruct (tensor_of_sides d) as (-> & -> & _). exact Hi. }
      destruct (entry_returns w terms hermitian c z ds sq AD RG FT AP CN TG L1 SH CR SP) as [R1 R2]. split; [exact R1|]. intros tm Htm. destruct (canonical_regular w terms hermitian c z ds sq tm N' AD RG AP CN L1 SH CR (proj1 WN) Htm) as [C1 C2].
      constructor; [exact C1|exact (R2 tm Htm)|exact C2|]. destruct (canonicalize_good w (flat_map ttensors terms) c hermitian (z, ds, sq) tm Htm) as [G _]. exact (base_trans base _ tm CB' G). }
    assert (LP : forall fin, batch_loop w 0 (Nat.min n (w_cpus w)) (batch_size_of (Nat.min n (w_cpus w))) (flat_map ttensors terms) c hermitian r 0 [] [] = Ok fin -> Forall P fin).
    { intros fin EL. apply (loop_all P HP w UN _ _ hermitian _ _ r 0 0 [] [] fin) with (3 := EL); [|constructor]. intros [[z ds] sq] t He Ht. exact (proj2 (EN z ds sq He) t Ht). }
    split.
    + apply only_bind; [apply loop_only; [exact UN|]; intros [[z ds] sq] He; apply (EN z ds sq He)|]. intros fin EL. apply combine_only. eapply Forall_impl; [|exact (LP fin EL)]. intros t Pt. apply (wk_clean _ _ _ Pt).
    + intros out H. destruct (batch_loop w _ _ _ _ _ _ _ _ _ _) as [fin|] eqn:EL; [|discriminate]. cbn [pybind] in H. exact (combine_all P HP fin out (LP fin eq_refl) H).
Qed.

(** ** Commutators *)
Lemma small_terms N t : small N t -> forall i, In i (tindices t) -> snd i < N. Proof. intros H. apply H. Qed.
Lemma workable_le base N N' t : N <= N' -> workable base N t -> workable base N' t.
Proof. intros L [W1 W2 W3 W4]. constructor; try assumption. exact (small_le _ _ _ L W3). Qed.
Theorem commutator_only base w1 w2 a b max_cu max_o min_o sc fc eh n hermitian N N' :
  unordered w1 -> unordered w2 -> (forall l, Permutation (w_iter w1 l) l) -> (forall l, Permutation (w_iter w2 l) l) -> admissible (w_sympy w1) -> admissible (w_sympy w2) -> consistent_names base ->
  workable base N a -> workable base N b -> apart_terms a b -> length (tindices a) + length (tindices b) <= N' -> (forall i, In i (tindices a) -> snd i < N') -> (forall i, In i (tindices b) -> snd i < N') ->
  raises_only (fun e => sympy_fails (w_sympy w1) e \/ sympy_fails (w_sympy w2) e) (single_commutator w1 w2 a b max_cu max_o min_o sc fc eh n hermitian) /\
  forall out, single_commutator w1 w2 a b max_cu max_o min_o sc fc eh n hermitian = Ok out -> Forall (workable base N') out.
Proof.
  intros U1 U2 I1 I2 A1 A2 CB Wa Wb AP L La Lb. unfold single_commutator. destruct (fc && _); [split; [apply only_ok|]; intros out [= <-]; constructor|].
  destruct (within_two N' a b (regular_standard _ (wk_regular _ _ _ Wa)) (regular_standard _ (wk_regular _ _ _ Wb)) L La Lb) as [W1 W2].
  destruct (contract_only base w1 [a; b] max_cu max_o min_o sc fc eh n hermitian N U1 I1 A1 CB) with (N' := N') as [R1 C1]; [auto|constructor; [constructor; [exact AP|constructor]|constructor; [constructor|constructor]]|discriminate|exact W1|].
  destruct (contract_only base w2 [b; a] max_cu max_o min_o (Qcopp sc) fc eh n hermitian N U2 I2 A2 CB) with (N' := N') as [R2 C2]; [auto|constructor; [constructor; [intros i Hi Q; exact (AP i Q Hi)|constructor]|constructor; [constructor|constructor]]|discriminate|exact W2|].
  assert (TY : forall l, Forall (workable base N') l -> Forall (fun t => ttype t = SpinOrbital) l) by (intros l; apply Forall_impl; intros t W; apply (wk_clean _ _ _ W)). split.
  - apply only_bind; [eapply only_weaken; [|exact R1]; auto|]. intros oa Ea. apply only_bind; [eapply only_weaken; [|exact R2]; auto|]. intros ob Eb. apply combine_only, TY, Forall_app. auto.
  - intros out H. destruct (contract_terms w1 _ _ _ _ _ _ _ _ _) as [oa|] eqn:E1; [|discriminate]. cbn [pybind] in H. destruct (contract_terms w2 _ _ _ _ _ _ _ _ _) as [ob|] eqn:E2; [|discriminate]. cbn [pybind] in H.
    apply (combine_all (workable base N') (set_coeff_workable base N')) with (l := oa ++ ob); [|exact H]. apply Forall_app. auto.
Qed.

(** ** Nested commutators *)
Definition fails_in (ws : worlds) (e : pyexn) : Prop := exists i a b, sympy_fails (w_sympy (fst (ws i a b))) e \/ sympy_fails (w_sympy (snd (ws i a b))) e.
Section Levels.
  Context (base : list tensor) (CB : consistent_names base) (ws : worlds) (levels : list Z) (opens : list (Z * Z)) (factor : nat -> Qc) (fc eh : bool) (np : nat) (h : bool).
  Context (WS : forall i a b, (unordered (fst (ws i a b)) /\ (forall l, Permutation (w_iter (fst (ws i a b)) l) l) /\ admissible (w_sympy (fst (ws i a b)))) /\ (unordered (snd (ws i a b)) /\ (forall l, Permutation (w_iter (snd (ws i a b)) l) l) /\ admissible (w_sympy (snd (ws i a b))))).
  Context (N : nat -> nat) (copy : term -> pyres term) (CP : forall k t, workable base (N k) t -> exists t', copy t = Ok t' /\ workable base (N k) t').
  (** the right factors: their index numbers are new, and there is room for them *)
  Record right_ok (lo hi : nat) (r : term) : Prop := {
    ro_work : workable base hi r;
    ro_numbers : forall i, In i (tindices r) -> lo <= snd i < hi;
    ro_room : lo + length (tindices r) <= hi }.
  Lemma pair_only k a b l r : workable base (N k) l -> right_ok (N k) (N (S k)) r ->
    raises_only (fails_in ws) (commutator_at ws levels opens factor fc eh np h (S k) a b l r) /\ forall out, commutator_at ws levels opens factor fc eh np h (S k) a b l r = Ok out -> Forall (workable base (N (S k))) out.
  Proof.
    intros Wl [Wr Nr Rr]. unfold commutator_at. destruct (at_level opens _ _) as [mn mx]. destruct (WS (S k) a b) as [(U1 & I1 & A1) (U2 & I2 & A2)]. destruct (wk_small _ _ _ Wl) as [L1 L2]. assert (LE : N k <= N (S k)) by lia.
    destruct (commutator_only base (fst (ws (S k) a b)) (snd (ws (S k) a b)) l r (at_level levels 0%Z (S k)) mx mn (factor (S k)) fc eh np h (N (S k)) (N (S k)) U1 U2 I1 I2 A1 A2 CB (workable_le _ _ _ _ LE Wl) Wr) as [R C].
    - intros i Hi Q. specialize (L1 i Hi). specialize (Nr i Q). lia.
    - lia.
    - intros i Hi. specialize (L1 i Hi). lia.
    - intros i Hi. apply Nr, Hi.
    - split; [|exact C]. eapply only_weaken; [|exact R]. intros e He. exists (S k), a, b. exact He.
  Qed.
  Lemma copies_ok k l : Forall (workable base (N k)) l -> exists l', pymap copy l = Ok l' /\ Forall (workable base (N k)) l'.
  Proof.
    induction 1 as [|t l W _ (l' & E & F)]; [exists []; split; [reflexivity|constructor]|]. destruct (CP k t W) as (t' & Et & Wt). exists (t' :: l'). cbn [pymap]. rewrite Et. cbn [pybind]. rewrite E. cbn [pybind]. auto.
  Qed.
  Lemma levels_only rights : forall k lp, Forall (workable base (N k)) lp ->
    (forall j rs r, nth_error rights j = Some rs -> In r rs -> right_ok (N (k + j)) (N (S (k + j))) r) ->
    raises_only (fails_in ws) (commutator_loop copy (commutator_at ws levels opens factor fc eh np h) (S k) lp rights).
  Proof.
    induction rights as [|rs rights IH]; intros k lp F HR; cbn [commutator_loop]; [apply only_ok|].
    assert (HR0 : forall r, In r rs -> right_ok (N k) (N (S k)) r) by (intros r Hr; specialize (HR 0 rs r eq_refl Hr); rewrite Nat.add_0_r in HR; exact HR). rewrite Forall_forall in F.
    apply only_bind.
    - apply only_map. intros [a l] Hl. apply positions_in in Hl. cbn [fst snd]. apply only_bind; [|intros; apply only_ok]. apply only_map. intros [b r] Hr. apply positions_in in Hr. cbn [fst snd]. apply (pair_only k a b l r); auto.
    - intros lls E1.
      assert (FL : Forall (workable base (N (S k))) (concat lls)).
      { apply pymap_results in E1. apply Forall_forall. intros t Ht. apply in_concat in Ht as (ts & Hts & Ht). destruct (Forall2_in_r _ _ _ _ E1 Hts) as ([a l] & Hl & E). apply positions_in in Hl. cbn [fst snd] in E.
        destruct (pymap _ (positions rs)) as [ls|] eqn:E2; [|discriminate]. cbn [pybind] in E. injection E as <-. apply pymap_results in E2. apply in_concat in Ht as (ts' & Hts' & Ht). destruct (Forall2_in_r _ _ _ _ E2 Hts') as ([b r] & Hr & E). apply positions_in in Hr. cbn [fst snd] in E.
        destruct (pair_only k a b l r (F l Hl) (HR0 r Hr)) as [_ C]. specialize (C ts' E). rewrite Forall_forall in C. auto. }
      destruct (copies_ok (S k) _ FL) as (ts & -> & F2). cbn [pybind].
      destruct (combine_returns ts) as [out EO]; [eapply Forall_impl; [|exact F2]; intros t W; apply (wk_clean _ _ _ W)|]. rewrite EO. cbn [pybind].
      pose proof (combine_all (workable base (N (S k))) (set_coeff_workable base (N (S k))) ts out F2 EO) as F3. destruct (copies_ok (S k) _ F3) as (lp' & -> & F4). cbn [pybind].
      apply only_bind; [|intros; apply only_ok]. apply IH; [exact F4|]. intros j rs' r Hj Hr. replace (S k + j) with (k + S j) by lia. apply (HR (S j) rs' r Hj Hr).
  Qed.
End Levels.
Lemma from_term_ok base N t : workable base N t -> exists t', from_term t = Ok t' /\ workable base N t'.
Proof.
  intros [W1 W2 W3 W4]. pose proof (regular_standard _ W1) as ST. destruct (standard_fields t ST) as (T & TF & CT & _). 
  assert (exists t', from_term t = Ok t') as [t' E].
  { unfold from_term. rewrite T. apply make_term_ok; [exact TF|]. intros i Hi. rewrite <- content_times in Hi |- *. assert (I : In i (content_indices (ttensors t) (tsq t))) by (apply idx_times_in, Hi). rewrite (standard_twice t i ST I). split; intros; reflexivity. }
  exists t'. split; [exact E|]. destruct (from_term_closed t t' N W1 W3 E) as (C1 & C2 & C3 & C4 & C5). constructor; [exact C1| |exact C2|].
  - rewrite C5. apply (fit_perm _ (ttensors t)); [symmetry; exact C4|exact W2].
  - destruct W4 as [V1 V2]. split; [apply (standard_type _ (regular_standard _ C1))|]. intros y Hy. apply V2. exact (Permutation_in _ C4 Hy).
Qed.
