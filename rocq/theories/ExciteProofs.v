(** Values of excitation and diagonal parts. *)
From Coq Require Import Ascii String ZArith QArith Qcanon Lia Ring_theory Ring Sorting.Sorted.
From Verif Require Import PyBase ParitySpec ParityProofs BacktrackProofs SpaceProofs OrderSpec OrderProofs SpaceModel IndicesModel IterProofs IndicesProofs ElemModel MacroModel TermModel ValueSpec ValueProofs TermSpec SumProofs TermProofs RenameProofs
  SimplifyProofs SimplifyValue CanonProofs SymmetryModel SymmetrySpec SymmetryProofs SympyProofs SympyValue PropTerm PropSimplify PropCanon ExciteModel.
Local Close Scope Q_scope.
Local Close Scope Qc_scope.
Local Open Scope nat_scope.
Local Notation length := List.length.

Lemma reorder_unit {B} (l l' : list B) s : reorder_sign l l' s -> s = 1%Z \/ s = (-1)%Z.
Proof. intros (n & _ & ->). apply sgn_pm. Qed.
Lemma unit_mul a b : (a = 1 \/ a = -1)%Z -> (b = 1 \/ b = -1)%Z -> (a * b = 1 \/ a * b = -1)%Z.
Proof. intros [-> | ->] [-> | ->]; auto. Qed.

(** what _relabel_indices returns *)
Definition moved_tensor (rho : idx -> idx) (x y : tensor) : Prop :=
  tcls y = tcls x /\ tname y = tname x /\ Permutation (tupper y) (map rho (tupper x)) /\ Permutation (tlower y) (map rho (tlower x)) /\ valid_tensor y.
Lemma canon_tensor_shape x y s : NoDup (tupper x) -> NoDup (tlower x) -> canonicalize_tensor x = Ok (y, s) -> moved_tensor (fun i => i) x y /\ (s = 1 \/ s = -1)%Z.
Proof.
  intros N1 N2 H. unfold canonicalize_tensor in H. destruct (canonicalize_pair _ _ _) as [[[u l] s']|] eqn:Ep; [|discriminate]. cbn [pybind] in H.
  destruct (from_indices x u l) as [y'|] eqn:Ef; [|discriminate]. cbn [pybind] in H. injection H as -> ->. unfold from_indices in Ef.
  destruct (canonicalize_pair_any _ _ _ _ _ _ N1 N2 Ep) as (su & sl & -> & R1 & R2 & _). pose proof Ef as Ev. apply check_tensor_ok in Ef as ->. split.
  - unfold moved_tensor. cbn [tcls tname tupper tlower]. rewrite !map_id. repeat (split; [reflexivity|]). split; [symmetry; apply (reorder_sign_perm _ _ _ R1)|]. split; [symmetry; apply (reorder_sign_perm _ _ _ R2)|exact Ev].
  - apply unit_mul; eapply reorder_unit; eassumption.
Qed.
Lemma relabel_shape t r sign xs o : relabel_indices t r = Ok (sign, xs, o) ->
  (sign = 1 \/ sign = -1)%Z /\ Permutation (cre o) (map (rename r) (cre (tsq t))) /\ Permutation (ann o) (map (rename r) (ann (tsq t))) /\ Forall2 (moved_tensor (rename r)) (ttensors t) xs.
Proof.
  unfold relabel_indices. destruct (replace_op_indices _ _ _) as [o1|] eqn:Eo; [|discriminate]. cbn [pybind]. destruct (canonicalize_op _ o1) as [[o2 s0]|] eqn:Ec; [|discriminate]. cbn [pybind].
  destruct (replace_tensors_indices _ _) as [xs1|] eqn:Ex; [|discriminate]. cbn [pybind]. destruct (pymap canonicalize_tensor xs1) as [ys|] eqn:Ey; [|discriminate]. cbn [pybind fst snd].
  intros H. injection H as <- <- <-. apply replace_op_ok in Eo as (-> & N1 & N2).
  unfold canonicalize_op in Ec. destruct (canonicalize_pair _ _ _) as [[[u l] s]|] eqn:Ep; [|discriminate]. cbn [pybind] in Ec. injection Ec as <- <-.
  destruct (canonicalize_pair_any _ _ _ _ _ _ N1 N2 Ep) as (su & sl & -> & R1 & R2 & _).
  assert (G : forall l1 l2 l3, pymap (replace_tensor r) l1 = Ok l2 -> pymap canonicalize_tensor l2 = Ok l3 -> Forall2 (moved_tensor (rename r)) l1 (map fst l3) /\ (forall z, (z = 1 \/ z = -1)%Z -> (fold_left Z.mul (map snd l3) z = 1 \/ fold_left Z.mul (map snd l3) z = -1)%Z)).
  { induction l1 as [|x l1 IH]; intros l2 l3 E2 E3; cbn [pymap] in E2; [injection E2 as <-; cbn [pymap] in E3; injection E3 as <-; split; [constructor|auto]|].
    destruct (replace_tensor r x) as [y|] eqn:E; [|discriminate]. cbn [pybind] in E2. destruct (pymap (replace_tensor r) l1) as [m|]; [|discriminate]. cbn [pybind] in E2. injection E2 as <-. cbn [pymap] in E3.
    destruct (canonicalize_tensor y) as [[y' sy]|] eqn:E'; [|discriminate]. cbn [pybind] in E3. destruct (pymap canonicalize_tensor m) as [m'|] eqn:Em; [|discriminate]. cbn [pybind] in E3. injection E3 as <-.
    apply replace_tensor_ok in E as (-> & M1 & M2). destruct (canon_tensor_shape _ _ _ M1 M2 E') as [Q1 Q2]. destruct (IH m m' eq_refl Em) as [F1 F2]. split.
    - cbn [map fst]. constructor; [|exact F1]. unfold moved_tensor in *. cbn [rename_tensor tcls tname tupper tlower] in Q1. rewrite !map_id in Q1. exact Q1.
    - intros z Hz. cbn [map snd fold_left]. apply F2, unit_mul; assumption. }
  unfold replace_tensors_indices in Ex. destruct (ttensors t) as [|x0 l0] eqn:Et; [discriminate|]. destruct (G _ _ _ Ex Ey) as [F1 F2]. split; [|split; [|split; [|exact F1]]].
  - apply unit_mul; [apply unit_mul; eapply reorder_unit; eassumption|apply F2; auto].
  - cbn [cre]. symmetry. apply (reorder_sign_perm _ _ _ R1).
  - cbn [ann]. symmetry. apply (reorder_sign_perm _ _ _ R2).
Qed.

(** ** the hypotheses on terms survive an injective renaming *)
Lemma NoDup_map_on {B C} (f : B -> C) l : (forall x y, In x l -> In y l -> f x = f y -> x = y) -> NoDup l -> NoDup (map f l).
Proof.
  intros H N. induction N as [|x l Hx N IH]; [constructor|]. cbn [map]. constructor.
  - intros Q. apply in_map_iff in Q as (y & E & Hy). apply Hx. rewrite (H x y); [exact Hy|left; reflexivity|right; exact Hy|symmetry; exact E].
  - apply IH. intros a b Ha Hb. apply H; right; assumption.
Qed.
Definition higher_cumulant (x : tensor) : Prop := tcls x = TCumulant /\ length (tupper x) <> 1.
(** no index of the operator sits on a two- or higher-body cumulant *)
Definition operator_off_cumulants (xs : list tensor) (o : op) : Prop := forall x i, In x xs -> higher_cumulant x -> In i (tensor_indices x) -> ~ In i (cre o ++ ann o).

Section Moved.
  Context (rho : idx -> idx) (xs ys : list tensor) (o o' : op).
  Context (F : Forall2 (moved_tensor rho) xs ys) (Pc : Permutation (cre o') (map rho (cre o))) (Pa : Permutation (ann o') (map rho (ann o))).
  Context (HI : forall i j, In i (content_indices xs o) -> In j (content_indices xs o) -> rho i = rho j -> i = j).

  Lemma moved_from y : In y ys -> exists x, In x xs /\ moved_tensor rho x y.
  Proof. clear Pc Pa HI. induction F as [|x z l m Q H IH]; [intros []|]. intros [<-|Hy]; [exists x; split; [left; reflexivity|exact Q]|]. destruct (IH H Hy) as (w & Hw & Q'). exists w. split; [right; exact Hw|exact Q']. Qed.
  Lemma tensor_content x i : In x xs -> In i (tensor_indices x) -> In i (content_indices xs o).
  Proof. intros Hx Hi. unfold content_indices. apply in_or_app. right. apply in_flat_map. exists x. auto. Qed.
  Lemma moved_diagonal : (forall i, ~ diagonal_in i xs o) -> forall i, ~ diagonal_in i ys o'.
  Proof.
    intros ND i [[H1 H2]|(y & Hy & H1 & H2)].
    - rewrite Pc in H1. rewrite Pa in H2. apply in_map_iff in H1 as (a & E1 & H1). apply in_map_iff in H2 as (b & E2 & H2). apply (ND a). left. split; [exact H1|]. rewrite (HI a b); [exact H2| | |congruence]; unfold content_indices, op_indices; rewrite !in_app_iff; auto.
    - destruct (moved_from y Hy) as (x & Hx & _ & _ & P1 & P2 & _). rewrite P1 in H1. rewrite P2 in H2. apply in_map_iff in H1 as (a & E1 & H1). apply in_map_iff in H2 as (b & E2 & H2). apply (ND a). right. exists x. split; [exact Hx|]. split; [exact H1|].
      rewrite (HI a b); [exact H2| | |congruence]; apply (tensor_content x); auto; unfold tensor_indices; apply in_or_app; auto.
  Qed.
  Lemma moved_indices : Permutation (flat_map tensor_indices (filter is_density ys)) (map rho (flat_map tensor_indices (filter is_density xs))).
  Proof.
    clear Pc Pa HI. induction F as [|x y l m (E1 & _ & P1 & P2 & _) H IH]; [reflexivity|]. cbn [filter]. replace (is_density y) with (is_density x) by (unfold is_density; rewrite E1; reflexivity). destruct (is_density x); [|apply IH, H].
    cbn [flat_map]. rewrite map_app, (IH H). apply Permutation_app_tail. unfold tensor_indices. rewrite map_app. apply Permutation_app; assumption.
  Qed.
  Lemma moved_densities : densities_disjoint xs -> densities_disjoint ys.
  Proof.
    intros N. unfold densities_disjoint. rewrite moved_indices. apply NoDup_map_on; [|exact N]. intros a b Ha Hb. apply HI; [apply in_flat_map in Ha as (x & Hx & Ha)|apply in_flat_map in Hb as (x & Hx & Hb)]; apply filter_In in Hx as [Hx _]; apply (tensor_content x); assumption.
  Qed.
  Lemma moved_classes : classes_by_name xs -> classes_by_name ys.
  Proof. intros HC x y Hx Hy E. destruct (moved_from x Hx) as (x' & Hx' & C1 & N1 & _), (moved_from y Hy) as (y' & Hy' & C2 & N2 & _). rewrite C1, C2. apply HC; congruence. Qed.
  Lemma moved_active : operator_off_cumulants xs o -> (forall i, In i (content_indices xs o) -> ~ In i (cre o ++ ann o) -> fst (rho i) = fst i) -> cumulants_open_active xs -> cumulants_open_active ys.
  Proof.
    intros HO HL HA y i Hy E Ly Hi. destruct (moved_from y Hy) as (x & Hx & C1 & _ & P1 & P2 & _). assert (Hi' : In i (map rho (tensor_indices x))).
    { unfold tensor_indices in *. rewrite map_app. apply in_app_iff in Hi. apply in_or_app. destruct Hi as [Hi|Hi]; [left; rewrite <- P1; exact Hi|right; rewrite <- P2; exact Hi]. }
    apply in_map_iff in Hi' as (j & <- & Hj). assert (HH : higher_cumulant x) by (split; [congruence|]; apply Permutation_length in P1; rewrite map_length in P1; congruence).
    rewrite HL; [|apply (tensor_content x); assumption|apply (HO x); assumption]. apply (HA x); destruct HH; auto.
  Qed.
  Lemma moved_valid : Forall valid_tensor ys.
  Proof. apply Forall_forall. intros y Hy. apply moved_from in Hy as (x & _ & _ & _ & _ & _ & V). exact V. Qed.
End Moved.

Section Restrict.
  Context (A : qalg) (S : system) (v : tvaluation A) (sympy : sympy_oracle).
  Context (AD : admissible sympy) (PH : physical S v) (NA : no_active_amplitudes S v) (HH : hermitian_values v).

  (** restriction of the operator indices to the orbitals of the new labels *)
  Lemma restrict_value ty xs o c t r tm :
    make_term ty xs o c = Ok t -> (forall i, ~ diagonal_in i xs o) -> densities_disjoint xs -> cumulants_open_active xs -> operator_off_cumulants xs o ->
    classes_by_name xs -> length (cre o) = length (ann o) -> zero_or_visible c ->
    (itype_antisymmetric ty = true -> antisymmetric v) -> (itype_antisymmetric ty = false -> pair_symmetric v) ->
    (forall i, In i (content_indices xs o) -> In i (map fst r)) -> NoDup (map snd r) ->
    (forall i, In i (content_indices xs o) -> ~ In i (cre o ++ ann o) -> fst (rename r i) = fst i) ->
    (forall i, In i (cre o ++ ann o) -> incl (relation (fst (rename r i))) (relation (fst i))) ->
    relabel_and_canonicalize sympy t r = Ok tm ->
    term_value S v tm = (inj c * sum_over S (nodup idx_eq_dec (content_indices xs o)) (fun e =>
      if forallb (fun i => mem_label (olabel S (e i)) (relation (fst (rename r i)))) (cre o ++ ann o) then integrand v xs o e else q0))%alg /\ ttype tm = ty /\ (tcoeff tm = c \/ tcoeff tm = Qcopp c \/ tcoeff tm = Q2Qc 0).
  Proof.
    intros M ND HD HA HO HC HB HZ AS PS HK HN HL HR H. unfold relabel_and_canonicalize in H. destruct (relabel_indices t r) as [[[sign xs'] o']|] eqn:Er; [|discriminate]. cbn [pybind] in H.
    destruct (make_term (ttype t) xs' o' _) as [t2|] eqn:M2; [|discriminate]. cbn [pybind] in H.
    destruct (make_term_fields _ _ _ _ _ M) as (E1 & P1 & _ & E2 & E3 & _).
    destruct (relabel_shape _ _ _ _ _ Er) as (Us & Pc & Pa & F). rewrite E2 in Pc, Pa.
    assert (CI : forall i, In i (content_indices (ttensors t) o) <-> In i (content_indices xs o)) by (intros i; apply content_perm, P1).
    assert (RI : forall i j, In i (content_indices xs o) -> In j (content_indices xs o) -> rename r i = rename r j -> i = j) by (intros i j Hi Hj; apply rename_inj; auto).
    assert (RI' : forall i j, In i (content_indices (ttensors t) o) -> In j (content_indices (ttensors t) o) -> rename r i = rename r j -> i = j) by (intros i j Hi Hj; apply RI; apply CI; assumption).
    assert (IN : forall x, In x (ttensors t) <-> In x xs) by (intros x; split; apply Permutation_in; [exact P1|symmetry; exact P1]).
    assert (AS' : itype_antisymmetric (ttype t) = true -> antisymmetric v) by (rewrite E1; exact AS).
    destruct (relabel_ok A S v _ _ _ _ _ _ Er M2 AS') as (V & _ & _).
    assert (ZV : zero_or_visible (Qcmult (tcoeff t) (Qc_of_Z sign))).
    { rewrite E3. destruct Us as [-> | ->].
      - replace (Qcmult c (Qc_of_Z 1)) with c by (unfold Qc_of_Z; change (Q2Qc (inject_Z 1)) with (Q2Qc 1); ring). exact HZ.
      - replace (Qcmult c (Qc_of_Z (-1))) with (Qcopp c) by (unfold Qc_of_Z; replace (Q2Qc (inject_Z (-1))) with (Qcopp (Q2Qc 1)) by (apply Qc_is_canon; reflexivity); ring).
        destruct HZ as [-> | [Q|Q]]; [left; apply Qc_is_canon; reflexivity|right; right; apply Qcopp_le_compat in Q|right; left; apply Qcopp_le_compat in Q].
        + replace (Q2Qc (-1 # 1000000000000000)) with (Qcopp (Q2Qc (1 # 1000000000000000))) by (apply Qc_is_canon; reflexivity). exact Q.
        + replace (Q2Qc (1 # 1000000000000000)) with (Qcopp (Q2Qc (-1 # 1000000000000000))) by (apply Qc_is_canon; reflexivity). exact Q. }
    destruct (C42_canonicalize_value A S v sympy true true true (ttype t) xs' o' _ t2 tm M2) as (V2 & C2 & T2); try assumption.
    - apply (moved_diagonal (rename r) (ttensors t) xs' o o'); try assumption. intros i Hd. apply (ND i). destruct Hd as [Hd|(x & Hx & Hd)]; [left; exact Hd|right; exists x; rewrite <- IN; auto].
    - apply (moved_valid (rename r) (ttensors t) xs'); assumption.
    - apply (moved_densities (rename r) (ttensors t) xs' o); try assumption. unfold densities_disjoint. rewrite (Permutation_flat_map tensor_indices (perm_filter is_density _ _ P1)). exact HD.
    - apply (moved_active (rename r) (ttensors t) xs' o); try assumption.
      + intros x i Hx. apply HO, IN, Hx.
      + intros i Hi. apply HL, CI, Hi.
      + intros x i Hx. apply HA, IN, Hx.
    - apply (moved_classes (rename r) (ttensors t) xs'); try assumption. intros x y Hx Hy. apply HC; apply IN; assumption.
    - apply Permutation_length in Pc, Pa. rewrite map_length in Pc, Pa. congruence.
    - intros _. exact NA.
    - rewrite E1. exact PS.
    - intros _. exact HH.
    - rewrite V2, V, E2, E3. split; [|split; [congruence|]].
      + rewrite (content_value_perm A S v c _ (map (rename_tensor (rename r)) xs)) by (apply Permutation_map, P1).
        assert (HR' : forall i, In i (content_indices xs o) -> incl (relation (fst (rename r i))) (relation (fst i))).
        { intros i Hi. destruct (in_dec idx_eq_dec i (cre o ++ ann o)) as [Q|Q]; [apply HR, Q|]. rewrite HL by assumption. intros x Hx. exact Hx. }
        rewrite content_value_rename.
        * f_equal. apply sum_over_ext; [|apply NoDup_nodup]. intros e He. destruct (forallb _ (cre o ++ ann o)) eqn:Ef.
          -- rewrite (proj2 (compat_spec S _ _ _)); [reflexivity|]. split.
             ++ intros i Hi. pose proof (He i Hi) as Ho. apply nodup_In in Hi. destruct (in_dec idx_eq_dec i (cre o ++ ann o)) as [Q|Q].
                ** rewrite forallb_forall in Ef. specialize (Ef i Q). unfold orbitals in *. apply filter_In in Ho as [Ho _]. apply filter_In. split; assumption.
                ** unfold orbitals in *. rewrite HL by assumption. exact Ho.
             ++ intros i j Hi Hj Eij. rewrite (RI i j); [reflexivity|apply nodup_In in Hi; exact Hi|apply nodup_In in Hj; exact Hj|exact Eij].
          -- destruct (compat S (rename r) _ e) eqn:Ec; [|reflexivity]. exfalso. apply compat_spec in Ec as [C1 _]. rewrite (proj2 (forallb_forall _ _)) in Ef; [discriminate|]. intros i Hi.
             specialize (C1 i). unfold orbitals in C1. rewrite filter_In in C1. apply C1. apply nodup_In. unfold content_indices. apply in_or_app. left. exact Hi.
        * intros i Hi p Hp. unfold orbitals in *. apply filter_In in Hp as [Hp1 Hp2]. apply filter_In. split; [exact Hp1|]. unfold mem_label in *. apply existsb_exists in Hp2 as (x & Hx & Q). apply existsb_exists. exists x. split; [apply HR'; assumption|exact Q].
      + rewrite E3 in C2. destruct Us as [-> | ->].
        * replace (Qcmult c (Qc_of_Z 1)) with c in C2 by (unfold Qc_of_Z; change (Q2Qc (inject_Z 1)) with (Q2Qc 1); ring). exact C2.
        * replace (Qcmult c (Qc_of_Z (-1))) with (Qcopp c) in C2 by (unfold Qc_of_Z; replace (Q2Qc (inject_Z (-1))) with (Qcopp (Q2Qc 1)) by (apply Qc_is_canon; reflexivity); ring).
          destruct C2 as [C2|[C2|C2]]; [auto|left; rewrite C2; ring|auto].
  Qed.
End Restrict.

(** ** make_ddca keeps the chosen blocks *)
Lemma ddca_blocks_value (A : qalg) (S : system) (v : tvaluation A) xs o c bs ts : NoDup (op_indices o) -> NoDup bs ->
  (forall b, In b bs -> Forall2 (fun s i => In s (relation (fst i))) b (op_indices o)) ->
  Forall2 (fun b t' => map fst (op_indices (tsq t')) = b /\ tcoeff t' = c /\
      exists rho, tsq t' = rename_op rho o /\ Permutation (ttensors t') (map (rename_tensor rho) xs) /\
        (forall i, In i (content_indices xs o) -> ~ In i (op_indices o) -> fst (rho i) = fst i) /\
        (forall i j, In i (content_indices xs o) -> In j (content_indices xs o) -> rho i = rho j -> i = j)) bs ts ->
  asum (map (term_value S v) ts) = (inj c * sum_over S (nodup idx_eq_dec (content_indices xs o)) (fun e => if in_dec (list_eq_dec label_dec) (map (fun i => olabel S (e i)) (op_indices o)) bs then integrand v xs o e else q0))%alg.
Proof.
  intros N Nb Hb' F. set (I := nodup idx_eq_dec (content_indices xs o)).
  assert (NI : NoDup I) by apply NoDup_nodup.
  assert (OI : forall i, In i (op_indices o) -> In i I). { intros i Hi. apply nodup_In. unfold content_indices. apply in_or_app. left. exact Hi. }
  set (sel := fun (b : list label) (e : idx -> nat) => if list_eq_dec label_dec b (map (fun i => olabel S (e i)) (op_indices o)) then integrand v xs o e else q0).
  assert (EV : map (term_value S v) ts = map (fun b => (inj c * sum_over S I (sel b))%alg) bs).
  { assert (IN : forall b, In b bs -> Forall2 (fun s i => In s (relation (fst i))) b (op_indices o)) by (intros b; apply Hb'). clear Hb' Nb.
    induction F as [|b t' bs ts (B1 & B3 & rho & B4 & B5 & B6 & B8) F IH]; [reflexivity|]. cbn [map]. f_equal; [|apply IH; intros b' Hb'; apply IN; right; exact Hb'].
    unfold term_value. rewrite B3, B4, (content_value_perm A S v c _ _ _ B5). 
    specialize (IN b (or_introl eq_refl)).
    assert (EL : map (fun i => fst (rho i)) (op_indices o) = b). { rewrite <- B1, B4. unfold op_indices, rename_op. cbn [cre ann]. rewrite <- map_app, map_map. reflexivity. }
    assert (RO : forall i, In i (op_indices o) -> In (fst (rho i)) (relation (fst i))).
    { rewrite <- EL in IN. clear -IN. induction (op_indices o) as [|x l IH]; intros i Hi; [destruct Hi|]. cbn [map] in IN. inversion IN; subst. destruct Hi as [<-|Hi]; [assumption|]. apply IH; assumption. }
    assert (RI : forall i p, In i (content_indices xs o) -> In p (orbitals S (rho i)) -> In p (orbitals S i)).
    { intros i p Hi Hp. apply orbitals_in in Hp as [Hp1 Hp2]. apply orbitals_in. split; [exact Hp1|]. destruct (in_dec idx_eq_dec i (op_indices o)) as [Ho|Ho].
      - pose proof (RO i Ho) as R. rewrite (relation_elem _ _ R) in Hp2. destruct Hp2 as [<-|[]]. exact R.
      - rewrite (B6 i Hi Ho) in Hp2. exact Hp2. }
    rewrite content_value_rename by (intros i Hi p; apply RI, Hi). f_equal. fold I. apply sum_over_ext; [|exact NI]. intros e He.
    unfold sel. destruct (list_eq_dec _ b _) as [Eb|Eb].
    - rewrite (proj2 (compat_spec S rho I e)); [reflexivity|]. split.
      + intros i Hi. pose proof (He i Hi) as Hi'. apply orbitals_in in Hi' as [Hi1 Hi2]. apply orbitals_in. split; [exact Hi1|]. destruct (in_dec idx_eq_dec i (op_indices o)) as [Ho|Ho].
        * rewrite (relation_elem _ _ (RO i Ho)). left. rewrite <- EL in Eb. clear -Eb Ho. induction (op_indices o) as [|x l IH]; [destruct Ho|]. cbn [map] in Eb. inversion Eb. destruct Ho as [<-|Ho]; auto.
        * rewrite (B6 i) by (try exact Ho; apply nodup_In in Hi; exact Hi). exact Hi2.
      + intros i j Hi Hj Er. apply nodup_In in Hi, Hj. rewrite (B8 i j); auto.
    - destruct (compat S rho I e) eqn:Ec; [|reflexivity]. exfalso. apply Eb. rewrite <- EL. apply map_ext_in. intros i Hi. apply compat_spec in Ec as [Ec _]. specialize (Ec i (OI i Hi)).
      apply orbitals_in in Ec as [_ Ec]. rewrite (relation_elem _ _ (RO i Hi)) in Ec. destruct Ec as [Ec|[]]. exact Ec. }
  rewrite EV, asum_map_mul. f_equal. unfold sum_over. rewrite asum_swap. apply asum_map_ext. intros a _. set (e := env I a).
  destruct (in_dec _ _ bs) as [Q|Q].
  - rewrite (asum_single A (fun b => sel b e) bs _ Nb Q).
    + unfold sel. destruct (list_eq_dec _ _ _); [reflexivity|contradiction].
    + intros b _ Hne. unfold sel. destruct (list_eq_dec _ _ _); [contradiction|reflexivity].
  - rewrite <- (asum_zero A bs). apply asum_map_ext. intros b Hb. unfold sel. destruct (list_eq_dec _ _ _) as [E|]; [|reflexivity]. subst b. contradiction.
Qed.
Lemma Forall2_filter {B C} (P : B -> C -> Prop) (p : B -> bool) (q : C -> bool) l m : (forall x y, P x y -> p x = q y) -> Forall2 P l m -> Forall2 P (filter p l) (filter q m).
Proof. intros H F. induction F as [|x y l m Hx F IH]; [constructor|]. cbn [filter]. rewrite (H x y Hx). destruct (q y); [constructor|]; assumption. Qed.
Lemma ddca_value (A : qalg) (S : system) (v : tvaluation A) mc mv sr start ty xs o c t ts (P : list label -> bool) : make_term ty xs o c = Ok t -> NoDup (op_indices o) -> make_ddca mc mv sr start t = Ok ts ->
  asum (map (term_value S v) (filter (fun t' => P (map fst (op_indices (tsq t')))) ts)) =
  (inj c * sum_over S (nodup idx_eq_dec (content_indices xs o)) (fun e => let b := map (fun i => olabel S (e i)) (op_indices o) in if P b && ddca_kept mc mv sr b then integrand v xs o e else q0))%alg.
Proof.
  intros M N H. destruct (make_ddca_spec _ _ _ _ _ _ _ _ _ _ M N H) as (bs & Nb & Hb & F). clear H.
  rewrite (ddca_blocks_value A S v xs o c (filter P bs)); [|exact N|apply NoDup_filter', Nb|intros b Q; apply filter_In in Q as [Q _]; apply Hb in Q; tauto|].
  - f_equal. apply sum_over_ext; [|apply NoDup_nodup]. intros e He. cbv zeta. set (b := map _ (op_indices o)). assert (Fb : Forall2 (fun s i => In s (relation (fst i))) b (op_indices o)).
    { unfold b. assert (G : forall l, incl l (op_indices o) -> Forall2 (fun s i => In s (relation (fst i))) (map (fun i => olabel S (e i)) l) l).
      { induction l as [|x l IH]; intros Hl; cbn [map]; constructor; [|apply IH; intros z Hz; apply Hl; right; exact Hz]. specialize (He x). rewrite orbitals_in in He. apply He, nodup_In. unfold content_indices. apply in_or_app. left. apply Hl. left. reflexivity. }
      apply G. intros i Hi. exact Hi. }
    destruct (in_dec _ b _) as [Q|Q].
    + apply filter_In in Q as [Q1 Q2]. apply Hb in Q1. rewrite Q2, (proj2 (ddca_kept_spec mc mv sr b)); [reflexivity|tauto].
    + destruct (P b) eqn:EP; [|reflexivity]. destruct (ddca_kept mc mv sr b) eqn:EK; [|reflexivity]. exfalso. apply Q, filter_In. split; [|exact EP]. apply Hb. apply ddca_kept_spec in EK. tauto.
  - apply Forall2_filter; [intros b t' [<- _]; reflexivity|]. revert F. apply Forall2_impl_in. intros b t' _ _ (B1 & B2 & B3 & rho & B4 & B5 & B6 & B7 & B8). split; [exact B1|]. split; [exact B3|]. exists rho. auto.
Qed.

(** ** the replacements *)
Lemma fill_spec start O spaces L : NoDup O -> length spaces = length O ->
  let r := fst (fold_left minimal_step L (fold_left (fun st p => put_fresh (fst p) (snd p) st) (combine O spaces) ([], fun _ => start))) in
  NoDup (map fst r) /\ NoDup (map snd r) /\ (forall i, In i O \/ In i L <-> In i (map fst r)) /\
  map (fun i => fst (rename r i)) O = spaces /\ (forall i, In i (map fst r) -> ~ In i O -> fst (rename r i) = fst i).
Proof.
  intros N Ls. cbv zeta. set (r := fst _).
  assert (EO : map fst (combine O spaces) = O) by (apply map_fst_combine; lia).
  destruct (ddca_fold (combine O spaces) [] (fun _ => start)) as (gens & next1 & H1 & H2 & H3). { cbn [map app]. rewrite EO. exact N. }
  rewrite EO in H1. rewrite map_snd_combine in H3 by lia. cbn [app] in H1.
  assert (Lg : length gens = length O). { apply (f_equal (@length label)) in H3. rewrite map_length in H3. exact (eq_trans H3 Ls). }
  destruct (minimal_fold L (combine O gens) next1) as (ev & next2 & G1 & G2 & G3 & G4 & G5 & G6). { rewrite map_fst_combine by exact Lg. exact N. }
  assert (Er : r = combine O gens ++ ev). { unfold r. etransitivity; [apply (f_equal (fun st => fst (fold_left minimal_step L st)) H1)|]. rewrite G1. reflexivity. }
  assert (Egen : generates (fun _ => start) (map snd r) next2). { rewrite Er, map_app, map_snd_combine by exact Lg. eapply generates_app; eassumption. }
  destruct (generates_spec _ _ _ Egen) as (Nv & _ & Hv).
  assert (Nk : NoDup (map fst r)) by (rewrite Er; exact G2).
  split; [exact Nk|]. split; [exact Nv|]. split; [|split].
  - intros i. rewrite Er, map_app, in_app_iff, map_fst_combine by exact Lg. split.
    + intros [H|H]; [left; exact H|]. apply G4 in H. rewrite map_app, in_app_iff, map_fst_combine in H by exact Lg. exact H.
    + intros [H|H]; [left; exact H|right; apply G3, H].
  - rewrite <- H3, <- map_map. f_equal. apply map_rename_combine; [exact Nk|exact Lg|]. intros i j Hij. rewrite Er. apply in_or_app. left. exact Hij.
  - intros i Hi Ho. pose proof (rename_in r i Hi) as Hr. rewrite Er in Hr at 2. apply in_app_or in Hr as [Hr|Hr]; [|apply G6, Hr].
    apply in_combine_l in Hr. contradiction.
Qed.

Lemma overlap_some b s l s' : In s [Sc; Sv; Sh; Sp] -> overlap_label (Lab b s) l = Some s' -> forall x, In x (relation s') <-> In x (relation (Lab b s)) /\ In x (relation l).
Proof. intros Hs H x. destruct l as [b' l]. destruct b, b', l; destruct Hs as [<-|[<-|[<-|[<-|[]]]]]; cbn in H; try discriminate; injection H as <-; cbn; intuition (subst; auto; try discriminate). Qed.
Lemma overlap_none t l : overlap_label t l = None -> forall x, In x (relation t) -> ~ In x (relation l).
Proof.
  unfold overlap_label. intros H x H1 H2. assert (Q : In x (inter_label (relation t) (relation l))) by (unfold inter_label; apply filter_In; split; [exact H1|apply mem_label_in, H2]).
  destruct (inter_label _ _); [destruct Q|]. destruct (_ =? _); discriminate.
Qed.
Lemma restrict_loop_some target l : forall st st', restrict_loop target l st = Some st' -> exists labels, Forall2 (fun i s => overlap_label target (fst i) = Some s) l labels /\ st' = fold_left (fun st p => put_fresh (fst p) (snd p) st) (combine l labels) st.
Proof.
  induction l as [|i l IH]; intros st st' H; cbn [restrict_loop] in H; [injection H as <-; exists []; split; [constructor|reflexivity]|].
  destruct (overlap_label target (fst i)) as [s|] eqn:E; [|discriminate]. apply IH in H as (labels & F & ->). exists (s :: labels). split; [constructor; assumption|reflexivity].
Qed.
Lemma restrict_loop_none target l : forall st, restrict_loop target l st = None -> exists i, In i l /\ overlap_label target (fst i) = None.
Proof.
  induction l as [|i l IH]; intros st H; cbn [restrict_loop] in H; [discriminate|]. destruct (overlap_label target (fst i)) as [s|] eqn:E; [|exists i; split; [left; reflexivity|exact E]].
  apply IH in H as (j & Hj & Q). exists j. split; [right; exact Hj|exact Q].
Qed.
