(** canonicalize_sympy returns: every exception but those of SymPy is excluded. *)
From Coq Require Import Ascii String ZArith QArith Qcanon Sorting.Sorted.
From Verif Require Import PyBase OrderSpec OrderProofs SortProofs ParitySpec ParityProofs SpaceModel IndicesModel IterProofs IndicesProofs SpaceProofs ElemModel MacroModel TermModel ValueSpec ValueProofs TermSpec SumProofs TermProofs RenameProofs
  SimplifyProofs CanonProofs SymmetryModel SymmetrySpec SymmetryProofs SympyProofs SympyValue SympyShape ReturnSpec.
Local Close Scope Q_scope.
Local Close Scope Qc_scope.
Local Open Scope nat_scope.
Local Notation length := List.length.

(** ** Checks that succeed *)
Definition alpha_ok (ty : itype) (l : list idx) : Prop := ty = SpinOrbital -> forall i, In i l -> idx_beta i = false.
Lemma typed_returns ty l : NoDup l -> alpha_ok ty l -> make_typed ty l = Ok l.
Proof.
  intros N A. unfold make_typed. rewrite (proj2 (nodup_idx_spec l) N). destruct (itype_eqb ty SpinOrbital) eqn:E; [|reflexivity]. assert (ty = SpinOrbital) as -> by (destruct ty; try discriminate; reflexivity). cbn [andb].
  destruct (existsb idx_beta l) eqn:B; [|reflexivity]. apply existsb_exists in B as (i & Hi & B). rewrite (A eq_refl i Hi) in B. discriminate.
Qed.
Lemma alpha_incl ty l m : incl m l -> alpha_ok ty l -> alpha_ok ty m.
Proof. intros I A E i Hi. apply (A E), I, Hi. Qed.

(** the check of a tensor depends on the labels only *)
Definition label_betas (l : list label) : nat := length (filter lbeta l).
Lemma n_beta_labels l : n_beta l = label_betas (map fst l).
Proof. unfold n_beta, label_betas. induction l as [|i l IH]; [reflexivity|]. cbn [filter map]. unfold idx_beta at 1. destruct (lbeta (fst i)); cbn [length]; rewrite IH; reflexivity. Qed.
Definition label_mixed (l : list label) : bool := mixed_block (map (fun s => (s, 0)) l).
Lemma mixed_labels l : mixed_block l = label_mixed (map fst l).
Proof.
  unfold label_mixed, mixed_block. f_equal; induction l as [|i l IH]; cbn [existsb map]; [reflexivity| |reflexivity|]; rewrite IH; reflexivity.
Qed.
Lemma existsb_perm {X} (f : X -> bool) l m : Permutation l m -> existsb f l = existsb f m.
Proof. induction 1; cbn; [reflexivity|congruence| |congruence]. destruct (f x), (f y); reflexivity. Qed.
Lemma label_betas_perm l m : Permutation l m -> label_betas l = label_betas m.
Proof. intros P. unfold label_betas. apply Permutation_length. apply BacktrackProofs.perm_filter, P. Qed.
Lemma label_mixed_perm l m : Permutation l m -> label_mixed l = label_mixed m.
Proof. intros P. unfold label_mixed, mixed_block. f_equal; apply existsb_perm, Permutation_map, P. Qed.

Lemma valid_labels x y : tcls y = tcls x -> Permutation (map fst (tupper y)) (map fst (tupper x)) -> Permutation (map fst (tlower y)) (map fst (tlower x)) -> valid_tensor x -> valid_tensor y.
Proof.
  intros E U L. unfold valid_tensor, check_tensor, is_spin_conserving. rewrite E. rewrite !n_beta_labels, !mixed_labels, (label_betas_perm _ _ U), (label_betas_perm _ _ L), (label_mixed_perm _ _ U), (label_mixed_perm _ _ L).
  assert (LU : length (tupper y) = length (tupper x)) by (apply Permutation_length in U; rewrite !map_length in U; exact U). assert (LL : length (tlower y) = length (tlower x)) by (apply Permutation_length in L; rewrite !map_length in L; exact L). rewrite LU, LL.
  destruct (tcls x); try (intros; reflexivity); repeat match goal with |- context [if ?b then _ else _] => destruct b; cbn [pybind] end; intros H; try discriminate H; reflexivity.
Qed.
Lemma valid_swap x y : tcls y = tcls x -> tupper y = tlower x -> tlower y = tupper x -> valid_tensor x -> valid_tensor y.
Proof.
  intros E U L. unfold valid_tensor, check_tensor, is_spin_conserving. rewrite E, U, L. rewrite (Nat.eqb_sym (length (tlower x)) (length (tupper x))), (Nat.eqb_sym (n_beta (tlower x))), (andb_comm (length (tlower x) =? 1)), (orb_comm (mixed_block (tlower x))).
  destruct (tcls x); try (intros; reflexivity); repeat match goal with |- context [if ?b then _ else _] => destruct b; cbn [pybind] end; intros H; try discriminate H; reflexivity.
Qed.

(** ** What SymPy's moves preserve *)
Record sound (ty : itype) (o : op) (xs : list tensor) : Prop := {
  sd_cre : NoDup (cre o); sd_ann : NoDup (ann o); sd_op : alpha_ok ty (op_indices o);
  sd_classes : classes_by_name xs; sd_paired : paired xs o;
  sd_tensors : forall x, In x xs -> NoDup (tupper x) /\ NoDup (tlower x) /\ valid_tensor x /\ titype x = ty /\ alpha_ok ty (tensor_indices x) }.

Lemma paired_perm xs o ys o' : Permutation (content_indices ys o') (content_indices xs o) -> paired xs o -> paired ys o'.
Proof. intros P H i. rewrite <- !content_times, (idx_times_perm i _ _ P), content_times. apply H. Qed.
Lemma classes_by_perm (xs ys : list tensor) : (forall y, In y ys -> exists x, In x xs /\ tname x = tname y /\ tcls x = tcls y) -> classes_by_name xs -> classes_by_name ys.
Proof. intros H C y z Hy Hz E. destruct (H y Hy) as (y0 & Y1 & Y2 & Y3), (H z Hz) as (z0 & Z1 & Z2 & Z3). rewrite <- Y3, <- Z3. apply C; [assumption..|congruence]. Qed.
Lemma content_mid l1 (x : tensor) l2 o : Permutation (content_indices (l1 ++ x :: l2) o) (tensor_indices x ++ content_indices (l1 ++ l2) o).
Proof. unfold content_indices. rewrite !flat_map_app. cbn [flat_map]. rewrite (Permutation_app_swap_app (flat_map tensor_indices l1)), Permutation_app_swap_app. reflexivity. Qed.

Lemma sound_movable h ty : movable h (sound ty).
Proof.
  constructor.
  - intros o o' xs [S1 S2 S3 S4 S5 S6] P1 P2. assert (P : Permutation (op_indices o') (op_indices o)) by (apply Permutation_app; assumption). constructor; try assumption.
    + eapply Permutation_NoDup; [symmetry; exact P1|exact S1].
    + eapply Permutation_NoDup; [symmetry; exact P2|exact S2].
    + apply (alpha_incl _ (op_indices o)); [|exact S3]. intros i Hi. exact (Permutation_in _ P Hi).
    + apply (paired_perm xs o); [|exact S5]. apply Permutation_app_tail, P.
  - intros o l1 x x' l2 [S1 S2 S3 S4 S5 S6] A Q. assert (Hx : In x (l1 ++ x :: l2)) by apply in_elt. assert (P : Permutation (tensor_indices x') (tensor_indices x)).
    { unfold tensor_indices. destruct Q as [[Q1 Q2]|(_ & Q1 & Q2)]; rewrite Q1, Q2; [reflexivity|apply Permutation_app_comm]. }
    assert (IN : forall y, In y (l1 ++ x' :: l2) -> y = x' \/ In y (l1 ++ x :: l2)) by (intros y; rewrite !in_app_iff; cbn; intuition).
    constructor; try assumption.
    + apply (classes_by_perm (l1 ++ x :: l2)); [|exact S4]. intros y Hy. destruct (IN y Hy) as [->|H]; [exists x; rewrite (ak_name _ _ A), (ak_class _ _ A); auto|exists y; auto].
    + apply (paired_perm (l1 ++ x :: l2) o); [|exact S5]. rewrite !content_mid, P. reflexivity.
    + intros y Hy. destruct (IN y Hy) as [->|H]; [|auto]. destruct (S6 x Hx) as (N1 & N2 & V & T & AL). assert (AL' : alpha_ok ty (tensor_indices x')) by (apply (alpha_incl _ (tensor_indices x)); [intros i Hi; exact (Permutation_in _ P Hi)|exact AL]).
      rewrite (ak_type _ _ A). destruct Q as [[Q1 Q2]|(_ & Q1 & Q2)].
      * split; [eapply Permutation_NoDup; [symmetry; exact Q1|exact N1]|]. split; [eapply Permutation_NoDup; [symmetry; exact Q2|exact N2]|]. split; [|auto].
        apply (valid_labels x); [apply (ak_class _ _ A)|apply Permutation_map, Q1|apply Permutation_map, Q2|exact V].
      * split; [eapply Permutation_NoDup; [symmetry; exact Q1|exact N2]|]. split; [eapply Permutation_NoDup; [symmetry; exact Q2|exact N1]|]. split; [|auto].
        apply (valid_labels (Ten (tcls x) (titype x) (tname x) (tpriority x) (tlower x) (tupper x))); [apply (ak_class _ _ A)|apply Permutation_map, Q1|apply Permutation_map, Q2|]. apply (valid_swap x); [reflexivity..|exact V].
  - intros o l1 x y x' y' l2 [S1 S2 S3 S4 S5 S6] A B EN EL EU E1 E2. assert (Hx : In x (l1 ++ x :: y :: l2)) by apply in_elt. assert (Hy : In y (l1 ++ x :: y :: l2)) by (apply in_or_app; right; right; left; reflexivity).
    assert (EC : tcls y = tcls x) by (apply S4; assumption).
    assert (P1 : Permutation (tensor_indices x') (tensor_indices y)) by (rewrite <- !slots_indices, E1; reflexivity).
    assert (P2 : Permutation (tensor_indices y') (tensor_indices x)) by (rewrite <- !slots_indices, E2; reflexivity).
    assert (G : forall a b c d : list idx, length a = length c -> a ++ b = c ++ d -> a = c /\ b = d).
    { clear. induction a as [|u a IH]; intros b [|w c] d L E; try discriminate; [auto|]. cbn in E. injection E as -> E. injection L as L. destruct (IH b c d L E) as [-> ->]. auto. }
    assert (X' : tlower x' = tlower y /\ tupper x' = tupper y) by (apply G; [rewrite (ak_lower _ _ A); congruence|exact E1]).
    assert (Y' : tlower y' = tlower x /\ tupper y' = tupper x) by (apply G; [rewrite (ak_lower _ _ B); congruence|exact E2]).
    destruct X' as [X1 X2], Y' as [Y1 Y2].
    assert (IN : forall z, In z (l1 ++ x' :: y' :: l2) -> z = x' \/ z = y' \/ In z (l1 ++ x :: y :: l2)) by (intros z; rewrite !in_app_iff; cbn; intuition).
    constructor; try assumption.
    + apply (classes_by_perm (l1 ++ x :: y :: l2)); [|exact S4]. intros z Hz. destruct (IN z Hz) as [->|[->|H]]; [exists x; rewrite (ak_name _ _ A), (ak_class _ _ A); auto|exists y; rewrite (ak_name _ _ B), (ak_class _ _ B); auto|exists z; auto].
    + apply (paired_perm (l1 ++ x :: y :: l2) o); [|exact S5]. rewrite !content_mid, P1, P2. rewrite !app_assoc. apply Permutation_app_tail, Permutation_app_comm.
    + intros z Hz. destruct (IN z Hz) as [->|[->|H]]; [| |auto].
      * destruct (S6 y Hy) as (N1 & N2 & V & T & AL). destruct (S6 x Hx) as (_ & _ & _ & T' & _). rewrite X1, X2, (ak_type _ _ A). split; [exact N1|]. split; [exact N2|]. split; [|split; [exact T'|apply (alpha_incl _ (tensor_indices y)); [intros i Hi; exact (Permutation_in _ P1 Hi)|exact AL]]].
        apply (valid_labels y); [rewrite (ak_class _ _ A); congruence|rewrite X2; reflexivity|rewrite X1; reflexivity|exact V].
      * destruct (S6 x Hx) as (N1 & N2 & V & T & AL). destruct (S6 y Hy) as (_ & _ & _ & T' & _). rewrite Y1, Y2, (ak_type _ _ B). split; [exact N1|]. split; [exact N2|]. split; [|split; [exact T'|apply (alpha_incl _ (tensor_indices x)); [intros i Hi; exact (Permutation_in _ P2 Hi)|exact AL]]].
        apply (valid_labels x); [rewrite (ak_class _ _ B); congruence|rewrite Y2; reflexivity|rewrite Y1; reflexivity|exact V].
  - intros o xs tau [S1 S2 S3 S4 S5 S6] F J.
    assert (IX : forall x i, In x xs -> In i (tensor_indices x) -> In i (content_indices xs o)) by (intros x i Hx Hi; unfold content_indices; apply in_or_app; right; apply in_flat_map; exists x; auto).
    assert (IO : forall i, In i (op_indices o) -> In i (content_indices xs o)) by (intros i Hi; unfold content_indices; apply in_or_app; auto).
    assert (EO : op_indices (rename_op tau o) = map tau (op_indices o)) by (unfold op_indices, rename_op; cbn [cre ann]; rewrite map_app; reflexivity).
    assert (ET : forall x, tensor_indices (rename_tensor tau x) = map tau (tensor_indices x)) by (intros x; unfold tensor_indices, rename_tensor; cbn [tupper tlower]; rewrite map_app; reflexivity).
    assert (EL : forall l : list idx, incl l (content_indices xs o) -> map fst (map tau l) = map fst l) by (intros l Hl; rewrite map_map; apply map_ext_in; intros i Hi; apply F, Hl, Hi).
    assert (ND : forall l : list idx, incl l (content_indices xs o) -> NoDup l -> NoDup (map tau l)) by (intros l Hl N; apply NoDup_map_in; [|exact N]; intros i j Hi Hj; apply J; apply Hl; assumption).
    assert (AK : forall l : list idx, incl l (content_indices xs o) -> alpha_ok ty l -> alpha_ok ty (map tau l)).
    { intros l Hl A E i Hi. apply in_map_iff in Hi as (j & <- & Hj). unfold idx_beta. rewrite (F j (Hl j Hj)). apply (A E j Hj). }
    constructor.
    + apply ND; [|exact S1]. intros i Hi. apply IO. unfold op_indices. apply in_or_app. auto.
    + apply ND; [|exact S2]. intros i Hi. apply IO. unfold op_indices. apply in_or_app. auto.
    + rewrite EO. apply AK; [exact IO|exact S3].
    + intros y z Hy Hz E. apply in_map_iff in Hy as (y0 & <- & Hy). apply in_map_iff in Hz as (z0 & <- & Hz). exact (S4 y0 z0 Hy Hz E).
    + assert (EC : content_indices (map (rename_tensor tau) xs) (rename_op tau o) = map tau (content_indices xs o)).
      { unfold content_indices. rewrite EO, map_app. f_equal. clear -ET. induction xs as [|x xs IH]; [reflexivity|]. cbn [map flat_map]. rewrite map_app, ET, IH. reflexivity. }
      intros i Hi. rewrite <- content_times, EC in Hi |- *. assert (Q : In i (map tau (content_indices xs o))) by (apply idx_times_in; exact Hi). apply in_map_iff in Q as (j & <- & Hj).
      rewrite (count_map_inj tau _ j) by (intros k Hk; apply J; assumption). rewrite content_times. apply S5. rewrite <- content_times. apply idx_times_in, Hj.
    + intros y Hy. apply in_map_iff in Hy as (x & <- & Hx). destruct (S6 x Hx) as (N1 & N2 & V & T & AL).
      assert (IU : incl (tupper x) (content_indices xs o)) by (intros i Hi; apply (IX x i Hx); unfold tensor_indices; apply in_or_app; auto).
      assert (IL : incl (tlower x) (content_indices xs o)) by (intros i Hi; apply (IX x i Hx); unfold tensor_indices; apply in_or_app; auto).
      split; [apply ND; assumption|]. split; [apply ND; assumption|]. split; [|split; [exact T|rewrite ET; apply AK; [intros i; apply (IX x i Hx)|exact AL]]].
      apply (valid_labels x); [reflexivity|cbn [rename_tensor tupper]; rewrite EL by exact IU; reflexivity|cbn [rename_tensor tlower]; rewrite EL by exact IL; reflexivity|exact V].
Qed.

(** ** The permutation given to SymPy *)
Lemma slot_labels_returns m dummy : NoDup dummy -> forall l tracker (used : idx -> nat),
  (forall k i, nth_error dummy k = Some i -> dict_get idx_eqb i tracker = Some (2 * k + used i)) ->
  (forall j, In j l -> In j (map fst m) /\ In (rename m j) dummy) -> (forall i, used i + idx_times i (map (rename m) l) <= 2) ->
  exists g, slot_labels m tracker l = Ok g /\ length g = length l /\ NoDup g /\ forall x, In x g -> exists k i, nth_error dummy k = Some i /\ 2 * k + used i <= x < 2 * k + 2.
Proof.
  intros ND. induction l as [|j l IH]; intros tracker used HT HI HC; cbn [slot_labels]; [exists []; split; [reflexivity|]; split; [reflexivity|]; split; [constructor|intros ? []]|].
  destruct (HI j (or_introl eq_refl)) as [Hj Hd]. assert (Ez : dict_get idx_eqb j m = Some (rename m j)).
  { unfold rename. destruct (dict_get idx_eqb j m) as [z|] eqn:E; [reflexivity|]. apply dget_none in E. contradiction. }
  unfold dict_item. rewrite Ez. cbn [pybind]. set (z := rename m j) in *. apply In_nth_error in Hd as [k Hk]. rewrite (HT k z Hk). cbn [pybind].
  assert (Uz : used z + 1 <= 2) by (specialize (HC z); cbn [map] in HC; unfold idx_times in HC; fold z in HC; rewrite count_occ_cons_eq in HC by reflexivity; lia).
  set (used' := fun i => if idx_eqb i z then S (used i) else used i). destruct (IH (dict_set idx_eqb z (S (2 * k + used z)) tracker) used') as (g & Eg & Lg & Ng & Hg).
  - intros k' i Hk'. unfold used'. rewrite dget_set. destruct (idx_eqb i z) eqn:Ei; [|apply HT, Hk'].
    apply idx_eqb_eq in Ei as ->. assert (k' = k) by (apply (proj1 (NoDup_nth_error dummy) ND); [apply nth_error_Some; congruence|congruence]). subst k'. f_equal. lia.
  - intros i Hi. apply HI. right. exact Hi.
  - intros i. specialize (HC i). cbn [map] in HC. fold z in HC. unfold used', idx_times in *. destruct (idx_eqb i z) eqn:Ei.
    + apply idx_eqb_eq in Ei as ->. rewrite count_occ_cons_eq in HC by reflexivity. lia.
    + rewrite count_occ_cons_neq in HC; [exact HC|]. intros E. rewrite (proj2 (idx_eqb_eq i z) (eq_sym E)) in Ei. discriminate.
  - rewrite Eg. cbn [pybind]. exists ((2 * k + used z) :: g). split; [reflexivity|]. split; [cbn [length]; lia|]. split.
    + constructor; [|exact Ng]. intros Hx. destruct (Hg _ Hx) as (k' & i & Hk' & B1 & B2). unfold used' in B1. assert (k' = k) as -> by lia. assert (i = z) as -> by congruence. rewrite (proj2 (idx_eqb_eq z z) eq_refl) in B1. lia.
    + intros x [<-|Hx]; [exists k, z; split; [exact Hk|lia]|]. destruct (Hg x Hx) as (k' & i & Hk' & B). exists k', i. split; [exact Hk'|]. unfold used' in B. destruct (idx_eqb i z); lia.
Qed.
Lemma array_returns g n : Permutation g (seq 0 n) -> is_array (g ++ [n; n + 1]) = true.
Proof.
  intros P. pose proof (Permutation_length P) as L. rewrite seq_length in L. unfold is_array. apply forallb_forall. intros k Hk. rewrite app_length in Hk. cbn [length] in Hk. apply in_seq in Hk. apply existsb_exists. exists k. split; [|apply Nat.eqb_refl].
  apply in_or_app. destruct (le_lt_dec n k); [right; cbn; lia|left]. apply (Permutation_in _ (Permutation_sym P)). apply in_seq. lia.
Qed.

(** ** Generators exist *)
Lemma generators_return ty n herm : 1 <= n -> exists gens, base_strong_generating_set ty n n herm false = Ok gens.
Proof.
  intros H. unfold base_strong_generating_set. replace (n + n =? 0) with false by (symmetry; apply Nat.eqb_neq; lia). destruct (itype_antisymmetric ty).
  - destruct herm; [|destruct (asym_plain_spec n n H H) as (g & E & _); eauto]. destruct (asym_hermitian_group n) as (g & E & _). eauto.
  - destruct (sym_group n herm) as (g & E & _). eauto.
Qed.
Lemma op_generators_return ty o : length (cre o) = length (ann o) -> 1 <= length (ann o) -> exists gens, op_generating_set ty o = Ok gens.
Proof.
  intros E H. unfold op_generating_set. rewrite E. destruct (itype_antisymmetric ty); [apply generators_return, H|]. unfold base_strong_generating_set. replace (_ + _ =? 0) with false by (symmetry; apply Nat.eqb_neq; lia). rewrite Nat.eqb_refl. eauto.
Qed.
Definition bodied (x : tensor) : Prop := length (tupper x) = length (tlower x) /\ 1 <= length (tlower x).
Lemma groups_return herm xs : Forall bodied xs -> exists runs, tensor_groups herm xs = Ok runs.
Proof.
  intros F. unfold tensor_groups. rewrite (pymap_total _ (fun x => (x, length (tlower x)))).
  2: { intros x Hx. rewrite Forall_forall in F. destruct (F x Hx) as [E _]. unfold n_body. rewrite E, Nat.eqb_refl. reflexivity. }
  cbn [pybind]. set (keyed := map _ xs). destruct (groupby_spec name_body_eqb (fun xn : tensor * nat => (tname (fst xn), snd xn)) keyed) as [C G].
  { intros [a b] [c d] H. unfold name_body_eqb in H. cbn [fst snd] in H. apply andb_true_iff in H as [H1 H2]. apply String.eqb_eq in H1. apply Nat.eqb_eq in H2. congruence. }
  set (groups := groupby _ _ keyed) in *. assert (I : forall g x, In g groups -> In x g -> In x keyed) by (intros g x Hg Hx; rewrite <- C; apply in_concat; eauto). clearbody groups. clear C.
  induction groups as [|g groups IH]; [exists []; reflexivity|]. apply Forall_cons_iff in G as [[G1 _] G]. cbn [pymap]. destruct g as [|[x n] g]; [congruence|].
  assert (Hx : In (x, n) keyed) by (apply (I ((x, n) :: g)); auto using in_eq). apply in_map_iff in Hx as (x0 & E & Hx). injection E as -> _. rewrite Forall_forall in F. destruct (F x Hx) as [E1 E2]. rewrite E1.
  destruct (generators_return (titype x) (length (tlower x)) herm E2) as [gens ->]. cbn [pybind]. destruct IH as [runs ->]; [exact G|intros g' y Hg; apply I; right; exact Hg|]. cbn [pybind]. eauto.
Qed.

(** ** Reading the answer *)
Lemma read_returns ty dummy d0 l : (forall x, In x l -> x < 2 * length dummy) -> NoDup (map (fun x => nth (x / 2) dummy d0) l) -> alpha_ok ty (map (fun x => nth (x / 2) dummy d0) l) ->
  read_indices ty dummy l = Ok (map (fun x => nth (x / 2) dummy d0) l).
Proof.
  intros B N A. unfold read_indices. rewrite (pymap_total _ (fun x => nth (x / 2) dummy d0)).
  - cbn [pybind]. apply typed_returns; assumption.
  - intros x Hx. unfold get_item. rewrite (nth_error_nth' dummy d0); [reflexivity|]. specialize (B x Hx). apply Nat.div_lt_upper_bound; lia.
Qed.
Lemma read_tensors_return ty dummy d0 xs : forall l rest, length l = slots xs -> (forall x, In x l -> x < 2 * length dummy) ->
  (forall y, In y (fac xs (map (fun x => nth (x / 2) dummy d0) l)) -> NoDup (tupper y) /\ NoDup (tlower y) /\ valid_tensor y /\ titype y = ty /\ alpha_ok ty (tensor_indices y)) ->
  exists ys, read_tensors dummy xs (l ++ rest) = Ok ys.
Proof.
  set (h := fun x => nth (x / 2) dummy d0). induction xs as [|x xs IH]; intros l rest L B V; cbn [read_tensors]; [eauto|]. rewrite slots_cons in L.
  destruct (split3 l (length (tlower x)) (length (tupper x))) as (a & b & d & -> & La & Lb); [unfold tslots in L; lia|]. rewrite !app_length in L.
  assert (EF : fac (x :: xs) (map h (a ++ b ++ d)) = one x (map h (a ++ b)) :: fac xs (map h d)) by (rewrite app_assoc, map_app; apply fac_one; rewrite map_length, app_length; unfold tslots; lia).
  rewrite EF in V. destruct (V _ (or_introl eq_refl)) as (N1 & N2 & C & T & A). cbn [one tupper tlower titype] in N1, N2, T. rewrite !map_app in *. rewrite skipn_at in N1 by (rewrite map_length; lia). rewrite firstn_at in N2 by (rewrite map_length; lia).
  unfold one in A, C. cbn [tensor_indices tupper tlower] in A. rewrite skipn_at, firstn_at in A, C by (rewrite map_length; lia). unfold tensor_indices in A. cbn [tupper tlower] in A.
  rewrite <- !app_assoc. rewrite firstn_at by lia. rewrite T. rewrite (read_returns ty dummy d0 a); [|intros y Hy; apply B; apply in_or_app; auto|exact N2|apply (alpha_incl _ _ _ (incl_appr _ (incl_refl _)) A)]. cbn [pybind].
  rewrite (skipn_at (length (tlower x))) by lia. rewrite firstn_at by lia. rewrite (read_returns ty dummy d0 b); [|intros y Hy; apply B; apply in_or_app; right; apply in_or_app; auto|exact N1|apply (alpha_incl _ _ _ (incl_appl _ (incl_refl _)) A)]. cbn [pybind].
  unfold from_indices. fold h. unfold valid_tensor in C. rewrite C. cbn [pybind]. rewrite app_assoc. rewrite skipn_at by (rewrite app_length; lia). destruct (IH d rest) as [ys ->]; [unfold tslots in L; lia|intros y Hy; apply B; rewrite !in_app_iff; auto|intros y Hy; apply V; right; exact Hy|]. cbn [pybind]. eauto.
Qed.

(** ** canonicalize_sympy returns unless SymPy answers 0 or raises *)
Lemma sympy_returns sympy core ra herm t t' : admissible sympy -> simplify core ra t = Ok t' ->
  (is_void t' = false -> Forall bodied (ttensors t') /\ length (cre (tsq t')) = length (ann (tsq t')) /\ sound (ttype t') (tsq t') (ttensors t')) ->
  returns_or_fails sympy (canonicalize_sympy sympy core ra herm t).
Proof.
  intros HS Hs HX. unfold canonicalize_sympy. rewrite Hs. cbn [pybind]. destruct (is_void t') eqn:Ev; [left; eauto|]. destruct (HX eq_refl) as (HF & HB & HP). clear HX.
  set (m := minimal_indices t') in *. set (dummy := sort_by (plt idx_ord) (map snd m)) in *. set (xs := ttensors t') in *. set (o := tsq t') in *. set (ty := ttype t') in *.
  assert (HT2 : paired xs o) by apply HP. assert (HT : Forall (fun x => titype x = ty) xs) by (apply Forall_forall; intros x Hx; apply (sd_tensors _ _ _ HP x Hx)).
  destruct (minimal_indices_spec t') as (next' & N1 & N2 & N3 & N4). fold m xs o in N1, N2, N3, N4. destruct (generates_spec _ _ _ N3) as (N5 & _ & _).
  assert (PD : Permutation dummy (map snd m)) by apply sort_by_perm. assert (ND : NoDup dummy) by (eapply Permutation_NoDup; [symmetry; exact PD|exact N5]).
  assert (HI : forall i, In i (content_indices xs o) -> In i (map fst m) /\ In (rename m i) dummy).
  { intros i Hi. apply N2 in Hi. split; [exact Hi|]. rewrite PD. apply (in_map snd) with (x := (i, rename m i)). apply rename_in, Hi. }
  assert (HJ : forall i j, In i (content_indices xs o) -> In j (content_indices xs o) -> rename m i = rename m j -> i = j) by (intros i j Hi Hj; apply (rename_inj _ _ _ N5); apply N2; assumption).
  set (l := op_slots o ++ flat_map tensor_slots xs) in *. assert (PL : Permutation l (content_indices xs o)) by apply slots_perm.
  assert (LD : length l = 2 * length dummy).
  { rewrite (Permutation_length PL), (Permutation_length PD), map_length, <- (map_length fst m). apply length_twice; [exact N1|intros i; apply N2|]. intros i Hi. apply N2, idx_times_in in Hi. rewrite content_times in *. apply HT2, Hi. }
  set (tracker := map (fun iv => (snd iv, 2 * fst iv)) (enumerate 0 dummy)).
  assert (C1 : forall k i, nth_error dummy k = Some i -> dict_get idx_eqb i tracker = Some (2 * k + 0)) by (intros k i Hk; unfold tracker; rewrite (enumerate_get dummy k 0 i ND Hk); f_equal; lia).
  assert (C2 : forall j, In j l -> In j (map fst m) /\ In (rename m j) dummy) by (intros j Hj; apply HI; rewrite <- PL; exact Hj).
  assert (C3 : forall i, 0 + idx_times i (map (rename m) l) <= 2).
  { intros i. cbn [Nat.add]. rewrite (idx_times_perm i _ _ (Permutation_map (rename m) PL)). destruct (in_dec idx_eq_dec i (map (rename m) (content_indices xs o))) as [Hi|Hi].
    - apply in_map_iff in Hi as (j & <- & Hj). rewrite count_map_inj; [|intros k Hk; apply HJ; assumption]. rewrite content_times. apply idx_times_in in Hj. rewrite content_times in Hj. rewrite (HT2 j Hj). lia.
    - unfold idx_times. rewrite (proj1 (count_occ_not_In idx_eq_dec _ _) Hi). lia. }
  destruct (slot_labels_returns m dummy ND l tracker (fun _ => 0) C1 C2 C3) as (g0 & Eg & Lg & NG & BG). rewrite Eg. cbn [pybind].
  set (d0 := (Lab false Sg, 0) : idx). destruct (slot_labels_ok m dummy d0 ND l tracker (fun _ => 0) g0 C1 C2 C3 Eg) as [R1 R2].
  assert (PG : Permutation g0 (seq 0 (length g0))).
  { apply NoDup_Permutation_bis; [exact NG|rewrite seq_length; lia|]. intros x Hx. apply in_seq. rewrite Forall_forall in R2. specialize (R2 x Hx). lia. }
  assert (Lo : length (op_slots o) = oslots o) by (unfold op_slots; rewrite app_length; reflexivity).
  assert (Lx : length (flat_map tensor_slots xs) = slots xs).
  { clear. induction xs as [|x xs IH]; [reflexivity|]. cbn [flat_map]. rewrite app_length, IH, slots_cons. unfold tensor_slots, tslots. rewrite app_length. reflexivity. }
  assert (Ll : length l = oslots o + slots xs) by (unfold l; rewrite app_length; lia).
  set (ro0 := firstn (oslots o) g0). set (rt0 := skipn (oslots o) g0). assert (Eg0 : g0 = ro0 ++ rt0) by (symmetry; apply firstn_skipn).
  assert (Lro : length ro0 = oslots o) by (unfold ro0; apply firstn_length_le; lia). assert (Lrt : length rt0 = slots xs) by (unfold rt0; rewrite skipn_length; lia).
  set (h := fun x => nth (x / 2) dummy d0) in *.
  assert (Ro : map h ro0 = map (rename m) (op_slots o)) by (unfold ro0; rewrite <- firstn_map, R1, firstn_map; f_equal; unfold l; apply firstn_at; symmetry; exact Lo).
  assert (Rt : map h rt0 = map (rename m) (flat_map tensor_slots xs)) by (unfold rt0; rewrite <- skipn_map, R1, skipn_map; f_equal; unfold l; apply skipn_at; symmetry; exact Lo).
  assert (Loi : length (op_indices o) = oslots o) by (unfold op_indices, oslots; rewrite app_length; lia).
  assert (EO : exists oruns, (if length (op_indices o) =? 0 then Ok [] else pybind (op_generating_set ty o) (fun gens => Ok [(gens, 1)])) = Ok oruns /\ (oruns = [] \/ exists gens, op_generating_set ty o = Ok gens /\ oruns = [(gens, 1)]) /\ (oruns = [] -> oslots o = 0)).
  { rewrite Loi. destruct (oslots o =? 0) eqn:E0; [apply Nat.eqb_eq in E0; exists []; auto|]. apply Nat.eqb_neq in E0. destruct (op_generators_return ty o HB) as [gens Hg]; [unfold oslots in E0; lia|]. rewrite Hg. cbn [pybind]. exists [(gens, 1)]. split; [reflexivity|]. split; [right; eauto|discriminate]. }
  destruct EO as (oruns & Eo & HO & HO0). rewrite Eo. cbn [pybind]. destruct (groups_return herm xs HF) as [runs Er]. rewrite Er. cbn [pybind].
  rewrite (array_returns g0 (length g0) PG). set (g := g0 ++ [length g0; length g0 + 1]) in *.
  assert (PG' : Permutation g (seq 0 (length g))).
  { unfold g. rewrite app_length. cbn [length]. rewrite seq_app. apply Permutation_app; [exact PG|]. cbn [seq Nat.add]. rewrite Nat.add_1_r. reflexivity. }
  destruct (sympy g (dummy_ranges dummy) (oruns ++ runs)) as [[gc|]|e] eqn:Es; cbn [pybind].
  2: { right. exists g, (dummy_ranges dummy), (oruns ++ runs). split; [exact PG'|]. left. auto. }
  2: { right. exists g, (dummy_ranges dummy), (oruns ++ runs). split; [exact PG'|]. right. eauto. }
  left. apply HS in Es. cbv zeta in Es. unfold g in Es. rewrite app_length in Es. cbn [length] in Es. replace (length g0 + 2 - 2) with (length g0) in Es by lia.
  rewrite Lg, Eg0 in Es. set (N := length l) in *.
  apply (form_mstate (sound ty) ty herm (sound_movable herm ty) xs o dummy d0 oruns runs N HB) in Es; try assumption.
  2: { apply tensor_groups_ok; assumption. }
  2: { rewrite <- Eg0. rewrite LD. exact R2. }
  2: { change (fun x : nat => nth (x / 2) dummy d0) with h. rewrite Ro, Rt, fac_rename, fop_rename, fac_self, fop_self. apply (mv_rename _ (sound_movable herm ty)); [exact HP| |exact HJ]. intros i Hi. apply (N4 i). apply rename_in, N2, Hi. }
  destruct Es as (ro & rt & s & Egc & Hsg & Lro' & Lrt' & F & V). change (fun x : nat => nth (x / 2) dummy d0) with h in V.
  rewrite Forall_forall in F. assert (Fo : forall x, In x ro -> x < 2 * length dummy) by (intros x Hx; rewrite <- LD; apply F, in_or_app; auto). assert (Ft : forall x, In x rt -> x < 2 * length dummy) by (intros x Hx; rewrite <- LD; apply F, in_or_app; auto).
  rewrite Egc. rewrite <- !app_assoc. rewrite Loi.
  assert (La : firstn (length (ann o)) (ro ++ rt ++ sign_tail N s) = firstn (length (ann o)) ro).
  { rewrite firstn_app. replace (length (ann o) - length ro) with 0 by (unfold oslots in Lro'; lia). cbn [firstn]. apply app_nil_r. }
  rewrite La. rewrite (firstn_at (oslots o)) by (symmetry; exact Lro'). rewrite (skipn_at (oslots o)) by (symmetry; exact Lro').
  assert (IF : forall k (z : list nat) x, In x (firstn k z) -> In x z) by (intros k z x Hx; rewrite <- (firstn_skipn k z); apply in_or_app; auto).
  assert (IS : forall k (z : list nat) x, In x (skipn k z) -> In x z) by (intros k z x Hx; rewrite <- (firstn_skipn k z); apply in_or_app; auto).
  pose proof (sd_cre _ _ _ V) as V1. pose proof (sd_ann _ _ _ V) as V2. pose proof (sd_op _ _ _ V) as V3. unfold op_indices in V3. cbn [fop cre ann] in V1, V2, V3. rewrite firstn_map in V2, V3. rewrite skipn_map in V1, V3.
  rewrite (read_returns ty dummy d0 (firstn (length (ann o)) ro)); [|intros x Hx; apply Fo, (IF _ _ _ Hx)|exact V2|apply (alpha_incl _ _ _ (incl_appr _ (incl_refl _)) V3)]. cbn [pybind].
  rewrite (read_returns ty dummy d0 (skipn (length (ann o)) ro)); [|intros x Hx; apply Fo, (IS _ _ _ Hx)|exact V1|apply (alpha_incl _ _ _ (incl_appl _ (incl_refl _)) V3)]. cbn [pybind]. fold h.
  destruct (read_tensors_return ty dummy d0 xs rt (sign_tail N s) Lrt' Ft (sd_tensors _ _ _ V)) as [ys Ey]. rewrite Ey. cbn [pybind].
  apply (read_tensors_ok _ d0) in Ey. fold h in Ey. assert (Eys : ys = fac xs (map h rt)). { rewrite Ey, map_app. rewrite <- (app_nil_r xs) at 1. rewrite fac_app by (rewrite map_length; exact Lrt'). cbn [fac]. apply app_nil_r. }
  rewrite Eys. rewrite <- skipn_map, <- firstn_map. change (Op (skipn (length (ann o)) (map h ro)) (firstn (length (ann o)) (map h ro))) with (fop o (map h ro)). apply make_term_ok.
  - apply Forall_forall. intros y Hy. apply (sd_tensors _ _ _ V y Hy).
  - intros i Hi. rewrite (sd_paired _ _ _ V i Hi). auto.
Qed.
