(** Spin cases of terms: which tuples survive, and their values. *)
From Coq Require Import Ascii String ZArith QArith Qcanon Ring.
From Verif Require Import PyBase OrderSpec OrderProofs SpaceModel IndicesModel IterProofs IndicesProofs SpinProofs ElemModel MacroModel TermModel ValueSpec ValueProofs TermSpec SumProofs TermProofs RenameProofs
  SimplifyProofs SimplifyValue CanonProofs SymmetryModel SymmetrySpec SympyValue PropCanon ContractValue ReturnSpec SimplifyReturns SpinCaseModel SpinCaseSpec.
Local Close Scope Q_scope.
Local Close Scope Qc_scope.
Local Open Scope nat_scope.
Local Notation length := List.length.

Definition lab (i j : idx) : Prop := j = i \/ j = idx_to_beta i.
Lemma lab_length l l' : Forall2 lab l l' -> length l = length l'.
Proof. induction 1; cbn [length]; congruence. Qed.
Definition alpha (i : idx) : Prop := idx_beta i = false.
Definition pairs (I : list idx) : list (list idx) := map (fun i => [i; idx_to_beta i]) I.

Lemma to_beta_neq i : alpha i -> idx_to_beta i <> i.
Proof. intros H E. unfold alpha in H. rewrite <- E in H. discriminate. Qed.
Lemma to_beta_inj i j : alpha i -> alpha j -> idx_to_beta i = idx_to_beta j -> i = j.
Proof. intros Hi Hj E. rewrite <- (to_alpha_beta i Hi), <- (to_alpha_beta j Hj), E. reflexivity. Qed.
Lemma lab_inj i j k : alpha i -> alpha j -> lab i k -> lab j k -> i = j.
Proof.
  intros Hi Hj [-> | ->] [E|E]; auto.
  - exfalso. unfold alpha in Hi. rewrite E in Hi. discriminate.
  - exfalso. unfold alpha in Hj. rewrite <- E in Hj. discriminate.
  - apply to_beta_inj; assumption.
Qed.
Lemma lab_beta i j k : alpha i -> lab i j -> lab i k -> idx_beta j = idx_beta k -> j = k.
Proof. unfold alpha. intros Hi [-> | ->] [-> | ->] E; try reflexivity; rewrite ?to_beta_beta in E; congruence. Qed.
Lemma lab_space i j : lab i j -> lsp (fst j) = lsp (fst i).
Proof. intros [-> | ->]; reflexivity. Qed.

Lemma in_pairs I J : In J (iproduct (pairs I)) <-> Forall2 lab I J.
Proof.
  rewrite in_iproduct. unfold pairs. revert J. induction I as [|i I IH]; intros J; cbn [map].
  - split; intros H; inversion H; constructor.
  - split; intros H; inversion H; subst; constructor; try (apply IH; assumption); unfold lab in *; cbn [In] in *; intuition.
Qed.
Lemma nodup_pairs I : Forall alpha I -> NoDup (iproduct (pairs I)).
Proof.
  intros H. apply nodup_iproduct. unfold pairs. apply Forall_map. eapply Forall_impl; [|exact H]. intros i Hi. cbn beta. constructor; [|constructor; [intros []|constructor]]. intros [E|[]]. exact (to_beta_neq i Hi E).
Qed.

(** ** Sums over both spins *)
Lemma orbitals_split S i p : alpha i -> In p (orbitals (both_spins S) i) <-> exists j, lab i j /\ In p (orbitals S j).
Proof.
  intros Hi. destruct i as [[b s] n]. unfold alpha, idx_beta in Hi. cbn in Hi. subst b. rewrite orbitals_in. cbn [both_spins norb olabel fst]. split.
  - intros [H1 H2]. exists (Lab (lbeta (olabel S p)) s, n). split; [unfold lab, idx_to_beta; cbn; destruct (lbeta (olabel S p)); auto|]. rewrite orbitals_in. split; [exact H1|]. cbn [fst].
    unfold relation in *. cbn [lbeta lsp] in *. apply in_map_iff in H2 as (e & E & He). injection E as E. apply in_map_iff. exists e. split; [|exact He]. destruct (olabel S p); cbn in *; congruence.
  - intros (j & Hj & H). rewrite orbitals_in in H. destruct H as [H1 H2]. split; [exact H1|]. unfold relation in *. apply in_map_iff in H2 as (e & E & He). apply in_map_iff. exists e. rewrite <- E. cbn [lsp lbeta]. split; [reflexivity|]. rewrite (lab_space _ _ Hj) in He. exact He.
Qed.
Lemma orbitals_beta S j p : In p (orbitals S j) -> lbeta (olabel S p) = idx_beta j.
Proof. rewrite orbitals_in. intros [_ H]. unfold relation in H. apply in_map_iff in H as (e & E & _). rewrite <- E. reflexivity. Qed.

Lemma split_assignments S I : Forall alpha I -> Permutation (assignments (both_spins S) I) (flat_map (assignments S) (iproduct (pairs I))).
Proof.
  intros HI. apply NoDup_Permutation.
  - apply nodup_assignments.
  - apply NoDup_flat_map; [apply nodup_pairs, HI|intros; apply nodup_assignments|]. intros J K a HJ HK H1 H2. apply in_pairs in HJ, HK. unfold assignments in H1, H2. rewrite in_iproduct in H1, H2.
    revert J K a HJ HK H1 H2. induction HI as [|i I Hi HI IH]; intros J K a HJ HK H1 H2; inversion HJ; inversion HK; subst; [reflexivity|]. cbn [map] in H1, H2. inversion H1; inversion H2; subst.
    match goal with E : _ :: _ = _ :: _ |- _ => injection E as -> -> end. f_equal; [|eapply IH; eassumption].
    eapply lab_beta; [exact Hi|eassumption|eassumption|]. match goal with A : In ?x (orbitals S ?j), B : In ?x (orbitals S ?k) |- _ => apply orbitals_beta in A, B; congruence end.
  - intros a. rewrite in_flat_map. unfold assignments at 1. rewrite in_iproduct. split.
    + intros H. assert (G : exists J, Forall2 lab I J /\ Forall2 (@In nat) a (map (orbitals S) J)).
      { revert a H. induction HI as [|i I Hi HI IH]; intros a H; cbn [map] in H; inversion H; subst; [exists []; split; constructor|]. match goal with Q : Forall2 _ _ _ |- _ => destruct (IH _ Q) as (J & HJ & HA) end. match goal with Q : In _ (orbitals (both_spins S) _) |- _ => apply (orbitals_split S i _ Hi) in Q as (j & Hj & Hp) end. exists (j :: J). split; [constructor; assumption|cbn [map]; constructor; assumption]. }
      destruct G as (J & HJ & HA). exists J. split; [apply in_pairs, HJ|]. unfold assignments. apply in_iproduct, HA.
    + intros (J & HJ & HA). apply in_pairs in HJ. unfold assignments in HA. rewrite in_iproduct in HA. revert J a HJ HA. induction HI as [|i I Hi HI IH]; intros J a HJ HA; inversion HJ; subst; cbn [map] in *; inversion HA; subst; constructor.
      * apply (orbitals_split S i _ Hi). eauto.
      * eapply IH; eassumption.
Qed.

(** ** One labelling *)
Definition relab (I J : list idx) (i : idx) : idx := match dict_get idx_eqb i (combine I J) with Some j => j | None => i end.
Definition spun (tau : idx -> idx) (x : tensor) : tensor := Ten (tcls x) SpinIntegrated (tname x) (tpriority x) (map tau (tupper x)) (map tau (tlower x)).

Lemma combine_map {B C} (f : B -> C) l : combine l (map f l) = map (fun i => (i, f i)) l.
Proof. induction l as [|x l IH]; [reflexivity|]. cbn [map combine]. rewrite IH. reflexivity. Qed.
Lemma relab_map I (tau : idx -> idx) i : In i I -> relab I (map tau I) i = tau i.
Proof.
  intros H. unfold relab. rewrite combine_map. induction I as [|j I IH]; [destruct H|]. cbn [map dict_get]. destruct (idx_eqb i j) eqn:E; [apply idx_eqb_eq in E; subst; reflexivity|]. apply IH. destruct H as [->|H]; [|exact H]. rewrite (proj2 (idx_eqb_eq i i) eq_refl) in E. discriminate.
Qed.
Lemma relab_spec I J : NoDup I -> Forall2 lab I J -> J = map (relab I J) I /\ forall i, In i I -> lab i (relab I J i).
Proof.
  intros N H. assert (G : exists tau, J = map tau I /\ forall i, In i I -> lab i (tau i)).
  { induction H as [|i j I J Hij H IH]; [exists (fun i => i); split; [reflexivity|intros i []]|]. inversion N as [|? ? Ni N']; subst. destruct (IH N') as (tau & -> & Ht). exists (fun k => if idx_eqb k i then j else tau k). split.
    - cbn [map]. rewrite (proj2 (idx_eqb_eq i i) eq_refl). f_equal. apply map_ext_in. intros k Hk. destruct (idx_eqb k i) eqn:E; [|reflexivity]. apply idx_eqb_eq in E. subst. contradiction.
    - intros k Hk. destruct (idx_eqb k i) eqn:E; [apply idx_eqb_eq in E; subst; exact Hij|]. apply Ht. destruct Hk as [->|Hk]; [rewrite (proj2 (idx_eqb_eq k k) eq_refl) in E; discriminate|exact Hk]. }
  destruct G as (tau & -> & Ht). split; [apply map_ext_in; intros i Hi; symmetry; apply relab_map, Hi|]. intros i Hi. rewrite relab_map by exact Hi. auto.
Qed.
Lemma lab_map_inj (tau : idx -> idx) i j : alpha i -> alpha j -> lab i (tau i) -> lab j (tau j) -> tau i = tau j -> i = j.
Proof. intros Hi Hj Li Lj E. rewrite E in Li. exact (lab_inj i j _ Hi Hj Li Lj). Qed.

Lemma content_spun tau xs o : content_indices (map (spun tau) xs) (rename_op tau o) = map tau (content_indices xs o).
Proof.
  unfold content_indices, op_indices. cbn [rename_op cre ann]. rewrite !map_app. f_equal. induction xs as [|x xs IH]; [reflexivity|]. cbn [map flat_map]. rewrite IH, map_app. unfold tensor_indices, spun. cbn [tupper tlower]. rewrite map_app. reflexivity.
Qed.

Section Value.
  Context (A : qalg) (S : system) (v : tvaluation A).
  Add Ring alg_ring28 : (q_ring A).
  Lemma integrand_spun tau xs o e : integrand v (map (spun tau) xs) (rename_op tau o) e = integrand v xs o (fun i => e (tau i)).
  Proof.
    unfold integrand. f_equal; [f_equal; rewrite map_map; apply map_ext; intros x; unfold tensor_value, spun; cbn [tcls tname tupper tlower]; rewrite !map_map; reflexivity|].
    unfold op_value. cbn [rename_op cre ann]. rewrite !map_map. reflexivity.
  Qed.

  Context (X : list tensor) (o : op) (HA : Forall alpha (content_indices X o)).
  Let I := nodup idx_eq_dec (content_indices X o).
  Lemma I_in i : In i I <-> In i (content_indices X o).
  Proof. apply nodup_In. Qed.
  Lemma I_nodup : NoDup I.
  Proof. apply NoDup_nodup. Qed.
  Lemma I_alpha i : In i I -> alpha i.
  Proof. rewrite I_in. rewrite Forall_forall in HA. apply HA. Qed.

  Lemma env_relab J a : In J (iproduct (pairs I)) -> In a (assignments S J) -> exists g, (forall j, In j J -> In (g j) (orbitals S j)) /\ forall i, In i I -> In (relab I J i) J /\ env I a i = g (relab I J i) /\ env J a (relab I J i) = g (relab I J i).
  Proof.
    intros HJ Ha. apply in_pairs in HJ. destruct (relab_spec I J I_nodup HJ) as [EJ L]. assert (NJ : NoDup J).
    { rewrite EJ. apply NoDup_map_in; [|exact I_nodup]. intros i j Hi Hj. apply lab_map_inj; auto using I_alpha. }
    apply (in_assignments S J a NJ) in Ha as (g & -> & Hg). exists g. split; [exact Hg|]. intros i Hi. assert (Hj : In (relab I J i) J) by (rewrite EJ at 2; apply in_map, Hi). split; [exact Hj|]. split; [|apply env_map, Hj].
    rewrite EJ at 1. rewrite map_map. rewrite (env_map I (fun i => g (relab I J i)) i Hi). reflexivity.
  Qed.

  Lemma part_value c J : In J (iproduct (pairs I)) -> content_value S v c (map (spun (relab I J)) X) (rename_op (relab I J) o) = (inj c * asum (map (fun a => integrand v X o (env I a)) (assignments S J)))%alg.
  Proof.
    intros HJ. pose proof HJ as HJ'. apply in_pairs in HJ'. destruct (relab_spec I J I_nodup HJ') as [EJ L]. assert (NJ : NoDup J).
    { rewrite EJ. apply NoDup_map_in; [|exact I_nodup]. intros i j Hi Hj. apply lab_map_inj; auto using I_alpha. }
    rewrite (content_value_list A S v c _ _ J NJ).
    - f_equal. unfold sum_over. f_equal. apply map_ext_in. intros a Ha. rewrite integrand_spun. apply integrand_ext. intros i Hi. apply I_in in Hi. destruct (env_relab J a HJ Ha) as (g & _ & G). destruct (G i Hi) as (_ & -> & ->). reflexivity.
    - intros j. rewrite content_spun. rewrite EJ at 1. rewrite !in_map_iff. split; intros (i & E & Hi); exists i; (split; [exact E|]); apply I_in; exact Hi.
  Qed.

  Definition conserving (tau : idx -> idx) : bool := forallb (fun x => n_beta (map tau (tupper x)) =? n_beta (map tau (tlower x))) X.
  Lemma asum_filter_zero {B} (p : B -> bool) (f : B -> A) l : (forall x, In x l -> p x = false -> f x = q0) -> asum (map f l) = asum (map f (filter p l)).
  Proof.
    intros H. rewrite (asum_filter A). apply (asum_map_ext A). intros x Hx. destruct (p x) eqn:E; [reflexivity|]. apply H; assumption.
  Qed.
  Lemma nonconserving_zero c J : conserves_spin S v -> In J (iproduct (pairs I)) -> conserving (relab I J) = false -> content_value S v c (map (spun (relab I J)) X) (rename_op (relab I J) o) = q0.
  Proof.
    intros HC HJ F. rewrite (part_value c J HJ). assert (Z : asum (map (fun a => integrand v X o (env I a)) (assignments S J)) = q0); [|rewrite Z; ring]. rewrite <- (asum_zero A (assignments S J)). apply (asum_map_ext A). intros a Ha.
    destruct (env_relab J a HJ Ha) as (g & Hg & G).
    assert (E : exists x, In x X /\ n_beta (map (relab I J) (tupper x)) <> n_beta (map (relab I J) (tlower x))).
    { unfold conserving in F. revert F. generalize (relab I J). intros tau F. clear - F. induction X as [|x l IH]; [discriminate|]. cbn [forallb] in F. apply andb_false_iff in F as [F|F]; [exists x; split; [left; reflexivity|apply Nat.eqb_neq, F]|]. destruct (IH F) as (y & Hy & E). exists y. split; [right; exact Hy|exact E]. }
    destruct E as (x & Hx & E). assert (B : forall l : list idx, (forall i, In i l -> In i I) -> beta_orbitals S (map (env I a) l) = n_beta (map (relab I J) l)).
    { intros l Hl. unfold beta_orbitals, n_beta. clear - Hl G Hg. induction l as [|i l IH]; [reflexivity|]. cbn [map filter]. destruct (G i (Hl i (or_introl eq_refl))) as (H1 & H2 & _). rewrite H2. rewrite (orbitals_beta S _ _ (Hg _ H1)). assert (IH' := IH (fun k Hk => Hl k (or_intror Hk))). destruct (idx_beta (relab I J i)); cbn [length]; rewrite IH'; reflexivity. }
    assert (Hc : forall i, In i (tensor_indices x) -> In i I) by (intros i Hi; apply I_in; unfold content_indices; apply in_or_app; right; apply in_flat_map; eauto).
    assert (Z : tensor_value v (env I a) x = q0). { unfold tensor_value. apply HC. rewrite !B; [exact E|intros i Hi; apply Hc; unfold tensor_indices; apply in_or_app; auto..]. }
    unfold integrand. apply in_split in Hx as (l1 & l2 & ->). rewrite map_app, (aprod_app A). cbn [map aprod fold_right]. rewrite Z. ring.
  Qed.

  Lemma both_spins_value c : conserves_spin S v -> content_value (both_spins S) v c X o =
    asum (map (fun J => content_value S v c (map (spun (relab I J)) X) (rename_op (relab I J) o)) (filter (fun J => conserving (relab I J)) (iproduct (pairs I)))).
  Proof.
    intros HC. rewrite <- asum_filter_zero; [|intros J HJ F; apply nonconserving_zero; assumption].
    unfold content_value at 1. fold I. unfold sum_over. assert (HI : Forall alpha I) by (apply Forall_forall; exact I_alpha).
    rewrite (asum_perm A _ _ (Permutation_map _ (split_assignments S I HI))). rewrite flat_map_concat_map, concat_map, map_map, (asum_concat A), map_map, <- (asum_map_mul A). apply (asum_map_ext A). intros J HJ. symmetry. apply part_value, HJ.
  Qed.
End Value.

(** ** The tuples of the product *)
Lemma labels_mixed l l' : Forall2 lab l l' -> mixed_block l' = mixed_block l.
Proof.
  intros H. unfold mixed_block. assert (G : existsb hole_like l' = existsb hole_like l /\ existsb particle_like l' = existsb particle_like l).
  { induction H as [|i j l l' Hij H [IH1 IH2]]; [split; reflexivity|]. cbn [existsb]. rewrite IH1, IH2. unfold hole_like, particle_like, lower_label. rewrite (lab_space _ _ Hij). split; reflexivity. }
  destruct G as [-> ->]. reflexivity.
Qed.
Lemma spun_check x u l ty : valid_tensor x -> length u = length l -> Forall2 lab (tupper x) u -> Forall2 lab (tlower x) l -> n_beta u = n_beta l -> check_tensor (Ten (tcls x) ty (tname x) (tpriority x) u l) = Ok (Ten (tcls x) ty (tname x) (tpriority x) u l).
Proof.
  intros V EL Hu Hl EB. unfold valid_tensor, check_tensor in *. cbn [tcls tupper tlower]. rewrite (labels_mixed _ _ Hu), (labels_mixed _ _ Hl). pose proof (lab_length _ _ Hu) as L1. pose proof (lab_length _ _ Hl) as L2. rewrite L1, L2, EL in V. unfold is_spin_conserving. rewrite EL, EB, !Nat.eqb_refl. cbn [pybind].
  destruct (tcls x); try reflexivity; try (destruct ((length l =? 1) && (length l =? 1)); [reflexivity|discriminate V]).
  unfold is_spin_conserving in V. destruct (length (tupper x) =? length (tlower x)); cbn [pybind] in V; [|discriminate V]. destruct (n_beta (tupper x) =? n_beta (tlower x)); [|discriminate V]. destruct (mixed_block (tupper x) || mixed_block (tlower x)); [discriminate V|reflexivity].
Qed.

Definition fit (u l : list idx) : Prop := Forall alpha u /\ NoDup u /\ Forall alpha l /\ NoDup l /\ length u = length l.
Lemma op_cases o : fit (cre o) (ann o) -> exists r, op_spin_cases o = Ok r /\ NoDup r /\ forall o', In o' r <-> Forall2 lab (cre o) (cre o') /\ Forall2 lab (ann o) (ann o') /\ n_beta (cre o') = n_beta (ann o').
Proof.
  intros (A1 & N1 & A2 & N2 & E). destruct (spin_cases_pair_ok true (cre o) (ann o) A1 N1 A2 N2 (fun _ => E)) as (r & H & N & IN). exists (map (fun ul => Op (fst ul) (snd ul)) r). split; [unfold op_spin_cases; rewrite H; reflexivity|]. split.
  - apply NoDup_map_in; [|exact N]. intros [a b] [a' b'] _ _ Q. injection Q as -> ->. reflexivity.
  - intros [u l]. rewrite in_map_iff. cbn [cre ann]. split.
    + intros ([a b] & Q & Hin). injection Q as -> ->. apply IN in Hin as (H1 & H2 & H3). repeat split; auto.
    + intros (H1 & H2 & H3). exists (u, l). split; [reflexivity|]. apply IN. repeat split; auto.
Qed.
Lemma tensor_cases x : fit (tupper x) (tlower x) -> valid_tensor x -> exists r, tensor_spin_cases x = Ok r /\ NoDup r /\
  forall x', In x' r <-> x' = Ten (tcls x) SpinIntegrated (tname x) (tpriority x) (tupper x') (tlower x') /\ Forall2 lab (tupper x) (tupper x') /\ Forall2 lab (tlower x) (tlower x') /\ n_beta (tupper x') = n_beta (tlower x').
Proof.
  intros (A1 & N1 & A2 & N2 & E) V. destruct (spin_cases_pair_ok true _ _ A1 N1 A2 N2 (fun _ => E)) as (r & H & N & IN). exists (map (fun ul => Ten (tcls x) SpinIntegrated (tname x) (tpriority x) (fst ul) (snd ul)) r). split; [|split].
  - unfold tensor_spin_cases. rewrite H. cbn [pybind]. apply pymap_total. intros [u l] Hul. apply IN in Hul as (H1 & H2 & H3). apply spun_check; auto. cbn [fst snd]. rewrite <- (lab_length _ _ H1), <- (lab_length _ _ H2). exact E.
  - apply NoDup_map_in; [|exact N]. intros [a b] [a' b'] _ _ Q. injection Q as -> ->. reflexivity.
  - intros x'. rewrite in_map_iff. split.
    + intros ([a b] & <- & Hin). cbn [tupper tlower fst snd]. apply IN in Hin as (H1 & H2 & H3). repeat split; auto.
    + intros (E' & H1 & H2 & H3). exists (tupper x', tlower x'). split; [symmetry; exact E'|]. apply IN. repeat split; auto.
Qed.

Lemma count_labels C C' i : Forall alpha C -> Forall2 lab C C' -> alpha i -> idx_times i C' + idx_times (idx_to_beta i) C' = idx_times i C.
Proof.
  intros HA H Hi. unfold idx_times. induction H as [|k j C C' Hkj H IH]; [reflexivity|]. inversion HA as [|? ? Hk HA']; subst. specialize (IH HA'). cbn [count_occ]. 
  destruct (idx_eq_dec k i) as [->|Nk].
  - destruct Hkj as [-> | ->].
    + destruct (idx_eq_dec i i); [|congruence]. destruct (idx_eq_dec i (idx_to_beta i)) as [E|]; [exfalso; exact (to_beta_neq i Hi (eq_sym E))|]. lia.
    + destruct (idx_eq_dec (idx_to_beta i) (idx_to_beta i)); [|congruence]. destruct (idx_eq_dec (idx_to_beta i) i) as [E|]; [exfalso; exact (to_beta_neq i Hi E)|]. lia.
  - destruct (idx_eq_dec j i) as [->|]; [exfalso; apply Nk; exact (lab_inj k i i Hk Hi Hkj (or_introl eq_refl))|]. destruct (idx_eq_dec j (idx_to_beta i)) as [->|]; [exfalso; apply Nk; exact (lab_inj k i _ Hk Hi Hkj (or_intror eq_refl))|]. exact IH.
Qed.
Lemma count_map (tau : idx -> idx) C i : (forall j, In j C -> tau j = tau i -> j = i) -> idx_times (tau i) (map tau C) = idx_times i C.
Proof.
  intros H. unfold idx_times. induction C as [|j C IH]; [reflexivity|]. cbn [map count_occ]. rewrite IH by (intros k Hk; apply H; right; exact Hk). destruct (idx_eq_dec j i) as [->|N]; [destruct (idx_eq_dec (tau i) (tau i)); congruence|]. destruct (idx_eq_dec (tau j) (tau i)) as [E|]; [|reflexivity]. exfalso. apply N. apply H; [left; reflexivity|exact E].
Qed.
Lemma make_term_raises ty xs o c : Forall (fun x => titype x = ty) xs -> ~ connected xs o -> make_term ty xs o c = Raise ValueError.
Proof.
  intros HT NC. destruct (make_term ty xs o c) as [t|e] eqn:E; [exfalso; apply NC; apply (make_term_inv _ _ _ _ _ E)|]. unfold make_term in E. destruct (forallb _ xs) eqn:F.
  - destruct (existsb _ _); [congruence|]. destruct (existsb _ _); congruence.
  - exfalso. assert (F' : forallb (fun x => itype_eqb (titype x) ty) xs = true); [|congruence]. apply forallb_forall. intros x Hx. rewrite Forall_forall in HT. rewrite (HT x Hx). destruct ty; reflexivity.
Qed.

Lemma diagonal_dec i xs o : diagonal_in i xs o \/ ~ diagonal_in i xs o.
Proof. destruct (in_dec idx_eq_dec i (content_diagonal xs o)) as [H|H]; [left; apply content_diagonal_in, H|right; intros D; apply H, content_diagonal_in, D]. Qed.

Definition case_of (x x' : tensor) : Prop := x' = Ten (tcls x) SpinIntegrated (tname x) (tpriority x) (tupper x') (tlower x') /\ Forall2 lab (tupper x) (tupper x') /\ Forall2 lab (tlower x) (tlower x') /\ n_beta (tupper x') = n_beta (tlower x').
Lemma tensors_cases X : (forall x, In x X -> fit (tupper x) (tlower x) /\ valid_tensor x) -> exists tss, pymap tensor_spin_cases X = Ok tss /\ Forall (@NoDup tensor) tss /\ forall X', In X' (iproduct tss) <-> Forall2 case_of X X'.
Proof.
  induction X as [|x X IH]; intros H; [exists []; split; [reflexivity|]; split; [constructor|]; intros X'; cbn [iproduct In]; split; [intros [<-|[]]; constructor|intros Q; inversion Q; auto]|].
  destruct (H x (or_introl eq_refl)) as [H1 H2]. destruct (tensor_cases x H1 H2) as (r & E & N & IN). destruct (IH (fun y Hy => H y (or_intror Hy))) as (tss & E' & N' & IN'). exists (r :: tss). split; [cbn [pymap]; rewrite E; cbn [pybind]; rewrite E'; reflexivity|]. split; [constructor; assumption|].
  intros X'. cbn [iproduct]. rewrite in_flat_map. split.
  - intros (x' & Hx' & Q). apply in_map_iff in Q as (Y & <- & HY). constructor; [apply IN, Hx'|apply IN', HY].
  - intros Q. inversion Q as [|? x' ? Y Q1 Q2]; subst. exists x'. split; [apply IN, Q1|]. apply in_map_iff. exists Y. split; [reflexivity|apply IN', Q2].
Qed.

Section Tuples.
  Context (X : list tensor) (o : op) (HA : Forall alpha (content_indices X o)) (FO : fit (cre o) (ann o)) (FX : forall x, In x X -> fit (tupper x) (tlower x) /\ valid_tensor x)
          (CN : connected X o) (ND : forall i, ~ diagonal_in i X o) (FL : Permutation (flat_map tupper X ++ cre o) (flat_map tlower X ++ ann o)).
  Let C := content_indices X o.
  Let I := nodup idx_eq_dec C.

  Lemma twice i : In i C -> idx_times i C = 2.
  Proof. intros Hi. unfold C. rewrite content_times. apply CN; [|apply ND]. rewrite <- content_times. apply idx_times_in, Hi. Qed.

  Lemma cases_content o' X' : Forall2 lab (cre o) (cre o') -> Forall2 lab (ann o) (ann o') -> Forall2 case_of X X' -> Forall2 lab C (content_indices X' o').
  Proof.
    intros H1 H2 H3. unfold C, content_indices, op_indices. apply Forall2_app; [apply Forall2_app; assumption|]. clear - H3. induction H3 as [|x x' X X' (_ & Hu & Hl & _) H IH]; [constructor|]. cbn [flat_map]. apply Forall2_app; [|exact IH]. unfold tensor_indices. apply Forall2_app; assumption.
  Qed.
  Lemma labels_tau (tau : idx -> idx) (C' l l' : list idx) : (forall i j, In i C -> In j C' -> lab i j -> j = tau i) -> incl l C -> incl l' C' -> Forall2 lab l l' -> l' = map tau l.
  Proof.
    intros H HL HL' F. induction F as [|i j l l' Hij F IH]; [reflexivity|]. cbn [map]. f_equal; [apply H; [apply HL; left; reflexivity|apply HL'; left; reflexivity|exact Hij]|]. apply IH; intros k Hk; [apply HL|apply HL']; right; exact Hk.
  Qed.

  Lemma consistent o' X' : Forall2 lab (cre o) (cre o') -> Forall2 lab (ann o) (ann o') -> Forall2 case_of X X' -> connected X' o' ->
    exists tau, (forall i, In i C -> lab i (tau i)) /\ o' = rename_op tau o /\ X' = map (spun tau) X.
  Proof.
    intros H1 H2 H3 CN'. pose proof (cases_content o' X' H1 H2 H3) as HC. set (C' := content_indices X' o') in *. exists (fun i => if in_dec idx_eq_dec (idx_to_beta i) C' then idx_to_beta i else i). set (tau := fun i => _).
    assert (T : forall i j, In i C -> In j C' -> lab i j -> j = tau i).
    { intros i j Hi Hj L. unfold tau. assert (Ai : alpha i) by (rewrite Forall_forall in HA; apply HA, Hi). destruct (in_dec idx_eq_dec (idx_to_beta i) C') as [B|B].
      - destruct L as [-> | ->]; [|reflexivity]. exfalso. assert (E : forall k, In k C' -> 2 <= idx_times k C').
        { intros k Hk. apply idx_times_in in Hk. unfold C' in *. rewrite content_times in *. destruct (CN' k Hk) as [Q1 Q2]. destruct (total_times k X' o') as [|[|n]] eqn:Et; [lia| |lia]. exfalso. destruct (diagonal_dec k X' o') as [D|D]; [specialize (Q1 D); discriminate Q1|specialize (Q2 D); discriminate Q2]. }
        pose proof (count_labels C C' i HA HC Ai) as K. rewrite (twice i Hi) in K. pose proof (E i Hj). pose proof (E _ B). lia.
      - destruct L as [-> | ->]; [reflexivity|]. contradiction. }
    split; [|split].
    - intros i Hi. unfold tau. destruct (in_dec _ _ _); [right|left]; reflexivity.
    - destruct o' as [a b]. unfold rename_op. cbn [cre ann] in *. f_equal; apply (labels_tau tau C' _ _ T); try assumption; intros k Hk; [unfold C|unfold C'|unfold C|unfold C']; unfold content_indices, op_indices; cbn [cre ann]; rewrite !in_app_iff; auto.
    - assert (K : forall Y Y', Forall2 case_of Y Y' -> incl Y X -> incl Y' X' -> Y' = map (spun tau) Y); [|apply K; [exact H3|apply incl_refl|apply incl_refl]]. clear - T. induction 1 as [|x x' Y Y' (E & Hu & Hl & _) F IH]; intros HY HY'; [reflexivity|]. cbn [map]. f_equal; [|apply IH; intros z Hz; [apply HY|apply HY']; right; exact Hz].
      rewrite E. unfold spun. f_equal; apply (labels_tau tau C' _ _ T); try assumption; intros k Hk; [unfold C|unfold C'|unfold C|unfold C']; unfold content_indices; apply in_or_app; right; apply in_flat_map; [exists x|exists x'|exists x|exists x']; (split; [first [apply HY|apply HY']; left; reflexivity|unfold tensor_indices; apply in_or_app; auto]).
  Qed.

  Lemma spun_connected (tau : idx -> idx) : (forall i, In i C -> lab i (tau i)) -> connected (map (spun tau) X) (rename_op tau o).
  Proof.
    intros L j Hj. rewrite <- content_times, content_spun in *. assert (Hin : In j (map tau (content_indices X o))) by (apply idx_times_in, Hj). apply in_map_iff in Hin as (i & <- & Hi). rewrite Forall_forall in HA.
    rewrite count_map by (intros k Hk E; apply (lab_map_inj tau); auto). fold C. rewrite (twice i Hi). split; reflexivity.
  Qed.
  Lemma spun_cases (tau : idx -> idx) : (forall i, In i C -> lab i (tau i)) -> conserving X tau = true -> Forall2 case_of X (map (spun tau) X).
  Proof.
    intros L Hc. unfold conserving in Hc. rewrite forallb_forall in Hc. assert (K : forall Y, incl Y X -> Forall2 case_of Y (map (spun tau) Y)); [|apply K, incl_refl]. assert (M : forall l : list idx, (forall i, In i l -> In i C) -> Forall2 lab l (map tau l)).
    { intros l. induction l as [|i l IH]; intros H; cbn [map]; constructor; [apply L, H; left; reflexivity|]. apply IH. intros k Hk. apply H. right. exact Hk. }
    induction Y as [|x Y IH]; intros HY; cbn [map]; constructor; [|apply IH; intros y Hy; apply HY; right; exact Hy]. assert (Hx : In x X) by (apply HY; left; reflexivity).
    unfold case_of, spun. cbn [tupper tlower]. split; [reflexivity|]. split; [|split]; [apply M; intros i Hi; unfold C, content_indices; apply in_or_app; right; apply in_flat_map; exists x; split; [exact Hx|unfold tensor_indices; apply in_or_app; auto]..|]. apply Nat.eqb_eq, Hc, Hx.
  Qed.
  Lemma spun_cre (tau : idx -> idx) l : (forall i, In i C -> lab i (tau i)) -> incl l C -> Forall2 lab l (map tau l).
  Proof. intros L. induction l as [|i l IH]; intros H; cbn [map]; constructor; [apply L, H; left; reflexivity|]. apply IH. intros k Hk. apply H. right. exact Hk. Qed.
  Lemma n_beta_app l m : n_beta (l ++ m) = n_beta l + n_beta m.
  Proof. unfold n_beta. rewrite filter_app, app_length. reflexivity. Qed.
  Lemma n_beta_perm l m : Permutation l m -> n_beta l = n_beta m.
  Proof. intros H. unfold n_beta. apply Permutation_length, BacktrackProofs.perm_filter, H. Qed.
  Lemma op_conserving (tau : idx -> idx) : conserving X tau = true -> n_beta (map tau (cre o)) = n_beta (map tau (ann o)).
  Proof.
    intros Hc. pose proof (n_beta_perm _ _ (Permutation_map tau FL)) as P. rewrite !map_app, !n_beta_app in P. assert (K : n_beta (map tau (flat_map tupper X)) = n_beta (map tau (flat_map tlower X))); [|lia].
    clear - Hc. induction X as [|x l IH]; [reflexivity|]. unfold conserving in *. cbn [forallb] in Hc. apply andb_true_iff in Hc as [H1 H2]. apply Nat.eqb_eq in H1. cbn [flat_map]. rewrite !map_app, !n_beta_app, H1, (IH H2). reflexivity.
  Qed.

  Definition tuple (J : list idx) : op * list tensor := (rename_op (relab I J) o, map (spun (relab I J)) X).
  Definition good (c : Qc) (p : op * list tensor) : bool := match make_term SpinIntegrated (snd p) (fst p) c with Ok _ => true | Raise _ => false end.
  Lemma I_C i : In i I <-> In i C.
  Proof. apply nodup_In. Qed.
  Lemma good_tuples c ops tss : op_spin_cases o = Ok ops -> pymap tensor_spin_cases X = Ok tss ->
    Permutation (filter (good c) (flat_map (fun o => map (pair o) (iproduct tss)) ops)) (map tuple (filter (fun J => conserving X (relab I J)) (iproduct (pairs I)))).
  Proof.
    intros E1 E2. destruct (op_cases o FO) as (ops' & E1' & N1 & IN1). rewrite E1 in E1'. injection E1' as <-. destruct (tensors_cases X FX) as (tss' & E2' & N2 & IN2). rewrite E2 in E2'. injection E2' as <-.
    assert (HI : Forall alpha I) by (apply Forall_forall; intros i Hi; rewrite I_C in Hi; rewrite Forall_forall in HA; apply HA, Hi).
    assert (RL : forall J, In J (iproduct (pairs I)) -> J = map (relab I J) I /\ forall i, In i C -> lab i (relab I J i)).
    { intros J HJ. apply in_pairs in HJ. destruct (relab_spec I J (NoDup_nodup _ _) HJ) as [H1 H2]. split; [exact H1|]. intros i Hi. apply H2, I_C, Hi. }
    apply NoDup_Permutation.
    - apply NoDup_filter. apply NoDup_flat_map; [exact N1| |].
      + intros o' _. apply NoDup_map_in; [intros x y _ _ Q; injection Q; auto|]. apply nodup_iproduct, N2.
      + intros o1 o2 z _ _ H1 H2. apply in_map_iff in H1 as (? & <- & _). apply in_map_iff in H2 as (? & Q & _). congruence.
    - apply NoDup_map_in; [|apply NoDup_filter, nodup_pairs, HI]. intros J K HJ HK Q. apply filter_In in HJ as [HJ _]. apply filter_In in HK as [HK _]. destruct (RL J HJ) as [EJ _]. destruct (RL K HK) as [EK _]. unfold tuple in Q. injection Q as Q1 Q2 Q3.
      assert (QC : map (relab I J) C = map (relab I K) C). { unfold C. rewrite <- !content_spun. unfold rename_op. rewrite Q1, Q2, Q3. reflexivity. }
      rewrite EJ, EK. apply map_ext_in. intros i Hi. apply I_C in Hi. exact (ext_in_map QC i Hi).
    - intros [o' X']. rewrite filter_In, in_flat_map, in_map_iff. split.
      + intros [(o1 & Ho & Hin) G]. apply in_map_iff in Hin as (X1 & Q & HX). injection Q as -> ->. apply IN1 in Ho as (H1 & H2 & H3). apply IN2 in HX. unfold good in G. cbn [fst snd] in G. destruct (make_term SpinIntegrated X' o' c) as [t|] eqn:M; [|discriminate]. destruct (make_term_inv _ _ _ _ _ M) as (_ & CN' & _).
        destruct (consistent o' X' H1 H2 HX CN') as (tau & L & -> & ->). assert (RT : forall i, In i C -> relab I (map tau I) i = tau i) by (intros i Hi; apply relab_map, I_C, Hi).
        assert (TE : tuple (map tau I) = (rename_op tau o, map (spun tau) X)).
        { unfold tuple. assert (ME : forall l : list idx, (forall i, In i l -> In i C) -> map (relab I (map tau I)) l = map tau l) by (intros l Hl; apply map_ext_in; intros i Hi; apply RT, Hl, Hi). f_equal.
          - unfold rename_op. f_equal; apply ME; intros i Hi; unfold C, content_indices, op_indices; rewrite !in_app_iff; auto.
          - apply map_ext_in. intros x Hx. unfold spun. f_equal; apply ME; intros i Hi; unfold C, content_indices; apply in_or_app; right; apply in_flat_map; exists x; (split; [exact Hx|unfold tensor_indices; apply in_or_app; auto]). }
        exists (map tau I). split; [exact TE|]. apply filter_In. split.
        * apply in_pairs. apply spun_cre; [exact L|]. intros i Hi. apply I_C, Hi.
        * unfold tuple in TE. injection TE as T1 T2 T3. unfold conserving. apply forallb_forall. intros x Hx. apply Nat.eqb_eq. assert (Q : spun (relab I (map tau I)) x = spun tau x) by (apply (ext_in_map T3), Hx). assert (Q1 : map (relab I (map tau I)) (tupper x) = map tau (tupper x)) by exact (f_equal tupper Q). assert (Q2 : map (relab I (map tau I)) (tlower x) = map tau (tlower x)) by exact (f_equal tlower Q). rewrite Q1, Q2.
          clear - HX Hx. assert (G : forall Y, Forall2 case_of Y (map (spun tau) Y) -> In x Y -> case_of x (spun tau x)). { induction Y as [|y Y IH]; intros F []; cbn [map] in F; inversion F; subst; auto. } destruct (G X HX Hx) as (_ & _ & _ & E). exact E.
      + intros (J & <- & HJ). apply filter_In in HJ as [HJ Hc]. destruct (RL J HJ) as [EJ L]. split.
        * exists (rename_op (relab I J) o). split; [apply IN1; unfold rename_op; cbn [cre ann]; split; [|split]|].
          -- apply spun_cre; [exact L|]. intros i Hi. unfold C, content_indices, op_indices. rewrite !in_app_iff. auto.
          -- apply spun_cre; [exact L|]. intros i Hi. unfold C, content_indices, op_indices. rewrite !in_app_iff. auto.
          -- apply op_conserving, Hc.
          -- apply in_map_iff. exists (map (spun (relab I J)) X). split; [reflexivity|]. apply IN2, spun_cases; assumption.
        * unfold good, tuple. cbn [fst snd]. destruct (make_term_ok SpinIntegrated (map (spun (relab I J)) X) (rename_op (relab I J) o) c) as [t ->]; [|apply spun_connected, L|reflexivity]. apply Forall_map, Forall_forall. reflexivity.
  Qed.
End Tuples.

(** ** Spin cases of ready terms are ready *)
Lemma shared_label (i j : idx) s : lbeta (fst i) = false -> lbeta (fst j) = false -> In s (relation (fst i)) -> In s (relation (fst j)) -> forall i' j', lab i i' -> lab j j' -> idx_beta i' = idx_beta j' ->
  In (Lab (idx_beta i') (lsp s)) (relation (fst i')) /\ In (Lab (idx_beta i') (lsp s)) (relation (fst j')).
Proof.
  intros Hi Hj H1 H2 i' j' Li Lj E. assert (K : forall (k k' : idx), In s (relation (fst k)) -> lab k k' -> In (Lab (idx_beta k') (lsp s)) (relation (fst k'))).
  { intros k k' H L. unfold relation in *. apply in_map_iff in H as (e & <- & He). cbn [lsp]. rewrite (lab_space _ _ L). apply in_map_iff. exists e. split; [reflexivity|exact He]. }
  split; [apply (K i); assumption|]. rewrite E. apply (K j); assumption.
Qed.
Lemma spun_ready core X o (tau : idx -> idx) : ready core SpinOrbital X o -> (forall i, In i (content_indices X o) -> lab i (tau i)) -> conserving X tau = true -> ready core SpinIntegrated (map (spun tau) X) (rename_op tau o).
Proof.
  intros R L Hc. unfold conserving in Hc. rewrite forallb_forall in Hc. pose proof (rd_alpha _ _ _ _ R eq_refl) as AL.
  assert (TI : forall x i, In x X -> In i (tensor_indices x) -> In i (content_indices X o)) by (intros x i Hx Hi; unfold content_indices; apply in_or_app; right; apply in_flat_map; eauto).
  assert (UP : forall x i, In x X -> In i (tupper x) -> In i (content_indices X o)) by (intros x i Hx Hi; apply (TI x i Hx); unfold tensor_indices; apply in_or_app; auto).
  assert (LO : forall x i, In x X -> In i (tlower x) -> In i (content_indices X o)) by (intros x i Hx Hi; apply (TI x i Hx); unfold tensor_indices; apply in_or_app; auto).
  assert (ML : forall l : list idx, (forall i, In i l -> In i (content_indices X o)) -> Forall2 lab l (map tau l)).
  { intros l. induction l as [|i l IH]; intros H; cbn [map]; constructor; [apply L, H; left; reflexivity|]. apply IH. intros k Hk. apply H. right. exact Hk. }
  assert (INJ : forall i j, In i (content_indices X o) -> In j (content_indices X o) -> tau i = tau j -> i = j) by (intros i j Hi Hj; apply lab_map_inj; try (apply AL); auto).
  assert (ONE : forall x u l, In x X -> map tau (tupper x) = [u] -> map tau (tlower x) = [l] -> exists u0 l0, tupper x = [u0] /\ tlower x = [l0] /\ u = tau u0 /\ l = tau l0 /\ In u0 (content_indices X o) /\ In l0 (content_indices X o) /\ idx_beta u = idx_beta l).
  { intros x u l Hx Eu El. pose proof (Hc x Hx) as B. apply Nat.eqb_eq in B. rewrite Eu, El in B. destruct (tupper x) as [|u0 [|? ?]] eqn:Xu; try discriminate Eu. destruct (tlower x) as [|l0 [|? ?]] eqn:Xl; try discriminate El. cbn [map] in Eu, El. injection Eu as <-. injection El as <-. exists u0, l0. repeat split; [apply (UP x); [exact Hx|rewrite Xu; left; reflexivity]|apply (LO x); [exact Hx|rewrite Xl; left; reflexivity]|].
    unfold n_beta in B. cbn [filter] in B. destruct (idx_beta (tau u0)), (idx_beta (tau l0)); cbn in B; congruence. }
  constructor.
  - apply Forall_map, Forall_forall. intros x Hx. pose proof (rd_valid _ _ _ _ R) as V. rewrite Forall_forall in V. unfold valid_tensor, spun. apply spun_check; [apply V, Hx|rewrite !map_length; apply (rd_bodies _ _ _ _ R x Hx)|apply ML; intros i; apply (UP x i Hx)|apply ML; intros i; apply (LO x i Hx)|apply Nat.eqb_eq, Hc, Hx].
  - discriminate.
  - intros x Hx. apply in_map_iff in Hx as (y & <- & Hy). destruct (rd_bodies _ _ _ _ R y Hy) as [B1 B2]. unfold spun. cbn [tupper tlower]. rewrite !map_length. split; [exact B1|]. destruct (tupper y); [contradiction|discriminate].
  - intros x y Hx Hy E. apply in_map_iff in Hx as (x0 & <- & Hx). apply in_map_iff in Hy as (y0 & <- & Hy). exact (rd_classes _ _ _ _ R x0 y0 Hx Hy E).
  - unfold densities_disjoint. pose proof (rd_densities _ _ _ _ R) as D. unfold densities_disjoint in D. assert (E : flat_map tensor_indices (filter is_density (map (spun tau) X)) = map tau (flat_map tensor_indices (filter is_density X))).
    { clear. induction X as [|x l IH]; [reflexivity|]. cbn [map filter]. change (is_density (spun tau x)) with (is_density x). destruct (is_density x); [|exact IH]. cbn [flat_map]. rewrite IH, map_app. unfold tensor_indices, spun. cbn [tupper tlower]. rewrite map_app. reflexivity. }
    rewrite E. apply NoDup_map_in; [|exact D]. assert (K : forall i, In i (flat_map tensor_indices (filter is_density X)) -> In i (content_indices X o)) by (intros i Hi; apply in_flat_map in Hi as (x & Hx & Hi); apply filter_In in Hx as [Hx _]; exact (TI x i Hx Hi)). intros i j Hi Hj. apply INJ; auto.
  - assert (E : forall f : tensor -> list idx, (forall x, f (spun tau x) = map tau (f x)) -> flat_map f (map (spun tau) X) = map tau (flat_map f X)) by (intros f Hf; clear - Hf; induction X as [|x l IH]; [reflexivity|]; cbn [map flat_map]; rewrite Hf, map_app, IH; reflexivity).
    rewrite (E tupper) by reflexivity. rewrite (E tlower) by reflexivity. cbn [rename_op cre ann]. rewrite <- !map_app. apply Permutation_map, (rd_flow _ _ _ _ R).
  - intros x u l Hx Cx Eu El. apply in_map_iff in Hx as (y & <- & Hy). destruct (ONE y u l Hy Eu El) as (u0 & l0 & E1 & E2 & -> & -> & Hu & Hl & B). destruct (rd_cumulant _ _ _ _ R y u0 l0 Hy Cx E1 E2) as (s & S1 & S2 & S3). exists (Lab (idx_beta (tau u0)) (lsp s)). destruct (shared_label u0 l0 s (AL _ Hu) (AL _ Hl) S1 S2 _ _ (L _ Hu) (L _ Hl) B) as [Q1 Q2]. auto.
  - intros x u l Hx Cx Eu El. apply in_map_iff in Hx as (y & <- & Hy). destruct (ONE y u l Hy Eu El) as (u0 & l0 & E1 & E2 & -> & -> & Hu & Hl & B). destruct (rd_kronecker _ _ _ _ R y u0 l0 Hy Cx E1 E2) as (s & S1 & S2). exists (Lab (idx_beta (tau u0)) (lsp s)). exact (shared_label u0 l0 s (AL _ Hu) (AL _ Hl) S1 S2 _ _ (L _ Hu) (L _ Hl) B).
  - intros x i Hx Cx Hi. apply in_map_iff in Hx as (y & <- & Hy). unfold tensor_indices, spun in Hi. cbn [tupper tlower] in Hi. rewrite <- map_app in Hi. apply in_map_iff in Hi as (k & <- & Hk). rewrite (lab_space k _ (L k (TI y k Hy Hk))). exact (rd_cluster _ _ _ _ R y k Hy Cx Hk).
  - destruct (rd_rest _ _ _ _ R) as (x & Hx & NJ). exists (spun tau x). split; [apply in_map, Hx|]. intros [J|(J1 & J2 & u & l & Eu & El & J3)]; apply NJ; [left; exact J|right]. split; [exact J1|]. split; [exact J2|]. destruct (ONE x u l Hx Eu El) as (u0 & l0 & E1 & E2 & -> & -> & Hu & Hl & B). exists u0, l0. split; [exact E1|]. split; [exact E2|].
    intros s S1 S2. destruct (shared_label u0 l0 s (AL _ Hu) (AL _ Hl) S1 S2 _ _ (L _ Hu) (L _ Hl) B) as [Q1 Q2]. exact (J3 _ Q1 Q2).
Qed.
