(** Sums over assignments of orbitals: change of index names. *)
From Coq Require Import Ascii String ZArith QArith Qcanon Ring_theory Ring.
From Verif Require Import PyBase SpaceModel IndicesModel IterProofs IndicesProofs SpaceProofs ElemModel MacroModel TermModel ValueSpec ValueProofs TermSpec.
Local Close Scope Q_scope.
Local Close Scope Qc_scope.
Local Open Scope nat_scope.
Local Notation length := List.length.

Lemma orbitals_in S i p : In p (orbitals S i) <-> p < norb S /\ In (olabel S p) (relation (fst i)).
Proof.
  unfold orbitals. rewrite filter_In, in_seq. unfold mem_label. rewrite existsb_exists. split.
  - intros [H (l & H1 & H2)]. apply label_ext in H2 as ->. split; [lia|exact H1].
  - intros [H1 H2]. split; [lia|]. eexists. split; [exact H2|]. apply label_ext. reflexivity.
Qed.
Lemma orbitals_nodup S i : NoDup (orbitals S i).
Proof. apply NoDup_filter', seq_NoDup. Qed.

Lemma env_map I (f : idx -> nat) i : In i I -> env I (map f I) i = f i.
Proof.
  intros H. unfold env. induction I as [|j I IH]; [destruct H|]. cbn [map combine dict_get]. destruct (idx_eqb i j) eqn:E.
  - apply idx_eqb_eq in E as ->. reflexivity.
  - apply IH. destruct H as [->|H]; [rewrite idx_eqb_refl in E; discriminate|exact H].
Qed.
Lemma map_env I a : NoDup I -> length a = length I -> map (env I a) I = a.
Proof.
  intros N. revert a. induction N as [|i I H N IH]; intros [|p a] L; try discriminate; [reflexivity|]. cbn [map]. f_equal.
  - unfold env. cbn [combine dict_get]. rewrite idx_eqb_refl. reflexivity.
  - rewrite <- (IH a) at 2 by (cbn in L; lia). apply map_ext_in. intros j Hj. unfold env. cbn [combine dict_get].
    destruct (idx_eqb j i) eqn:E; [apply idx_eqb_eq in E as ->; contradiction|reflexivity].
Qed.

Lemma Forall2_map_in {B C} (P : B -> C -> Prop) (f : idx -> B) (g : idx -> C) l : Forall2 P (map f l) (map g l) <-> (forall i, In i l -> P (f i) (g i)).
Proof.
  induction l as [|x l IH]; cbn [map]; split.
  - intros _ i [].
  - constructor.
  - intros H. inversion H; subst. intros i [->|Hi]; [assumption|]. apply IH; assumption.
  - intros H. constructor; [apply H; left; reflexivity|]. apply IH. intros i Hi. apply H. right. exact Hi.
Qed.

Lemma in_assignments S I a : NoDup I -> (In a (assignments S I) <-> exists f, a = map f I /\ forall i, In i I -> In (f i) (orbitals S i)).
Proof.
  intros N. unfold assignments. rewrite in_iproduct. split.
  - intros F. assert (L : length a = length I). { clear N. remember (map (orbitals S) I) as m eqn:E. revert I E. induction F; intros [|i I] E; try discriminate; [reflexivity|]. cbn in *. inversion E; subst. f_equal. eauto. }
    exists (env I a). rewrite map_env by assumption. split; [reflexivity|]. rewrite <- (map_env I a N L) in F. exact (proj1 (Forall2_map_in _ _ _ _) F).
  - intros (f & -> & H). apply (proj2 (Forall2_map_in _ _ _ _)). exact H.
Qed.
Lemma nodup_assignments S I : NoDup (assignments S I).
Proof. apply nodup_iproduct. apply Forall_forall. intros x Hx. apply in_map_iff in Hx as [i [<- _]]. apply orbitals_nodup. Qed.

(** the assignments of I that come from assignments of the new names *)
Definition compat (S : system) (rho : idx -> idx) (I : list idx) (e : idx -> nat) : bool :=
  forallb (fun i => existsb (Nat.eqb (e i)) (orbitals S (rho i))) I &&
  forallb (fun i => forallb (fun j => negb (idx_eqb (rho i) (rho j)) || (e i =? e j)) I) I.
Lemma compat_spec S rho I e : compat S rho I e = true <->
  (forall i, In i I -> In (e i) (orbitals S (rho i))) /\ (forall i j, In i I -> In j I -> rho i = rho j -> e i = e j).
Proof.
  unfold compat. rewrite andb_true_iff, !forallb_forall. split.
  - intros [H1 H2]. split.
    + intros i Hi. specialize (H1 i Hi). apply existsb_exists in H1 as (p & Hp & E). apply Nat.eqb_eq in E as ->. exact Hp.
    + intros i j Hi Hj E. specialize (H2 i Hi). rewrite forallb_forall in H2. specialize (H2 j Hj). rewrite E, idx_eqb_refl in H2. apply Nat.eqb_eq. exact H2.
  - intros [H1 H2]. split.
    + intros i Hi. apply existsb_exists. exists (e i). split; [apply H1, Hi|apply Nat.eqb_refl].
    + intros i Hi. apply forallb_forall. intros j Hj. destruct (idx_eqb (rho i) (rho j)) eqn:E; [|reflexivity]. apply idx_eqb_eq in E. cbn. apply Nat.eqb_eq. apply H2; assumption.
Qed.
Lemma compat_ext S rho I e e' : (forall i, In i I -> e i = e' i) -> compat S rho I e = compat S rho I e'.
Proof.
  intros H. destruct (compat S rho I e) eqn:E; symmetry.
  - apply compat_spec in E as [E1 E2]. apply compat_spec. split; intros; rewrite <- ?H by assumption; auto.
  - destruct (compat S rho I e') eqn:E'; [|reflexivity]. rewrite <- E. symmetry. apply compat_spec in E' as [E1 E2]. apply compat_spec. split; intros; rewrite ?H by assumption; auto.
Qed.

Lemma assignments_factor S rho I J : NoDup I -> NoDup J -> (forall j, In j J <-> exists i, In i I /\ rho i = j) ->
  (forall i, In i I -> incl (orbitals S (rho i)) (orbitals S i)) ->
  Permutation (map (fun b => map (fun i => env J b (rho i)) I) (assignments S J)) (filter (fun a => compat S rho I (env I a)) (assignments S I)).
Proof.
  intros NI NJ HJ HR. apply NoDup_Permutation.
  - apply NoDup_map_in; [|apply nodup_assignments]. intros b b' Hb Hb' E.
    apply (in_assignments S J b NJ) in Hb as (f & -> & _). apply (in_assignments S J b' NJ) in Hb' as (g & -> & _).
    apply map_ext_in. intros j Hj. pose proof (proj1 (HJ j) Hj) as (i & Hi & <-).
    assert (G : forall l, incl l I -> map (fun i => env J (map f J) (rho i)) l = map (fun i => env J (map g J) (rho i)) l -> forall i, In i l -> f (rho i) = g (rho i)).
    { induction l as [|x l IH]; intros Hl El k Hk; [destruct Hk|]. cbn [map] in El. inversion El as [[E1 E2]]. destruct Hk as [->|Hk].
      - rewrite !env_map in E1 by (apply HJ; exists k; split; [apply Hl; left; reflexivity|reflexivity]). exact E1.
      - apply IH; [intros z Hz; apply Hl; right; exact Hz|exact E2|exact Hk]. }
    apply (G I); [intros z Hz; exact Hz|exact E|exact Hi].
  - apply NoDup_filter', nodup_assignments.
  - intros a. rewrite in_map_iff, filter_In. split.
    + intros (b & <- & Hb). apply (in_assignments S J b NJ) in Hb as (f & -> & Hf).
      assert (E : forall i, In i I -> env J (map f J) (rho i) = f (rho i)). { intros i Hi. apply env_map. apply HJ. eauto. }
      assert (Hf' : forall i, In i I -> In (f (rho i)) (orbitals S (rho i))). { intros i Hi. apply Hf, HJ. eauto. }
      split.
      * apply (in_assignments S I _ NI). eexists. split; [reflexivity|]. intros i Hi. cbv beta. rewrite E by exact Hi. apply HR; auto.
      * apply compat_spec. split.
        -- intros i Hi. rewrite env_map, E by exact Hi. auto.
        -- intros i j Hi Hj Er. rewrite (env_map I _ i Hi), (env_map I _ j Hj), Er. reflexivity.
    + intros [Ha Hc]. apply (in_assignments S I a NI) in Ha as (f & -> & Hf). apply compat_spec in Hc as [C1 C2].
      assert (C1' : forall i, In i I -> In (f i) (orbitals S (rho i))) by (intros i Hi; specialize (C1 i Hi); rewrite env_map in C1 by exact Hi; exact C1).
      assert (C2' : forall i j, In i I -> In j I -> rho i = rho j -> f i = f j) by (intros i j Hi Hj Er; specialize (C2 i j Hi Hj Er); rewrite !env_map in C2 by assumption; exact C2).
      set (g := fun j => match find (fun i => idx_eqb (rho i) j) I with Some i => f i | None => 0 end).
      assert (G : forall i, In i I -> g (rho i) = f i).
      { intros i Hi. unfold g. destruct (find _ I) as [k|] eqn:Ef.
        - apply find_some in Ef as [Hk Er]. apply idx_eqb_eq in Er. apply C2'; auto.
        - apply (find_none _ _ Ef) in Hi. rewrite idx_eqb_refl in Hi. discriminate. }
      exists (map g J). split.
      * apply map_ext_in. intros i Hi. rewrite env_map by (apply HJ; eauto). apply G, Hi.
      * apply (in_assignments S J _ NJ). exists g. split; [reflexivity|]. intros j Hj. pose proof (proj1 (HJ j) Hj) as (i & Hi & <-). rewrite G by exact Hi. auto.
Qed.

Section Sums.
  Context (A : qalg) (S : system).
  Add Ring alg_ring : (q_ring A).

  Lemma asum_filter {B} (p : B -> bool) (f : B -> A) l : asum (map f (filter p l)) = asum (map (fun x => if p x then f x else q0) l).
  Proof. induction l as [|x l IH]; [reflexivity|]. cbn [filter map]. destruct (p x); unfold asum in *; cbn [map fold_right]; rewrite IH; [reflexivity|ring]. Qed.

  Definition depends_on (I : list idx) (F : (idx -> nat) -> A) : Prop := forall e e', (forall i, In i I -> e i = e' i) -> F e = F e'.

  Lemma sum_over_ext I (F G : (idx -> nat) -> A) : (forall e, (forall i, In i I -> In (e i) (orbitals S i)) -> F e = G e) -> NoDup I -> sum_over S I F = sum_over S I G.
  Proof.
    intros H N. apply asum_map_ext. intros a Ha. apply H. intros i Hi. apply (in_assignments S I a N) in Ha as (f & -> & Hf). rewrite env_map by exact Hi. auto.
  Qed.

  Lemma sum_factor rho I J F : NoDup I -> NoDup J -> (forall j, In j J <-> exists i, In i I /\ rho i = j) ->
    (forall i, In i I -> incl (orbitals S (rho i)) (orbitals S i)) -> depends_on I F ->
    sum_over S J (fun e => F (fun i => e (rho i))) = sum_over S I (fun e => if compat S rho I e then F e else q0).
  Proof.
    intros NI NJ HJ HR HF. unfold sum_over.
    rewrite <- (asum_filter (fun a => compat S rho I (env I a)) (fun a => F (env I a))).
    rewrite <- (asum_perm A _ _ (Permutation_map (fun a => F (env I a)) (assignments_factor S rho I J NI NJ HJ HR))).
    rewrite map_map. apply asum_map_ext. intros b _. apply HF. intros i Hi. rewrite env_map by exact Hi. reflexivity.
  Qed.

  Lemma sum_over_same I J F : NoDup I -> NoDup J -> (forall i, In i I <-> In i J) -> depends_on I F -> sum_over S I F = sum_over S J F.
  Proof.
    intros NI NJ HE HF. symmetry. transitivity (sum_over S J (fun e => F (fun i => e ((fun i => i) i)))); [reflexivity|].
    rewrite (sum_factor (fun i => i) I J F); try assumption.
    - apply sum_over_ext; [|exact NI]. intros e He. rewrite (proj2 (compat_spec S (fun i => i) I e)); [reflexivity|]. split; [exact He|intros; congruence].
    - intros j. rewrite <- HE. split; [eauto|intros (i & Hi & <-); exact Hi].
    - intros i _ p Hp. exact Hp.
  Qed.

  (** injective renaming that keeps the spaces *)
  Lemma sum_rename rho I J F : NoDup I -> NoDup J -> (forall j, In j J <-> exists i, In i I /\ rho i = j) ->
    (forall i, In i I -> fst (rho i) = fst i) -> (forall i j, In i I -> In j I -> rho i = rho j -> i = j) -> depends_on I F ->
    sum_over S J (fun e => F (fun i => e (rho i))) = sum_over S I F.
  Proof.
    intros NI NJ HJ HL HI HF.
    assert (HO : forall i, In i I -> orbitals S (rho i) = orbitals S i) by (intros i Hi; unfold orbitals; rewrite HL by exact Hi; reflexivity).
    rewrite (sum_factor rho I J F); try assumption; [|intros i Hi; rewrite HO by exact Hi; intros p Hp; exact Hp].
    apply sum_over_ext; [|exact NI]. intros e He. rewrite (proj2 (compat_spec S rho I e)); [reflexivity|]. split.
    - intros i Hi. rewrite HO by exact Hi. auto.
    - intros i j Hi Hj E. rewrite (HI i j); auto.
  Qed.

  Lemma sum_over_0 I : sum_over S I (fun _ => @q0 A) = q0.
  Proof. unfold sum_over. induction (assignments S I) as [|a l IH]; [reflexivity|]. unfold asum in *. cbn [map fold_right]. rewrite IH. ring. Qed.
  Lemma sum_over_zero I F : NoDup I -> (forall e, (forall i, In i I -> In (e i) (orbitals S i)) -> F e = @q0 A) -> sum_over S I F = q0.
  Proof. intros N H. rewrite <- (sum_over_0 I). apply sum_over_ext; assumption. Qed.
  Lemma sum_over_mul I (c : A) F : sum_over S I (fun e => (c * F e)%alg) = (c * sum_over S I F)%alg.
  Proof. apply asum_map_mul. Qed.

  (** ** integrands *)
  Lemma integrand_ext (v : tvaluation A) xs o e e' : (forall i, In i (content_indices xs o) -> e i = e' i) -> integrand v xs o e = integrand v xs o e'.
  Proof.
    intros H. unfold content_indices, op_indices in H. unfold integrand. f_equal.
    - f_equal. apply map_ext_in. intros x Hx. unfold tensor_value. f_equal; apply map_ext_in; intros i Hi; apply H; apply in_or_app; right; apply in_flat_map; exists x; (split; [exact Hx|]); apply in_or_app; [left|right]; exact Hi.
    - unfold op_value. f_equal; apply map_ext_in; intros i Hi; apply H; apply in_or_app; left; apply in_or_app; [left|right]; exact Hi.
  Qed.
  Lemma integrand_depends (v : tvaluation A) xs o : depends_on (nodup idx_eq_dec (content_indices xs o)) (integrand v xs o).
  Proof. intros e e' H. apply integrand_ext. intros i Hi. apply H, nodup_In, Hi. Qed.

  (** renaming of factors *)
  Lemma integrand_rename (v : tvaluation A) rho xs o e : integrand v (map (rename_tensor rho) xs) (rename_op rho o) e = integrand v xs o (fun i => e (rho i)).
  Proof.
    unfold integrand. f_equal.
    - rewrite map_map. f_equal. apply map_ext. intros x. unfold tensor_value, rename_tensor. cbn. rewrite !map_map. reflexivity.
    - unfold op_value, rename_op. cbn. rewrite !map_map. reflexivity.
  Qed.
  Lemma content_rename rho xs o : content_indices (map (rename_tensor rho) xs) (rename_op rho o) = map rho (content_indices xs o).
  Proof.
    unfold content_indices, op_indices. rewrite !map_app. f_equal. induction xs as [|x xs IH]; [reflexivity|]. cbn [map flat_map]. rewrite map_app, IH. f_equal. unfold tensor_indices, rename_tensor. cbn. rewrite map_app. reflexivity.
  Qed.
End Sums.
