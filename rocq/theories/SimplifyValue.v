(** Term.simplify keeps the value of a term: the orbital sums. *)
From Coq Require Import Ascii String ZArith QArith Qcanon Sorting.Sorted Ring_theory Ring.
From Verif Require Import PyBase OrderSpec OrderProofs SpaceModel IndicesModel IterProofs IndicesProofs SpinProofs SpaceProofs SortProofs ElemModel ElemSpec ElemProofs MacroModel TermModel ValueSpec ValueProofs TermSpec SumProofs TermProofs RenameProofs SimplifyProofs.
Local Close Scope Q_scope.
Local Close Scope Qc_scope.
Local Open Scope nat_scope.
Local Notation length := List.length.

Lemma simplified_ext core xs I rho rho' : (forall i, In i I -> rho i = rho' i) -> (forall x i, In x xs -> In i (tensor_indices x) -> In i I) ->
  (forall x i s, In x xs -> In (i, s) (requests core x) -> In i (tensor_indices x)) -> simplified core xs I rho -> simplified core xs I rho'.
Proof.
  intros E HI HR [S1 S2 S3 S4 S5]. constructor.
  - intros x i s Hx Hi. rewrite <- E by (eapply HI; [exact Hx|eapply HR; eassumption]). eauto.
  - intros x Hx Hd. destruct (S2 x Hx Hd) as (u & l & w & H1 & H2 & H3 & H4 & H5). exists u, l, w. assert (Iu : In u I) by (apply (HI x); [exact Hx|unfold tensor_indices; rewrite H1; left; reflexivity]).
    assert (Il : In l I) by (apply (HI x); [exact Hx|unfold tensor_indices; rewrite H1, H2; right; left; reflexivity]). rewrite <- !E by assumption. auto.
  - exact S3.
  - intros i Hi. rewrite <- E by exact Hi. auto.
  - intros i j Hi Hj. rewrite <- !E by assumption. auto.
Qed.
Lemma requests_in core x i s : In (i, s) (requests core x) -> In i (tensor_indices x).
Proof.
  unfold requests, tensor_indices. destruct (tcls x); try (intros []). destruct (length (tupper x) =? 1).
  - destruct (tupper x) as [|u [|? ?]]; try (intros []). destruct (tlower x) as [|l [|? ?]]; try (intros []). destruct (downgrade_cumulant u l); [|intros []]. destruct (_ && _); [intros []|].
    cbn. intros [Hi|[Hi|[]]]; injection Hi as <- <-; auto.
  - intros Hi. apply in_map_iff in Hi as (j & Ej & Hj). injection Ej as <- _. exact Hj.
Qed.

Lemma relation_beta x l : In x (relation l) -> lbeta x = lbeta l.
Proof. unfold relation. intros H. apply in_map_iff in H as (s & <- & _). reflexivity. Qed.
Lemma relation_space x l : In x (relation l) -> lsp x = Sc \/ lsp x = Sa \/ lsp x = Sv.
Proof. unfold relation. intros H. apply in_map_iff in H as (s & <- & H). cbn. destruct (lsp l); cbn in H; intuition. Qed.
Lemma label_eq x y : lbeta x = lbeta y -> lsp x = lsp y -> x = y.
Proof. destruct x, y; cbn; congruence. Qed.
Lemma inter_common a b : inter_label (relation a) (relation b) <> [] -> lbeta a = lbeta b.
Proof.
  intros H. destruct (inter_label (relation a) (relation b)) as [|x l] eqn:E; [congruence|]. assert (Hx : In x (inter_label (relation a) (relation b))) by (rewrite E; left; reflexivity).
  unfold inter_label in Hx. apply filter_In in Hx as [H1 H2]. apply mem_label_in in H2. rewrite <- (relation_beta _ _ H1). apply relation_beta, H2.
Qed.
Lemma cumulant_spin u l s : downgrade_cumulant u l = Some s -> lbeta (fst u) = lbeta (fst l).
Proof. unfold downgrade_cumulant. intros H. apply inter_common. intros E. rewrite E in H. discriminate. Qed.
Lemma kronecker_spin u l s : downgrade_kronecker u l = Some s -> lbeta (fst u) = lbeta (fst l).
Proof.
  unfold downgrade_kronecker. destruct (idx_lt l u); intros H; [symmetry|]; apply inter_common; intros E; rewrite E in H; discriminate.
Qed.
Lemma cumulant_core u l s x : downgrade_cumulant u l = Some s -> lsp s = Sc -> In x (relation (fst u)) -> In x (relation (fst l)) -> lsp x = Sc.
Proof.
  unfold downgrade_cumulant. intros H E Hu Hl. assert (Hx : In x (inter_label (relation (fst u)) (relation (fst l)))) by (apply filter_In; split; [exact Hu|apply mem_label_in, Hl]).
  destruct (inter_label _ _) as [|y [|z m]]; [discriminate| |].
  - destruct Hx as [->|[]]. destruct (space_eqb (lsp x) Sv); [discriminate|]. injection H as <-. exact E.
  - exfalso. destruct (subset_label _ _); injection H as <-; discriminate.
Qed.
Lemma cumulant_relation u l s x : downgrade_cumulant u l = Some s -> (In x (relation s) <-> (In x (relation (fst u)) /\ In x (relation (fst l))) /\ lsp x <> Sv).
Proof. intros H. pose proof (downgrade_cumulant_ok u l (cumulant_spin _ _ _ H)) as D. unfold downgrade_spec in D. rewrite H in D. rewrite D. tauto. Qed.
Lemma kronecker_relation u l s x : downgrade_kronecker u l = Some s -> (In x (relation s) <-> In x (relation (fst u)) /\ In x (relation (fst l))).
Proof. intros H. pose proof (downgrade_kronecker_ok u l (kronecker_spin _ _ _ H)) as D. rewrite H in D. apply D. Qed.

Lemma compat_false S rho I e : compat S rho I e = false ->
  (exists i, In i I /\ ~ In (e i) (orbitals S (rho i))) \/ (exists i j, In i I /\ In j I /\ rho i = rho j /\ e i <> e j).
Proof.
  unfold compat. rewrite andb_false_iff. assert (G : forall {B} (p : B -> bool) l, forallb p l = false -> exists x, In x l /\ p x = false).
  { intros B p l. induction l as [|x l IH]; [discriminate|]. cbn. destruct (p x) eqn:E; cbn; [|eauto]. intros H. destruct (IH H) as (y & H1 & H2). eauto. }
  intros [H|H]; apply G in H as (i & Hi & H).
  - left. exists i. split; [exact Hi|]. intros Hin. rewrite <- not_true_iff_false in H. apply H. apply existsb_exists. exists (e i). split; [exact Hin|apply Nat.eqb_refl].
  - right. apply G in H as (j & Hj & H). apply orb_false_iff in H as [H1 H2]. apply negb_false_iff, idx_eqb_eq in H1. apply Nat.eqb_neq in H2. eauto 8.
Qed.

Section Value.
  Context (A : qalg) (S : system) (v : tvaluation A) (P : physical S v).
  Add Ring alg_ring2 : (q_ring A).

  Lemma inj_0_mul (x : A) : (inj (Q2Qc 0) * x)%alg = q0.
  Proof. change (inj (Q2Qc 0)) with (@zin A 0). rewrite zin_0. ring. Qed.
  Lemma aprod_zero l : In q0 l -> aprod l = @q0 A.
  Proof. induction l as [|x l IH]; [intros []|]. intros [->|H]; unfold aprod in *; cbn [fold_right]; [ring|]. rewrite IH by exact H. ring. Qed.
  Lemma integrand_zero xs o e x : In x xs -> tensor_value v e x = q0 -> integrand v xs o e = q0.
  Proof. intros Hx E. unfold integrand. rewrite aprod_zero; [ring|]. rewrite <- E. apply in_map, Hx. Qed.
  Lemma aprod_filter {B} (p : B -> bool) (f : B -> A) l : (forall x, In x l -> p x = false -> f x = q1) -> aprod (map f l) = aprod (map f (filter p l)).
  Proof.
    induction l as [|x l IH]; intros H; [reflexivity|]. cbn [map filter]. assert (IH' := IH ltac:(intros y Hy; apply H; right; exact Hy)). unfold aprod in *. cbn [fold_right]. rewrite IH'.
    destruct (p x) eqn:E; [reflexivity|]. rewrite (H x (or_introl eq_refl) E). ring.
  Qed.

  Lemma orbital_class i p : In p (orbitals S i) -> (is_core S p = true \/ is_virtual S p = true \/ is_active S p = true) /\ lbeta (olabel S p) = lbeta (fst i).
  Proof.
    intros H. apply orbitals_in in H as [_ H]. split; [|apply relation_beta, H]. unfold is_core, is_virtual, is_active. destruct (relation_space _ _ H) as [->|[->| ->]]; cbn; auto.
  Qed.
  Lemma is_space p s : space_eqb (lsp (olabel S p)) s = true -> lsp (olabel S p) = s.
  Proof. apply space_eqb_eq. Qed.

  (** a one-body cumulant vanishes outside of its downgraded space *)
  Lemma cumulant_zero n u l s e i : downgrade_cumulant u l = Some s -> In (e u) (orbitals S u) -> In (e l) (orbitals S l) -> i = u \/ i = l ->
    ~ In (olabel S (e i)) (relation s) -> vtensor v TCumulant n [e u] [e l] = q0.
  Proof.
    intros D Hu Hl Hi N. destruct (orbital_class u _ Hu) as [Cu Bu], (orbital_class l _ Hl) as [Cl Bl]. pose proof (cumulant_spin _ _ _ D) as B.
    apply orbitals_in in Hu as [_ Hu], Hl as [_ Hl].
    destruct (is_virtual S (e u)) eqn:Vu; [apply (ph_one_virtual S v P); auto|]. destruct (is_virtual S (e l)) eqn:Vl; [apply (ph_one_virtual S v P); auto|].
    assert (Q : olabel S (e u) = olabel S (e l) -> False).
    { intros E. apply N. apply (cumulant_relation u l s _ D). destruct Hi as [->| ->]; [rewrite <- E in Hl|rewrite E in Hu]; (split; [split; assumption|]); intros V; [unfold is_virtual in Vu; rewrite V in Vu|unfold is_virtual in Vl; rewrite V in Vl]; discriminate. }
    assert (R : is_core S (e u) = true \/ is_core S (e l) = true -> vtensor v TCumulant n [e u] [e l] = q0).
    { intros C. rewrite (ph_one_core S v P) by exact C. destruct (Nat.eqb_spec (e u) (e l)) as [E|E]; [|reflexivity]. exfalso. apply Q. rewrite E. reflexivity. }
    destruct Cu as [Cu|[Cu|Cu]]; [auto|congruence|]. destruct Cl as [Cl|[Cl|Cl]]; [auto|congruence|]. exfalso. apply Q. apply label_eq; [congruence|]. apply is_space in Cu, Cl. congruence.
  Qed.
  (** and acts as a delta if that space is core *)
  Lemma cumulant_delta n u l s e : downgrade_cumulant u l = Some s -> lsp s = Sc -> In (e u) (orbitals S u) -> In (e l) (orbitals S l) ->
    vtensor v TCumulant n [e u] [e l] = if e u =? e l then q1 else q0.
  Proof.
    intros D Es Hu Hl. destruct (in_dec label_dec (olabel S (e u)) (relation s)) as [Hin|Hn].
    - apply (ph_one_core S v P). left. apply (cumulant_relation u l s _ D) in Hin as [[H1 H2] _]. unfold is_core. rewrite (cumulant_core u l s _ D Es H1 H2). reflexivity.
    - rewrite (cumulant_zero n u l s e u D Hu Hl (or_introl eq_refl) Hn). destruct (Nat.eqb_spec (e u) (e l)) as [E|E]; [|reflexivity]. exfalso.
      apply orbitals_in in Hu as [_ Hu], Hl as [_ Hl]. rewrite <- E in Hl. pose proof (cumulant_core u l s _ D Es Hu Hl) as C. apply Hn. apply (cumulant_relation u l s _ D). split; [auto|]. rewrite C. discriminate.
  Qed.

  Lemma delta_value core x u l e : valid_tensor x -> is_delta core x = true -> tupper x = [u] -> tlower x = [l] -> In (e u) (orbitals S u) -> In (e l) (orbitals S l) ->
    tensor_value v e x = if e u =? e l then q1 else q0.
  Proof.
    intros V D Eu El Hu Hl. unfold tensor_value. rewrite Eu, El. cbn [map]. unfold is_delta in D. apply orb_true_iff in D as [D|D].
    - apply tclass_eqb_eq in D as ->. apply (ph_kronecker S v P).
    - unfold core_delta in D. rewrite Eu, El in D. destruct (tcls x); try discriminate. destruct (downgrade_cumulant u l) as [s|] eqn:Ed; [|discriminate].
      apply andb_true_iff in D as [D _]. apply space_eqb_eq in D. eapply cumulant_delta; eassumption.
  Qed.

  Context (core : bool) (T : list tensor) (o : op) (I : list idx) (rho : idx -> idx).
  Context (HS : simplified core T I rho) (HV : Forall valid_tensor T) (HA : cumulants_open_active T).
  Context (HI : forall i, In i I <-> In i (content_indices T o)).

  Let TI : forall x i, In x T -> In i (tensor_indices x) -> In i I.
  Proof. intros x i Hx Hi. apply HI. unfold content_indices. apply in_or_app. right. apply in_flat_map. eauto. Qed.

  Lemma not_compat_zero e : (forall i, In i I -> In (e i) (orbitals S i)) -> compat S rho I e = false -> integrand v T o e = q0.
  Proof.
    intros He C. assert (DZ : forall x u l, In x T -> is_delta core x = true -> tupper x = [u] -> tlower x = [l] -> e u <> e l -> integrand v T o e = q0).
    { intros x u l Hx D Eu El N. apply (integrand_zero T o e x Hx). rewrite (delta_value core x u l e); try assumption.
      - apply Nat.eqb_neq in N. rewrite N. reflexivity.
      - rewrite Forall_forall in HV. auto.
      - apply He, (TI x); [exact Hx|]. unfold tensor_indices. rewrite Eu. left. reflexivity.
      - apply He, (TI x); [exact Hx|]. unfold tensor_indices. rewrite Eu, El. right. left. reflexivity. }
    destruct (compat_false S rho I e C) as [(i & Hi & N)|(i & j & Hi & Hj & E & N)].
    - destruct (sm_other _ _ _ _ HS i Hi) as [E|[(x & s & Hx & Hr)|(x & Hx & D & Hix)]].
      + exfalso. apply N. rewrite E. apply He, Hi.
      + pose proof (sm_request _ _ _ _ HS x i s Hx Hr) as Es. assert (N' : ~ In (olabel S (e i)) (relation s)).
        { intros H. apply N, orbitals_in. rewrite Es. split; [|exact H]. specialize (He i Hi). apply orbitals_in in He. tauto. }
        apply (integrand_zero T o e x Hx). unfold tensor_value. unfold requests in Hr. destruct (tcls x) eqn:Ec; try destruct Hr. destruct (length (tupper x) =? 1) eqn:L.
        * assert (In_u : forall j, In j (tensor_indices x) -> In (e j) (orbitals S j)) by (intros j Hj; apply He, (TI x); assumption). unfold tensor_indices in In_u.
          destruct (tupper x) as [|u [|? ?]]; try destruct Hr. destruct (tlower x) as [|l [|? ?]]; try destruct Hr. destruct (downgrade_cumulant u l) as [w|] eqn:Ed; [|destruct Hr].
          destruct (_ && core); [destruct Hr|]. cbn [map]. apply (cumulant_zero _ u l w e i Ed); [apply In_u; left; reflexivity|apply In_u; right; left; reflexivity| |].
          -- destruct Hr as [Hr|[Hr|[]]]; injection Hr as <- _; auto.
          -- destruct Hr as [Hr|[Hr|[]]]; injection Hr as _ <-; exact N'.
        * apply (ph_higher S v P); [rewrite map_length; apply Nat.eqb_neq, L|]. rewrite <- map_app. apply in_map_iff in Hr as (j & Ej & Hj). injection Ej as -> <-. apply existsb_exists. exists (e i). split; [apply in_map, Hj|].
          apply negb_true_iff, not_true_iff_false. intros Ha. apply is_space in Ha. apply N'. destruct (orbital_class i _ (He i Hi)) as [_ B]. left. symmetry. apply label_eq; [exact B|exact Ha].
      + destruct (sm_delta _ _ _ _ HS x Hx D) as (u & l & w & Eu & El & Ed & Er & Ew). destruct (Nat.eq_dec (e u) (e l)) as [Ee|Ne]; [|apply (DZ x u l); assumption]. exfalso. apply N, orbitals_in.
        unfold tensor_indices in Hix. rewrite Eu, El in Hix. assert (Hu : In (e u) (orbitals S u)) by (apply He, (TI x); [exact Hx|unfold tensor_indices; rewrite Eu; left; reflexivity]).
        assert (Hl : In (e l) (orbitals S l)) by (apply He, (TI x); [exact Hx|unfold tensor_indices; rewrite Eu, El; right; left; reflexivity]).
        apply orbitals_in in Hu as [Hn Hu], Hl as [_ Hl]. rewrite <- Ee in Hl. pose proof (proj2 (kronecker_relation u l w _ Ed) (conj Hu Hl)) as R. rewrite <- Ew in R.
        destruct Hix as [<-|[<-|[]]]; [auto|]. rewrite <- Ee, <- Er. auto.
    - destruct (sm_fiber _ _ _ _ HS i j Hi Hj E) as [->|(x & Hx & D & Hix & Hjx)]; [congruence|]. destruct (sm_delta _ _ _ _ HS x Hx D) as (u & l & w & Eu & El & _).
      apply (DZ x u l Hx D Eu El). unfold tensor_indices in Hix, Hjx. rewrite Eu, El in *. destruct Hix as [<-|[<-|[]]], Hjx as [<-|[<-|[]]]; congruence.
  Qed.

  Definition kept : list tensor := filter (fun x => negb (is_delta core x)) T.
  Lemma compat_integrand e : (forall i, In i I -> In (e i) (orbitals S i)) -> compat S rho I e = true -> integrand v T o e = integrand v kept o e.
  Proof.
    intros He C. apply compat_spec in C as [_ C]. unfold integrand, kept. f_equal. apply aprod_filter. intros x Hx D. rewrite negb_false_iff in D.
    destruct (sm_delta _ _ _ _ HS x Hx D) as (u & l & w & Eu & El & _ & Er & _).
    assert (Iu : In u I) by (apply (TI x); [exact Hx|unfold tensor_indices; rewrite Eu; left; reflexivity]).
    assert (Il : In l I) by (apply (TI x); [exact Hx|unfold tensor_indices; rewrite Eu, El; right; left; reflexivity]).
    rewrite (delta_value core x u l e); try assumption; auto; [|rewrite Forall_forall in HV; auto]. rewrite (C u l Iu Il Er), Nat.eqb_refl. reflexivity.
  Qed.

  Lemma simplified_incl i : In i I -> incl (orbitals S (rho i)) (orbitals S i).
  Proof.
    intros Hi p Hp. apply orbitals_in in Hp as [Hn Hp]. apply orbitals_in. split; [exact Hn|]. destruct (sm_other _ _ _ _ HS i Hi) as [E|[(x & s & Hx & Hr)|(x & Hx & D & Hix)]].
    - rewrite E in Hp. exact Hp.
    - rewrite (sm_request _ _ _ _ HS x i s Hx Hr) in Hp. pose proof (requests_in _ _ _ _ Hr) as Hix. unfold requests in Hr. destruct (tcls x) eqn:Ec; try destruct Hr. destruct (length (tupper x) =? 1) eqn:L.
      + destruct (tupper x) as [|u [|? ?]]; try destruct Hr. destruct (tlower x) as [|l [|? ?]]; try destruct Hr. destruct (downgrade_cumulant u l) as [w|] eqn:Ed; [|destruct Hr].
        destruct (_ && core); [destruct Hr|]. assert (Q : w = s /\ (i = u \/ i = l)) by (destruct Hr as [Hr|[Hr|[]]]; injection Hr as <- <-; auto). destruct Q as [-> Q].
        apply (cumulant_relation u l s _ Ed) in Hp as [[H1 H2] _]. destruct Q as [->| ->]; assumption.
      + apply Nat.eqb_neq in L. apply in_map_iff in Hr as (j & Ej & Hj). injection Ej as -> <-. unfold active_label in Hp. cbn in Hp. destruct Hp as [<-|[]]. unfold relation. apply in_map. apply (HA x i Hx Ec L Hix).
    - destruct (sm_delta _ _ _ _ HS x Hx D) as (u & l & w & Eu & El & Ed & Er & Ew). unfold tensor_indices in Hix. rewrite Eu, El in Hix.
      assert (E : fst (rho i) = w) by (destruct Hix as [<-|[<-|[]]]; congruence). rewrite E in Hp. apply (kronecker_relation u l w _ Ed) in Hp as [H1 H2]. destruct Hix as [<-|[<-|[]]]; assumption.
  Qed.

  Context (HK : forall i, In i (content_indices T o) <-> In i (content_indices kept o)) (NI : NoDup I).

  Lemma simplified_value c : content_value S v c (map (rename_tensor rho) kept) (rename_op rho o) = content_value S v c T o.
  Proof.
    rewrite content_value_rename. 2: { intros i Hi. apply simplified_incl, HI, HK, Hi. }
    unfold content_value. f_equal. set (J := nodup idx_eq_dec (content_indices kept o)).
    rewrite (sum_over_same A S (nodup idx_eq_dec (content_indices T o)) J).
    - apply sum_over_ext; [|apply NoDup_nodup]. intros e He.
      assert (He' : forall i, In i I -> In (e i) (orbitals S i)). { intros i Hi. apply He, nodup_In, HK, HI, Hi. }
      assert (EC : compat S rho J e = compat S rho I e).
      { assert (EJ : forall i, In i J <-> In i I) by (intros i; unfold J; rewrite nodup_In, <- HK, HI; tauto).
        destruct (compat S rho I e) eqn:E; [apply compat_spec in E as [E1 E2]; apply compat_spec; split; [intros i Hi; apply E1, EJ, Hi|intros i j Hi Hj; apply E2; apply EJ; assumption]|].
        apply not_true_iff_false. rewrite <- not_true_iff_false in E. intros E'. apply E. apply compat_spec in E' as [E1 E2]. apply compat_spec. split; [intros i Hi; apply E1, EJ, Hi|intros i j Hi Hj; apply E2; apply EJ; assumption]. }
      rewrite EC. destruct (compat S rho I e) eqn:E; [symmetry; apply compat_integrand; assumption|symmetry; apply not_compat_zero; assumption].
    - apply NoDup_nodup.
    - apply NoDup_nodup.
    - intros i. unfold J. rewrite !nodup_In. apply HK.
    - apply integrand_depends.
  Qed.

  Lemma active_value c x : no_active_amplitudes S v -> In x T -> tcls x = TCluster -> (forall i, In i (tensor_indices x) -> lsp (fst (rho i)) = Sa) -> content_value S v c T o = q0.
  Proof.
    intros NA Hx Ec Ha. unfold content_value. rewrite (sum_over_zero A S); [ring|apply NoDup_nodup|]. intros e He.
    assert (He' : forall i, In i I -> In (e i) (orbitals S i)). { intros i Hi. apply He, nodup_In, HI, Hi. }
    destruct (compat S rho I e) eqn:E; [|apply not_compat_zero; assumption]. apply compat_spec in E as [E _]. apply (integrand_zero T o e x Hx). unfold tensor_value. rewrite Ec. apply NA. rewrite <- map_app.
    apply forallb_forall. intros p Hp. apply in_map_iff in Hp as (i & <- & Hi). specialize (E i (TI x i Hx Hi)). apply orbitals_in in E as [_ E]. unfold is_active. apply space_eqb_eq.
    unfold relation in E. rewrite (Ha i Hi) in E. destruct E as [<-|[]]. reflexivity.
  Qed.
End Value.

Lemma kept_content core T o : (forall i, 0 < total_times i T o -> total_times i T o = 2) -> densities_disjoint T ->
  forall i, In i (content_indices T o) <-> In i (content_indices (kept core T) o).
Proof.
  intros H2 HD i. split.
  - intros Hi. apply idx_times_in. apply idx_times_in in Hi. pose proof Hi as Ht. rewrite content_times in Ht. apply H2 in Ht. rewrite <- content_times in Ht.
    assert (E : idx_times i (content_indices T o) = idx_times i (content_indices (kept core T) o) + idx_times i (flat_map tensor_indices (filter (is_delta core) T))).
    { unfold content_indices. rewrite !idx_times_app. assert (Q : idx_times i (flat_map tensor_indices T) = idx_times i (flat_map tensor_indices (kept core T)) + idx_times i (flat_map tensor_indices (filter (is_delta core) T))).
      { rewrite <- idx_times_app, <- flat_map_app. unfold idx_times. apply Permutation_count_occ. apply Permutation_flat_map, filter_split. }
      rewrite Q. lia. }
    assert (L : idx_times i (flat_map tensor_indices (filter (is_delta core) T)) <= 1).
    { unfold idx_times. apply NoDup_count_occ. unfold densities_disjoint in HD.
      rewrite (Permutation_flat_map' tensor_indices _ _ (filter_split (is_delta core) (filter is_density T))), flat_map_app in HD. apply NoDup_app_elim in HD as (_ & HD & _).
      rewrite filter_filter in HD. replace (filter (is_delta core) T) with (filter (fun x => is_density x && is_delta core x) T); [exact HD|]. apply filter_ext. intros x.
      destruct (is_delta core x) eqn:E'; [rewrite (is_delta_density core x E'); reflexivity|apply andb_false_r]. }
    lia.
  - unfold content_indices. rewrite !in_app_iff. intros [H|H]; [left; exact H|right]. apply in_flat_map in H as (x & Hx & H). apply filter_In in Hx as [Hx _]. apply in_flat_map. eauto.
Qed.

Lemma simplify_value (A : qalg) (S : system) (v : tvaluation A) core ra ty xs o c t t' :
  make_term ty xs o c = Ok t -> (forall i, ~ diagonal_in i xs o) -> Forall valid_tensor xs -> densities_disjoint xs -> cumulants_open_active xs ->
  physical S v -> (ra = true -> no_active_amplitudes S v) -> simplify core ra t = Ok t' -> term_value S v t' = term_value S v t.
Proof.
  intros M ND HV HD HA P NA H. pose proof (make_term_inv _ _ _ _ _ M) as (_ & CN & _).
  destruct (make_term_fields _ _ _ _ _ M) as (E1 & P1 & _ & E2 & E3 & F4 & F5 & F6 & _ & F7).
  assert (Hd : tdiag t = []). { destruct (tdiag t) as [|[i n] d]; [reflexivity|]. exfalso. apply (ND i). apply (F7 i n). left. reflexivity. }
  assert (PT : Permutation (content_indices (ttensors t) (tsq t)) (content_indices xs o)). { rewrite E2. unfold content_indices. apply Permutation_app_head, Permutation_flat_map, P1. }
  assert (HV' : Forall valid_tensor (ttensors t)) by (rewrite P1; exact HV).
  assert (HD' : densities_disjoint (ttensors t)).
  { unfold densities_disjoint in *. assert (Q : Permutation (filter is_density (ttensors t)) (filter is_density xs)).
    { clear -P1. induction P1; cbn [filter]; [reflexivity|destruct (is_density x); [constructor|]; assumption|destruct (is_density x), (is_density y); try reflexivity; apply perm_swap|etransitivity; eassumption]. }
    rewrite (Permutation_flat_map' tensor_indices _ _ Q). exact HD. }
  assert (HA' : cumulants_open_active (ttensors t)). { intros x i Hx. apply HA. rewrite <- P1. exact Hx. }
  assert (HI : forall i, In i (tindices t) <-> In i (content_indices (ttensors t) (tsq t))). { intros i. rewrite F5, PT, idx_times_in, content_times. tauto. }
  destruct (simplify_inv core ra t t' H Hd F4 (fun i Hi => proj2 (HI i) Hi)) as (r & rho & HS & RR & _ & _ & Q); [|exact HV'|exact HD'|].
  { intros i Hi. apply F6. exists i. auto. }
  assert (HS' : simplified core (ttensors t) (tindices t) (rename r)).
  { eapply simplified_ext; [|  | |exact HS]; [intros i Hi; symmetry; apply RR, Hi| |].
    - intros x i Hx Hi. apply HI. unfold content_indices. apply in_or_app. right. apply in_flat_map. eauto.
    - intros x i s _. apply requests_in. }
  destruct Q as [[[Er (x & Hx & _ & Cx & Ax)] Et]|Et]; rewrite Et; clear Et.
  - transitivity (@q0 A).
    + unfold term_value, void_term. cbn [tcoeff ttensors tsq]. unfold content_value. apply inj_0_mul.
    + symmetry. unfold term_value. eapply (active_value A S v P core (ttensors t) (tsq t) (tindices t) rho HS HV' HI); try eassumption. auto.
  - unfold term_value. cbn [tcoeff ttensors tsq]. apply (simplified_value A S v P core (ttensors t) (tsq t) (tindices t) (rename r) HS' HV' HA' HI).
    apply kept_content; [|exact HD']. intros i Hi.
    assert (ET : total_times i (ttensors t) (tsq t) = total_times i xs o). { rewrite <- !content_times. unfold idx_times. apply Permutation_count_occ, PT. }
    rewrite ET in *. apply CN; [exact Hi|apply ND].
Qed.
