(** C72: spin-integrated cases of a spin-orbital term. *)
From Coq Require Import Ascii String ZArith QArith Qcanon Ring.
From Verif Require Import PyBase OrderSpec OrderProofs SpaceModel IndicesModel IterProofs IndicesProofs SpinProofs ElemModel MacroModel TermModel ValueSpec ValueProofs TermSpec SumProofs TermProofs RenameProofs
  SimplifyProofs SimplifyValue CanonProofs SymmetryModel SymmetrySpec SympyProofs SympyValue PropTerm PropSimplify PropCanon ContractValue PropContract ReturnSpec SimplifyReturns PropReturn SpinCaseModel SpinCaseSpec SpinCaseProofs.
Local Close Scope Q_scope.
Local Close Scope Qc_scope.
Local Open Scope nat_scope.
Local Notation length := List.length.

Lemma ready_perm core ty xs ys o : Permutation xs ys -> ready core ty xs o -> ready core ty ys o.
Proof.
  intros P R. assert (P' := Permutation_sym P). assert (I : forall x, In x ys -> In x xs) by (intros x; apply (Permutation_in x P')). constructor.
  - apply Forall_forall. intros x Hx. pose proof (rd_valid _ _ _ _ R) as V. rewrite Forall_forall in V. auto.
  - intros E i Hi. apply (rd_alpha _ _ _ _ R E). unfold content_indices in *. rewrite in_app_iff in *. destruct Hi as [Hi|Hi]; [left; exact Hi|right]. apply in_flat_map in Hi as (x & Hx & Hi). apply in_flat_map. eauto.
  - intros x Hx. apply (rd_bodies _ _ _ _ R). auto.
  - intros x y Hx Hy. apply (rd_classes _ _ _ _ R); auto.
  - unfold densities_disjoint. eapply Permutation_NoDup; [|exact (rd_densities _ _ _ _ R)]. apply Permutation_flat_map, BacktrackProofs.perm_filter, P.
  - rewrite <- (Permutation_flat_map tupper P), <- (Permutation_flat_map tlower P). exact (rd_flow _ _ _ _ R).
  - intros x u l Hx. apply (rd_cumulant _ _ _ _ R). auto.
  - intros x u l Hx. apply (rd_kronecker _ _ _ _ R). auto.
  - intros x i Hx. apply (rd_cluster _ _ _ _ R). auto.
  - destruct (rd_rest _ _ _ _ R) as (x & Hx & J). exists x. split; [exact (Permutation_in x P Hx)|exact J].
Qed.
Lemma diagonal_perm i xs ys o : Permutation xs ys -> diagonal_in i ys o -> diagonal_in i xs o.
Proof. intros P [H|(x & Hx & H)]; [left; exact H|right]. exists x. split; [exact (Permutation_in x (Permutation_sym P) Hx)|exact H]. Qed.
Lemma pymap_returns {B C} (f : B -> pyres C) l : (forall x, In x l -> exists y, f x = Ok y) -> exists m, pymap f l = Ok m.
Proof.
  induction l as [|x l IH]; intros H; [exists []; reflexivity|]. destruct (H x (or_introl eq_refl)) as [y E]. destruct (IH (fun z Hz => H z (or_intror Hz))) as [m E']. exists (y :: m). cbn [pymap]. rewrite E. cbn [pybind]. rewrite E'. reflexivity.
Qed.

Section Cases.
  Context (sympy : sympy_oracle) (xs : list tensor) (o : op) (c : Qc) (t : term) (M : make_term SpinOrbital xs o c = Ok t) (ND : forall i, ~ diagonal_in i xs o) (RD : ready true SpinOrbital xs o) (AD : admissible sympy).
  Let X := ttensors t.
  Let I := nodup idx_eq_dec (content_indices X o).

  Lemma X_perm : Permutation X xs.
  Proof. destruct (make_term_fields _ _ _ _ _ M) as (_ & F & _). exact F. Qed.
  Lemma X_ready : ready true SpinOrbital X o.
  Proof. exact (ready_perm _ _ _ _ _ (Permutation_sym X_perm) RD). Qed.
  Lemma X_plain i : ~ diagonal_in i X o.
  Proof. intros D. exact (ND i (diagonal_perm i xs X o (Permutation_sym X_perm) D)). Qed.
  Lemma X_connected : connected X o.
  Proof.
    destruct (make_term_inv _ _ _ _ _ M) as (_ & CN & _). intros i Hi. rewrite (total_times_perm i X xs o X_perm) in *. destruct (CN i Hi) as [_ H]. specialize (H (ND i)). rewrite H. split; reflexivity.
  Qed.
  Lemma X_alpha : Forall alpha (content_indices X o).
  Proof. apply Forall_forall. intros i Hi. exact (rd_alpha _ _ _ _ X_ready eq_refl i Hi). Qed.
  Lemma X_fit : fit (cre o) (ann o) /\ forall x, In x X -> fit (tupper x) (tlower x) /\ valid_tensor x.
  Proof.
    destruct (ready_once true SpinOrbital xs o c t M ND RD) as [N1 N2]. pose proof X_alpha as AL. rewrite Forall_forall in AL.
    assert (UN : forall (f : tensor -> list idx) l, NoDup (flat_map f xs ++ l) -> NoDup l /\ forall x, In x xs -> NoDup (f x)).
    { intros f l N. apply NoDup_app_elim in N as (Na & Nb & _). split; [exact Nb|]. clear -Na. induction xs as [|y m IH]; intros x []; cbn [flat_map] in Na; apply NoDup_app_elim in Na as (H1 & H2 & _); [subst; exact H1|apply IH; assumption]. }
    destruct (UN tupper _ N1) as [Nc Nu]. destruct (UN tlower _ N2) as [Na Nl]. split.
    - repeat split; try assumption; try (apply Forall_forall; intros i Hi; apply AL; unfold content_indices, op_indices; rewrite !in_app_iff; auto). exact (ready_balanced true SpinOrbital xs o RD).
    - intros x Hx. assert (Hx' : In x xs) by exact (Permutation_in x X_perm Hx). pose proof (rd_valid _ _ _ _ RD) as V. rewrite Forall_forall in V. split; [|apply V, Hx']. repeat split; try (apply Nu, Hx'); try (apply Nl, Hx'); try (apply Forall_forall; intros i Hi; apply AL; unfold content_indices; apply in_or_app; right; apply in_flat_map; exists x; split; [exact Hx|unfold tensor_indices; apply in_or_app; auto]). apply (rd_bodies _ _ _ _ RD x Hx').
  Qed.

  Lemma cases_exist : exists ops tss, op_spin_cases o = Ok ops /\ pymap tensor_spin_cases X = Ok tss.
  Proof. destruct X_fit as [FO FX]. destruct (op_cases o FO) as (ops & E1 & _). destruct (tensors_cases X FX) as (tss & E2 & _). eauto. Qed.

  Context (ops : list op) (tss : list (list tensor)) (E1 : op_spin_cases o = Ok ops) (E2 : pymap tensor_spin_cases X = Ok tss).
  Let P := flat_map (fun o => map (pair o) (iproduct tss)) ops.

  Lemma P_good : Permutation (filter (good c) P) (map (tuple X o) (filter (fun J => conserving X (relab I J)) (iproduct (pairs I)))).
  Proof. destruct X_fit as [FO FX]. apply good_tuples; [exact X_alpha|exact FO|exact FX|exact X_connected|exact X_plain|exact (rd_flow _ _ _ _ X_ready)|exact E1|exact E2]. Qed.

  Lemma case_ready p : In p P -> good c p = true -> exists tau, (forall i, In i (content_indices X o) -> lab i (tau i)) /\ p = (rename_op tau o, map (spun tau) X) /\ ready true SpinIntegrated (snd p) (fst p) /\ (forall i, ~ diagonal_in i (snd p) (fst p)).
  Proof.
    intros Hp G. assert (H : In p (filter (good c) P)) by (apply filter_In; auto). apply (Permutation_in _ P_good) in H. apply in_map_iff in H as (J & <- & HJ). apply filter_In in HJ as [HJ Hc]. apply in_pairs in HJ. destruct (relab_spec I J (NoDup_nodup _ _) HJ) as [_ L0].
    assert (L : forall i, In i (content_indices X o) -> lab i (relab I J i)) by (intros i Hi; apply L0, nodup_In, Hi). exists (relab I J). split; [exact L|]. split; [reflexivity|]. unfold tuple. cbn [fst snd]. fold I. split; [apply spun_ready; [exact X_ready|exact L|exact Hc]|].
    pose proof X_alpha as AL. rewrite Forall_forall in AL. intros j D. assert (INJ : forall l m : list idx, (forall i, In i l -> In i (content_indices X o)) -> (forall i, In i m -> In i (content_indices X o)) -> In j (map (relab I J) l) -> In j (map (relab I J) m) -> exists i, In i l /\ In i m).
    { intros l m Hl Hm H1 H2. apply in_map_iff in H1 as (i & <- & Hi). apply in_map_iff in H2 as (k & Ek & Hk). assert (k = i) by (apply (lab_map_inj (relab I J)); auto). subst. eauto. }
    destruct D as [[D1 D2]|(y & Hy & D1 & D2)].
    - cbn [rename_op cre ann] in D1, D2. destruct (INJ (cre o) (ann o)) as (i & Q1 & Q2); try assumption; try (intros i Hi; unfold content_indices, op_indices; rewrite !in_app_iff; auto). apply (X_plain i). left. auto.
    - apply in_map_iff in Hy as (x & <- & Hx). unfold spun in D1, D2. cbn [tupper tlower] in D1, D2. destruct (INJ (tupper x) (tlower x)) as (i & Q1 & Q2); try assumption; try (intros i Hi; unfold content_indices; apply in_or_app; right; apply in_flat_map; exists x; split; [exact Hx|unfold tensor_indices; apply in_or_app; auto]). apply (X_plain i). right. eauto.
  Qed.
  Lemma case_types p : In p P -> Forall (fun x => titype x = SpinIntegrated) (snd p).
  Proof.
    intros Hp. unfold P in Hp. apply in_flat_map in Hp as (o' & _ & Hp). apply in_map_iff in Hp as (Y & <- & HY). cbn [snd]. destruct X_fit as [_ FX]. destruct (tensors_cases X FX) as (tss' & E & _ & IN). rewrite E2 in E. injection E as <-. apply IN in HY. clear - HY. induction HY as [|x x' l l' (Q & _) H IH]; constructor; [rewrite Q; reflexivity|exact IH].
  Qed.
  Lemma bad_case p : In p P -> good c p = false -> spin_case sympy c p = Ok [].
  Proof.
    intros Hp G. unfold good in G. unfold spin_case. destruct (make_term SpinIntegrated (snd p) (fst p) c) as [t'|e] eqn:Q; [discriminate|]. rewrite make_term_raises in Q; [injection Q as <-; reflexivity|apply case_types, Hp|]. intros CN. destruct (make_term_ok SpinIntegrated (snd p) (fst p) c (case_types p Hp) CN) as [t' E]. congruence.
  Qed.

  Context (A : qalg) (S : system) (v : tvaluation A) (OA : cumulants_open_active xs) (Zc : zero_or_visible c) (PH : physical S v) (NA : no_active_amplitudes S v) (AS : antisymmetric v) (HS : hermitian_values v).
  Add Ring alg_ring29 : (q_ring A).
  Lemma good_case p r : (forall g ranges runs, sympy g ranges runs <> Raise ValueError) -> In p P -> good c p = true -> spin_case sympy c p = Ok r ->
    exists tm, r = [tm] /\ term_value S v tm = content_value S v c (snd p) (fst p) /\ ttype tm = SpinIntegrated /\ (tcoeff tm = c \/ tcoeff tm = Qcopp c \/ tcoeff tm = Q2Qc 0).
  Proof.
    intros NV Hp G E. destruct (case_ready p Hp G) as (tau & L & Ep & R & D). unfold good in G. unfold spin_case in E. destruct (make_term SpinIntegrated (snd p) (fst p) c) as [t'|] eqn:Q; [|discriminate]. cbn [pybind] in E.
    destruct (canonicalize_returns sympy true true true SpinIntegrated _ _ c t' AD Q D R) as [[tm H]|(g & rs & rn & _ & [[_ H]|(e & H1 & H)])]; rewrite H in E.
    - injection E as <-. exists tm. split; [reflexivity|]. destruct (C42_canonicalize_value A S v sympy true true true SpinIntegrated (snd p) (fst p) c t' tm Q D) as (V1 & V2 & V3); try assumption; try reflexivity; try (intros; assumption).
      + exact (rd_valid _ _ _ _ R).
      + exact (rd_densities _ _ _ _ R).
      + rewrite Ep. cbn [snd]. intros x i Hx Cx Lx Hi. apply in_map_iff in Hx as (y & <- & Hy). unfold spun in Lx, Hi. cbn [tupper tlower tensor_indices] in Lx, Hi. rewrite map_length in Lx. unfold tensor_indices in Hi. cbn [tupper tlower] in Hi. rewrite <- map_app in Hi. apply in_map_iff in Hi as (k & <- & Hk). rewrite (lab_space k (tau k)); [apply (OA y k (Permutation_in y X_perm Hy) Cx Lx Hk)|]. apply L. unfold content_indices. apply in_or_app. right. apply in_flat_map. exists y. split; [exact Hy|exact Hk].
      + exact (rd_classes _ _ _ _ R).
      + exact (ready_balanced true SpinIntegrated _ _ R).
      + discriminate.
      + split; [|split; assumption]. rewrite V1. unfold term_value. destruct (make_term_fields _ _ _ _ _ Q) as (_ & F2 & _ & -> & -> & _). apply (content_value_perm A S), F2.
    - discriminate.
    - exfalso. destruct e; try discriminate E. exact (NV _ _ _ H1).
  Qed.

  Lemma cases_value r : (forall g ranges runs, sympy g ranges runs <> Raise ValueError) -> conserves_spin S v -> pymap (spin_case sympy c) P = Ok r -> asum (map (term_value S v) (concat r)) = content_value (both_spins S) v c X o.
  Proof.
    intros NV CS E. rewrite (both_spins_value A S v X o X_alpha c CS). fold I. 
    transitivity (asum (map (fun p => content_value S v c (snd p) (fst p)) (filter (good c) P))).
    - assert (K : forall Q r, incl Q P -> pymap (spin_case sympy c) Q = Ok r -> asum (map (term_value S v) (concat r)) = asum (map (fun p => content_value S v c (snd p) (fst p)) (filter (good c) Q))); [|apply K; [apply incl_refl|exact E]].
      induction Q as [|p Q IH]; intros r0 HQ Hr; cbn [pymap] in Hr; [injection Hr as <-; reflexivity|]. destruct (spin_case sympy c p) as [r1|] eqn:E1'; [|discriminate]. cbn [pybind] in Hr. destruct (pymap (spin_case sympy c) Q) as [r2|] eqn:E2'; [|discriminate]. injection Hr as <-. cbn [concat]. rewrite map_app, (asum_app A). rewrite (IH r2 (fun x Hx => HQ x (or_intror Hx)) eq_refl). assert (Hp : In p P) by (apply HQ; left; reflexivity). cbn [filter]. destruct (good c p) eqn:G.
      + destruct (good_case p r1 NV Hp G E1') as (tm & -> & V & _). cbn [map asum fold_right]. rewrite V. unfold asum. cbn [fold_right]. ring.
      + rewrite (bad_case p Hp G) in E1'. injection E1' as <-. cbn [map]. unfold asum at 1. cbn [fold_right]. ring.
    - rewrite (asum_perm A _ _ (Permutation_map _ P_good)). rewrite map_map. reflexivity.
  Qed.
End Cases.

(** C72. The spin-integrated terms yielded for a ready spin-orbital term (C71) together have its value; the indices of the
    spin-orbital term run over the orbitals of both spins. The tensors conserve spin (nothing is asked of the operators) and
    SymPy raises no ValueError. *)
Theorem C72_spin_cases_value :
  forall (A : qalg) (S : system) (v : tvaluation A) sympy xs o c t ts,
  make_term SpinOrbital xs o c = Ok t -> (forall i, ~ diagonal_in i xs o) -> ready true SpinOrbital xs o -> cumulants_open_active xs -> zero_or_visible c ->
  physical S v -> no_active_amplitudes S v -> antisymmetric v -> hermitian_values v -> conserves_spin S v ->
  admissible sympy -> (forall g ranges runs, sympy g ranges runs <> Raise ValueError) ->
  generate_spin_cases_naive sympy t = Ok ts ->
  asum (map (term_value S v) ts) = term_value (both_spins S) v t.
Proof.
  intros A S v sympy xs o c t ts M ND RD OA Zc PH NA AS HS CS AD NV H. unfold generate_spin_cases_naive in H. destruct (make_term_fields _ _ _ _ _ M) as (F1 & _ & _ & F4 & F5 & _). rewrite F1, F4, F5 in H. cbn [itype_eqb negb] in H.
  destruct (op_spin_cases o) as [ops|] eqn:E1; [|discriminate]. cbn [pybind] in H. destruct (pymap tensor_spin_cases (ttensors t)) as [tss|] eqn:E2; [|discriminate]. cbn [pybind] in H. destruct (pymap (spin_case sympy c) _) as [r|] eqn:E3; [|discriminate]. injection H as <-.
  rewrite (cases_value sympy xs o c t M ND RD AD ops tss E1 E2 A S v OA Zc PH NA AS HS r NV CS E3). unfold term_value. rewrite F4, F5. reflexivity.
Qed.
Print Assumptions C72_spin_cases_value.

(** The terms are spin-integrated, with the coefficient of the term up to sign, or zero. *)
Theorem C72_spin_cases_terms :
  forall sympy xs o c t ts,
  make_term SpinOrbital xs o c = Ok t -> (forall i, ~ diagonal_in i xs o) -> ready true SpinOrbital xs o -> cumulants_open_active xs -> zero_or_visible c ->
  admissible sympy -> (forall g ranges runs, sympy g ranges runs <> Raise ValueError) ->
  generate_spin_cases_naive sympy t = Ok ts ->
  forall tm, In tm ts -> ttype tm = SpinIntegrated /\ (tcoeff tm = c \/ tcoeff tm = Qcopp c \/ tcoeff tm = Q2Qc 0).
Proof.
  intros sympy xs o c t ts M ND RD OA Zc AD NV H tm Hin. unfold generate_spin_cases_naive in H. destruct (make_term_fields _ _ _ _ _ M) as (F1 & _ & _ & F4 & F5 & _). rewrite F1, F4, F5 in H. cbn [itype_eqb negb] in H.
  destruct (op_spin_cases o) as [ops|] eqn:E1; [|discriminate]. cbn [pybind] in H. destruct (pymap tensor_spin_cases (ttensors t)) as [tss|] eqn:E2; [|discriminate]. cbn [pybind] in H. destruct (pymap (spin_case sympy c) _) as [r|] eqn:E3; [|discriminate]. injection H as <-.
  apply in_concat in Hin as (r1 & Hr & Hin). apply pymap_forall2 in E3. assert (Q : exists p, In p (flat_map (fun o => map (pair o) (iproduct tss)) ops) /\ spin_case sympy c p = Ok r1).
  { clear - E3 Hr. induction E3 as [|p r' l l' H E IH]; [destruct Hr|]. destruct Hr as [->|Hr]; [exists p; split; [left; reflexivity|exact H]|]. destruct (IH Hr) as (q & Hq & Eq). exists q. split; [right; exact Hq|exact Eq]. }
  destruct Q as (p & Hp & Ep). destruct (good c p) eqn:G.
  - destruct (good_case sympy xs o c t M ND RD AD ops tss E1 E2 Qc_alg three_orbitals half_filled OA Zc half_filled_physical half_filled_active half_filled_antisymmetric half_filled_hermitian p r1 NV Hp G Ep) as (tm' & -> & _ & T & Q). destruct Hin as [<-|[]]. auto.
  - rewrite (bad_case sympy xs o c t M ND RD ops tss E2 p Hp G) in Ep. injection Ep as <-. destruct Hin.
Qed.
Print Assumptions C72_spin_cases_terms.

(** If SymPy always answers with a tensor, no exception is raised. *)
Theorem C72_spin_cases_return :
  forall sympy xs o c t,
  make_term SpinOrbital xs o c = Ok t -> (forall i, ~ diagonal_in i xs o) -> ready true SpinOrbital xs o ->
  admissible sympy -> (forall g ranges runs, exists gc, sympy g ranges runs = Ok (Some gc)) ->
  exists ts, generate_spin_cases_naive sympy t = Ok ts.
Proof.
  intros sympy xs o c t M ND RD AD AN. unfold generate_spin_cases_naive. destruct (make_term_fields _ _ _ _ _ M) as (F1 & _ & _ & F4 & F5 & _). rewrite F1, F4, F5. cbn [itype_eqb negb]. destruct (cases_exist xs o c t M ND RD) as (ops & tss & E1 & E2). rewrite E1. cbn [pybind]. rewrite E2. cbn [pybind].
  assert (G : exists r, pymap (spin_case sympy c) (flat_map (fun o => map (pair o) (iproduct tss)) ops) = Ok r); [|destruct G as [r ->]; eexists; reflexivity].
  apply pymap_returns. intros p Hp. destruct (good c p) eqn:G; [|rewrite (bad_case sympy xs o c t M ND RD ops tss E2 p Hp G); eauto]. destruct (case_ready xs o c t M ND RD ops tss E1 E2 p Hp G) as (tau & _ & _ & R & D). unfold good in G. unfold spin_case. destruct (make_term SpinIntegrated (snd p) (fst p) c) as [t'|] eqn:Q; [|discriminate]. cbn [pybind].
  destruct (C71_answer_returns sympy true true true SpinIntegrated _ _ c t' AD AN Q D R) as [tm ->]. eauto.
Qed.
Print Assumptions C72_spin_cases_return.

(** Other index types are rejected, and so are operators that change the number of particles. *)
Theorem C72_rejects :
  forall sympy t, (ttype t <> SpinOrbital -> generate_spin_cases_naive sympy t = Raise TypeError) /\
    (ttype t = SpinOrbital -> length (cre (tsq t)) <> length (ann (tsq t)) -> generate_spin_cases_naive sympy t = Raise ValueError).
Proof.
  intros sympy t. unfold generate_spin_cases_naive. split.
  - intros H. destruct (ttype t); try reflexivity; contradiction.
  - intros -> H. cbn [itype_eqb negb]. unfold op_spin_cases, spin_cases_pair. destruct (Nat.eqb_spec (length (cre (tsq t))) (length (ann (tsq t)))); [contradiction|]. reflexivity.
Qed.
Print Assumptions C72_rejects.

(** *** Example: core orbitals 0 (alpha) and 1 (beta), virtual orbitals 2 (alpha) and 3 (beta); H^{v0}_{c0} T^{c0}_{v0} *)
Definition two_shells : system := Sys 4 (fun p => match p with 0 => Lab false Sc | 1 => Lab true Sc | 2 => Lab false Sv | _ => Lab true Sv end).
Definition shell_values : tvaluation Qc_alg :=
  TVal Qc_alg (fun c _ => one_body (fun p q => match c with
    | TKronecker => if p =? q then Q2Qc 1 else Q2Qc 0
    | TCumulant => if (p =? q) && (p <? 2) then Q2Qc 1 else Q2Qc 0
    | _ => if eqb (lbeta (olabel two_shells p)) (lbeta (olabel two_shells q)) then Q2Qc 1 else Q2Qc 0 end))
    (fun u l => match u, l with [], [] => Q2Qc 1 | _, _ => Q2Qc 0 end).
Lemma shell_core p : is_core two_shells p = (p <? 2).
Proof. destruct p as [|[|[|p]]]; reflexivity. Qed.
Lemma shell_virtual p : is_virtual two_shells p = negb (p <? 2).
Proof. destruct p as [|[|[|p]]]; reflexivity. Qed.
Lemma shell_active p : is_active two_shells p = false.
Proof. destruct p as [|[|[|p]]]; reflexivity. Qed.
Lemma shell_physical : physical two_shells shell_values.
Proof.
  constructor; cbn [shell_values vtensor one_body].
  - reflexivity.
  - intros _ p q H. rewrite !shell_virtual in H. destruct (Nat.eqb_spec p q) as [<-|]; [|reflexivity]. destruct (p <? 2); [destruct H; discriminate|reflexivity].
  - intros _ p q H. rewrite !shell_core in H. destruct (Nat.eqb_spec p q) as [<-|]; [|reflexivity]. destruct (p <? 2); [reflexivity|destruct H; discriminate].
  - intros _ [|p [|p' ps]] qs L _; [reflexivity|exfalso; apply L; reflexivity|reflexivity].
Qed.
Lemma shell_antisymmetric : antisymmetric shell_values.
Proof.
  constructor; cbn [shell_values vtensor voper].
  - intros c n l. apply one_body_upper.
  - intros c n u. apply one_body_lower.
  - intros l p x y q. destruct p as [|a [|b p]]; reflexivity.
  - intros u p x y q. destruct u as [|a [|b u]]; try reflexivity; destruct p as [|a' [|b p]]; reflexivity.
Qed.
Lemma shell_hermitian : hermitian_values shell_values.
Proof.
  intros c n u l. cbn [shell_values vtensor]. destruct u as [|p [|p' u]], l as [|q [|q' l]]; cbn [one_body]; try reflexivity.
  assert (E : eqb (lbeta (olabel two_shells p)) (lbeta (olabel two_shells q)) = eqb (lbeta (olabel two_shells q)) (lbeta (olabel two_shells p))) by (destruct (lbeta _), (lbeta _); reflexivity).
  rewrite (Nat.eqb_sym q p), E. destruct c; try reflexivity. destruct (Nat.eqb_spec p q) as [<-|]; reflexivity.
Qed.
Lemma shell_amplitudes : no_active_amplitudes two_shells shell_values.
Proof. intros n ps qs H. cbn [shell_values vtensor]. destruct ps as [|p [|p' u]], qs as [|q [|q' l]]; cbn [one_body]; try reflexivity. cbn [app forallb] in H. rewrite shell_active in H. discriminate. Qed.
Lemma shell_conserves : conserves_spin two_shells shell_values.
Proof.
  intros c n ps qs H. cbn [shell_values vtensor]. destruct ps as [|p [|p' u]], qs as [|q [|q' l]]; cbn [one_body]; try reflexivity. unfold beta_orbitals in H. cbn [filter] in H. assert (E : eqb (lbeta (olabel two_shells p)) (lbeta (olabel two_shells q)) = false) by (destruct (lbeta _), (lbeta _); try reflexivity; exfalso; apply H; reflexivity).
  assert (Npq : p <> q) by (intros ->; apply H; reflexivity). apply Nat.eqb_neq in Npq. rewrite E, Npq. destruct c; reflexivity.
Qed.
Definition shell_content : list tensor := [ex_H [xi Sv 0] [xi Sc 0]; Ten TCluster SpinOrbital "T" 1 [xi Sc 0] [xi Sv 0]].
Lemma shell_ready : ready true SpinOrbital shell_content (Op [] []).
Proof.
  constructor.
  - repeat (constructor; [reflexivity|]). constructor.
  - intros _ i Hi. cbn in Hi. intuition (subst; reflexivity).
  - intros x Hx. cbn in Hx. intuition (subst; first [reflexivity|discriminate]).
  - intros x y Hx Hy. cbn in Hx, Hy. intuition (subst; first [reflexivity|discriminate]).
  - constructor.
  - cbn. apply perm_swap.
  - intros x u l Hx C Eu El. cbn in Hx. destruct Hx as [<-|[<-|[]]]; discriminate C.
  - intros x u l Hx C Eu El. cbn in Hx. destruct Hx as [<-|[<-|[]]]; discriminate C.
  - intros x i Hx C Hi. cbn in Hx. destruct Hx as [<-|[<-|[]]]; cbn in C; try discriminate C. cbn in Hi. destruct Hi as [<-|[<-|[]]]; discriminate.
  - eexists. split; [left; reflexivity|]. intros [H|(_ & H & _)]; discriminate H.
Qed.
Lemma shell_plain i : ~ diagonal_in i shell_content (Op [] []).
Proof. intros [[H1 H2]|(x & Hx & H1 & H2)]; [destruct H1|]. cbn in Hx. destruct Hx as [<-|[<-|[]]]; cbn in H1, H2; intuition (subst; discriminate). Qed.
Definition shell_term : term := the_term (make_term SpinOrbital shell_content (Op [] []) (Q2Qc 1)).
Example C72_example :
  make_term SpinOrbital shell_content (Op [] []) (Q2Qc 1) = Ok shell_term /\ (forall i, ~ diagonal_in i shell_content (Op [] [])) /\ ready true SpinOrbital shell_content (Op [] []) /\
  cumulants_open_active shell_content /\ zero_or_visible (Q2Qc 1) /\ admissible (one_move []) /\ (forall g ranges runs, exists gc, one_move [] g ranges runs = Ok (Some gc)) /\
  exists ts, generate_spin_cases_naive (one_move []) shell_term = Ok ts /\
    map (fun t => map (fun x => (tupper x, tlower x)) (ttensors t)) ts =
      [[([xi Sv 0], [xi Sc 0]); ([xi Sc 0], [xi Sv 0])]; [([(Lab true Sv, 0)], [(Lab true Sc, 0)]); ([(Lab true Sc, 0)], [(Lab true Sv, 0)])]] /\
    asum (map (term_value two_shells shell_values) ts) = Q2Qc 2 /\ term_value (both_spins two_shells) shell_values shell_term = Q2Qc 2.
Proof.
  split; [reflexivity|]. split; [exact shell_plain|]. split; [exact shell_ready|]. split; [|split; [|split; [apply one_move_admissible|split; [intros g ranges runs; eexists; reflexivity|]]]].
  - intros x i Hx C. cbn in Hx. destruct Hx as [<-|[<-|[]]]; discriminate C.
  - right. left. discriminate.
  - eexists. split; [vm_compute; reflexivity|]. split; [reflexivity|]. split; apply Qc_is_canon; reflexivity.
Qed.

(** Exceptions of SymPy that are ValueErrors are swallowed: the terms are lost. *)
Definition failing_sympy : sympy_oracle := fun _ _ _ => Raise ValueError.
Theorem C72_swallowed_errors :
  admissible failing_sympy /\ generate_spin_cases_naive failing_sympy shell_term = Ok [] /\ term_value (both_spins two_shells) shell_values shell_term = Q2Qc 2.
Proof. split; [intros g ranges runs gc H; discriminate|]. split; [vm_compute; reflexivity|]. apply Qc_is_canon. reflexivity. Qed.
Print Assumptions C72_swallowed_errors.
