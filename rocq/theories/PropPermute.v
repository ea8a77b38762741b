(** Permutation formats, partitions of open indices, grouping of terms and singlet adaptation: C50, C51, C52, C59. *)
From Coq Require Import Ascii String ZArith QArith Qcanon Factorial.
From Verif Require Import PyBase OrderSpec SpaceModel IndexModel IndicesModel ParitySpec IndicesProofs ElemModel MacroModel SortProofs TermModel TermSpec TermProofs RenameProofs CombineModel CombineProofs PermuteModel PermuteSpec PermuteProofs OpenProofs SingletProofs.
Local Close Scope Q_scope.
Local Close Scope Qc_scope.
Local Open Scope nat_scope.
Local Notation length := List.length.

(** ** C50 *)
(** The format yields the text of each ordering of the indices that keeps the order inside the blocks (and has the
    spins at the same places), once, with the sign of the reordering. *)
Theorem C50_representatives : forall t part self,
  itype_antisymmetric t = true -> NoDup self -> Permutation (concat part) self ->
  (t = SpinOrbital -> Forall (fun i => idx_beta i = false) self) ->
  exists r, ambit_permute_format t self part = Ok (map (fun sl => (fst sl, indices_str (snd sl))) r) /\
    NoDup (map (fun sl => indices_str (snd sl)) r) /\
    forall s l, In (s, l) r <-> Permutation l self /\ keeps_blocks part l /\ map idx_beta l = map idx_beta self /\ reorder_sign self l s.
Proof.
  intros t part self T N P B. destruct (permuted_ok t part self T N P B) as (r & E & Nr & H). exists r. unfold ambit_permute_format. rewrite E. cbn [pybind]. split; [reflexivity|]. split; [|exact H].
  rewrite <- (map_map snd indices_str). apply FinFun.Injective_map_NoDup; [|exact Nr]. intros a b. apply indices_str_inj.
Qed.
Print Assumptions C50_representatives.
(** number of formats *)
Theorem C50_number : forall t part self,
  itype_antisymmetric t = true -> NoDup self -> Permutation (concat part) self ->
  exists n, n_multiset_permutation t self part = Ok n /\ n * product (map (fun b => fact (length b)) part) = fact (length self).
Proof. exact n_multiset_ok. Qed.
Print Assumptions C50_number.
Theorem C50_number_yielded : forall t part self r n,
  itype_antisymmetric t = true -> NoDup self -> Permutation (concat part) self ->
  (t = SpinOrbital -> Forall (fun i => idx_beta i = false) self) -> (exists s, Forall (fun i => idx_beta i = s) self) ->
  ambit_permute_format t self part = Ok r -> n_multiset_permutation t self part = Ok n -> length r = n.
Proof.
  intros t part self r n T N P B U Er En. rewrite (n_multiset_shuffles t part self T N P) in En. injection En as <-. unfold ambit_permute_format in Er. destruct (permuted_indices t self part) as [q|] eqn:Eq; [|discriminate]. cbn [pybind] in Er. injection Er as <-. rewrite map_length.
  apply (permuted_count t part self q T N P B U Eq).
Qed.
Print Assumptions C50_number_yielded.
(** with both spins present the number returned counts orderings that are not yielded *)
Theorem C50_spin_count_refuted : exists self part r n,
  NoDup self /\ Permutation (concat part) self /\ ambit_permute_format SpinIntegrated self part = Ok r /\ n_multiset_permutation SpinIntegrated self part = Ok n /\ length r < n.
Proof.
  exists [(Lab false Sg, 0); (Lab true Sg, 0)], [[(Lab false Sg, 0)]; [(Lab true Sg, 0)]]. eexists. eexists. split; [repeat constructor; cbn; intuition discriminate|]. split; [reflexivity|]. split; [vm_compute; reflexivity|]. split; [vm_compute; reflexivity|]. vm_compute. lia.
Qed.
Print Assumptions C50_spin_count_refuted.
(** Each ordering differs from exactly one of the formats only inside the blocks. *)
Theorem C50_cosets : forall t part self r l,
  itype_antisymmetric t = true -> NoDup self -> Permutation (concat part) self ->
  (t = SpinOrbital -> Forall (fun i => idx_beta i = false) self) ->
  (forall b, In b part -> exists s, Forall (fun i => idx_beta i = s) b) ->
  ambit_permute_format t self part = Ok r -> Permutation l self -> map idx_beta l = map idx_beta self ->
  exists q, In (indices_str q) (map snd r) /\ Permutation q self /\ same_blocks part l q /\
    forall q', In (indices_str q') (map snd r) -> same_blocks part l q' -> q' = q.
Proof.
  intros t part self r l T N P B Pu Er Pl Bl. unfold ambit_permute_format in Er. destruct (permuted_indices t self part) as [z|] eqn:Ez; [|discriminate]. cbn [pybind] in Er. injection Er as <-.
  assert (I : forall q, In (indices_str q) (map snd (map (fun sl => (fst sl, indices_str (snd sl))) z)) <-> In q (map snd z)).
  { intros q. rewrite map_map. cbn [snd]. rewrite <- (map_map snd indices_str). split; [|apply in_map]. intros H. apply in_map_iff in H as (q' & E & H). apply indices_str_inj in E as ->. exact H. }
  destruct (representative t part self z l T N P B Pu Ez Pl Bl) as (q & Hq & SB & U). exists q. split; [apply I, Hq|]. split; [|split; [exact SB|intros q' H; apply U, I, H]].
  destruct (permuted_ok t part self T N P B) as (z' & Ez' & _ & H). rewrite Ez in Ez'. injection Ez' as <-. apply in_map_iff in Hq as ([s q0] & Eq & Hq). cbn in Eq. subst q0. apply H in Hq. apply Hq.
Qed.
Print Assumptions C50_cosets.
(** spin-adapted indices are never permuted; foreign indices are rejected *)
Theorem C50_spin_adapted : forall self part,
  (forall b x, In b part -> In x b -> In x self) ->
  n_multiset_permutation SpinAdapted self part = Ok 1 /\ ambit_permute_format SpinAdapted self part = Ok [(1%Z, indices_str self)].
Proof. intros self part H. unfold n_multiset_permutation, exist_permute_format, ambit_permute_format, permuted_indices. rewrite (valid_part_sub self part H). split; reflexivity. Qed.
Print Assumptions C50_spin_adapted.
Theorem C50_foreign_index : forall t self part b x,
  In b part -> In x b -> ~ In x self ->
  n_multiset_permutation t self part = Raise ValueError /\ ambit_permute_format t self part = Raise ValueError /\ latex_permute_format t self part = Raise ValueError.
Proof.
  intros t self part b x Hb Hx Hn. assert (V : valid_partition self part = Raise ValueError).
  { unfold valid_partition. replace (forallb _ part) with false; [reflexivity|]. symmetry. apply not_true_iff_false. intros H. rewrite forallb_forall in H. specialize (H b Hb). rewrite forallb_forall in H. apply Hn, mem_idx_in, (H x Hx). }
  unfold n_multiset_permutation, ambit_permute_format, permuted_indices, latex_permute_format. rewrite V. auto.
Qed.
Print Assumptions C50_foreign_index.
Example C50_example :
  let p (n : nat) := (Lab false Sp, n) in
  n_multiset_permutation SpinOrbital [p 0; p 1; p 2] [[p 0; p 1]; [p 2]] = Ok 3 /\
  ambit_permute_format SpinOrbital [p 0; p 1; p 2] [[p 0; p 1]; [p 2]] =
    Ok [(1%Z, str "p0,p1,p2"); ((-1)%Z, str "p0,p2,p1"); (1%Z, str "p2,p0,p1")] /\
  latex_permute_format SpinOrbital [p 0; p 1; p 2] [[p 0; p 1]; [p 2]] = Ok (3, str "{\cal P} ( p_{0} p_{1} / p_{2} )").
Proof. vm_compute. repeat split. Qed.

(** ** C51 *)
Theorem C51_open_partition : forall t xs o c tm,
  make_term t xs o c = Ok tm -> tdiag tm = [] -> NoDup (cre o) -> NoDup (ann o) ->
  let on_one_tensor := fun x y => exists z, In z xs /\ In x (tensor_indices z) /\ In y (tensor_indices z) in
  good_partition (cre o) on_one_tensor (fst (perm_partition_open tm)) /\ good_partition (ann o) on_one_tensor (snd (perm_partition_open tm)).
Proof. exact open_partition. Qed.
Print Assumptions C51_open_partition.
(** a diagonal index of the operator that is on no tensor is in no block *)
Theorem C51_diagonal_refuted : exists t xs o c tm,
  make_term t xs o c = Ok tm /\ NoDup (cre o) /\ NoDup (ann o) /\ ~ Permutation (concat (fst (perm_partition_open tm))) (cre o).
Proof.
  set (g (n : nat) := (Lab false Sg, n)). exists SpinOrbital, [Ten THamiltonian SpinOrbital "H" 0 [g 2] [g 1]], (Op [g 0; g 1] [g 0; g 2]), (Q2Qc 1). eexists.
  split; [vm_compute; reflexivity|]. split; [repeat constructor; cbn; intuition discriminate|]. split; [repeat constructor; cbn; intuition discriminate|].
  intros P. apply Permutation_length in P. vm_compute in P. discriminate.
Qed.
Print Assumptions C51_diagonal_refuted.
Example C51_example :
  let p (n : nat) := (Lab false Sp, n) in let c (n : nat) := (Lab false Sc, n) in let h (n : nat) := (Lab false Sh, n) in
  let xs := [Ten TCluster SpinOrbital "T" 1 [h 0; h 1] [p 0; p 2]; Ten TCluster SpinOrbital "T" 1 [c 0; h 2] [p 1; p 3]; Ten TCluster SpinOrbital "T" 1 [h 3] [p 4]] in
  exists tm, make_term SpinOrbital xs (Op [p 0; p 1; p 2; p 3; p 4] [c 0; h 0; h 1; h 2; h 3]) (Q2Qc 1) = Ok tm /\ tdiag tm = [] /\
    perm_partition_open tm = ([[p 0; p 2]; [p 1; p 3]; [p 4]], [[h 0; h 1]; [h 2]; [h 3]; [c 0]]).
Proof. eexists. split; [vm_compute; reflexivity|]. split; vm_compute; reflexivity. Qed.

(** ** C52 *)
(** The key of a term: the labels of its annihilation and creation operators, and its permutation text. *)
Theorem C52_key : forall t, exists n p r, category t = Ok (map (fun i => label_char (fst i)) (ann (tsq t) ++ cre (tsq t)), p) /\
  op_latex_permute_format (ttype t) (tsq t) (fst (perm_partition_open t)) (snd (perm_partition_open t)) = Ok (n, p, r).
Proof.
  intros t. destruct (category_total t) as [p E]. unfold category in E. destruct (perm_partition_open t) as [pc pa] eqn:Ep. cbn [fst snd]. destruct (op_latex_permute_format (ttype t) (tsq t) pc pa) as [[[n q] r]|] eqn:Eo; [|discriminate]. cbn [pybind fst snd] in E. injection E as <-.
  exists n, q, r. split; [|reflexivity]. unfold category. rewrite Ep, Eo. reflexivity.
Qed.
Print Assumptions C52_key.
Theorem C52_nothing_lost : forall terms,
  (forall t t', In t terms -> In t' terms -> category t = category t' -> ttype t = ttype t') ->
  exists out, categorize_contractions terms = Ok out /\
    (forall t, In t terms -> exists s p l, category t = Ok (s, p) /\ bucket out s p = Some l /\ In t l) /\
    (forall s p l, bucket out s p = Some l -> l <> [] /\ le_sorted term_ord l /\
       exists ts rest, Permutation terms (ts ++ rest) /\ Permutation l ts /\ Forall (fun t => category t = Ok (s, p)) ts /\ Forall (fun t => category t <> Ok (s, p)) rest).
Proof.
  intros terms HT. destruct (categorize_ok terms) as (out & E & B).
  { intros t t' H H' K. apply HT; try assumption. rewrite !key_of_ok, K. reflexivity. }
  exists out. split; [exact E|]. split.
  - intros t Ht. destruct (key_of t) as [s p] eqn:K. exists s, p. assert (G : In t (with_key (s, p) terms)) by (apply filter_In; split; [exact Ht|apply cat_eqb_eq; symmetry; exact K]).
    exists (sort_by (plt term_ord) (with_key (s, p) terms)). split; [rewrite key_of_ok, K; reflexivity|]. split; [rewrite B; destruct (with_key (s, p) terms); [destruct G|reflexivity]|]. apply (Permutation_in _ (Permutation_sym (sort_by_perm _ _))), G.
  - intros s p l H. rewrite B in H. assert (W : with_key (s, p) terms <> [] /\ l = sort_by (plt term_ord) (with_key (s, p) terms)) by (destruct (with_key (s, p) terms); [discriminate|]; split; [discriminate|congruence]). destruct W as [W ->]. clear H.
    split; [intros Q; apply W; apply Permutation_nil; rewrite <- Q; apply sort_by_perm|]. split; [apply sort_by_sorted, term_lawful|].
    exists (with_key (s, p) terms), (filter (fun t => negb (cat_eqb (s, p) (key_of t))) terms). split; [symmetry; apply filter_split|]. split; [apply sort_by_perm|]. split; apply Forall_forall; intros t Ht; apply filter_In in Ht as [_ Ht]; rewrite key_of_ok.
    + apply cat_eqb_eq in Ht. rewrite <- Ht. reflexivity.
    + intros Q. injection Q as Q. rewrite <- Q, (proj2 (cat_eqb_eq _ _) eq_refl) in Ht. discriminate.
Qed.
Print Assumptions C52_nothing_lost.
(** terms of different index classes under one key cannot be sorted *)
Theorem C52_mixed_classes : forall terms, (exists t t', In t terms /\ In t' terms /\ category t = category t' /\ ttype t <> ttype t') -> categorize_contractions terms = Raise TypeError.
Proof. intros terms (t & t' & H & H' & K & T). apply categorize_type. exists t, t'. repeat split; try assumption. rewrite !key_of_ok in K. congruence. Qed.
Print Assumptions C52_mixed_classes.
Example C52_example :
  let p (n : nat) := (Lab false Sp, n) in let h (n : nat) := (Lab false Sh, n) in let g (n : nat) := (Lab false Sg, n) in
  let one i j := make_term SpinOrbital [Ten THamiltonian SpinOrbital "H" 0 [j] [i]] (Op [i] [j]) (Q2Qc 1) in
  exists t1 t2 t3 out,
    make_term SpinOrbital [Ten TCluster SpinOrbital "T" 1 [h 0] [p 0]; Ten TCluster SpinOrbital "T" 1 [h 1] [p 1]] (Op [p 0; p 1] [h 0; h 1]) (Q2Qc 1) = Ok t1 /\
    make_term SpinOrbital [Ten TCluster SpinOrbital "T" 1 [h 0; h 1] [p 0; p 1]] (Op [p 0; p 1] [h 0; h 1]) (Q2Qc 1) = Ok t2 /\ one (g 0) (h 0) = Ok t3 /\
    categorize_contractions [t1; t2; t3; t2] = Ok out /\
    map (fun row => (fst row, map (fun b => (fst b, length (snd b))) (snd row))) out =
      [(str "hhpp", [([], 2); (str "{\cal P} ( p_{0} / p_{1} ) {\cal P} ( h_{0} / h_{1} )", 1)]); (str "hg", [([], 1)])].
Proof. do 4 eexists. split; [vm_compute; reflexivity|]. split; [vm_compute; reflexivity|]. split; [vm_compute; reflexivity|]. split; [vm_compute; reflexivity|]. vm_compute. reflexivity. Qed.

(** ** C59 *)
(** The upper indices are sorted with the major spin first. The lower indices run through every ordering with the same
    spins at the same places, each once; the sign is that of the two reorderings. *)
Theorem C59_singlet : forall upper lower r alpha_major,
  NoDup upper -> NoDup lower -> n_beta upper = n_beta lower -> length upper = length lower -> incl (upper ++ lower) (map fst r) ->
  let U := spin_sorted (first_spin alpha_major upper) upper in
  exists ls, singlet_adaptation SpinIntegrated upper lower r alpha_major = Ok (map (fun e => (fst e, map (rename r) U, map (rename r) (snd e))) ls) /\
    NoDup (map snd ls) /\ length ls = fact (length upper - n_beta upper) * fact (n_beta upper) /\
    forall s L, In (s, L) ls <-> Permutation L lower /\ map idx_beta L = map idx_beta U /\ exists su sl, reorder_sign upper U su /\ reorder_sign lower L sl /\ s = (su * sl)%Z.
Proof. exact singlet_ok. Qed.
Print Assumptions C59_singlet.
Theorem C59_rejects : forall t upper lower r alpha_major,
  (n_beta upper <> n_beta lower -> singlet_adaptation t upper lower r alpha_major = Raise ValueError) /\
  (t <> SpinIntegrated -> NoDup upper -> NoDup lower -> n_beta upper = n_beta lower -> singlet_adaptation t upper lower r alpha_major = Raise TypeError).
Proof.
  intros t upper lower r amaj. unfold singlet_adaptation. split.
  - intros H. apply Nat.eqb_neq in H. rewrite H. reflexivity.
  - intros H Nu Nl E. rewrite E, Nat.eqb_refl. cbn [negb]. assert (C : forall l, NoDup l -> exists x, canonicalize_indices t l = Ok x).
    { intros l N. destruct (itype_antisymmetric t) eqn:A; [destruct (canonicalize_spec t l A N) as (a & s & -> & _); eauto|]. unfold canonicalize_indices. rewrite A. eauto. }
    unfold canonicalize_pair. destruct (C upper Nu) as [x ->], (C lower Nl) as [y ->]. cbn [pybind]. destruct t; try reflexivity. congruence.
Qed.
Print Assumptions C59_rejects.
Example C59_example :
  let a (n : nat) := (Lab false Sp, n) in let b (n : nat) := (Lab true Sp, n) in let i (n : nat) := (Lab false Sh, n) in let j (n : nat) := (Lab true Sh, n) in
  let r := [(a 0, a 0); (b 0, a 1); (b 1, a 2); (i 0, i 0); (j 0, i 1); (j 1, i 2)] in
  singlet_adaptation SpinIntegrated [b 0; a 0; b 1] [i 0; j 0; j 1] r true =
    Ok [((-1)%Z, [a 1; a 2; a 0], [i 1; i 2; i 0]); (1%Z, [a 1; a 2; a 0], [i 2; i 1; i 0])].
Proof. vm_compute. reflexivity. Qed.
