(** C38, C43, C44, C47: the Term constructor, expansion of composite indices, operators. *)
From Coq Require Import Ascii String ZArith QArith Qcanon Sorting.Sorted.
From Verif Require Import PyBase OrderSpec OrderProofs SpaceModel IndicesModel IterProofs IndicesProofs ElemModel MacroModel TermModel ValueSpec ValueProofs TermSpec SumProofs TermProofs RenameProofs OperatorProofs.
Local Close Scope Q_scope.
Local Close Scope Qc_scope.
Local Open Scope nat_scope.
Local Notation length := List.length.

Definition xi (s : space) (n : nat) : idx := (Lab false s, n).
(** H^{g0}_{g1} a^{g1}_{g0} and its value 1 everywhere *)
Definition ex_H (u l : list idx) : tensor := Ten THamiltonian SpinOrbital "H" 0 u l.
Definition ex_ham : pyres term := make_term SpinOrbital [ex_H [xi Sg 0] [xi Sg 1]] (Op [xi Sg 1] [xi Sg 0]) (Q2Qc 1).

(** C38. The constructor accepts exactly the contents of the right index type in which non-diagonal indices occur twice and
    diagonal ones an even number of times; otherwise it raises ValueError or TypeError. *)
Theorem C38_term_accepts :
  forall t xs o c,
  ((exists tm, make_term t xs o c = Ok tm) <->
     (forall x, In x xs -> titype x = t) /\
     (forall i, 0 < total_times i xs o ->
        (diagonal_in i xs o -> Nat.even (total_times i xs o) = true) /\ (~ diagonal_in i xs o -> total_times i xs o = 2))) /\
  (forall e, make_term t xs o c = Raise e -> e = ValueError \/ e = TypeError).
Proof.
  intros t xs o c. split; [split|apply make_term_raises].
  - intros [tm H]. apply make_term_inv in H as (F & C & _). rewrite Forall_forall in F. split; [exact F|exact C].
  - intros [F C]. apply make_term_ok; [apply Forall_forall, F|exact C].
Qed.
Print Assumptions C38_term_accepts.

(** What the accepted term stores. *)
Theorem C38_term_stores :
  forall t xs o c tm, make_term t xs o c = Ok tm ->
  ttype tm = t /\ tsq tm = o /\ tcoeff tm = c /\
  Permutation (ttensors tm) xs /\ le_sorted tensor_ord (ttensors tm) /\
  NoDup (tindices tm) /\ (forall i, In i (tindices tm) <-> 0 < total_times i xs o) /\
  (forall i, In i (tindices tm) -> snd i < tnext tm (fst i)) /\
  (forall s n, n < tnext tm s -> exists i, In i (tindices tm) /\ fst i = s /\ n <= snd i) /\
  NoDup (map fst (tdiag tm)) /\ (forall i n, In (i, n) (tdiag tm) <-> diagonal_in i xs o /\ n = total_times i xs o).
Proof.
  intros t xs o c tm H. destruct (make_term_fields _ _ _ _ _ H) as (H1 & H2 & H3 & H4 & H5 & H6 & H7 & H8 & H9 & H10).
  repeat (split; [assumption|]). split; [|split; [|split; assumption]].
  - intros i Hi. apply H8. exists i. auto.
  - intros s n. apply H8.
Qed.
Print Assumptions C38_term_stores.
Example C38_example : (exists tm, ex_ham = Ok tm) /\ make_term SpinOrbital [ex_H [xi Sg 0] [xi Sg 1]] (Op [xi Sg 1] [xi Sg 2]) (Q2Qc 1) = Raise ValueError.
Proof. split; [eexists; reflexivity|reflexivity]. Qed.

(** C43. The terms of expand_composite_indices(False) add up to the original term, for all orbital spaces, all valuations
    in all commutative rings over the rationals. *)
Theorem C43_expansion_partitions :
  forall (A : qalg) (S : system) (v : tvaluation A) start ty xs o c t ts,
  make_term ty xs o c = Ok t -> NoDup (cre o ++ ann o) -> expand_composite_indices false start t = Ok ts ->
  asum (map (term_value S v) ts) = term_value S v t.
Proof. intros A S v start ty xs o c t ts. exact (expand_value_ok A S v start ty xs o c t ts). Qed.
Print Assumptions C43_expansion_partitions.

Definition ones : tvaluation Qc_alg := TVal Qc_alg (fun _ _ _ _ => Q2Qc 1) (fun _ _ => Q2Qc 1).
Definition one_core : system := Sys 1 (fun _ => Lab false Sc).
(** With an index on both sides of the operator the blocks are repeated: a^{g0}_{g0} H^{g1}_{g1} with one core orbital
    has the value 1, its nine expanded terms add up to 3. *)
Theorem C43_diagonal_refuted :
  exists (S : system) (v : tvaluation Qc_alg) ty xs o c t ts,
  make_term ty xs o c = Ok t /\ expand_composite_indices false 0 t = Ok ts /\ length ts = 9 /\
  asum (map (term_value S v) ts) <> term_value S v t.
Proof.
  exists one_core, ones, SpinOrbital, [ex_H [xi Sg 1] [xi Sg 1]], (Op [xi Sg 0] [xi Sg 0]), (Q2Qc 1).
  eexists. eexists. split; [reflexivity|]. split; [vm_compute; reflexivity|]. split; [reflexivity|].
  intros H. apply (f_equal this) in H. vm_compute in H. discriminate.
Qed.
Print Assumptions C43_diagonal_refuted.

(** C44. make_ddca yields one term per wanted block; each is the original with the indices renamed injectively, the labels
    of the other indices kept and the operator indices in the block. *)
Theorem C44_ddca_blocks :
  forall mc mv sr start ty xs o c t ts,
  make_term ty xs o c = Ok t -> NoDup (cre o ++ ann o) -> make_ddca mc mv sr start t = Ok ts ->
  exists bs : list (list label), NoDup bs /\
    (forall b, In b bs <-> Forall2 (fun s i => In s (relation (fst i))) b (cre o ++ ann o) /\
       (Z.of_nat (length (filter (fun x => space_eqb (lsp x) Sc) b)) <= mc)%Z /\
       (Z.of_nat (length (filter (fun x => space_eqb (lsp x) Sv) b)) <= mv)%Z /\
       (sr = true -> ~ exists x, In x b /\ lsp x = Sa)) /\
    Forall2 (fun b t' => map fst (cre (tsq t') ++ ann (tsq t')) = b /\ ttype t' = ty /\ tcoeff t' = c /\
      exists rho, tsq t' = rename_op rho o /\ Permutation (ttensors t') (map (rename_tensor rho) xs) /\
        (forall i, In i (content_indices xs o) -> ~ In i (cre o ++ ann o) -> fst (rho i) = fst i) /\
        (forall i, In i (content_indices xs o) -> start <= snd (rho i)) /\
        (forall i j, In i (content_indices xs o) -> In j (content_indices xs o) -> rho i = rho j -> i = j)) bs ts.
Proof. exact make_ddca_spec. Qed.
Print Assumptions C44_ddca_blocks.

Example C43_C44_example :
  exists t ts ts', ex_ham = Ok t /\ expand_composite_indices false 0 t = Ok ts /\ length ts = 9 /\
    make_ddca 1 1 true 5 t = Ok ts' /\ map (fun t' => (cre (tsq t'), ann (tsq t'))) ts' = [([xi Sc 5], [xi Sv 5]); ([xi Sv 5], [xi Sc 5])].
Proof. eexists. eexists. eexists. split; [reflexivity|]. split; [vm_compute; reflexivity|]. split; [reflexivity|]. split; [vm_compute; reflexivity|reflexivity]. Qed.

(** C47. Hamiltonian and cluster operators of every rank *)
Theorem C47_hamiltonian :
  forall k start t, exists tm, hamiltonian_operator k start t = Ok tm /\ ttype tm = t /\
  tcoeff tm = Qcinv (Qc_of_Z (Z.of_nat (fact k * fact k))) /\
  ttensors tm = [Ten THamiltonian t "H" 0 (is_range (Lab false Sg) (start + k) k) (is_range (Lab false Sg) start k)] /\
  tsq tm = Op (is_range (Lab false Sg) start k) (is_range (Lab false Sg) (start + k) k) /\
  (forall i, In i (tindices tm) <-> fst i = Lab false Sg /\ start <= snd i < start + 2 * k).
Proof. exact hamiltonian_ok. Qed.
Print Assumptions C47_hamiltonian.

Theorem C47_cluster :
  forall k start ex name sc hl pl t,
  ((exists tm, cluster_operator k start ex name sc hl pl t = Ok tm) <->
     k = 0 \/ (lbeta hl = lbeta pl /\ (t = SpinOrbital -> lbeta hl = false))) /\
  (forall tm, cluster_operator k start ex name sc hl pl t = Ok tm ->
    ttype tm = t /\ tcoeff tm = Qcmult sc (Qcinv (Qc_of_Z (Z.of_nat (fact k * fact k)))) /\
    ttensors tm = [Ten TCluster t name 1 (is_range hl start k) (is_range pl start k)] /\
    tsq tm = (if ex then Op (is_range pl start k) (is_range hl start k) else Op (is_range hl start k) (is_range pl start k)) /\
    (forall i, In i (tindices tm) <-> (fst i = hl \/ fst i = pl) /\ start <= snd i < start + k)).
Proof. intros k start ex name sc hl pl t. split; [apply cluster_success|]. intros tm. exact (cluster_ok k start ex name sc hl pl t tm). Qed.
Print Assumptions C47_cluster.

(** operators generated with non-overlapping ranges share no index *)
Theorem C47_disjoint :
  forall k start t tm k' start' ex name sc hl pl tm',
  hamiltonian_operator k start t = Ok tm -> cluster_operator k' start' ex name sc hl pl t = Ok tm' ->
  start + 2 * k <= start' \/ start' + k' <= start ->
  forall i, In i (tindices tm) -> ~ In i (tindices tm').
Proof.
  intros k start t tm k' start' ex name sc hl pl tm' H H' L i Hi Hi'.
  destruct (hamiltonian_ok k start t) as (tm2 & E & _ & _ & _ & _ & Q). rewrite H in E. injection E as <-. apply Q in Hi.
  apply cluster_ok in H' as (_ & _ & _ & _ & Q'). apply Q' in Hi'. lia.
Qed.
Print Assumptions C47_disjoint.
Theorem C47_disjoint_hamiltonians :
  forall k start t tm k' start' t' tm',
  hamiltonian_operator k start t = Ok tm -> hamiltonian_operator k' start' t' = Ok tm' -> start + 2 * k <= start' ->
  forall i, In i (tindices tm) -> ~ In i (tindices tm').
Proof.
  intros k start t tm k' start' t' tm' H H' L i Hi Hi'.
  destruct (hamiltonian_ok k start t) as (tm2 & E & _ & _ & _ & _ & Q). rewrite H in E. injection E as <-. apply Q in Hi.
  destruct (hamiltonian_ok k' start' t') as (tm3 & E & _ & _ & _ & _ & Q'). rewrite H' in E. injection E as <-. apply Q' in Hi'. lia.
Qed.
Print Assumptions C47_disjoint_hamiltonians.
Theorem C47_disjoint_clusters :
  forall k start ex name sc hl pl t tm k' start' ex' name' sc' hl' pl' t' tm',
  cluster_operator k start ex name sc hl pl t = Ok tm -> cluster_operator k' start' ex' name' sc' hl' pl' t' = Ok tm' -> start + k <= start' ->
  forall i, In i (tindices tm) -> ~ In i (tindices tm').
Proof.
  intros k start ex name sc hl pl t tm k' start' ex' name' sc' hl' pl' t' tm' H H' L i Hi Hi'.
  apply cluster_ok in H as (_ & _ & _ & _ & Q). apply Q in Hi. apply cluster_ok in H' as (_ & _ & _ & _ & Q'). apply Q' in Hi'. lia.
Qed.
Print Assumptions C47_disjoint_clusters.
Example C47_example : exists t t', hamiltonian_operator 2 0 SpinOrbital = Ok t /\ cluster_operator 2 4 true "T" (Q2Qc 1) (Lab false Sh) (Lab false Sp) SpinOrbital = Ok t' /\
  cre (tsq t) = [xi Sg 0; xi Sg 1] /\ cre (tsq t') = [xi Sp 4; xi Sp 5] /\ (this (tcoeff t') == 1 # 4)%Q.
Proof. eexists. eexists. split; [reflexivity|]. split; [reflexivity|]. split; [reflexivity|]. split; reflexivity. Qed.
