(** C70: singlet adaptation of spin-integrated terms. *)
From Coq Require Import Ascii String ZArith QArith Qcanon Lia Factorial Permutation Ring_theory Ring.
From Verif Require Import PyBase SpaceModel IndexModel IndicesModel IterProofs ParitySpec ParityProofs IndicesProofs HalfProofs ElemModel MacroModel TermModel ValueSpec ValueProofs TermSpec SumProofs TermProofs RenameProofs SimplifyProofs SymmetryModel SymmetrySpec SympyValue CombineModel CombineSpec PermuteModel PermuteSpec PermuteProofs OpenProofs ExciteModel SingletModel SingletSpec SingletValue SingletTerm CanonProofs PropCanon PropContract.
Local Close Scope Q_scope.
Local Close Scope Qc_scope.
Local Open Scope nat_scope.
Local Notation length := List.length.

(** What is assumed of the term: it was built from valid content without diagonal indices. *)
Definition singlet_input (xs : list tensor) (o : op) (c : Qc) (t : term) : Prop :=
  make_term SpinIntegrated xs o c = Ok t /\ (forall i, ~ diagonal_in i xs o) /\ densities_disjoint xs /\ cumulants_open_active xs /\ classes_by_name xs /\
  (forall x, In x xs -> NoDup (tupper x) /\ NoDup (tlower x)) /\ NoDup (cre o) /\ NoDup (ann o) /\ length (cre o) = length (ann o) /\
  (* the coefficient divided by a number of permutations is zero or printed as nonzero *)
  (forall n, 1 <= n <= fact (length (cre o)) * fact (length (ann o)) -> zero_or_visible (Qcdiv c (Qc_of_Z (Z.of_nat n)))).
(** What is assumed of the spin-free values: the symmetries of spin-free tensors and operators. *)
Definition spin_free_values {A} (S : system) (flip : nat -> nat) (w : tvaluation A) : Prop :=
  spin_pairs S flip /\ pair_symmetric w /\ pair_symmetric_operators w /\ physical S w /\ no_active_amplitudes S w /\ hermitian_values w.
(** the orderings of the indices of one side of the operator that keep the order inside the blocks of equivalent indices *)
Definition block_orderings (ops : list idx) (part : list (list idx)) (l : list idx) : Prop := Permutation l ops /\ keeps_blocks part l.

Lemma all_shuffles part self : NoDup self -> Permutation (concat part) self ->
  exists ls, NoDup ls /\ (forall l, In l ls <-> block_orderings self part l) /\ length ls = length (multiset_permutations (list_index part)).
Proof.
  intros N P. set (g := fun perm => match pick part (repeat 0 (length part)) perm with Ok l => l | Raise _ => [] end). exists (map g (multiset_permutations (list_index part))). split; [|split; [|apply map_length]].
  - apply IterProofs.NoDup_map_in; [|apply nodup_multiset_perms]. intros p1 p2 H1 H2 E. destruct (pick_shuffle part self N P p1 H1) as (l1 & E1 & _ & M1). destruct (pick_shuffle part self N P p2 H2) as (l2 & E2 & _ & M2). unfold g in E. rewrite E1, E2 in E. congruence.
  - intros l. rewrite in_map_iff. split.
    + intros (p & <- & H). destruct (pick_shuffle part self N P p H) as (l & E & Sh & _). unfold g. rewrite E. exact Sh.
    + intros Sh. destruct (shuffle_pick part self N P l Sh) as (p & H & E). exists p. split; [unfold g; rewrite E; reflexivity|exact H].
Qed.
Lemma product_nodup {B C} (l : list B) (m : list C) : NoDup l -> NoDup m -> NoDup (list_prod l m).
Proof.
  intros Nl Nm. induction Nl as [|x l Hx Nl IH]; [constructor|]. cbn [list_prod]. apply NoDup_app_intro; [apply FinFun.Injective_map_NoDup; [intros a b E; congruence|exact Nm]|exact IH|].
  intros [a b] H1 H2. apply in_map_iff in H1 as (y & E & _). injection E as <- <-. apply in_prod_iff in H2 as [H2 _]. contradiction.
Qed.
Lemma zin_cancel (A : qalg) n : 0 < n -> forall x y : A, (zin (Z.of_nat n) * x = zin (Z.of_nat n) * y)%alg -> x = y.
Proof.
  intros Hn x y E. set (k := Qcinv (Qc_of_Z (Z.of_nat n))). assert (K : Qcmult k (Qc_of_Z (Z.of_nat n)) = Q2Qc 1).
  { apply Qcmult_inv_l. intros Q. assert (Q' : Qeq (Qc_of_Z (Z.of_nat n)) (Q2Qc 0)) by (rewrite Q; reflexivity). unfold Qc_of_Z in Q'. cbn [this Q2Qc] in Q'. rewrite !Qred_correct in Q'. unfold Qeq in Q'. cbn in Q'. lia. }
  assert (G : forall z : A, z = (inj k * (zin (Z.of_nat n) * z))%alg).
  { intros z. replace (inj k * (zin (Z.of_nat n) * z))%alg with (inj (Qcmult k (Qc_of_Z (Z.of_nat n))) * z)%alg; [rewrite K, inj_one; symmetry; apply (Rmul_1_l (q_ring A))|]. rewrite (CanonProofs.inj_zin A). symmetry. apply (Rmul_assoc (q_ring A)). }
  rewrite (G x), (G y), E. reflexivity.
Qed.
Lemma counts xs o c t : singlet_input xs o c t -> exists n, op_n_multiset_permutation SpinIntegrated o (fst (perm_partition_open t)) (snd (perm_partition_open t)) = Ok n /\
  n = length (multiset_permutations (list_index (fst (perm_partition_open t)))) * length (multiset_permutations (list_index (snd (perm_partition_open t)))) /\ 1 <= n <= fact (length (cre o)) * fact (length (ann o)).
Proof.
  intros (M & ND & HD & HO & HC & NT & Nc & Na & HB & HV). destruct (open_partition _ _ _ _ _ M (no_tdiag xs o c t M ND) Nc Na) as [[G1 _ _ _ _] [G2 _ _ _ _]].
  pose proof (n_multiset_shuffles SpinIntegrated _ _ eq_refl Nc G1) as S1. pose proof (n_multiset_shuffles SpinIntegrated _ _ eq_refl Na G2) as S2.
  destruct (n_multiset_ok SpinIntegrated _ _ eq_refl Nc G1) as (n1 & E1 & F1). destruct (n_multiset_ok SpinIntegrated _ _ eq_refl Na G2) as (n2 & E2 & F2).
  unfold op_n_multiset_permutation. rewrite E1, E2. cbn [pybind]. exists (n1 * n2). split; [reflexivity|]. rewrite S1 in E1. rewrite S2 in E2. injection E1 as E1. injection E2 as E2. split; [subst n1 n2; reflexivity|].
  pose proof (product_pos (fst (perm_partition_open t))). pose proof (product_pos (snd (perm_partition_open t))). pose proof (lt_O_fact (length (cre o))). pose proof (lt_O_fact (length (ann o))).
  split; [|apply Nat.mul_le_mono]; nia.
Qed.

(** The adapted terms multiplied with the number of orderings of the operator that keep the blocks of equivalent indices
    add up to the value of the spin-integrated term multiplied with the number of those orderings that also keep the
    spins in place. *)
Theorem C70_factor :
  forall (A : qalg) (S : system) (flip : nat -> nat) (w : tvaluation A) sympy order amaj xs o c t ts,
  spin_free_values S flip w -> admissible sympy -> singlet_input xs o c t ->
  NoDup order -> (forall i, In i order <-> In i (tindices t)) ->
  generate_singlet_adaptation sympy order amaj t = Ok ts ->
  exists orderings kept : list (list idx * list idx), NoDup orderings /\ NoDup kept /\
    (forall cr an, In (cr, an) orderings <-> block_orderings (cre o) (fst (perm_partition_open t)) cr /\ block_orderings (ann o) (snd (perm_partition_open t)) an) /\
    (forall cr an, In (cr, an) kept <-> In (cr, an) orderings /\ map idx_beta cr = map idx_beta (cre o) /\ map idx_beta an = map idx_beta (ann o)) /\
    (zin (Z.of_nat (length orderings)) * asum (map (term_value S w) ts) = zin (Z.of_nat (length kept)) * term_value S (spin_values S flip w) t)%alg.
Proof.
  intros A S flip w sympy order amaj xs o c t ts (SP & PS & PO & PH & NA & HH) AD SI NO IO H. pose proof SI as (M & ND & HD & HO & HC & NT & Nc & Na & HB & HV).
  destruct (counts _ _ _ _ SI) as (n & En & Ln & Bn). destruct (open_partition _ _ _ _ _ M (no_tdiag xs o c t M ND) Nc Na) as [[G1 _ _ _ _] [G2 _ _ _ _]].
  destruct (perm_partition_open t) as [pc pa] eqn:EP. cbn [fst snd] in *.
  destruct (permutations_of xs o c t M ND Nc Na HB pc pa EP) as (r1 & r2 & _ & _ & N1 & N2 & I1 & I2 & Ep).
  destruct (all_shuffles pc (cre o) Nc G1) as (l1 & D1 & J1 & L1). destruct (all_shuffles pa (ann o) Na G2) as (l2 & D2 & J2 & L2).
  exists (list_prod l1 l2), (list_prod (map snd r1) (map snd r2)). split; [apply product_nodup; assumption|]. split; [apply product_nodup; assumption|]. split; [intros cr an; rewrite in_prod_iff, J1, J2; reflexivity|]. split.
  - intros cr an. rewrite !in_prod_iff, J1, J2, !in_map_iff. unfold block_orderings. split.
    + intros [([s x] & <- & H1) ([s' x'] & <- & H2)]. apply I1 in H1 as (? & ? & ? & _). apply I2 in H2 as (? & ? & ? & _). repeat split; assumption.
    + intros [[[P1 K1] [P2 K2]] [B1 B2]]. destruct (reorder_sign_exists (cre o) cr (Permutation_sym P1)) as [s1 R1]. destruct (reorder_sign_exists (ann o) an (Permutation_sym P2)) as [s2 R2]. split; [exists (s1, cr)|exists (s2, an)]; (split; [reflexivity|]); [apply I1|apply I2]; repeat split; assumption.
  - rewrite !prod_length, !map_length, L1, L2, <- Ln. rewrite (singlet_total A S flip w sympy amaj SP PS PO PH NA HH AD xs o c t order M ND HD HO HC NT Nc Na HB NO IO ts n _ pc pa EP En Ep (HV n Bn) (proj1 Bn) H). f_equal. do 2 f_equal.
    clear. induction r1 as [|x r1 IH]; [reflexivity|]. cbn [flat_map length]. rewrite app_length, map_length, IH. reflexivity.
Qed.
Print Assumptions C70_factor.

(** If all creators have the same spin, and all annihilators, the adapted terms add up to the spin-integrated term. This covers
    closed terms and one-body operators. *)
Theorem C70_singlet_value :
  forall (A : qalg) (S : system) (flip : nat -> nat) (w : tvaluation A) sympy order amaj xs o c t ts,
  spin_free_values S flip w -> admissible sympy -> singlet_input xs o c t ->
  (exists b, Forall (fun i => idx_beta i = b) (cre o)) -> (exists b, Forall (fun i => idx_beta i = b) (ann o)) ->
  NoDup order -> (forall i, In i order <-> In i (tindices t)) ->
  generate_singlet_adaptation sympy order amaj t = Ok ts ->
  asum (map (term_value S w) ts) = term_value S (spin_values S flip w) t.
Proof.
  intros A S flip w sympy order amaj xs o c t ts SF AD SI [b Hb] [b' Hb'] NO IO H.
  destruct (C70_factor A S flip w sympy order amaj xs o c t ts SF AD SI NO IO H) as (os & ks & N1 & N2 & H1 & H2 & E).
  assert (W : forall s0 m m', Forall (fun i => idx_beta i = s0) m -> Permutation m' m -> map idx_beta m' = map idx_beta m).
  { intros s0 m m' F P. assert (R : forall m, Forall (fun i => idx_beta i = s0) m -> map idx_beta m = repeat s0 (length m)) by (intros k Hk; induction Hk as [|x k Hx Hk IH]; [reflexivity|]; cbn; congruence).
    rewrite (R m F), (R m'), (Permutation_length P); [reflexivity|]. apply (Permutation_Forall (Permutation_sym P)), F. }
  assert (L : length ks = length os).
  { apply Permutation_length, NoDup_Permutation; [exact N2|exact N1|]. intros [cr an]. rewrite H2. split; [tauto|]. intros Q. split; [exact Q|]. apply H1 in Q as [[P1 _] [P2 _]]. split; [apply (W b _ _ Hb P1)|apply (W b' _ _ Hb' P2)]. }
  rewrite L in E. destruct (counts _ _ _ _ SI) as (n & En & Ln & Bn). pose proof SI as (M & ND & _ & _ & _ & _ & Nc & Na & _).
  assert (Pos : 0 < length os).
  { destruct (open_partition _ _ _ _ _ M (no_tdiag xs o c t M ND) Nc Na) as [[G1 _ _ _ _] [G2 _ _ _ _]]. destruct (all_shuffles _ _ Nc G1) as (l1 & D1 & J1 & L1). destruct (all_shuffles _ _ Na G2) as (l2 & D2 & J2 & L2).
    assert (Po : Permutation os (list_prod l1 l2)) by (apply NoDup_Permutation; [exact N1|apply product_nodup; assumption|]; intros [cr an]; rewrite H1, in_prod_iff, J1, J2; reflexivity). rewrite (Permutation_length Po), prod_length, L1, L2, <- Ln. lia. }
  apply (zin_cancel A (length os) Pos _ _ E).
Qed.
Print Assumptions C70_singlet_value.
(** Only spin-integrated terms can be adapted. *)
Theorem C70_rejects : forall sympy order amaj t, ttype t <> SpinIntegrated -> generate_singlet_adaptation sympy order amaj t = Raise TypeError.
Proof. intros sympy order amaj t H. unfold generate_singlet_adaptation. destruct (ttype t); try reflexivity. contradiction. Qed.
Print Assumptions C70_rejects.

(** *** Examples: orbitals 0-3 are core, 4-7 virtual; the odd ones have beta spin *)
Definition odd_flip (p : nat) : nat := if Nat.odd p then p - 1 else p + 1.
Definition four_pairs : system := Sys 8 (fun p => Lab (Nat.odd p) (if p <? 4 then Sc else Sv)).
Definition pair_sum (ps : list (nat * nat)) : nat := fold_right (fun p a => 3 * fst p * snd p + a) 0 ps.
Definition pair_product (ps : list (nat * nat)) : nat := fold_right (fun p a => (1 + fst p + snd p) * a) 1 ps.
Definition spin_free_number (u l : list nat) : Qc := Qc_of_Z (Z.of_nat (pair_sum (combine u l) + pair_product (combine u l))).
Definition spin_free : tvaluation Qc_alg :=
  TVal Qc_alg (fun c _ u l => match c with
    | TKronecker => one_body (fun p q => if p =? q then Q2Qc 1 else Q2Qc 0) u l
    | TCumulant => one_body (fun p q => if (p =? q) && (p <? 4) then Q2Qc 1 else Q2Qc 0) u l
    | _ => match u ++ l with [] => Q2Qc 0 | _ => spin_free_number u l end end) spin_free_number.
Lemma four_pairs_paired : spin_pairs four_pairs odd_flip.
Proof.
  intros p H. cbn [four_pairs norb] in H. do 8 (destruct p as [|p]; [repeat split; cbn; lia|]). lia.
Qed.
Lemma spin_free_swap u1 x y u2 l1 x' y' l2 : length u1 = length l1 -> spin_free_number (u1 ++ x :: y :: u2) (l1 ++ x' :: y' :: l2) = spin_free_number (u1 ++ y :: x :: u2) (l1 ++ y' :: x' :: l2).
Proof.
  intros L. unfold spin_free_number. do 2 f_equal. revert l1 L. induction u1 as [|a u1 IH]; intros [|b l1] L; try discriminate; cbn [app combine pair_sum pair_product fold_right fst snd].
  - fold (pair_sum (combine u2 l2)) (pair_product (combine u2 l2)). nia.
  - injection L as L. fold (pair_sum (combine (u1 ++ x :: y :: u2) (l1 ++ x' :: y' :: l2))) (pair_product (combine (u1 ++ x :: y :: u2) (l1 ++ x' :: y' :: l2))) (pair_sum (combine (u1 ++ y :: x :: u2) (l1 ++ y' :: x' :: l2))) (pair_product (combine (u1 ++ y :: x :: u2) (l1 ++ y' :: x' :: l2))).
    assert (G1 : forall p x y q p' x' y' q', length p = length p' -> pair_sum (combine (p ++ x :: y :: q) (p' ++ x' :: y' :: q')) = pair_sum (combine (p ++ y :: x :: q) (p' ++ y' :: x' :: q'))).
    { clear. induction p as [|a p IH]; intros x y q [|a' p'] x' y' q' L; try discriminate; cbn [app combine pair_sum fold_right fst snd]; [lia|]. injection L as L. f_equal. apply IH, L. }
    assert (G2 : forall p x y q p' x' y' q', length p = length p' -> pair_product (combine (p ++ x :: y :: q) (p' ++ x' :: y' :: q')) = pair_product (combine (p ++ y :: x :: q) (p' ++ y' :: x' :: q'))).
    { clear. induction p as [|a p IH]; intros x y q [|a' p'] x' y' q' L; try discriminate; cbn [app combine pair_product fold_right fst snd]; [lia|]. injection L as L. f_equal. apply IH, L. }
    rewrite (G1 _ _ _ _ _ _ _ _ L), (G2 _ _ _ _ _ _ _ _ L). reflexivity.
Qed.
Lemma spin_free_swapped u l : spin_free_number u l = spin_free_number l u.
Proof.
  unfold spin_free_number. do 2 f_equal. assert (G1 : pair_sum (combine u l) = pair_sum (combine l u)) by (revert l; induction u as [|p u IH]; intros [|q l]; cbn [combine pair_sum fold_right fst snd]; try reflexivity; fold pair_sum; specialize (IH l); unfold pair_sum in IH; lia).
  assert (G2 : pair_product (combine u l) = pair_product (combine l u)) by (clear G1; revert l; induction u as [|p u IH]; intros [|q l]; cbn [combine pair_product fold_right fst snd]; try reflexivity; specialize (IH l); unfold pair_product in IH; nia). rewrite G1, G2. reflexivity.
Qed.
Lemma one_body_long f u1 x y u2 l : one_body f (u1 ++ x :: y :: u2) l = Q2Qc 0.
Proof. destruct u1 as [|a [|b u1]]; reflexivity. Qed.
Lemma spin_free_ok : spin_free_values four_pairs odd_flip spin_free.
Proof.
  split; [exact four_pairs_paired|]. split; [|split; [|split; [|split]]].
  - intros c n u1 x y u2 l1 x' y' l2 L. cbn [spin_free vtensor]. destruct c; rewrite ?one_body_long; try reflexivity; rewrite <- spin_free_swap by exact L; destruct u1; reflexivity.
  - intros u1 x y u2 l1 x' y' l2 L. apply spin_free_swap, L.
  - constructor; cbn [spin_free vtensor one_body]; [reflexivity| | |].
    + intros n p q H. destruct (Nat.eqb_spec p q) as [<-|]; [|reflexivity]. destruct (p <? 4) eqn:E; [|reflexivity]. unfold is_virtual in H. cbn [four_pairs olabel lsp] in H. rewrite E in H. destruct H; discriminate.
    + intros n p q H. destruct (Nat.eqb_spec p q) as [<-|]; [|reflexivity]. destruct (p <? 4) eqn:E; [reflexivity|]. unfold is_core in H. cbn [four_pairs olabel lsp] in H. rewrite E in H. destruct H; discriminate.
    + intros n [|p [|p' ps]] qs L _; try reflexivity. exfalso. apply L. reflexivity.
  - intros n ps qs H. cbn [spin_free vtensor]. destruct (ps ++ qs) as [|p l]; [reflexivity|]. cbn [forallb] in H. unfold is_active at 1 in H. cbn [four_pairs olabel lsp] in H. destruct (p <? 4); discriminate.
  - intros c n u l. cbn [spin_free vtensor]. assert (O : forall f : nat -> nat -> Qc, (forall p q, f p q = f q p) -> one_body f u l = one_body f l u) by (intros f Hf; unfold one_body; destruct u as [|? [|? ?]], l as [|? [|? ?]]; auto).
    assert (G : match u ++ l with [] => Q2Qc 0 | _ => spin_free_number u l end = match l ++ u with [] => Q2Qc 0 | _ => spin_free_number l u end) by (rewrite spin_free_swapped; destruct u, l; cbn [app]; reflexivity).
    destruct c; try exact G; apply O; intros p q; rewrite (Nat.eqb_sym p q); destruct (Nat.eqb_spec q p) as [->|]; reflexivity.
Qed.
Local Definition ca n : idx := (Lab false Sc, n).
Local Definition cb n : idx := (Lab true Sc, n).
Local Definition va n : idx := (Lab false Sv, n).
Local Definition vb n : idx := (Lab true Sv, n).
Lemma no_diagonal_of t xs o c tm : make_term t xs o c = Ok tm -> tdiag tm = [] -> forall i, ~ diagonal_in i xs o.
Proof. intros H D i Q. destruct (make_term_fields _ _ _ _ _ H) as (_ & _ & _ & _ & _ & _ & _ & _ & _ & Hd). assert (R : In (i, total_times i xs o) (tdiag tm)) by (apply Hd; auto). rewrite D in R. exact R. Qed.
Local Definition xs_closed : list tensor := [Ten THamiltonian SpinIntegrated "H" 0%Z [va 0; va 1] [ca 0; ca 1]; Ten TCluster SpinIntegrated "T" 1%Z [ca 0; ca 1] [va 0; va 1]].
Local Definition t_closed : term := the_term (make_term SpinIntegrated xs_closed (Op [] []) (Q2Qc (1 # 4))).
Local Definition xs_open : list tensor := [Ten TCluster SpinIntegrated "T" 1%Z [ca 0] [va 0]; Ten TCluster SpinIntegrated "T" 1%Z [ca 1] [va 1]].
Local Definition t_open : term := the_term (make_term SpinIntegrated xs_open (Op [va 0; va 1] [ca 0; ca 1]) (Q2Qc (1 # 2))).
Local Definition xs_mixed : list tensor := [Ten TCluster SpinIntegrated "T" 1%Z [ca 0; cb 0] [va 0; vb 0]].
Local Definition t_mixed : term := the_term (make_term SpinIntegrated xs_mixed (Op [va 0; vb 0] [ca 0; cb 0]) (Q2Qc 1)).
Ltac meets t c := split; [vm_compute; reflexivity|]; split; [apply (no_diagonal_of SpinIntegrated _ _ c t); vm_compute; reflexivity|];
  split; [repeat constructor|]; split; [intros x i Hx Hc; cbn in Hx; intuition (subst; discriminate)|]; split; [intros x y Hx Hy; cbn in Hx, Hy; intuition (subst; try reflexivity; discriminate)|];
  split; [intros x Hx; cbn in Hx; intuition (subst; cbn; repeat constructor; cbn; intuition discriminate)|]; split; [repeat constructor; cbn; intuition discriminate|]; split; [repeat constructor; cbn; intuition discriminate|]; split; [reflexivity|];
  intros n [N1 N2]; vm_compute in N2; repeat (first [exfalso; lia|destruct n as [|n]; [try (exfalso; lia); right; left; unfold Qcle; vm_compute; discriminate|]]).
(** 1/4 H[v0 v1; c0 c1] T[c0 c1; v0 v1], all alpha *)
Example C70_closed_example : spin_free_values four_pairs odd_flip spin_free /\ admissible (one_move []) /\ singlet_input xs_closed (Op [] []) (Q2Qc (1 # 4)) t_closed /\
  exists ts, generate_singlet_adaptation (one_move []) (tindices t_closed) true t_closed = Ok ts /\ length ts = 4 /\ asum (map (term_value four_pairs spin_free) ts) = (Qc_of_Z 64 : Qc_alg) /\
    (term_value four_pairs (spin_values four_pairs odd_flip spin_free) t_closed : Qc) = Qc_of_Z 64.
Proof.
  split; [exact spin_free_ok|]. split; [apply one_move_admissible|]. split; [meets t_closed (Q2Qc (1 # 4))|]. eexists. split; [vm_compute; reflexivity|]. split; [reflexivity|]. split; apply Qc_is_canon; vm_compute; reflexivity.
Qed.
(** 1/2 T[c0; v0] T[c1; v1] {v0+ v1+ c1 c0}, all alpha: the four orderings of the operator are adapted *)
Example C70_open_example : singlet_input xs_open (Op [va 0; va 1] [ca 0; ca 1]) (Q2Qc (1 # 2)) t_open /\
  exists ts, generate_singlet_adaptation (one_move []) (tindices t_open) true t_open = Ok ts /\ length ts = 8 /\ asum (map (term_value four_pairs spin_free) ts) = (Qc_of_Z 64 : Qc_alg) /\
    (term_value four_pairs (spin_values four_pairs odd_flip spin_free) t_open : Qc) = Qc_of_Z 64.
Proof.
  split; [meets t_open (Q2Qc (1 # 2))|]. eexists. split; [vm_compute; reflexivity|]. split; [reflexivity|]. split; apply Qc_is_canon; vm_compute; reflexivity.
Qed.
(** With both spins among the creators the coefficient is divided by the number of all orderings, although those that
    exchange the spins are left out: T[c0 C0; v0 V0] {v0+ V0+ C0 c0} loses a factor of four. *)
Theorem C70_mixed_spins_refuted : exists (S : system) (flip : nat -> nat) (w : tvaluation Qc_alg) sympy xs o c t ts,
  spin_free_values S flip w /\ admissible sympy /\ singlet_input xs o c t /\ generate_singlet_adaptation sympy (tindices t) true t = Ok ts /\
  length ts = 1 /\ (term_value S (spin_values S flip w) t : Qc) <> Q2Qc 0 /\ (term_value S (spin_values S flip w) t : Qc) = Qcmult (Qc_of_Z 4) (asum (map (term_value S w) ts)).
Proof.
  exists four_pairs, odd_flip, spin_free, (one_move []), xs_mixed, (Op [va 0; vb 0] [ca 0; cb 0]), (Q2Qc 1), t_mixed. eexists.
  split; [exact spin_free_ok|]. split; [apply one_move_admissible|]. split; [meets t_mixed (Q2Qc 1)|]. split; [vm_compute; reflexivity|]. split; [reflexivity|]. split; [|apply Qc_is_canon; vm_compute; reflexivity].
  intros Q. assert (Q' : Qeq (term_value four_pairs (spin_values four_pairs odd_flip spin_free) t_mixed : Qc) (Q2Qc 0)) by (rewrite Q; reflexivity). vm_compute in Q'. discriminate.
Qed.
Print Assumptions C70_mixed_spins_refuted.
