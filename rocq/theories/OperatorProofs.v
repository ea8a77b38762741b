(** Hamiltonian and cluster operators. *)
From Coq Require Import Ascii String ZArith QArith Qcanon.
From Verif Require Import PyBase OrderSpec SpaceModel IndicesModel IterProofs IndicesProofs SpaceProofs SortProofs ElemModel MacroModel TermModel ValueSpec TermSpec TermProofs RenameProofs.
Local Close Scope Q_scope.
Local Close Scope Qc_scope.
Local Open Scope nat_scope.
Local Notation length := List.length.

Lemma indices_range_in s a b i : In i (indices_range s a b) <-> fst i = s /\ a <= snd i < b.
Proof.
  unfold indices_range. rewrite in_map_iff. split.
  - intros (n & <- & H). apply in_seq in H. cbn. split; [reflexivity|lia].
  - destruct i as [s' n]. cbn. intros [-> H]. exists n. split; [reflexivity|]. apply in_seq. lia.
Qed.
Lemma indices_range_nodup s a b : NoDup (indices_range s a b).
Proof. unfold indices_range. apply NoDup_map_in; [|apply seq_NoDup]. intros x y _ _ E. congruence. Qed.
Lemma indices_range_length s a k : length (indices_range s a (a + k)) = k.
Proof. unfold indices_range. rewrite map_length, seq_length. lia. Qed.
Lemma filter_all {B} (p : B -> bool) (b : bool) l : (forall x, In x l -> p x = b) -> length (filter p l) = if b then length l else 0.
Proof.
  intros H. induction l as [|x l IH]; cbn [filter length]; [destruct b; reflexivity|]. rewrite (H x (or_introl eq_refl)).
  specialize (IH (fun y Hy => H y (or_intror Hy))). destruct b; cbn [length]; rewrite IH; reflexivity.
Qed.
Lemma indices_range_beta s a k : n_beta (indices_range s a (a + k)) = if lbeta s then k else 0.
Proof.
  unfold n_beta. rewrite (filter_all idx_beta (lbeta s)); [rewrite indices_range_length; reflexivity|]. intros i Hi. apply indices_range_in in Hi as [<- _]. reflexivity.
Qed.
Lemma existsb_beta s a k : existsb idx_beta (indices_range s a (a + k)) = negb (k =? 0) && lbeta s.
Proof.
  destruct (existsb _ _) eqn:E.
  - apply existsb_exists in E as (i & Hi & E). apply indices_range_in in Hi as [<- H]. unfold idx_beta in E. rewrite E. destruct k; [lia|reflexivity].
  - destruct k as [|k]; [reflexivity|]. destruct (lbeta s) eqn:B; [|reflexivity]. exfalso. rewrite <- not_true_iff_false in E. apply E. apply existsb_exists. exists (s, a). split; [apply indices_range_in; cbn; split; [reflexivity|lia]|exact B].
Qed.
Lemma make_typed_range t s a k : make_typed t (indices_range s a (a + k)) =
  if itype_eqb t SpinOrbital && (negb (k =? 0) && lbeta s) then Raise ValueError else Ok (indices_range s a (a + k)).
Proof. unfold make_typed. rewrite (proj2 (nodup_idx_spec _) (indices_range_nodup s a (a + k))), existsb_beta. reflexivity. Qed.
Lemma mixed_block_range s a b : mixed_block (indices_range s a b) = false.
Proof.
  apply not_true_iff_false. unfold mixed_block. rewrite andb_true_iff, !existsb_exists. intros [(i & Hi & E1) (j & Hj & E2)].
  apply indices_range_in in Hi as [Hi _], Hj as [Hj _]. unfold hole_like, particle_like, lower_label in *. rewrite Hi in E1. rewrite Hj in E2. destruct (lsp s); discriminate.
Qed.

Lemma two_factor_connected x o : NoDup (tupper x) -> NoDup (tlower x) ->
  (cre o = tlower x /\ ann o = tupper x \/ cre o = tupper x /\ ann o = tlower x) -> connected [x] o.
Proof.
  intros N1 N2 H i Hi. assert (E : total_times i [x] o = 2 * (idx_times i (tupper x) + idx_times i (tlower x))).
  { unfold total_times. cbn [map list_sum fold_right]. destruct H as [[-> ->]|[-> ->]]; lia. }
  rewrite E in *. split.
  - intros _. rewrite Nat.even_mul. reflexivity.
  - intros D. pose proof (proj1 (NoDup_count_occ idx_eq_dec _) N1 i). pose proof (proj1 (NoDup_count_occ idx_eq_dec _) N2 i). unfold idx_times in *.
    destruct (count_occ idx_eq_dec (tupper x) i) as [|[|]] eqn:E1, (count_occ idx_eq_dec (tlower x) i) as [|[|]] eqn:E2; try lia.
    exfalso. apply D. right. exists x. split; [left; reflexivity|]. split; apply (count_occ_In idx_eq_dec); lia.
Qed.

Definition is_range (s : label) (a k : nat) : list idx := map (fun n => (s, n)) (seq a k).
Lemma range_is s a k : indices_range s a (a + k) = is_range s a k.
Proof. unfold indices_range, is_range. replace (a + k - a) with k by lia. reflexivity. Qed.

Lemma hamiltonian_ok k start t : exists tm, hamiltonian_operator k start t = Ok tm /\ ttype tm = t /\
  tcoeff tm = Qcinv (Qc_of_Z (Z.of_nat (fact k * fact k))) /\
  ttensors tm = [Ten THamiltonian t "H" 0 (is_range (Lab false Sg) (start + k) k) (is_range (Lab false Sg) start k)] /\
  tsq tm = Op (is_range (Lab false Sg) start k) (is_range (Lab false Sg) (start + k) k) /\
  (forall i, In i (tindices tm) <-> fst i = Lab false Sg /\ start <= snd i < start + 2 * k).
Proof.
  unfold hamiltonian_operator. cbv zeta. set (g := Lab false Sg). replace (start + 2 * k) with (start + k + k) by lia. unfold make_tensor.
  rewrite !make_typed_range. cbn [lbeta g]. rewrite !andb_false_r. cbn [pybind]. unfold check_tensor, is_spin_conserving. cbn [tcls tupper tlower].
  rewrite !indices_range_length, !indices_range_beta, !Nat.eqb_refl. cbn [pybind lbeta g].
  rewrite !range_is. set (x := Ten _ _ _ _ _ _). set (o := Op _ _).
  assert (C : connected [x] o). { apply two_factor_connected; cbn [tupper tlower x]; [rewrite <- range_is; apply indices_range_nodup..|]. left. split; reflexivity. }
  destruct (make_term_ok t [x] o (inv_fact_sq k) (Forall_cons _ (eq_refl : titype x = t) (Forall_nil _)) C) as [tm Htm]. exists tm. split; [exact Htm|].
  destruct (make_term_fields _ _ _ _ _ Htm) as (F1 & F2 & _ & F4 & F5 & _ & F7 & _). split; [exact F1|]. split; [exact F5|]. split; [apply Permutation_sym, Permutation_length_1_inv in F2; exact F2|]. split; [exact F4|].
  intros i. rewrite F7, <- content_times, <- idx_times_in. unfold content_indices, op_indices, tensor_indices, o, x. cbn [cre ann flat_map tupper tlower]. rewrite !in_app_iff. cbn [In].
  rewrite <- !range_is, !indices_range_in. split; [intuition lia|]. intros [E L]. destruct (le_lt_dec (start + k) (snd i)); intuition lia.
Qed.

Lemma cluster_ok k start ex name sc hl pl t tm : cluster_operator k start ex name sc hl pl t = Ok tm ->
  ttype tm = t /\ tcoeff tm = Qcmult sc (Qcinv (Qc_of_Z (Z.of_nat (fact k * fact k)))) /\
  ttensors tm = [Ten TCluster t name 1 (is_range hl start k) (is_range pl start k)] /\
  tsq tm = (if ex then Op (is_range pl start k) (is_range hl start k) else Op (is_range hl start k) (is_range pl start k)) /\
  (forall i, In i (tindices tm) <-> (fst i = hl \/ fst i = pl) /\ start <= snd i < start + k).
Proof.
  unfold cluster_operator. cbv zeta. destruct (if ex then _ else _) as [a b] eqn:E. destruct (make_tensor _ _ _ _ _ _) as [x|] eqn:Ex; [|discriminate]. cbn [pybind].
  destruct (make_typed t a) as [a'|] eqn:Ea; [|discriminate]. cbn [pybind]. destruct (make_typed t b) as [b'|] eqn:Eb; [|discriminate]. cbn [pybind]. intros H.
  apply make_typed_ok in Ea as [-> _]. apply make_typed_ok in Eb as [-> _].
  unfold make_tensor in Ex. destruct (make_typed t (indices_range hl _ _)) as [u|] eqn:Eu; [|discriminate]. cbn [pybind] in Ex. destruct (make_typed t (indices_range pl _ _)) as [l|] eqn:El; [|discriminate]. cbn [pybind] in Ex.
  apply make_typed_ok in Eu as [-> _]. apply make_typed_ok in El as [-> _]. apply check_tensor_ok in Ex as ->.
  assert (Eo : Op a b = if ex then Op (is_range pl start k) (is_range hl start k) else Op (is_range hl start k) (is_range pl start k)).
  { destruct ex; injection E as <- <-; rewrite !range_is; reflexivity. }
  rewrite Eo in H. rewrite !range_is in H. destruct (make_term_fields _ _ _ _ _ H) as (F1 & F2 & _ & F4 & F5 & _ & F7 & _).
  split; [exact F1|]. split; [exact F5|]. split; [apply Permutation_sym, Permutation_length_1_inv in F2; exact F2|]. split; [exact F4|].
  intros i. rewrite F7, <- content_times, <- idx_times_in. unfold content_indices, op_indices, tensor_indices. cbn [flat_map tupper tlower]. rewrite !in_app_iff. cbn [In].
  assert (EO : In i (cre (if ex then Op (is_range pl start k) (is_range hl start k) else Op (is_range hl start k) (is_range pl start k))) \/ In i (ann (if ex then Op (is_range pl start k) (is_range hl start k) else Op (is_range hl start k) (is_range pl start k))) <-> In i (is_range hl start k) \/ In i (is_range pl start k)).
  { destruct ex; cbn [cre ann]; tauto. }
  rewrite EO, <- !range_is, !indices_range_in. tauto.
Qed.
Lemma cluster_success k start ex name sc hl pl t : (exists tm, cluster_operator k start ex name sc hl pl t = Ok tm) <->
  k = 0 \/ (lbeta hl = lbeta pl /\ (t = SpinOrbital -> lbeta hl = false)).
Proof.
  split.
  - intros [tm H]. destruct k as [|k]; [left; reflexivity|right]. unfold cluster_operator in H. cbv zeta in H. destruct (if ex then _ else _) as [a b].
    destruct (make_tensor _ _ _ _ _ _) as [x|] eqn:Ex; [|discriminate]. clear H. unfold make_tensor in Ex. rewrite !make_typed_range in Ex. cbn [Nat.eqb negb andb] in Ex.
    destruct (itype_eqb t SpinOrbital && lbeta hl) eqn:B1; [discriminate|]. cbn [pybind] in Ex. destruct (itype_eqb t SpinOrbital && lbeta pl) eqn:B2; [discriminate|]. cbn [pybind] in Ex.
    unfold check_tensor, is_spin_conserving in Ex. cbn [tcls tupper tlower] in Ex. rewrite !indices_range_length, !indices_range_beta, Nat.eqb_refl in Ex. cbn [pybind] in Ex.
    split; [destruct (lbeta hl), (lbeta pl); cbn in Ex; (reflexivity || discriminate)|]. intros ->. cbn in B1. exact B1.
  - intros H. unfold cluster_operator. cbv zeta. destruct (if ex then _ else _) as [a b] eqn:E.
    assert (T : itype_eqb t SpinOrbital && (negb (k =? 0) && lbeta hl) = false /\ itype_eqb t SpinOrbital && (negb (k =? 0) && lbeta pl) = false).
    { destruct H as [->|[E1 E2]]; [cbn; rewrite andb_false_r; split; reflexivity|]. rewrite <- E1. destruct t; cbn [itype_eqb andb]; try (split; reflexivity). rewrite E2 by reflexivity. rewrite andb_false_r. split; reflexivity. }
    destruct T as [T1 T2]. unfold make_tensor. rewrite !make_typed_range, T1, T2. cbn [pybind]. unfold check_tensor, is_spin_conserving. cbn [tcls tupper tlower].
    rewrite !indices_range_length, !indices_range_beta, Nat.eqb_refl, !mixed_block_range. cbn [pybind orb].
    replace ((if lbeta hl then k else 0) =? (if lbeta pl then k else 0)) with true.
    2: { symmetry. apply Nat.eqb_eq. destruct H as [->|[-> _]]; [destruct (lbeta hl), (lbeta pl); reflexivity|reflexivity]. } cbn [pybind].
    set (x := Ten _ _ _ _ _ _).
    assert (E3 : make_typed t a = Ok a /\ make_typed t b = Ok b) by (destruct ex; injection E as <- <-; rewrite !make_typed_range, T1, T2; split; reflexivity).
    destruct E3 as [-> ->]. cbn [pybind]. apply make_term_ok; [repeat constructor|]. apply two_factor_connected; cbn [tupper tlower x cre ann]; try apply indices_range_nodup.
    destruct ex; injection E as <- <-; [left|right]; split; reflexivity.
Qed.
