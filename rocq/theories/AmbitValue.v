(** The programs add the values of the terms to the arrays. *)
From Coq Require Import Ascii String ZArith QArith Qcanon Lia Ring_theory Ring.
From Verif Require Import PyBase OrderSpec OrderProofs ParitySpec ParityProofs SpaceModel IndexModel IndexProofs IndicesModel IterProofs IndicesProofs ElemModel CombineProofs MacroModel TermModel ValueSpec ValueProofs TermSpec SumProofs TermProofs CanonProofs SymmetryModel CombineModel TextProofs PermuteModel PermuteSpec PermuteProofs OpenProofs RenameProofs AmbitModel AmbitSpec AmbitText AmbitPerm.
Local Close Scope Q_scope.
Local Close Scope Qc_scope.
Local Open Scope nat_scope.
Local Notation length := List.length.

Section Totals.
  Context (A : qalg) (S : system) (v : tvaluation A).
  Add Ring alg_ring14 : (q_ring A).

  Lemma asum_0 {B} (l : list B) : asum (map (fun _ => @q0 A) l) = q0.
  Proof. unfold asum. induction l as [|x l IH]; [reflexivity|]. cbn [map fold_right]. rewrite IH. ring. Qed.
  Lemma asum_map_add {B} (f g : B -> A) l : asum (map (fun x => (f x + g x)%alg) l) = (asum (map f l) + asum (map g l))%alg.
  Proof. unfold asum. induction l as [|x l IH]; cbn [map fold_right]; [ring|]. rewrite IH. ring. Qed.
  Lemma asum_swap {B C} (f : B -> C -> A) l m : asum (map (fun x => asum (map (f x) m)) l) = asum (map (fun y => asum (map (fun x => f x y) l)) m).
  Proof.
    induction l as [|x l IH]; [cbn [map]; rewrite asum_0; reflexivity|]. unfold asum at 1. cbn [map fold_right]. fold (asum (map (fun x => asum (map (f x) m)) l)). rewrite IH, <- asum_map_add. reflexivity.
  Qed.
  Lemma asum_single {B} (dec : forall x y : B, {x = y} + {x <> y}) (x : B) (f : B -> A) l : NoDup l -> In x l -> asum (map (fun y => if dec x y then f y else q0) l) = f x.
  Proof.
    intros N. induction N as [|y l Hy N IH]; intros []; unfold asum; cbn [map fold_right]; fold (asum (map (fun y => if dec x y then f y else q0) l)).
    - subst. destruct (dec x x); [|congruence]. rewrite (asum_map_ext A _ (fun _ => q0)); [rewrite asum_0; ring|]. intros z Hz. destruct (dec x z); [subst; contradiction|reflexivity].
    - destruct (dec x y); [subst; contradiction|]. rewrite IH by assumption. ring.
  Qed.

  Definition out_value (n : nat) (o : list nat) : A := voper v (skipn n o) (firstn n o).
  Definition total (n : nat) (f : array A) : A := asum (map (fun o => f o * out_value n o)%alg (tuples S (2 * n))).
  Lemma array_operator_total n f : array_operator S v n f = (inj (Qcinv (Qc_of_Z (Z.of_nat (fact n * fact n)))) * total n f)%alg.
  Proof. reflexivity. Qed.
  Lemma in_tuples n o : In o (tuples S n) <-> length o = n /\ Forall (fun p => p < norb S) o.
  Proof.
    unfold tuples. rewrite in_iproduct. revert n. induction o as [|p o IH]; intros n; split.
    - intros H. inversion H. destruct n; [split; constructor|discriminate].
    - intros [<- _]. constructor.
    - intros H. destruct n as [|n]; [inversion H|]. cbn [repeat] in H. inversion H as [|? ? ? ? H1 H2]; subst. apply IH in H2. destruct H2 as [<- F]. apply in_seq in H1. split; [reflexivity|constructor; [lia|exact F]].
    - intros [<- F]. inversion F; subst. cbn [length repeat]. constructor; [apply in_seq; lia|]. apply IH. auto.
  Qed.
  Lemma nodup_tuples n : NoDup (tuples S n).
  Proof. apply nodup_iproduct. apply Forall_forall. intros l Hl. apply repeat_spec in Hl. subst. apply seq_NoDup. Qed.
  Lemma orbitals_lt i p : In p (orbitals S i) -> p < norb S.
  Proof. intros H. apply orbitals_in in H. apply H. Qed.

  (** the sum over the entries of a contraction *)
  Lemma einsum_total n L rhs : length L = 2 * n ->
    total n (einsum S L rhs) = sum_over S (nodup idx_eq_dec (L ++ flat_map fst rhs)) (fun e => aprod (map (fun f => snd f (map e (fst f))) rhs) * out_value n (map e L))%alg.
  Proof.
    intros EL. unfold total, einsum, sum_over. set (I := nodup idx_eq_dec _). assert (NI : NoDup I) by apply NoDup_nodup.
    transitivity (asum (map (fun o => asum (map (fun a => (if list_eq_dec Nat.eq_dec (map (env I a) L) o then aprod (map (fun f => snd f (map (env I a) (fst f))) rhs) * out_value n o else q0)%alg) (assignments S I))) (tuples S (2 * n)))).
    { apply asum_map_ext. intros o _. set (G := fun a => _). transitivity (out_value n o * asum (map G (assignments S I)))%alg; [ring|]. rewrite <- asum_map_mul. apply asum_map_ext. intros a _. unfold G. destruct (list_eq_dec _ _ _); ring. }
    rewrite asum_swap. apply asum_map_ext. intros a Ha. apply asum_single with (f := fun o => (aprod (map (fun f => snd f (map (env I a) (fst f))) rhs) * out_value n o)%alg); [apply nodup_tuples|]. apply in_tuples. rewrite map_length. split; [exact EL|].
    apply Forall_forall. intros p Hp. apply in_map_iff in Hp. destruct Hp as (i & <- & Hi). apply (in_assignments S I a NI) in Ha. destruct Ha as (f & -> & Hf).
    assert (In i I) by (apply nodup_In, in_or_app; left; exact Hi). rewrite env_map by assumption. apply (orbitals_lt i). apply Hf. assumption.
  Qed.
  Lemma total_add n f g c : total n (fun o => f o + c * g o)%alg = (total n f + c * total n g)%alg.
  Proof. unfold total. rewrite <- asum_map_mul, <- asum_map_add. apply asum_map_ext. intros o _. ring. Qed.
  Lemma total_ext n f g : (forall o, f o = g o) -> total n f = total n g.
  Proof. intros H. apply asum_map_ext. intros o _. rewrite H. reflexivity. Qed.

  (** ** Support *)
  Definition supported (L : list idx) (f : array A) : Prop := forall o, ~ In o (assignments S L) -> f o = q0.
  Lemma in_assignments_any L o : In o (assignments S L) <-> Forall2 (fun p i => In p (orbitals S i)) o L.
  Proof.
    unfold assignments. rewrite in_iproduct. revert o. induction L as [|i L IH]; intros o; split; intros H; inversion H; subst; cbn [map]; constructor; try assumption; apply IH; assumption.
  Qed.
  Lemma einsum_supported L rhs : supported L (einsum S L rhs).
  Proof.
    intros o Ho. unfold einsum. apply sum_over_zero; [apply NoDup_nodup|]. intros e He. destruct (list_eq_dec _ _ _) as [E|E]; [|reflexivity]. exfalso. apply Ho. rewrite <- E. apply in_assignments_any.
    assert (H : forall i, In i L -> In (e i) (orbitals S i)) by (intros i Hi; apply He, nodup_In, in_or_app; left; exact Hi). clear - H. induction L as [|i L IH]; constructor; [apply H; left; reflexivity|apply IH; intros j Hj; apply H; right; exact Hj].
  Qed.
  Lemma supported_labels L L' f : map fst L = map fst L' -> supported L f -> supported L' f.
  Proof.
    intros E H o Ho. apply H. intros Q. apply Ho. unfold assignments in *. replace (map (orbitals S) L') with (map (orbitals S) L); [exact Q|].
    assert (G : forall M, map (orbitals S) M = map (fun l => orbitals S (l, 0)) (map fst M)) by (intros M; rewrite map_map; apply map_ext; reflexivity). rewrite !G, E. reflexivity.
  Qed.
  Lemma total_supported n L f : NoDup L -> length L = 2 * n -> supported L f -> total n f = sum_over S L (fun e => f (map e L) * out_value n (map e L))%alg.
  Proof.
    intros N E H. unfold sum_over, total.
    transitivity (asum (map (fun o => f o * out_value n o)%alg (assignments S L))).
    - assert (G : Permutation (filter (fun o => in_spaces S L o) (tuples S (2 * n))) (assignments S L)).
      { apply NoDup_Permutation; [apply NoDup_filter, nodup_tuples|apply nodup_assignments|]. intros o. rewrite filter_In. unfold in_spaces. destruct (in_dec _ _ _) as [Q|Q]; [|split; [intros [_ X]; discriminate|contradiction]]. split; [tauto|]. intros _. split; [|reflexivity]. apply in_tuples. apply in_assignments_any in Q.
        split; [rewrite <- E; apply (Forall2_len _ _ _ Q)|]. clear - Q. induction Q; constructor; [eapply orbitals_lt; eassumption|assumption]. }
      rewrite <- (asum_perm A _ _ (Permutation_map _ G)), asum_filter. apply asum_map_ext. intros o _. unfold in_spaces. destruct (in_dec _ _ _) as [Q|Q]; [reflexivity|]. rewrite (H o Q). ring.
    - apply asum_map_ext. intros a Ha. apply in_assignments_any in Ha. rewrite map_env; [reflexivity|exact N|apply (Forall2_len _ _ _ Ha)].
  Qed.

  (** ** Permutations of the result *)
  Context (HA : antisymmetric v).
  Lemma out_value_app n (a b : list nat) : length a = n -> out_value n (a ++ b) = voper v b a.
  Proof. intros <-. unfold out_value. rewrite skipn_app, firstn_app, Nat.sub_diag, skipn_all, firstn_all. cbn [skipn firstn app]. rewrite app_nil_r. reflexivity. Qed.
  Lemma permuted_total n an cr a b s1 s2 g : length an = n -> length cr = n -> NoDup (an ++ cr) -> reorder_sign an a s1 -> reorder_sign cr b s2 -> supported (an ++ cr) g ->
    total n (einsum S (a ++ b) [(an ++ cr, g)]) = (zin (s1 * s2) * total n g)%alg.
  Proof.
    intros En Ec N R1 R2 Hg. pose proof (reorder_sign_perm _ _ _ R1) as P1. pose proof (reorder_sign_perm _ _ _ R2) as P2.
    rewrite einsum_total by (rewrite app_length, <- (Permutation_length P1), <- (Permutation_length P2); lia).
    rewrite (total_supported n (an ++ cr) g N) by (try exact Hg; rewrite app_length; lia).
    rewrite <- sum_over_mul. cbn [flat_map fst map snd]. rewrite app_nil_r.
    rewrite (sum_over_same A S _ (an ++ cr)); [|apply NoDup_nodup|exact N| |].
    - apply sum_over_ext; [|exact N]. intros e _. unfold aprod. cbn [fold_right]. rewrite !map_app. rewrite !out_value_app by (rewrite map_length; try (rewrite <- (Permutation_length P1)); assumption).
      rewrite (alternates_sign A (fun w => voper v w _) _ _ _ (as_cre v HA _) (reorder_sign_map e _ _ _ R2)). rewrite (alternates_sign A (fun w => voper v _ w) _ _ _ (as_ann v HA _) (reorder_sign_map e _ _ _ R1)).
      assert (Z : forall s, (exists l l' : list idx, reorder_sign l l' s) -> (@zin A s * zin s = q1)%alg).
      { intros s (l & l' & k & _ & ->). rewrite <- (zin_mul A), <- (zin_1 A). f_equal. rewrite <- sgn_add. assert (X : forall m, sgn (m + m) = 1%Z); [|apply X]. intros m. induction m as [|m IH]; [reflexivity|]. replace (Datatypes.S m + Datatypes.S m) with (Datatypes.S (Datatypes.S (m + m))) by lia. rewrite !sgn_S, IH. reflexivity. }
      rewrite (zin_mul A). pose proof (Z s1 ltac:(eauto)) as Z1. pose proof (Z s2 ltac:(eauto)) as Z2.
      set (X := voper v _ _). set (G := g _).
      transitivity (G * q1 * X)%alg; [ring|].
      transitivity (zin s1 * zin s2 * (G * (zin s2 * (zin s1 * X))))%alg; [|ring].
      transitivity ((zin s1 * zin s1) * (zin s2 * zin s2) * G * X)%alg; [rewrite Z1, Z2; ring|ring].
    - intros i. rewrite nodup_In, !in_app_iff. assert (In i a <-> In i an) by (split; apply Permutation_in; [symmetry|]; exact P1). assert (In i b <-> In i cr) by (split; apply Permutation_in; [symmetry|]; exact P2). tauto.
    - intros e e' He. cbv beta. assert (X : map e (an ++ cr) = map e' (an ++ cr)) by (apply map_ext_in; intros i Hi; apply He, nodup_In; rewrite !in_app_iff in *; tauto). assert (Y : map e (a ++ b) = map e' (a ++ b)) by (apply map_ext_in; intros i Hi; apply He, nodup_In; rewrite !in_app_iff in *; tauto). rewrite X, Y. reflexivity.
  Qed.
End Totals.

(** ** Coefficients *)
Lemma Qred_den q : (Qden (Qred q) <= Qden q)%positive.
Proof.
  destruct q as [n d]. unfold Qred. pose proof (Z.ggcd_correct_divisors n (Z.pos d)) as H. pose proof (Z.ggcd_gcd n (Z.pos d)) as G. destruct (Z.ggcd n (Z.pos d)) as [g [r1 r2]]. cbn [fst snd] in *. destruct H as [_ H]. cbn [Qden].
  assert (0 <= g)%Z by (rewrite G; apply Z.gcd_nonneg). clear G. pose proof (Pos2Z.is_pos d) as D. assert (G1 : (0 < g)%Z) by (destruct (Z.eq_dec g 0) as [->|]; lia). assert (G2 : (0 < r2)%Z) by (apply (Z.mul_pos_cancel_l g r2 G1); lia). destruct r2; try lia. cbn [Z.to_pos]. nia.
Qed.
Lemma scaled_den c k : (Qden (this (Qcmult c (Qc_of_Z k))) <= Qden (this c))%positive.
Proof.
  unfold Qcmult, Q2Qc. cbn [this]. eapply Pos.le_trans; [apply Qred_den|]. assert (E : Qden (this (Qc_of_Z k)) = 1%positive).
  { unfold Qc_of_Z. cbn [this]. pose proof (Qred_den (inject_Z k)) as H. cbn [Qden inject_Z] in H. apply Pos.le_antisym; [exact H|apply Pos.le_1_l]. }
  unfold Qmult. cbn [Qden]. rewrite E. rewrite Pos.mul_1_r. apply Pos.le_refl.
Qed.
Lemma Qc_of_Z_mul a b : Qc_of_Z (a * b) = Qcmult (Qc_of_Z a) (Qc_of_Z b).
Proof. unfold Qc_of_Z. apply Qc_is_canon. unfold Qcmult, Q2Qc. cbn [this]. rewrite !Qred_correct, inject_Z_mult. reflexivity. Qed.
Lemma Qc_of_Z_ne a : a <> 0%Z -> Qc_of_Z a <> Q2Qc 0.
Proof. intros H E. apply (f_equal this) in E. assert (Q : (this (Qc_of_Z a) == this (Q2Qc 0))%Q) by (rewrite E; reflexivity). clear E. rename Q into E. unfold Qc_of_Z, Q2Qc in E. cbn [this] in E. rewrite !Qred_correct in E. unfold Qeq in E. cbn in E. lia. Qed.

(** terms for which code is generated *)
Record codable (n : nat) (t : term) : Prop := {
  cd_made : exists xs c, make_term SpinOrbital xs (tsq t) c = Ok t;
  cd_diag : tdiag t = [];
  cd_cre : make_typed SpinOrbital (cre (tsq t)) = Ok (cre (tsq t));
  cd_ann : make_typed SpinOrbital (ann (tsq t)) = Ok (ann (tsq t));
  cd_cre_len : length (cre (tsq t)) = n;
  cd_ann_len : length (ann (tsq t)) = n;
  cd_coeff : (Z.pos (Qden (this (tcoeff t))) <= 1000000000)%Z }.
Definition part_cre (t : term) := fst (perm_partition_open t).
Definition part_ann (t : term) := snd (perm_partition_open t).
Definition n_perm (t : term) : nat := length (multiset_permutations (list_index (part_cre t))) * length (multiset_permutations (list_index (part_ann t))).
Lemma typed_inv l : make_typed SpinOrbital l = Ok l -> NoDup l /\ Forall (fun i => idx_beta i = false) l.
Proof.
  unfold make_typed. destruct (nodup_idx l) eqn:N; [|discriminate]. cbn [itype_eqb andb]. destruct (existsb idx_beta l) eqn:E; [discriminate|]. intros _. split; [apply nodup_idx_spec, N|]. apply Forall_forall. intros i Hi. destruct (idx_beta i) eqn:B; [|reflexivity]. assert (existsb idx_beta l = true) by (apply existsb_exists; eauto). congruence.
Qed.
Lemma codable_type n t : codable n t -> ttype t = SpinOrbital.
Proof. intros [(xs & c & H) _ _ _ _ _ _]. pose proof (make_term_fields _ _ _ _ _ H) as F. apply F. Qed.
Lemma codable_sides n t : codable n t -> side (cre (tsq t)) (part_cre t) /\ side (ann (tsq t)) (part_ann t).
Proof.
  intros [(xs & c & H) D Hc Ha _ _ _]. apply typed_inv in Hc. apply typed_inv in Ha. destruct (open_partition _ _ _ _ _ H D (proj1 Hc) (proj1 Ha)) as [[C1 C2 _ _ _] [A1 A2 _ _ _]]. split; constructor; try assumption; [apply Hc|apply Ha].
Qed.
Lemma codable_nodup n t : codable n t -> NoDup (ann (tsq t) ++ cre (tsq t)).
Proof.
  intros [(xs & c & H) D Hc Ha _ _ _]. apply typed_inv in Hc. apply typed_inv in Ha. pose proof (make_term_fields _ _ _ _ _ H) as (_ & _ & _ & _ & _ & _ & _ & _ & _ & Hd).
  apply NoDup_app_intro; [apply Ha|apply Hc|]. intros i H1 H2. assert (R : In (i, total_times i xs (tsq t)) (tdiag t)) by (apply Hd; split; [left; auto|reflexivity]). rewrite D in R. exact R.
Qed.
Lemma codable_counts n t : codable n t ->
  op_n_multiset_permutation (ttype t) (tsq t) (part_cre t) (part_ann t) = Ok (n_perm t) /\
  (exists e, op_exist_permute_format (ttype t) (tsq t) (part_cre t) (part_ann t) = Ok e /\ (e = true <-> n_perm t <> 1) /\ (e = true <-> snd (key_of t) <> [])) /\
  exists k, (fact n * fact n = k * n_perm t)%nat.
Proof.
  intros H. pose proof (codable_type n t H) as T. destruct (codable_sides n t H) as [Sc Sa].
  assert (TT : itype_antisymmetric (ttype t) = true) by (rewrite T; reflexivity).
  destruct (both_count (ttype t) TT _ _ _ Sc Sa) as (nc & na & Ec & Ea & En & Ex & r & Er & Tx).
  destruct (side_count (ttype t) TT _ _ Sc) as (nc' & Ec' & Lc & Cc & _). destruct (side_count (ttype t) TT _ _ Sa) as (na' & Ea' & La & Ca & _). rewrite Ec in Ec'. rewrite Ea in Ea'. injection Ec' as <-. injection Ea' as <-.
  unfold n_perm. rewrite <- Lc, <- La. split; [exact En|]. split.
  - eexists. split; [exact Ex|]. split.
    + destruct (Nat.eqb_spec nc 1), (Nat.eqb_spec na 1); cbn [andb negb]; split; intros Q; try discriminate Q; try reflexivity; try nia. 
    + assert (K : snd (key_of t) = snd (fst r)). { unfold key_of, category. unfold part_cre, part_ann in Er. destruct (perm_partition_open t) as [a b]. cbn [fst snd] in Er. rewrite Er. reflexivity. }
      rewrite K, Tx. destruct (nc =? 1), (na =? 1); cbn [andb negb orb app]; split; intros Q; try discriminate; try reflexivity; congruence.
  - rewrite (cd_cre_len n t H) in Cc. rewrite (cd_ann_len n t H) in Ca. exists (product (map (fun b => fact (length b)) (part_cre t)) * product (map (fun b => fact (length b)) (part_ann t))). match type of Cc with ?x = _ => match type of Ca with ?y = _ => transitivity (x * y); [rewrite Cc, Ca; reflexivity|ring] end end.
Qed.
Lemma same_key_count n t t' : codable n t -> codable n t' -> key_of t = key_of t' -> n_perm t = n_perm t'.
Proof.
  intros H H' K. pose proof (codable_type n t H) as T. pose proof (codable_type n t' H') as T'. destruct (codable_sides n t H) as [Sc Sa]. destruct (codable_sides n t' H') as [Sc' Sa'].
  destruct (codable_counts n t H) as (E & _). destruct (codable_counts n t' H') as (E' & _). rewrite T in E. rewrite T' in E'.
  destruct (both_count SpinOrbital eq_refl _ _ _ Sc Sa) as (_ & _ & _ & _ & _ & _ & r & Er & _). destruct (both_count SpinOrbital eq_refl _ _ _ Sc' Sa') as (_ & _ & _ & _ & _ & _ & r' & Er' & _).
  apply (same_text_count SpinOrbital eq_refl _ _ _ _ _ _ _ _ _ _ Sc Sa Sc' Sa' E E' Er Er').
  assert (G : forall u r, ttype u = SpinOrbital -> op_latex_permute_format SpinOrbital (tsq u) (part_cre u) (part_ann u) = Ok r -> snd (key_of u) = snd (fst r)).
  { intros u q Tu Eu. unfold key_of, category. unfold part_cre, part_ann in Eu. rewrite Tu. destruct (perm_partition_open u) as [a b]. cbn [fst snd] in Eu. rewrite Eu. reflexivity. }
  rewrite <- (G t r T Er), <- (G t' r' T' Er'), K. reflexivity.
Qed.
Lemma n_perm_pos n t : codable n t -> n_perm t <> 0.
Proof. intros H. destruct (codable_counts n t H) as (_ & _ & k & E). pose proof (lt_O_fact n). intros Z. rewrite Z in E. nia. Qed.
Lemma entry_printed n t : codable n t -> limit_denominator 1000000000 (entry_coeff t (n_perm t)) = entry_coeff t (n_perm t) /\
  Qcmult (Qcinv (Qc_of_Z (Z.of_nat (fact n * fact n)))) (Qcmult (Qc_of_Z (Z.of_nat (n_perm t))) (entry_coeff t (n_perm t))) = tcoeff t.
Proof.
  intros H. destruct (codable_counts n t H) as (_ & _ & k & E). pose proof (n_perm_pos n t H) as NZ. pose proof (lt_O_fact n) as F.
  unfold entry_coeff. rewrite (cd_cre_len n t H), (cd_ann_len n t H).
  assert (D : Qc_of_Z (Z.of_nat (n_perm t)) <> Q2Qc 0) by (apply Qc_of_Z_ne; lia). assert (D2 : Qc_of_Z (Z.of_nat (fact n * fact n)) <> Q2Qc 0) by (apply Qc_of_Z_ne; nia).
  split.
  - assert (X : Qcdiv (Qcmult (tcoeff t) (Qc_of_Z (Z.of_nat (fact n * fact n)))) (Qc_of_Z (Z.of_nat (n_perm t))) = Qcmult (tcoeff t) (Qc_of_Z (Z.of_nat k))).
    { rewrite E, Nat2Z.inj_mul, Qc_of_Z_mul. unfold Qcdiv. rewrite <- !Qcmult_assoc, (Qcmult_inv_r _ D), Qcmult_1_r. reflexivity. }
    rewrite X. unfold limit_denominator. pose proof (scaled_den (tcoeff t) (Z.of_nat k)) as Q. pose proof (cd_coeff n t H) as C. destruct (Z.leb_spec (Z.pos (Qden (this (Qcmult (tcoeff t) (Qc_of_Z (Z.of_nat k)))))) 1000000000) as [L|L]; [reflexivity|]. exfalso. lia.
  - unfold Qcdiv. set (x := tcoeff t). set (f := Qc_of_Z (Z.of_nat (fact n * fact n))) in *. set (p := Qc_of_Z (Z.of_nat (n_perm t))) in *.
    transitivity (Qcmult x (Qcmult (Qcmult f (Qcinv f)) (Qcmult p (Qcinv p)))); [ring|]. rewrite (Qcmult_inv_r _ D), (Qcmult_inv_r _ D2). ring.
Qed.

(** the statements of a term *)
Lemma term_stmts_ok n t last : codable n t -> exists perms, permute_indices SpinOrbital (tsq t) (part_cre t) (part_ann t) false = Ok perms /\
  term_stmts last t = Ok (if n_perm t =? 1 then [SContract (on_op (target_name n) (tsq t)) (entry_coeff t (n_perm t)) (factors t)]
    else SContract (on_op temp_name (tsq t)) (entry_coeff t (n_perm t)) (factors t) ::
         if last then map (fun e => let '(s, a, b) := e in SAdd (Access (target_name n) a b) (s =? 1)%Z (on_op temp_name (tsq t))) perms else []) /\
  (n_perm t <> 1 -> length perms = n_perm t /\ forall s a b, In (s, a, b) perms -> exists s1 s2, s = (s1 * s2)%Z /\ reorder_sign (ann (tsq t)) a s1 /\ reorder_sign (cre (tsq t)) b s2).
Proof.
  intros H. destruct (codable_counts n t H) as (En & (e & Ex & Ee & _) & _). pose proof (codable_type n t H) as T. destruct (codable_sides n t H) as [[Nc Pc NEc] [Na Pa NEa]]. destruct (typed_inv _ (cd_cre n t H)) as [_ Bc]. destruct (typed_inv _ (cd_ann n t H)) as [_ Ba].
  destruct (permuted_ok SpinOrbital (part_ann t) (ann (tsq t)) eq_refl Na Pa (fun _ => Ba)) as (r1 & E1 & _ & H1). destruct (permuted_ok SpinOrbital (part_cre t) (cre (tsq t)) eq_refl Nc Pc (fun _ => Bc)) as (r2 & E2 & _ & H2).
  pose proof (permuted_count SpinOrbital _ _ _ eq_refl Na Pa (fun _ => Ba) (ex_intro _ _ Ba) E1) as L1. pose proof (permuted_count SpinOrbital _ _ _ eq_refl Nc Pc (fun _ => Bc) (ex_intro _ _ Bc) E2) as L2.
  assert (RT : result_array t = target_name n). { unfold result_array, array_name, target_name. rewrite (cd_cre_len n t H), (cd_ann_len n t H), Nat.eqb_refl. reflexivity. }
  assert (EP : exists perms, permute_indices SpinOrbital (tsq t) (part_cre t) (part_ann t) false = Ok perms /\ (op_is_empty (tsq t) = false -> length perms = n_perm t /\ forall s a b, In (s, a, b) perms -> exists s1 s2, s = (s1 * s2)%Z /\ reorder_sign (ann (tsq t)) a s1 /\ reorder_sign (cre (tsq t)) b s2)).
  { unfold permute_indices. destruct (op_is_empty (tsq t)); [eexists; split; [reflexivity|discriminate]|]. rewrite E1. cbn [pybind]. destruct r1 as [|x1 r1].
    - exists []. split; [reflexivity|]. intros _. split; [|intros ? ? ? []]. unfold n_perm. rewrite <- L1. cbn. lia.
    - rewrite E2. cbn [pybind]. eexists. split; [reflexivity|]. intros _. change (map (fun y => ((fst x1 * fst y)%Z, snd x1, snd y)) r2 ++ flat_map (fun x => map (fun y => ((fst x * fst y)%Z, snd x, snd y)) r2) r1) with (flat_map (fun x => map (fun y => ((fst x * fst y)%Z, snd x, snd y)) r2) (x1 :: r1)). split.
      + unfold n_perm. rewrite <- L1, <- L2. clear. induction (x1 :: r1) as [|x l IH]; [cbn; lia|]. cbn [flat_map length]. rewrite app_length, map_length, IH. lia.
      + intros s a b Hin. apply in_flat_map in Hin. destruct Hin as ([s1 a1] & Q1 & Hin). apply in_map_iff in Hin. destruct Hin as ([s2 b2] & [= <- <- <-] & Q2). cbn [fst snd]. exists s1, s2. split; [reflexivity|]. split; [apply H1 in Q1; apply Q1|apply H2 in Q2; apply Q2]. }
  destruct EP as (perms & EP & HP). exists perms. split; [exact EP|]. split.
  - unfold term_stmts. unfold part_cre, part_ann in *. rewrite (cd_diag n t H), RT, T in *. destruct (entry_printed n t H) as [EQ _]. destruct (perm_partition_open t) as [pc pa]. cbn [fst snd] in *. rewrite En. cbn [pybind]. rewrite Ex. cbn [pybind]. rewrite EQ.
    destruct (Nat.eqb_spec (n_perm t) 1) as [D|D].
    + assert (e = false) as -> by (destruct e; [exfalso; apply Ee; auto|reflexivity]). cbn [andb pybind map app]. reflexivity.
    + assert (e = true) as -> by (apply Ee; exact D). destruct last; cbn [andb]; [rewrite EP|]; cbn [pybind map app]; reflexivity.
  - intros D. apply HP. assert (Ee2 : e = true) by (apply Ee; exact D). subst e. rewrite T in Ex. apply (exist_nonempty _ _ _ _ Ex).
Qed.

(** ** Execution *)
Section Exec.
  Context (A : qalg) (S : system) (v : tvaluation A) (HA : antisymmetric v).
  Add Ring alg_ring15 : (q_ring A).
  Definition term_sum (t : term) : A := sum_over S (nodup idx_eq_dec (content_indices (ttensors t) (tsq t))) (integrand v (ttensors t) (tsq t)).
  Lemma term_value_sum t : term_value S v t = (inj (tcoeff t) * term_sum t)%alg.
  Proof. reflexivity. Qed.
  Definition fac (x : tensor) : access := Access (tensor_array x) (fst (array_order x)) (snd (array_order x)).
  Definition not_temp (t : term) : Prop := Forall (fun x => tensor_array x <> temp_name) (ttensors t).
  Lemma text_eqb_ne a b : a <> b -> text_eqb a b = false.
  Proof. intros H. destruct (text_eqb a b) eqn:E; [apply text_eqb_eq in E; contradiction|reflexivity]. Qed.
  Lemma text_eqb_rfl a : text_eqb a a = true.
  Proof. apply text_eqb_eq. reflexivity. Qed.
  Lemma upper_first_spec x : if upper_first x then tcls x <> TCluster \/ holes_above x else tcls x = TCluster /\ ~ holes_above x.
  Proof.
    assert (C : forall s i, contains_space s i = true <-> In s (space_elems (lsp (fst i)))).
    { intros s [[b sp] n]. unfold contains_space, lower_label. cbn [fst lsp]. destruct s, sp; vm_compute; intuition discriminate. }
    unfold upper_first. destruct (tclass_eqb (tcls x) TCluster) eqn:E; [|destruct (tcls x); try discriminate; left; discriminate]. assert (T : tcls x = TCluster) by (destruct (tcls x); try discriminate; reflexivity). rewrite T. unfold is_excitation, holes_above.
    destruct (existsb (contains_space Sv) (tupper x)) eqn:E1; cbn [orb negb].
    - split; [reflexivity|]. intros [H _]. apply existsb_exists in E1 as (i & Hi & Ei). apply (H i Hi), C, Ei.
    - destruct (existsb (contains_space Sc) (tlower x)) eqn:E2; cbn [negb].
      + split; [reflexivity|]. intros [_ H]. apply existsb_exists in E2 as (i & Hi & Ei). apply (H i Hi), C, Ei.
      + right. split; intros i Hi Q; apply C in Q; [assert (F : existsb (contains_space Sv) (tupper x) = true)|assert (F : existsb (contains_space Sc) (tlower x) = true)]; try (apply existsb_exists; exists i; split; assumption); congruence.
  Qed.
  Lemma order_value e x f : holds v x f -> f (map e (a_indices (fac x))) = tensor_value v e x.
  Proof.
    intros H. unfold a_indices, fac, array_order, tensor_value. cbn [a_first a_second]. destruct (H (map e (tupper x)) (map e (tlower x)) (map_length _ _) (map_length _ _)) as [H1 H2]. pose proof (upper_first_spec x) as U. destruct (upper_first x); cbn [fst snd]; rewrite map_app; [apply H1, U|apply H2; apply U].
  Qed.
  Lemma order_indices x i : In i (a_indices (fac x)) <-> In i (tensor_indices x).
  Proof. unfold a_indices, fac, array_order, tensor_indices. cbn [a_first a_second]. destruct (upper_first x); cbn [fst snd]; rewrite !in_app_iff; tauto. Qed.
  Lemma reads (st : store A) xs : arrays_hold v xs (st_arrays st) -> Forall (fun x => tensor_array x <> temp_name) xs ->
    exists fs, all_some (map (read st) (map fac xs)) = Some fs /\
      (forall e, aprod (map (fun f => snd f (map e (fst f))) (combine (map a_indices (map fac xs)) fs)) = aprod (map (tensor_value v e) xs)) /\
      (forall i, In i (flat_map fst (combine (map a_indices (map fac xs)) fs)) <-> In i (flat_map tensor_indices xs)).
  Proof.
    induction xs as [|x xs IH]; intros H F; [exists []; split; [reflexivity|]; split; [reflexivity|cbn; tauto]|].
    inversion F as [|? ? Fx Fs]; subst. destruct IH as (fs & E & P & Q); [intros y Hy; apply H; right; exact Hy|exact Fs|].
    destruct (H x (or_introl eq_refl)) as (f & Ef & Hf). exists (f :: fs). cbn [map all_some combine]. unfold read at 1. cbn [a_array fac]. rewrite (text_eqb_ne _ _ Fx), Ef, E. split; [reflexivity|]. split.
    - intros e. cbn [map fst snd]. match goal with |- aprod (?a :: ?l) = aprod (?b :: ?m) => change (a * aprod l = b * aprod m)%alg end. f_equal; [apply order_value; exact Hf|apply P].
    - intros i. cbn [flat_map fst]. rewrite !in_app_iff, Q, order_indices. tauto.
  Qed.
  Lemma contract_total n (st : store A) t : codable n t -> arrays_hold v (ttensors t) (st_arrays st) -> not_temp t ->
    exists fs, all_some (map (read st) (factors t)) = Some fs /\
      total A S v n (einsum S (ann (tsq t) ++ cre (tsq t)) (combine (map a_indices (factors t)) fs)) = term_sum t.
  Proof.
    intros C H N. destruct (reads st (ttensors t) H N) as (fs & E & P & Q). exists fs. split; [exact E|]. rewrite einsum_total by (rewrite app_length, (cd_cre_len n t C), (cd_ann_len n t C); lia).
    unfold term_sum. rewrite (sum_over_same A S _ (nodup idx_eq_dec (content_indices (ttensors t) (tsq t)))); [|apply NoDup_nodup|apply NoDup_nodup| |].
    - apply sum_over_ext; [|apply NoDup_nodup]. intros e _. cbv beta. unfold integrand, op_value. f_equal; [apply P|]. rewrite map_app, out_value_app by (rewrite map_length; apply (cd_ann_len n t C)). reflexivity.
    - intros i. rewrite !nodup_In. unfold content_indices, op_indices. rewrite !in_app_iff. rewrite (Q i). tauto.
    - intros e e' He. cbv beta. f_equal; [|f_equal; apply map_ext_in; intros i Hi; apply He, nodup_In, in_or_app; left; exact Hi]. rewrite !P.
      f_equal. apply map_ext_in. intros x Hx. assert (G : forall i, In i (tensor_indices x) -> e i = e' i). { intros i Hi. apply He, nodup_In, in_or_app. right. apply Q. apply in_flat_map. exists x. auto. }
      unfold tensor_value. f_equal; apply map_ext_in; intros i Hi; apply G, in_or_app; auto.
  Qed.

  (** what a piece of code does: only the target array changes, by terms of the given value *)
  Definition adds (n : nat) (x : A) (st st' : store A) : Prop :=
    st_declared st' = st_declared st /\ (forall name, name <> target_name n -> st_arrays st' name = st_arrays st name) /\
    forall f, st_arrays st (target_name n) = Some f -> exists f', st_arrays st' (target_name n) = Some f' /\ array_operator S v n f' = (array_operator S v n f + x)%alg.
  Lemma adds_refl n st : adds n q0 st st.
  Proof. split; [reflexivity|]. split; [reflexivity|]. intros f E. exists f. split; [exact E|ring]. Qed.
  Lemma adds_trans n x y a b c : adds n x a b -> adds n y b c -> adds n (x + y)%alg a c.
  Proof.
    intros (D1 & O1 & T1) (D2 & O2 & T2). split; [congruence|]. split; [intros m Hm; rewrite O2, O1 by exact Hm; reflexivity|]. intros f Ef. destruct (T1 f Ef) as (f1 & E1 & V1). destruct (T2 f1 E1) as (f2 & E2 & V2). exists f2. split; [exact E2|]. rewrite V2, V1. ring.
  Qed.
  Lemma hold_adds xs n x a b : adds n x a b -> Forall (fun y => tensor_array y <> target_name n) xs -> arrays_hold v xs (st_arrays a) -> arrays_hold v xs (st_arrays b).
  Proof. intros (_ & O & _) F H y Hy. rewrite Forall_forall in F. rewrite (O _ (F y Hy)). apply H. exact Hy. Qed.
  Lemma exec_leaves_app l m (st : store A) : exec_leaves S (l ++ m) st = match exec_leaves S l st with Some st' => exec_leaves S m st' | None => None end.
  Proof. revert st. induction l as [|s l IH]; intros st; [reflexivity|]. cbn [app exec_leaves]. destruct (exec_leaf S s st); [apply IH|reflexivity]. Qed.
  Lemma target_not_temp n : target_name n <> temp_name.
  Proof. unfold target_name, temp_name. discriminate. Qed.

  (** *** terms without permutations *)
  Lemma plain_exec n t st f : codable n t -> n_perm t = 1 -> arrays_hold v (ttensors t) (st_arrays st) -> not_temp t -> st_arrays st (target_name n) = Some f ->
    exists st', exec_leaf S (SContract (on_op (target_name n) (tsq t)) (entry_coeff t (n_perm t)) (factors t)) st = Some st' /\ adds n (term_value S v t) st st' /\ st_temp st' = st_temp st /\ exists f', st_arrays st' (target_name n) = Some f'.
  Proof.
    intros C P1 H N Ef. destruct (contract_total n st t C H N) as (fs & Efs & ET). destruct (entry_printed n t C) as [_ EC]. cbn [exec_leaf].
    assert (R : read st (on_op (target_name n) (tsq t)) = Some f). { unfold read. cbn [a_array on_op]. rewrite (text_eqb_ne _ _ (target_not_temp n)). exact Ef. }
    rewrite R, Efs. eexists. split; [reflexivity|]. unfold write. cbn [a_array on_op]. rewrite (text_eqb_ne _ _ (target_not_temp n)). cbn [st_temp st_arrays st_declared]. split; [|split; [reflexivity|rewrite text_eqb_rfl; eexists; reflexivity]].
    split; [reflexivity|]. split; [intros name Hn; cbn [st_arrays]; rewrite (text_eqb_ne _ _ Hn); reflexivity|].
    intros f0 E0. rewrite Ef in E0. injection E0 as <-. cbn [st_arrays]. rewrite text_eqb_rfl. eexists. split; [reflexivity|]. change (a_indices (on_op (target_name n) (tsq t))) with (ann (tsq t) ++ cre (tsq t)).
    rewrite !array_operator_total, (total_add A S v n f (einsum S _ _)), ET, term_value_sum, <- EC, P1. rewrite !(inj_mul A). change (Z.of_nat 1) with 1%Z. replace (Qc_of_Z 1) with (Q2Qc 1) by (apply Qc_is_canon; reflexivity). rewrite (inj_one A). ring.
  Qed.
  (** *** terms added to temp *)
  Definition spaces_of (L : list idx) : text := map (fun i => label_char (fst i)) L.
  Lemma spaces_labels L L' : spaces_of L = spaces_of L' -> map fst L = map fst L'.
  Proof. revert L'. induction L as [|i L IH]; intros [|j L']; try discriminate; [reflexivity|]. cbn. intros [= E1 E2]. apply label_char_inj in E1. rewrite E1, (IH L' E2). reflexivity. Qed.
  Definition temp_holds (n : nat) (block : text) (x : A) (st : store A) : Prop :=
    exists g, st_temp st = Some (block, g) /\ (forall L, spaces_of L = block -> supported A S L g) /\ total A S v n g = x.
  Lemma temp_exec n t st block x : codable n t -> space_str t = block -> arrays_hold v (ttensors t) (st_arrays st) -> not_temp t -> temp_holds n block x st ->
    exists st', exec_leaf S (SContract (on_op temp_name (tsq t)) (entry_coeff t (n_perm t)) (factors t)) st = Some st' /\
      st_arrays st' = st_arrays st /\ st_declared st' = st_declared st /\ temp_holds n block (x + inj (entry_coeff t (n_perm t)) * term_sum t)%alg st'.
  Proof.
    intros C B H N (g & Eg & Sg & Tg). destruct (contract_total n st t C H N) as (fs & Efs & ET). cbn [exec_leaf].
    assert (BS : map (fun i : idx => label_char (fst i)) (ann (tsq t) ++ cre (tsq t)) = block) by exact B.
    assert (R : read st (on_op temp_name (tsq t)) = Some g). { transitivity (if text_eqb block (space_str t) then Some g else None); [unfold read; cbn [a_array on_op]; rewrite text_eqb_rfl, Eg; reflexivity|rewrite B, text_eqb_rfl; reflexivity]. }
    rewrite R, Efs. eexists. split; [reflexivity|]. unfold write. cbn [a_array on_op]. rewrite text_eqb_rfl. cbn [st_temp st_arrays st_declared]. split; [reflexivity|]. split; [reflexivity|].
    change (a_indices (on_op temp_name (tsq t))) with (ann (tsq t) ++ cre (tsq t)). eexists. split; [cbn [st_temp]; apply f_equal; exact (f_equal2 pair BS eq_refl)|]. split.
    - intros L HL o Ho. cbv beta. rewrite (Sg L HL o Ho). pose proof (einsum_supported A S (ann (tsq t) ++ cre (tsq t)) (combine (map a_indices (factors t)) fs)) as Q.
      assert (EL : map fst (ann (tsq t) ++ cre (tsq t)) = map fst L) by (apply spaces_labels; transitivity block; [exact BS|symmetry; exact HL]).
      rewrite (supported_labels A S _ L _ EL Q o Ho). ring.
    - rewrite (total_add A S v n g (einsum S _ _)), ET, Tg. reflexivity.
  Qed.
  Lemma temps_exec n block ts : forall st x, Forall (codable n) ts -> Forall (fun t => space_str t = block) ts -> Forall (fun t => arrays_hold v (ttensors t) (st_arrays st)) ts -> Forall not_temp ts -> temp_holds n block x st ->
    exists st', exec_leaves S (map (fun t => SContract (on_op temp_name (tsq t)) (entry_coeff t (n_perm t)) (factors t)) ts) st = Some st' /\
      st_arrays st' = st_arrays st /\ st_declared st' = st_declared st /\ temp_holds n block (x + asum (map (fun t => inj (entry_coeff t (n_perm t)) * term_sum t) ts))%alg st'.
  Proof.
    induction ts as [|t ts IH]; intros st x C B H N T.
    - exists st. split; [reflexivity|]. split; [reflexivity|]. split; [reflexivity|]. destruct T as (g & ? & ? & ?). exists g. split; [assumption|]. split; [assumption|]. unfold asum. cbn [map fold_right]. rewrite H2. ring.
    - inversion C; subst. inversion B; subst. inversion H; subst. inversion N; subst. destruct (temp_exec n t st _ x H2 eq_refl H4 H7 T) as (st1 & E1 & A1 & D1 & T1).
      edestruct (IH st1) as (st2 & E2 & A2 & D2 & T2); [assumption|exact H5|rewrite A1; assumption|assumption|exact T1|]. exists st2. cbn [map exec_leaves]. rewrite E1. split; [exact E2|]. split; [congruence|]. split; [congruence|].
      destruct T2 as (g & G1 & G2 & G3). exists g. split; [exact G1|]. split; [exact G2|]. rewrite G3. unfold asum. cbn [map fold_right]. ring.
  Qed.
  (** *** temp added to the target with all permutations *)
  Lemma add_exec n an cr a b s1 s2 st f block x : length an = n -> length cr = n -> NoDup (an ++ cr) -> reorder_sign an a s1 -> reorder_sign cr b s2 -> spaces_of (an ++ cr) = block -> temp_holds n block x st -> st_arrays st (target_name n) = Some f ->
    exists st' f', exec_leaf S (SAdd (Access (target_name n) a b) (s1 * s2 =? 1)%Z (Access temp_name an cr)) st = Some st' /\ st_temp st' = st_temp st /\ st_declared st' = st_declared st /\
      (forall name, name <> target_name n -> st_arrays st' name = st_arrays st name) /\ st_arrays st' (target_name n) = Some f' /\ total A S v n f' = (total A S v n f + x)%alg.
  Proof.
    intros L1 L2 N R1 R2 B (g & Eg & Sg & Tg) Ef. cbn [exec_leaf].
    assert (Q1 : read st (Access (target_name n) a b) = Some f). { unfold read. cbn [a_array]. rewrite (text_eqb_ne _ _ (target_not_temp n)). exact Ef. }
    assert (Q2 : read st (Access temp_name an cr) = Some g). { transitivity (if text_eqb block (spaces_of (an ++ cr)) then Some g else None); [unfold read; cbn [a_array]; rewrite text_eqb_rfl, Eg; reflexivity|rewrite B, text_eqb_rfl; reflexivity]. }
    rewrite Q1, Q2. eexists. eexists. split; [reflexivity|]. unfold write. cbn [a_array]. rewrite (text_eqb_ne _ _ (target_not_temp n)). cbn [st_temp st_arrays st_declared]. split; [reflexivity|]. split; [reflexivity|]. split; [intros name Hn; rewrite (text_eqb_ne _ _ Hn); reflexivity|]. rewrite text_eqb_rfl. split; [reflexivity|].
    unfold a_indices. cbn [a_first a_second]. pose proof (permuted_total A S v HA n an cr a b s1 s2 g L1 L2 N R1 R2 (Sg _ B)) as P. rewrite Tg in P.
    assert (Z : (s1 * s2 = 1 \/ s1 * s2 = -1)%Z). { destruct R1 as (k1 & _ & ->). destruct R2 as (k2 & _ & ->). rewrite <- sgn_add. apply sgn_pm. }
    destruct Z as [Z|Z]; rewrite Z in *; cbn [Z.eqb Pos.eqb].
    - rewrite (total_ext A S v n _ (fun o => f o + q1 * einsum S (a ++ b) [(an ++ cr, g)] o)%alg) by (intros o; ring). rewrite (total_add A S v n f (einsum S _ _)), P, (zin_1 A). ring.
    - rewrite (total_ext A S v n _ (fun o => f o + (- q1) * einsum S (a ++ b) [(an ++ cr, g)] o)%alg) by (intros o; ring). rewrite (total_add A S v n f (einsum S _ _)), P. change (-1)%Z with (- (1))%Z. rewrite (zin_opp A), (zin_1 A). ring.
  Qed.
  Lemma adds_exec n an cr block x (perms : list (Z * list idx * list idx)) : length an = n -> length cr = n -> NoDup (an ++ cr) -> spaces_of (an ++ cr) = block ->
    (forall s a b, In (s, a, b) perms -> exists s1 s2, s = (s1 * s2)%Z /\ reorder_sign an a s1 /\ reorder_sign cr b s2) ->
    forall st f, temp_holds n block x st -> st_arrays st (target_name n) = Some f ->
    exists st' f', exec_leaves S (map (fun e => let '(s, a, b) := e in SAdd (Access (target_name n) a b) (s =? 1)%Z (Access temp_name an cr)) perms) st = Some st' /\ st_temp st' = st_temp st /\ st_declared st' = st_declared st /\
      (forall name, name <> target_name n -> st_arrays st' name = st_arrays st name) /\ st_arrays st' (target_name n) = Some f' /\ total A S v n f' = (total A S v n f + inj (Qc_of_Z (Z.of_nat (length perms))) * x)%alg.
  Proof.
    intros L1 L2 N B. induction perms as [|[[s a] b] perms IH]; intros HP st f T Ef.
    - exists st, f. repeat split; try assumption. cbn [length]. change (Z.of_nat 0) with 0%Z. change (inj (Qc_of_Z 0)) with (@zin A 0). rewrite (zin_0 A). ring.
    - destruct (HP s a b (or_introl eq_refl)) as (s1 & s2 & -> & R1 & R2). destruct (add_exec n an cr a b s1 s2 st f block x L1 L2 N R1 R2 B T Ef) as (st1 & f1 & E1 & T1 & D1 & O1 & F1 & V1).
      destruct (IH (fun s a b H => HP s a b (or_intror H)) st1 f1) as (st2 & f2 & E2 & T2 & D2 & O2 & F2 & V2); [destruct T as (g & G1 & G2); exists g; rewrite T1; auto|exact F1|].
      exists st2, f2. cbn [map exec_leaves]. rewrite E1. split; [exact E2|]. split; [congruence|]. split; [congruence|]. split; [intros m Hm; rewrite O2, O1 by exact Hm; reflexivity|]. split; [exact F2|]. rewrite V2, V1. cbn [length]. rewrite Nat2Z.inj_succ, <- Z.add_1_r.
      change (inj (Qc_of_Z (Z.of_nat (length perms) + 1))) with (@zin A (Z.of_nat (length perms) + 1)). rewrite (zin_add A), (zin_1 A). change (inj (Qc_of_Z (Z.of_nat (length perms)))) with (@zin A (Z.of_nat (length perms))). ring.
  Qed.

  (** *** groups *)
  Definition usable (n : nat) (arrays : text -> option (array A)) (t : term) : Prop :=
    codable n t /\ not_temp t /\ Forall (fun x => tensor_array x <> target_name n) (ttensors t) /\ arrays_hold v (ttensors t) arrays.
  Lemma usable_adds n x a b t : adds n x a b -> usable n (st_arrays a) t -> usable n (st_arrays b) t.
  Proof. intros H (C & N & F & T). split; [exact C|]. split; [exact N|]. split; [exact F|]. eapply hold_adds; eassumption. Qed.
  Lemma usable_ext n a b t : (forall m, m <> target_name n -> b m = a m) -> usable n a t -> usable n b t.
  Proof. intros H (C & N & F & T). split; [exact C|]. split; [exact N|]. split; [exact F|]. intros x Hx. rewrite Forall_forall in F. rewrite (H _ (F x Hx)). apply T. exact Hx. Qed.
  Lemma pymap_enumerate {Y} (f : nat * term -> pyres Y) (h : nat * term -> Y) l : (forall x, In x l -> f x = Ok (h x)) -> pymap f l = Ok (map h l).
  Proof. induction l as [|x l IH]; intros H; [reflexivity|]. cbn [pymap map]. rewrite (H x (or_introl eq_refl)). cbn [pybind]. rewrite IH by (intros y Hy; apply H; right; exact Hy). reflexivity. Qed.
  Lemma enumerate_snd {X} k (l : list X) : map snd (enumerate k l) = l.
  Proof. revert k. induction l as [|x l IH]; intros k; [reflexivity|]. cbn [enumerate map snd]. rewrite IH. reflexivity. Qed.
  Lemma enumerate_app {X} k (l m : list X) : enumerate k (l ++ m) = enumerate k l ++ enumerate (k + length l) m.
  Proof. revert k. induction l as [|x l IH]; intros k; [cbn; rewrite Nat.add_0_r; reflexivity|]. cbn [enumerate app length]. rewrite IH. do 3 f_equal. lia. Qed.
  Definition plain_stmt n t := SContract (on_op (target_name n) (tsq t)) (entry_coeff t (n_perm t)) (factors t).
  Definition temp_stmt t := SContract (on_op temp_name (tsq t)) (entry_coeff t (n_perm t)) (factors t).
  Lemma plains_exec n ts : forall st f, Forall (usable n (st_arrays st)) ts -> Forall (fun t => n_perm t = 1) ts -> st_arrays st (target_name n) = Some f ->
    exists st' f', exec_leaves S (map (plain_stmt n) ts) st = Some st' /\ adds n (asum (map (term_value S v) ts)) st st' /\ st_temp st' = st_temp st /\ st_arrays st' (target_name n) = Some f'.
  Proof.
    induction ts as [|t ts IH]; intros st f U P Ef; [exists st, f; split; [reflexivity|]; split; [apply adds_refl|split; [reflexivity|exact Ef]]|].
    inversion U as [|? ? Ut Us]; subst. inversion P as [|? ? Pt Ps]; subst. pose proof Ut as (C & N & F & T). destruct (plain_exec n t st f C Pt T N Ef) as (st1 & E1 & A1 & T1 & f1 & F1).
    destruct (IH st1 f1) as (st2 & f2 & E2 & A2 & T2 & F2); [revert Us; apply Forall_impl; intros u Hu; eapply usable_adds; eassumption|exact Ps|exact F1|].
    exists st2, f2. cbn [map exec_leaves]. unfold plain_stmt at 1. rewrite E1. split; [exact E2|]. split; [|split; [congruence|exact F2]]. exact (adds_trans n _ _ _ _ _ A1 A2).
  Qed.
  Lemma asum_scale {B} (c : A) (f : B -> A) l : (c * asum (map f l))%alg = asum (map (fun x => c * f x)%alg l).
  Proof. symmetry. apply asum_map_mul. Qed.
  Definition ready (block perm : text) (initiate : bool) (st : store A) : Prop :=
    perm <> [] -> st_declared st = true /\ (initiate = false -> exists g, st_temp st = Some (block, g)).
  Theorem group_exec n block perm initiate terms st f : Forall (usable n (st_arrays st)) terms -> Forall (fun t => key_of t = (block, perm)) terms ->
    st_arrays st (target_name n) = Some f -> ready block perm initiate st ->
    exists g st' f', group_stmts (match block with [] => str "0" | _ => block end) perm initiate terms = Ok g /\ exec_leaves S g st = Some st' /\
      adds n (asum (map (term_value S v) terms)) st st' /\ st_arrays st' (target_name n) = Some f' /\
      (perm <> [] -> terms <> [] -> exists h, st_temp st' = Some (block, h)) /\ (perm = [] \/ terms = [] -> st_temp st' = st_temp st).
  Proof.
    intros U K Ef R. set (bl := match block with [] => _ | _ => _ end).
    assert (EK : forall t, In t terms -> codable n t /\ space_str t = block /\ (n_perm t = 1 <-> perm = [])).
    { intros t Ht. rewrite Forall_forall in U, K. destruct (U t Ht) as (C & _). split; [exact C|]. pose proof (K t Ht) as Kt. split.
      - destruct (category_total t) as [p Hp]. unfold key_of in Kt. rewrite Hp in Kt. congruence.
      - destruct (codable_counts n t C) as (_ & (e & _ & E1 & E2) & _). rewrite Kt in E2. cbn [snd] in E2. destruct e; split; intros Q.
        + exfalso. apply (proj1 E1 eq_refl). exact Q.
        + exfalso. apply (proj1 E2 eq_refl). exact Q.
        + destruct perm; [reflexivity|]. exfalso. assert (false = true) by (apply E2; discriminate). discriminate.
        + destruct (Nat.eq_dec (n_perm t) 1) as [D|D]; [exact D|]. apply E1 in D. discriminate. }
    destruct terms as [|t0 terms0]; [exists [], st, f; split; [reflexivity|]; split; [reflexivity|]; split; [apply adds_refl|]; split; [exact Ef|]; split; [congruence|reflexivity]|].
    remember (t0 :: terms0) as terms eqn:ET. assert (TN : terms <> []) by (rewrite ET; discriminate).
    assert (SM : match terms with [] => [] | _ => start_stmts bl perm initiate end = start_stmts bl perm initiate) by (rewrite ET; reflexivity).
    destruct perm as [|c perm'].
    - assert (E : pymap (fun it => term_stmts (last_index terms (fst it)) (snd it)) (enumerate 0 terms) = Ok (map (fun it => [plain_stmt n (snd it)]) (enumerate 0 terms))).
      { apply pymap_enumerate. intros [i t] Hin. apply enumerate_in in Hin. destruct Hin as [_ Hin]. cbn [fst snd]. destruct (EK t Hin) as (C & _ & P). destruct (term_stmts_ok n t (last_index terms i) C) as (perms & _ & Es & _). rewrite Es. rewrite (proj2 P eq_refl). cbn [Nat.eqb]. unfold plain_stmt. rewrite (proj2 P eq_refl). reflexivity. }
      unfold group_stmts. rewrite E, SM. cbn [pybind start_stmts app].
      assert (EC : concat (map (fun it : nat * term => [plain_stmt n (snd it)]) (enumerate 0 terms)) = map (plain_stmt n) terms).
      { rewrite <- (enumerate_snd 0 terms) at 2. rewrite map_map. clear. induction (enumerate 0 terms) as [|x l IH]; [reflexivity|]. cbn [map concat app]. rewrite IH. reflexivity. }
      rewrite EC. destruct (plains_exec n terms st f U) as (st1 & f1 & E1 & A1 & T1 & F1); [apply Forall_forall; intros t Ht; apply (EK t Ht); reflexivity|exact Ef|].
      eexists. exists st1, f1. split; [reflexivity|]. split; [exact E1|]. split; [exact A1|]. split; [exact F1|]. split; [congruence|auto].
    - remember (c :: perm') as perm eqn:EP. assert (PN : perm <> []) by (rewrite EP; discriminate). destruct (R PN) as [RD RT].
      destruct (exists_last TN) as (l & z & Ez). assert (Hz : In z terms) by (rewrite Ez; apply in_or_app; right; left; reflexivity).
      destruct (EK z Hz) as (Cz & Bz & Pz). destruct (term_stmts_ok n z true Cz) as (perms & _ & Esz & Lp). destruct (Lp (fun Q => PN (proj1 Pz Q))) as [LL SP].
      set (aa := map (fun e => let '(s, a, b) := e in SAdd (Access (target_name n) a b) (s =? 1)%Z (on_op temp_name (tsq z))) perms) in *.
      assert (E : pymap (fun it => term_stmts (last_index terms (fst it)) (snd it)) (enumerate 0 terms) = Ok (map (fun it => temp_stmt (snd it) :: if last_index terms (fst it) then aa else []) (enumerate 0 terms))).
      { apply pymap_enumerate. intros [i t] Hin. pose proof Hin as Hin'. apply enumerate_in in Hin. destruct Hin as [_ Hin]. cbn [fst snd]. destruct (EK t Hin) as (C & _ & P). destruct (term_stmts_ok n t (last_index terms i) C) as (perms' & Ep' & Es & _). rewrite Es. destruct (Nat.eqb_spec (n_perm t) 1) as [D|D]; [exfalso; apply PN, P, D|]. f_equal. f_equal.
        destruct (last_index terms i) eqn:Li; [|reflexivity]. assert (t = z) as ->.
        { unfold last_index in Li. apply Nat.eqb_eq in Li. rewrite Ez in Hin', Li. rewrite app_length in Li. cbn [length] in Li. rewrite enumerate_app in Hin'. apply in_app_or in Hin'. destruct Hin' as [Q|Q].
          - assert (G : forall (m : list term) k j x, In (j, x) (enumerate k m) -> j < k + length m) by (clear; induction m as [|y m IH]; intros k j x []; [injection H as <- <-; cbn; lia|apply IH in H; cbn [length]; lia]). apply G in Q. lia.
          - destruct Q as [[= _ <-]|[]]. reflexivity. }
        destruct (term_stmts_ok n z true Cz) as (p2 & Ep2 & Es2 & _). rewrite Esz in Es2. destruct (Nat.eqb_spec (n_perm z) 1) as [D'|D']; [contradiction|]. rewrite Ep' in Ep2. injection Ep2 as <-. injection Es2 as Es2. symmetry. exact Es2. }
      assert (EC : concat (map (fun it : nat * term => temp_stmt (snd it) :: (if last_index terms (fst it) then aa else [])) (enumerate 0 terms)) = map temp_stmt terms ++ aa).
      { assert (G : forall m k, k + length m = length l -> concat (map (fun it : nat * term => temp_stmt (snd it) :: (if last_index terms (fst it) then aa else [])) (enumerate k (m ++ [z]))) = map temp_stmt (m ++ [z]) ++ aa).
        { induction m as [|x m IH]; intros k Hk.
          - cbn [app enumerate map concat fst snd]. cbn [length] in Hk. assert (last_index terms k = true) as ->. { unfold last_index. rewrite Ez, app_length. cbn [length]. apply Nat.eqb_eq. lia. } rewrite app_nil_r. reflexivity.
          - cbn [app enumerate map concat fst snd]. cbn [length] in Hk. assert (last_index terms k = false) as ->. { unfold last_index. rewrite Ez, app_length. cbn [length]. apply Nat.eqb_neq. lia. } rewrite IH by lia. reflexivity. }
        pose proof (G l 0 eq_refl) as Q. rewrite <- Ez in Q. exact Q. }
      unfold group_stmts. rewrite E, SM. cbn [pybind]. rewrite EC. eexists.
      (* the start *)
      assert (BN : bl = block).
      { unfold bl. destruct block as [|b0 block]; [|reflexivity]. exfalso. assert (Q : ann (tsq z) ++ cre (tsq z) = []) by (unfold space_str in Bz; destruct (ann (tsq z) ++ cre (tsq z)); [reflexivity|discriminate]). apply PN, Pz. unfold n_perm. 
        apply app_eq_nil in Q. destruct Q as [Q1 Q2]. destruct (codable_sides n z Cz) as [Sc Sa]. pose proof (codable_type n z Cz) as Tz. destruct (side_count SpinOrbital eq_refl _ _ Sc) as (k1 & _ & K1 & C1 & _). destruct (side_count SpinOrbital eq_refl _ _ Sa) as (k2 & _ & K2 & C2 & _). rewrite <- K1, <- K2. rewrite Q2 in C1. rewrite Q1 in C2. cbn [length fact] in C1, C2. apply Nat.eq_mul_1 in C1. apply Nat.eq_mul_1 in C2. destruct C1 as [-> _]. destruct C2 as [-> _]. reflexivity. }
      assert (ST : exists st1, exec_leaves S (start_stmts bl perm initiate) st = Some st1 /\ st_arrays st1 = st_arrays st /\ st_declared st1 = st_declared st /\ temp_holds n block q0 st1).
      { assert (Z : forall L, spaces_of L = block -> supported A S L (fun _ => q0)) by (intros L _ o _; reflexivity).
        assert (Z2 : total A S v n (fun _ => q0) = q0). { unfold total. rewrite (asum_map_ext A _ (fun _ => q0)) by (intros; ring). apply asum_0. }
        unfold start_stmts. rewrite EP. rewrite BN. destruct initiate; cbn [exec_leaves exec_leaf].
        - rewrite RD. eexists. split; [reflexivity|]. cbn [st_arrays st_declared]. split; [reflexivity|]. split; [first [reflexivity|symmetry; exact RD]|]. exists (fun _ => q0). split; [reflexivity|]. split; [exact Z|exact Z2].
        - destruct (RT eq_refl) as [g Eg]. rewrite Eg. eexists. split; [reflexivity|]. cbn [st_arrays st_declared]. split; [reflexivity|]. split; [reflexivity|]. exists (fun _ => q0). split; [reflexivity|]. split; [exact Z|exact Z2]. }
      destruct ST as (st1 & E1 & A1 & D1 & T1).
      edestruct (temps_exec n block terms st1) as (st2 & E2 & A2 & D2 & T2).
      { revert U. apply Forall_impl. intros u Hu. apply Hu. } { apply Forall_forall. intros u Hu. apply (EK u Hu). } { rewrite A1. revert U. apply Forall_impl. intros u Hu. apply Hu. } { revert U. apply Forall_impl. intros u Hu. apply Hu. } { exact T1. }
      destruct (adds_exec n (ann (tsq z)) (cre (tsq z)) block _ perms (cd_ann_len n z Cz) (cd_cre_len n z Cz) (codable_nodup n z Cz) Bz SP st2 f T2) as (st3 & f3 & E3 & T3 & D3 & O3 & F3 & V3); [rewrite A2, A1; exact Ef|].
      exists st3, f3. split; [reflexivity|]. split; [rewrite exec_leaves_app, E1, exec_leaves_app; unfold temp_stmt; rewrite E2; exact E3|]. split; [|split; [exact F3|split]].
      + split; [congruence|]. split; [intros m Hm; rewrite O3 by exact Hm; rewrite A2, A1; reflexivity|]. intros f0 E0. rewrite Ef in E0. injection E0 as <-. exists f3. split; [exact F3|].
        rewrite !array_operator_total, V3, LL. set (iv := inj (Qcinv _)). transitivity (iv * total A S v n f + (iv * inj (Qc_of_Z (Z.of_nat (n_perm z)))) * asum (map (fun t => inj (entry_coeff t (n_perm t)) * term_sum t) terms))%alg; [ring|]. f_equal. rewrite asum_scale. apply asum_map_ext. intros t Ht. rewrite term_value_sum. destruct (EK t Ht) as (Ct & _ & _). destruct (entry_printed n t Ct) as [_ EC']. rewrite <- EC'. unfold iv. rewrite !(inj_mul A).
        assert (n_perm z = n_perm t) as ->. { apply (same_key_count n); try assumption. rewrite Forall_forall in K. rewrite (K z Hz), (K t Ht). reflexivity. } ring.
      + intros _ _. destruct T2 as (g & G & _). exists g. rewrite T3. exact G.
      + intros [Q|Q]; contradiction.
  Qed.
End Exec.
