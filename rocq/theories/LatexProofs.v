(** Lemmas for the LaTeX form of terms. *)
From Coq Require Import Ascii String ZArith QArith Qcanon Ring_theory Ring Lia Bool.
From Verif Require Import PyBase OrderSpec OrderProofs ParitySpec ParityProofs SpaceModel IndexModel IndexProofs IndicesModel IndicesProofs IterProofs ElemModel MacroModel HalfProofs TermModel BchSpec ValueSpec ValueProofs TermSpec SumProofs TermProofs RenameProofs CanonProofs
  CombineModel CombineSpec TextProofs PermuteModel PermuteSpec PermuteProofs OpenProofs AmbitModel AmbitPerm FockSpec ExtensionProofs FockProofs FockValue FockTerms LatexModel LatexSpec.
Local Close Scope Q_scope.
Local Close Scope Qc_scope.
Local Open Scope nat_scope.
Local Notation length := List.length.

(** ** Coefficients *)
Lemma limit_exact q : (Z.pos (Qden (this q)) <= 1000000000)%Z -> limit_denominator 1000000000 q = q.
Proof. intros H. unfold limit_denominator. destruct (Z.leb_spec (Z.pos (Qden (this q))) 1000000000) as [L|L]; [reflexivity|]. exfalso. lia. Qed.
Lemma latex_coeff_printed q : latex_coeff q = rational_text (limit_denominator 1000000000 q).
Proof. unfold latex_coeff, rational_text. generalize (limit_denominator 1000000000 q). intros c. cbv zeta. destruct (Qden (this c) =? 1)%positive; [reflexivity|]. do 2 f_equal. Qed.
Lemma z_text_nat n : z_text (Z.of_nat n) = decimal n.
Proof. unfold z_text. destruct (Z.ltb_spec (Z.of_nat n) 0); [lia|]. rewrite Nat2Z.id. reflexivity. Qed.
Lemma z_text_digits z c : In c (z_text z) -> c = "-"%char \/ is_digit c = true.
Proof. unfold z_text. destruct (z <? 0)%Z; cbn [In]; [intros [<-|H]; [auto|]|intros H]; right; exact (decimal_digits _ _ H). Qed.
Lemma z_text_inj a b : z_text a = z_text b -> a = b.
Proof.
  assert (D : forall n c s, decimal n = c :: s -> c <> "-"%char). { intros n c s E ->. apply (not_in_decimal "-"%char n eq_refl). rewrite E. left. reflexivity. }
  unfold z_text. destruct (Z.ltb_spec a 0), (Z.ltb_spec b 0); intros E.
  - injection E as E. apply decimal_inj in E. lia.
  - exfalso. symmetry in E. apply D in E. apply E. reflexivity.
  - exfalso. apply D in E. apply E. reflexivity.
  - apply decimal_inj in E. lia.
Qed.
Lemma rational_no_space c : ~ In sp (rational_text c).
Proof.
  intros H. unfold rational_text in H. assert (Z : forall z, ~ In sp (z_text z)) by (intros z Q; apply z_text_digits in Q as [Q|Q]; discriminate).
  destruct (Qden (this c) =? 1)%positive; [exact (Z _ H)|]. apply in_app_or in H as [H|H]; [exact (Z _ H)|]. apply in_app_or in H as [H|H]; [cbn in H; intuition discriminate|]. apply decimal_digits in H. discriminate.
Qed.
Lemma rational_inj a b : rational_text a = rational_text b -> a = b.
Proof.
  intros E. apply Qc_is_canon. assert (Q : Qnum (this a) = Qnum (this b) /\ Qden (this a) = Qden (this b)).
  { unfold rational_text in E. assert (N : forall z, ~ In "/"%char (z_text z)) by (intros z Q; apply z_text_digits in Q as [Q|Q]; discriminate).
    destruct (Pos.eqb_spec (Qden (this a)) 1) as [D|D], (Pos.eqb_spec (Qden (this b)) 1) as [D'|D'].
    - apply z_text_inj in E. split; congruence.
    - exfalso. apply (N (Qnum (this a))). rewrite E. apply in_or_app. right. left. reflexivity.
    - exfalso. apply (N (Qnum (this b))). rewrite <- E. apply in_or_app. right. left. reflexivity.
    - change (str "/") with ["/"%char] in E. cbn [app] in E. apply split_at in E as [E1 E2]; [|apply N..]. apply z_text_inj in E1. apply decimal_inj in E2. apply Pos2Nat.inj in E2. auto. }
  destruct Q as [Q1 Q2]. unfold Qeq. rewrite Q1, Q2. reflexivity.
Qed.

(** ** Orderings *)
Lemma orderings_count part self R : NoDup self -> Permutation (concat part) self -> orderings part self R -> length R = length (multiset_permutations (list_index part)).
Proof.
  intros N P [ND HR]. set (ps := multiset_permutations (list_index part)). set (f := fun l : list idx => map (fun x => Z.of_nat (block_of part x)) l).
  transitivity (length (map f (map snd R))); [rewrite !map_length; reflexivity|]. apply Permutation_length. apply NoDup_Permutation.
  - assert (IN : forall l, In l (map snd R) -> shuffle part self l). { intros l H. apply in_map_iff in H as ([s l'] & <- & H). apply HR in H as (H1 & H2 & _). split; assumption. }
    assert (PK : forall l, shuffle part self l -> exists perm, In perm ps /\ pick part (repeat 0 (length part)) perm = Ok l /\ f l = perm).
    { intros l H. destruct (shuffle_pick part self N P l H) as (perm & Hp & E). exists perm. split; [exact Hp|]. split; [exact E|]. destruct (pick_shuffle part self N P perm Hp) as (l' & E' & _ & M). rewrite E in E'. injection E' as <-. exact M. }
    revert ND IN. generalize (map snd R). induction l as [|l ls IH]; intros ND IN; [constructor|]. inversion ND as [|? ? N1 N2]; subst. cbn [map]. constructor; [|apply IH; [exact N2|intros x Hx; apply IN; right; exact Hx]].
    intros Q. apply in_map_iff in Q as (l' & E & Hl'). destruct (PK l (IN l (or_introl eq_refl))) as (p & _ & E1 & F1). destruct (PK l' (IN l' (or_intror Hl'))) as (p' & _ & E2 & F2). apply N1. rewrite F1, F2 in E. subst p'. rewrite E1 in E2. injection E2 as ->. exact Hl'.
  - apply nodup_multiset_perms.
  - intros p. split.
    + intros H. apply in_map_iff in H as (l & <- & H). apply in_map_iff in H as ([s l'] & <- & H). cbn [snd]. apply HR in H as (H1 & H2 & _). destruct (shuffle_pick part self N P l' (conj H1 H2)) as (perm & Hp & E). destruct (pick_shuffle part self N P perm Hp) as (l2 & E' & _ & M). rewrite E in E'. injection E' as <-. unfold f. rewrite M. exact Hp.
    + intros H. destruct (pick_shuffle part self N P p H) as (l & E & [Q K] & M). destruct (reorder_sign_exists self l (Permutation_sym Q)) as [s Hs]. apply in_map_iff. exists l. split; [exact M|]. apply in_map_iff. exists (s, l). split; [reflexivity|]. apply HR. auto.
Qed.

(** ** Values *)
Section Values.
  Context (A : qalg) (S : system) (v : tvaluation A) (HA : antisymmetric v).
  Add Ring alg_ring45 : (q_ring A).
  Lemma reordered_value c xs o l1 l2 s1 s2 : reorder_sign (cre o) l1 s1 -> reorder_sign (ann o) l2 s2 ->
    content_value S v c xs o = content_value S v (Qcmult c (Qc_of_Z (s1 * s2))) xs (Op l1 l2).
  Proof.
    intros R1 R2. unfold content_value. rewrite inj_zin.
    rewrite (sum_over_same A S _ (nodup idx_eq_dec (content_indices xs (Op l1 l2))) (integrand v xs o)); [|apply NoDup_nodup|apply NoDup_nodup| |apply integrand_depends].
    - transitivity (inj c * (zin (s1 * s2)%Z * sum_over S (nodup idx_eq_dec (content_indices xs (Op l1 l2))) (integrand v xs (Op l1 l2))))%alg; [|ring]. f_equal. rewrite <- (sum_over_mul A S). apply sum_over_ext; [|apply NoDup_nodup]. intros e _. unfold integrand.
      unfold op_value. cbn [cre ann]. rewrite (alternates_sign A (fun w => voper v w _) _ _ _ (as_cre v HA _) (reorder_sign_map e _ _ _ R1)).
      rewrite (alternates_sign A (fun w => voper v _ w) _ _ _ (as_ann v HA _) (reorder_sign_map e _ _ _ R2)). rewrite (zin_mul A). ring.
    - intros i. rewrite !nodup_In. unfold content_indices, op_indices. cbn [cre ann]. rewrite !in_app_iff, (reorder_sign_perm _ _ _ R1), (reorder_sign_perm _ _ _ R2). tauto.
  Qed.
  Lemma asum_const {X} (l : list X) (x : A) : asum (map (fun _ => x) l) = (inj (Qc_of_Z (Z.of_nat (length l))) * x)%alg.
  Proof.
    change (inj (Qc_of_Z (Z.of_nat (length l)))) with (@zin A (Z.of_nat (length l))). induction l as [|y l IH].
    - cbn [map length]. change (Z.of_nat 0) with 0%Z. rewrite (zin_0 A). unfold asum. cbn [fold_right]. ring.
    - cbn [map length]. unfold asum in *. cbn [fold_right]. rewrite IH, Nat2Z.inj_succ, <- Z.add_1_r, (zin_add A), (zin_1 A). ring.
  Qed.
End Values.
