(** sorted(): the result is a sorted permutation. *)
From Verif Require Import PyBase OrderSpec OrderProofs IndicesModel IndicesProofs MacroModel.
From Coq Require Import Sorting.Sorted.

Lemma insert_by_perm {A} (lt : A -> A -> bool) x l : Permutation (insert_by lt x l) (x :: l).
Proof.
  induction l as [|y l IH]; cbn [insert_by]; [reflexivity|]. destruct (lt y x); [|reflexivity]. rewrite IH. apply perm_swap.
Qed.
Lemma sort_by_perm {A} (lt : A -> A -> bool) l : Permutation (sort_by lt l) l.
Proof. induction l as [|x l IH]; cbn [sort_by fold_right]; [reflexivity|]. rewrite insert_by_perm. constructor. exact IH. Qed.

Section Sorting.
  Context {A} (o : pyord A) (L : lawful o).
  Lemma ple_iff a b : ple o a b = true <-> plt o b a = false.
  Proof.
    rewrite (lw_le o L). destruct (lw_tri o L a b) as [[H1 [H2 H3]]|[[H1 [H2 H3]]|[H1 [H2 H3]]]];
      rewrite H1, H2; rewrite (lw_gt o L) in H3; rewrite H3; simpl; split; congruence.
  Qed.
  Lemma ple_trans a b c : ple o a b = true -> ple o b c = true -> ple o a c = true.
  Proof.
    rewrite !ple_iff. intros H1 H2. destruct (plt o c a) eqn:E; [|reflexivity].
    destruct (lw_tri o L a b) as [[X1 [X2 X3]]|[[X1 [X2 X3]]|[X1 [X2 X3]]]].
    - rewrite (lw_lt_tran o L c a b E X1) in H2. discriminate.
    - destruct (lw_tri o L b c) as [[Y1 [Y2 Y3]]|[[Y1 [Y2 Y3]]|[Y1 [Y2 Y3]]]].
      + rewrite (lw_lt_tran o L b c a Y1 E) in H1. discriminate.
      + pose proof (lw_tran o L _ _ _ X2 Y2) as Q. destruct (lw_tri o L a c) as [[Z1 [Z2 Z3]]|[[Z1 [Z2 Z3]]|[Z1 [Z2 Z3]]]]; rewrite (lw_gt o L) in Z3; congruence.
      + rewrite (lw_gt o L) in Y3. congruence.
    - rewrite (lw_gt o L) in X3. congruence.
  Qed.
  Lemma ple_refl a : ple o a a = true.
  Proof. rewrite (lw_le o L), (lw_refl o L). apply orb_true_r. Qed.
  Lemma insert_sorted x l : le_sorted o l -> le_sorted o (insert_by (plt o) x l).
  Proof.
    intros H. induction H as [|y l S IH F]; cbn [insert_by]; [repeat constructor|].
    destruct (plt o y x) eqn:E.
    - constructor; [exact IH|]. apply Forall_forall. intros z Hz. apply (Permutation_in _ (insert_by_perm _ _ _)) in Hz as [<-|Hz].
      + rewrite (lw_le o L), E. reflexivity.
      + rewrite Forall_forall in F. apply F, Hz.
    - constructor; [constructor; assumption|]. apply ple_iff in E. apply Forall_forall. intros z [<-|Hz]; [exact E|].
      rewrite Forall_forall in F. exact (ple_trans _ _ _ E (F z Hz)).
  Qed.
  Lemma sort_by_sorted l : le_sorted o (sort_by (plt o) l).
  Proof. induction l as [|x l IH]; cbn [sort_by fold_right]; [constructor|]. apply insert_sorted, IH. Qed.
  Lemma ple_antisym : extensional o -> forall a b, ple o a b = true -> ple o b a = true -> a = b.
  Proof.
    intros X a b. rewrite !ple_iff. intros H1 H2. apply X.
    destruct (lw_tri o L a b) as [[X1 [X2 X3]]|[[X1 [X2 X3]]|[X1 [X2 X3]]]]; try assumption; rewrite ?(lw_gt o L) in X3; congruence.
  Qed.
End Sorting.
