(** The tuple, list and key combinators preserve [lawful]. *)
From Verif Require Import PyBase OrderSpec.
From Coq Require Import Ascii String.

Lemma nat_lawful : lawful nat_ord.
Proof.
  constructor; simpl; intros.
  - apply Nat.eqb_refl.
  - rewrite Nat.eqb_eq in *; lia.
  - rewrite Nat.eqb_eq in *; lia.
  - destruct (Nat.ltb_spec a b), (Nat.eqb_spec a b), (Nat.ltb_spec b a); try lia; tauto.
  - rewrite Nat.ltb_lt in *; lia.
  - reflexivity.
  - destruct (Nat.ltb_spec a b), (Nat.eqb_spec a b), (Nat.leb_spec a b); simpl; try lia; reflexivity.
  - destruct (Nat.ltb_spec b a), (Nat.eqb_spec a b), (Nat.leb_spec b a); simpl; try lia; reflexivity.
Qed.

Lemma nat_ext : extensional nat_ord.
Proof. intros a b; simpl; apply Nat.eqb_eq. Qed.

Lemma ext_iff {A} {o : pyord A} (E : extensional o) a b : peq o a b = true <-> a = b.
Proof. apply E. Qed.

Section Facts.
  Context {A : Type} (o : pyord A) (L : lawful o).

  Lemma lw_symb a b : peq o a b = peq o b a.
  Proof.
    destruct (peq o a b) eqn:E, (peq o b a) eqn:F; try reflexivity.
    - apply (lw_sym o L) in E; congruence.
    - apply (lw_sym o L) in F; congruence.
  Qed.

  Lemma lw_eq_lt a b c : peq o a b = true -> plt o a c = plt o b c.
  Proof.
    assert (H : forall a b, peq o a b = true -> plt o a c = true -> plt o b c = true).
    { clear a b; intros a b Hab Hac.
      destruct (lw_tri o L b c) as [[H1 _]|[[_ [H1 _]]|[_ [_ H1]]]]; [exact H1| |].
      - pose proof (lw_tran o L _ _ _ Hab H1) as E.
        destruct (lw_tri o L a c) as [[? [? ?]]|[[? [? ?]]|[? [? ?]]]]; congruence.
      - rewrite (lw_gt o L) in H1.
        pose proof (lw_lt_tran o L _ _ _ Hac H1) as E.
        destruct (lw_tri o L a b) as [[? [? ?]]|[[? [? ?]]|[? [? ?]]]]; congruence. }
    intros Hab. destruct (plt o a c) eqn:E; symmetry.
    - eapply H; eauto.
    - destruct (plt o b c) eqn:F; [|reflexivity].
      rewrite (H b a) in E; auto. apply (lw_sym o L); assumption.
  Qed.

  Lemma lw_eq_lt_r a b c : peq o b c = true -> plt o a b = plt o a c.
  Proof.
    assert (H : forall b c, peq o b c = true -> plt o a b = true -> plt o a c = true).
    { clear b c; intros b c Hbc Hab.
      destruct (lw_tri o L a c) as [[H1 _]|[[_ [H1 _]]|[_ [_ H1]]]]; [exact H1| |].
      - pose proof (lw_tran o L _ _ _ H1 (lw_sym o L _ _ Hbc)) as E.
        destruct (lw_tri o L a b) as [[? [? ?]]|[[? [? ?]]|[? [? ?]]]]; congruence.
      - rewrite (lw_gt o L) in H1.
        pose proof (lw_lt_tran o L _ _ _ H1 Hab) as E.
        destruct (lw_tri o L b c) as [[? [? ?]]|[[? [? ?]]|[? [? ?]]]]; try congruence.
        rewrite (lw_gt o L) in *. congruence. }
    intros Hbc. destruct (plt o a b) eqn:E; symmetry.
    - eapply H; eauto.
    - destruct (plt o a c) eqn:F; [|reflexivity].
      rewrite (H c b) in E; auto. apply (lw_sym o L); assumption.
  Qed.

  Lemma lw_lt_neq a b : plt o a b = true -> peq o a b = false.
  Proof. intros H. destruct (lw_tri o L a b) as [[? [? ?]]|[[? [? ?]]|[? [? ?]]]]; congruence. Qed.

  Lemma lw_irr a : plt o a a = false.
  Proof.
    destruct (lw_tri o L a a) as [[? [? ?]]|[[? [? ?]]|[? [? ?]]]]; try assumption.
    pose proof (lw_refl o L a); congruence.
  Qed.

  Lemma lw_asym a b : plt o a b = true -> plt o b a = false.
  Proof.
    intros H. destruct (lw_tri o L a b) as [[? [? G]]|[[? [? ?]]|[? [? ?]]]]; try congruence.
    rewrite (lw_gt o L) in G; exact G.
  Qed.

  Lemma lw_le_total a b : ple o a b = true \/ ple o b a = true.
  Proof.
    rewrite !(lw_le o L).
    destruct (lw_tri o L a b) as [[H _]|[[_ [H _]]|[_ [_ H]]]]; rewrite ?H; auto.
    - rewrite orb_true_r; auto.
    - rewrite (lw_gt o L) in H; rewrite H; auto.
  Qed.

  Lemma lw_nle a b : ple o a b = negb (plt o b a).
  Proof.
    rewrite (lw_le o L).
    destruct (lw_tri o L a b) as [[H [H2 H3]]|[[H [H2 H3]]|[H [H2 H3]]]];
      rewrite (lw_gt o L) in H3; rewrite H, H2, H3; reflexivity.
  Qed.

  Lemma lw_le_tran a b c : ple o a b = true -> ple o b c = true -> ple o a c = true.
  Proof.
    rewrite !(lw_le o L), !orb_true_iff. intros [H|H] [G|G].
    - left; eapply (lw_lt_tran o L); eauto.
    - left. rewrite <- (lw_eq_lt_r a b c); auto.
    - left. rewrite (lw_eq_lt a b c); auto.
    - right. eapply (lw_tran o L); eauto.
  Qed.
End Facts.

Lemma pair_lawful {A B} (oa : pyord A) (ob : pyord B) :
  lawful oa -> lawful ob -> lawful (pair_ord oa ob).
Proof.
  intros LA LB. constructor; simpl; unfold pair_op.
  - intros [a b]; simpl. rewrite (lw_refl oa LA), (lw_refl ob LB); reflexivity.
  - intros [a b] [a' b']; simpl. rewrite !andb_true_iff. intros [H1 H2]; split.
    + apply (lw_sym oa LA); auto. + apply (lw_sym ob LB); auto.
  - intros [a b] [a' b'] [a'' b'']; simpl. rewrite !andb_true_iff. intros [H1 H2] [G1 G2]; split.
    + eapply (lw_tran oa LA); eauto. + eapply (lw_tran ob LB); eauto.
  - intros [a b] [a' b']; simpl.
    destruct (peq oa a a') eqn:E; simpl.
    + apply (lw_tri ob LB).
    + destruct (lw_tri oa LA a a') as [H|[H|H]]; [tauto| |tauto]. destruct H as [_ [H _]]; congruence.
  - intros [a b] [a' b'] [a'' b'']; simpl.
    destruct (peq oa a a') eqn:E, (peq oa a' a'') eqn:F; intros H G.
    + rewrite (lw_tran oa LA _ _ _ E F). eapply (lw_lt_tran ob LB); eauto.
    + rewrite (lw_eq_lt oa LA a a' a'' E).
      rewrite (lw_symb oa LA a a''). rewrite (lw_symb oa LA a' a'') in F.
      destruct (peq oa a'' a) eqn:K; [|exact G].
      pose proof (lw_tran oa LA _ _ _ K E); congruence.
    + rewrite (lw_eq_lt_r oa LA a a' a'') in H by exact F.
      destruct (peq oa a a'') eqn:K; [|exact H].
      pose proof (lw_lt_neq oa LA _ _ H); congruence.
    + pose proof (lw_lt_tran oa LA _ _ _ H G) as K.
      rewrite (lw_lt_neq oa LA _ _ K). exact K.
  - intros [a b] [a' b']; simpl. rewrite (lw_symb oa LA a' a).
    rewrite (lw_gt oa LA), (lw_gt ob LB); reflexivity.
  - intros [a b] [a' b']; simpl. destruct (peq oa a a') eqn:E; simpl.
    + apply (lw_le ob LB).
    + rewrite (lw_le oa LA), E; reflexivity.
  - intros [a b] [a' b']; simpl. destruct (peq oa a a') eqn:E; simpl.
    + apply (lw_ge ob LB).
    + rewrite (lw_ge oa LA), E; reflexivity.
Qed.

Lemma pair_ext {A B} (oa : pyord A) (ob : pyord B) :
  extensional oa -> extensional ob -> extensional (pair_ord oa ob).
Proof.
  unfold extensional in *; intros EA EB [a b] [a' b']; simpl. rewrite andb_true_iff, EA, EB.
  split; [intros [? ?]; congruence | intros H; injection H; auto].
Qed.

Lemma list_ext {A} (oa : pyord A) : extensional oa -> extensional (list_ord oa).
Proof.
  unfold extensional in *. intros EA. intros l; induction l as [|a l IH]; intros [|b l']; simpl in *; try (split; congruence).
  rewrite andb_true_iff, EA, IH. split; [intros [? ?]; congruence | intros H; injection H; auto].
Qed.

Section ListLawful.
  Context {A : Type} (oa : pyord A) (LA : lawful oa).

  Lemma list_eq_refl l : list_eq oa l l = true.
  Proof. induction l as [|a l IH]; simpl; [|rewrite (lw_refl oa LA), IH]; reflexivity. Qed.

  Lemma list_eq_sym l1 l2 : list_eq oa l1 l2 = true -> list_eq oa l2 l1 = true.
  Proof.
    revert l2; induction l1 as [|a l IH]; intros [|b l']; simpl; try congruence.
    rewrite !andb_true_iff; intros [? ?]; split; [apply (lw_sym oa LA)|]; auto.
  Qed.

  Lemma list_eq_tran l1 l2 l3 :
    list_eq oa l1 l2 = true -> list_eq oa l2 l3 = true -> list_eq oa l1 l3 = true.
  Proof.
    revert l2 l3; induction l1 as [|a l IH]; intros [|b l'] [|c l'']; simpl; try congruence.
    rewrite !andb_true_iff; intros [? ?] [? ?]; split; [eapply (lw_tran oa LA)|]; eauto.
  Qed.

  Lemma list_tri l1 l2 :
    let o := list_ord oa in
      (plt o l1 l2 = true /\ peq o l1 l2 = false /\ pgt o l1 l2 = false) \/
      (plt o l1 l2 = false /\ peq o l1 l2 = true /\ pgt o l1 l2 = false) \/
      (plt o l1 l2 = false /\ peq o l1 l2 = false /\ pgt o l1 l2 = true).
  Proof.
    simpl. revert l2; induction l1 as [|a l IH]; intros [|b l']; simpl; try tauto.
    destruct (peq oa a b) eqn:E; simpl; [apply IH|].
    destruct (lw_tri oa LA a b) as [H|[H|H]]; [tauto| |tauto]. destruct H as [_ [H _]]; congruence.
  Qed.

  Lemma list_lt_tran l1 l2 l3 :
    list_op oa (plt oa) Nat.ltb l1 l2 = true -> list_op oa (plt oa) Nat.ltb l2 l3 = true ->
    list_op oa (plt oa) Nat.ltb l1 l3 = true.
  Proof.
    revert l2 l3; induction l1 as [|a l IH]; intros [|b l'] [|c l'']; simpl; try (intros; discriminate); try (intros; reflexivity).
    destruct (peq oa a b) eqn:E, (peq oa b c) eqn:F; intros H G.
    + rewrite (lw_tran oa LA _ _ _ E F). eapply IH; eauto.
    + rewrite (lw_eq_lt oa LA a b c E).
      destruct (peq oa a c) eqn:K; [|exact G].
      pose proof (lw_tran oa LA _ _ _ (lw_sym oa LA _ _ E) K); congruence.
    + rewrite (lw_eq_lt_r oa LA a b c) in H by exact F.
      rewrite (lw_lt_neq oa LA _ _ H). exact H.
    + pose proof (lw_lt_tran oa LA _ _ _ H G) as K.
      rewrite (lw_lt_neq oa LA _ _ K). exact K.
  Qed.

  Lemma list_gt l1 l2 :
    list_op oa (pgt oa) (fun a b => Nat.ltb b a) l1 l2 = list_op oa (plt oa) Nat.ltb l2 l1.
  Proof.
    revert l2; induction l1 as [|a l IH]; intros [|b l']; simpl; auto.
    rewrite (lw_symb oa LA b a), IH, (lw_gt oa LA). reflexivity.
  Qed.

  Lemma list_le l1 l2 :
    list_op oa (ple oa) Nat.leb l1 l2 = list_op oa (plt oa) Nat.ltb l1 l2 || list_eq oa l1 l2.
  Proof.
    revert l2; induction l1 as [|a l IH]; intros [|b l']; simpl; auto.
    destruct (peq oa a b) eqn:E; simpl; [apply IH|].
    rewrite (lw_le oa LA), E; reflexivity.
  Qed.

  Lemma list_ge l1 l2 :
    list_op oa (pge oa) (fun a b => Nat.leb b a) l1 l2
    = list_op oa (pgt oa) (fun a b => Nat.ltb b a) l1 l2 || list_eq oa l1 l2.
  Proof.
    revert l2; induction l1 as [|a l IH]; intros [|b l']; simpl; auto.
    destruct (peq oa a b) eqn:E; simpl; [apply IH|].
    rewrite (lw_ge oa LA), E; reflexivity.
  Qed.

  Lemma list_lawful : lawful (list_ord oa).
  Proof.
    constructor; simpl.
    - apply list_eq_refl.
    - apply list_eq_sym.
    - apply list_eq_tran.
    - apply list_tri.
    - apply list_lt_tran.
    - apply list_gt.
    - apply list_le.
    - apply list_ge.
  Qed.
End ListLawful.

Lemma key_lawful {A K} (key : A -> K) (ok : pyord K) : lawful ok -> lawful (key_ord key ok).
Proof.
  intros L. constructor; simpl; intros.
  - apply (lw_refl ok L).
  - apply (lw_sym ok L); assumption.
  - eapply (lw_tran ok L); eassumption.
  - apply (lw_tri ok L).
  - eapply (lw_lt_tran ok L); eassumption.
  - apply (lw_gt ok L).
  - apply (lw_le ok L).
  - apply (lw_ge ok L).
Qed.

Lemma key_ext {A K} (key : A -> K) (ok : pyord K) :
  (forall a b, key a = key b -> a = b) -> extensional ok -> extensional (key_ord key ok).
Proof. unfold extensional in *; intros I E a b; simpl. rewrite (E (key a) (key b)); split; [apply I|congruence]. Qed.

Lemma char_lawful : lawful char_ord.
Proof. apply key_lawful, nat_lawful. Qed.

Lemma char_ext : extensional char_ord.
Proof.
  apply key_ext; [|apply nat_ext]. intros a b H.
  rewrite <- (ascii_nat_embedding a), <- (ascii_nat_embedding b), H; reflexivity.
Qed.

Lemma string_lawful : lawful string_ord.
Proof. apply key_lawful, list_lawful, char_lawful. Qed.

Lemma string_ext : extensional string_ord.
Proof.
  apply key_ext; [|apply list_ext, char_ext]. intros a b H.
  rewrite <- (string_of_list_ascii_of_string a), <- (string_of_list_ascii_of_string b), H; reflexivity.
Qed.
