(** Soundness, and completeness for up to three operators, of the category-level backtracking. *)
From Verif Require Import PyBase OrderSpec OrderProofs SpaceModel IndicesModel IndicesProofs ElemModel ElemProofs IterProofs HalfProofs CodeModel CodeProofs
  CompatSpec CompatProofs BacktrackProofs MacroModel MacroSpec MacroProofs SortProofs.
From Coq Require Import ZArith Relations Sorting.Sorted.

Lemma category_lawful : lawful category_ord.
Proof. apply key_lawful, pair_lawful; [apply nat_lawful|apply list_lawful, nat_lawful]. Qed.
Lemma category_ext : extensional category_ord.
Proof. apply key_ext; [congruence|]. apply pair_ext; [apply nat_ext|apply list_ext, nat_ext]. Qed.
Notation cle := (fun a b => ple category_ord a b = true).

Lemma cle_length a b : ple category_ord a b = true -> length a <= length b.
Proof.
  rewrite (ple_iff _ category_lawful). cbn. unfold pair_op. cbn [fst snd].
  destruct (Nat.eqb_spec (length b) (length a)) as [E|E]; [lia|]. intros H. cbn in H.
  destruct (Nat.ltb_spec (length b) (length a)); [unfold nat_ord, peq, plt in H; apply Nat.eqb_neq in E; rewrite E in H; apply Nat.ltb_ge in H; lia|lia].
Qed.

Lemma elementary_sequence_rev {V} (d : list (list nat * V)) : le_sorted category_ord (rev (elementary_sequence d)).
Proof. unfold elementary_sequence, sort_by_reverse. rewrite rev_involutive. apply sort_by_sorted, category_lawful. Qed.
Lemma elementary_sequence_perm {V} (d : list (list nat * V)) : Permutation (elementary_sequence d) (map fst d).
Proof.
  unfold elementary_sequence, sort_by_reverse. rewrite <- Permutation_rev, sort_by_perm, <- Permutation_rev. reflexivity.
Qed.

(** ** arrangements of a sorted list are the sorted lists over it *)
Lemma arr_iff_sorted p w : le_sorted category_ord p -> (arr p w <-> incl w p /\ le_sorted category_ord w).
Proof.
  intros Sp. split.
  - intros H. split; [apply arr_incl, H|]. induction H as [|x p w H IH|x p w H IH]; [constructor|inversion Sp; auto|].
    constructor; [exact (IH Sp)|]. inversion Sp as [|? ? S' F]; subst. apply Forall_forall. intros y Hy. apply arr_incl in H.
    apply H in Hy as [<-|Hy]; [apply (ple_refl _ category_lawful)|]. rewrite Forall_forall in F. apply F, Hy.
  - intros [I S]. revert w I S; induction Sp as [|x p Sp IH F]; intros w I S.
    + destruct w as [|y w]; [constructor|]. destruct (I y (or_introl eq_refl)).
    + induction w as [|y w IHw]; [apply arr_empty|].
      destruct (list_eq_dec Nat.eq_dec y x) as [->|Ne].
      * apply arr_take, IHw; [intros z Hz; apply I; right; exact Hz|inversion S; assumption].
      * apply arr_skip, IH; [|exact S]. assert (Hy : In y p) by (destruct (I y (or_introl eq_refl)); [congruence|assumption]).
        intros z Hz. destruct (I z Hz) as [<-|G]; [exfalso|exact G]. destruct Hz as [->|Hz]; [congruence|].
        inversion S as [|? ? S' F']; subst. rewrite Forall_forall in F, F'. apply Ne.
        apply (ple_antisym _ category_lawful category_ext); [apply F', Hz|apply F, Hy].
Qed.

(** ** walks are connected *)
Definition each_touches_earlier (w : list (list nat)) : Prop :=
  forall k c, 0 < k -> nth_error w k = Some c -> exists j c' x, j < k /\ nth_error w j = Some c' /\ In x c /\ In x c'.

Lemma walk_iff ops w : walk false ops w <->
  forall k c, nth_error w k = Some c -> exists x, In x c /\ (In x ops \/ exists j c', j < k /\ nth_error w j = Some c' /\ In x c').
Proof.
  revert ops; induction w as [|e w IH]; intros ops; cbn [walk].
  - split; [|trivial]. intros _ [|k] c; discriminate.
  - rewrite IH. split.
    + intros [[x [H1 H2]] G] [|k] c; cbn [nth_error].
      * intros [= <-]. exists x. auto.
      * intros Hc. destruct (G k c Hc) as [y [Y1 Y2]]. exists y. split; [exact Y1|]. rewrite in_app_iff in Y2.
        destruct Y2 as [[Y2|Y2]|[j [c' [J1 [J2 J3]]]]]; [left; exact Y2| |].
        -- right. exists 0, e. repeat split; auto. lia.
        -- right. exists (S j), c'. repeat split; auto. lia.
    + intros G. split.
      * destruct (G 0 e eq_refl) as [x [X1 [X2|[j [c' [J1 _]]]]]]; [exists x; auto|lia].
      * intros k c Hc. destruct (G (S k) c Hc) as [x [X1 X2]]. exists x. split; [exact X1|]. rewrite in_app_iff.
        destruct X2 as [X2|[[|j] [c' [J1 [J2 J3]]]]]; [auto| |].
        -- cbn in J2. injection J2 as <-. auto.
        -- right. exists j, c'. repeat split; auto. lia.
Qed.
Lemma walk_fresh w : walk true [] w <-> match w with [] => True | e :: _ => length e = 2 end /\ each_touches_earlier w.
Proof.
  unfold each_touches_earlier. destruct w as [|e w]; cbn [walk].
  - split; [|tauto]. intros _. split; [exact I|]. intros [|k] c; discriminate.
  - rewrite walk_iff. cbn [app]. split.
    + intros [H G]. split; [exact H|]. intros [|k] c K Hc; [lia|]. cbn [nth_error] in Hc.
      destruct (G k c Hc) as [x [X1 [X2|[j [c' [J1 [J2 J3]]]]]]].
      * exists 0, e, x. repeat split; auto.
      * exists (S j), c', x. repeat split; auto. lia.
    + intros [H G]. split; [exact H|]. intros k c Hc. destruct (G (S k) c (Nat.lt_0_succ _) Hc) as [[|j] [c' [x [J1 [J2 [X1 X2]]]]]].
      * cbn in J2. injection J2 as <-. exists x. auto.
      * exists x. split; [exact X1|]. right. exists j, c'. repeat split; auto. lia.
Qed.

Lemma linked_sym w i j : linked w i j -> linked w j i.
Proof. intros [c [H1 [H2 H3]]]. exists c. auto. Qed.
Lemma rtc_sym w i j : clos_refl_trans nat (linked w) i j -> clos_refl_trans nat (linked w) j i.
Proof.
  induction 1 as [x y H| |x y z H1 IH1 H2 IH2]; [apply rt_step, linked_sym, H|apply rt_refl|eapply rt_trans; eassumption].
Qed.
Lemma walk_reaches W h ops w : incl w W -> (forall x, In x ops -> clos_refl_trans nat (linked W) h x) -> walk false ops w ->
  forall x, In x (ops ++ concat w) -> clos_refl_trans nat (linked W) h x.
Proof.
  revert ops; induction w as [|e w IH]; intros ops Hi Ho; cbn [walk concat].
  - intros _ x. rewrite app_nil_r. apply Ho.
  - intros [[y [Y1 Y2]] G] x Hx. apply (IH (ops ++ e)); [intros c Hc; apply Hi; right; exact Hc| |exact G|rewrite <- app_assoc; exact Hx].
    intros z Hz. apply in_app_iff in Hz as [Hz|Hz]; [apply Ho, Hz|]. eapply rt_trans; [apply Ho, Y2|]. apply rt_step.
    exists e. split; [apply Hi; left; reflexivity|auto].
Qed.
Lemma walk_connects n w : walk true [] w -> (forall k, k < n -> In k (concat w)) -> connects n w.
Proof.
  destruct w as [|e w]; cbn [walk].
  - intros _ H i j Hi _. destruct (H i Hi).
  - intros [H G] C i j Hi Hj. destruct e as [|h e]; [discriminate|].
    assert (R : forall x, In x (concat ((h :: e) :: w)) -> clos_refl_trans nat (linked ((h :: e) :: w)) h x).
    { intros x Hx. cbn [concat] in Hx. apply (walk_reaches _ h (h :: e) w); [intros c Hc; right; exact Hc| |exact G|exact Hx].
      intros y Hy. apply rt_step. exists (h :: e). split; [left; reflexivity|]. split; [left; reflexivity|exact Hy]. }
    eapply rt_trans; [apply rtc_sym|]; apply R, C; assumption.
Qed.
Lemma connects_covers n w : 2 <= n -> connects n w -> forall k, k < n -> In k (concat w).
Proof.
  intros H2 C k Hk. assert (Hj : exists j, j < n /\ k <> j).
  { destruct (Nat.eq_dec k 0); [exists 1|exists 0]; lia. }
  destruct Hj as [j [Hj Ne]]. specialize (C k j Hk Hj). apply clos_rt_rt1n in C. destruct C as [|y z L _]; [congruence|].
  destruct L as [c [L1 [L2 _]]]. apply in_concat. exists c. auto.
Qed.

(** ** invariance under reordering *)
Lemma flat_map_permutation {A B} (f : A -> list B) a b : Permutation a b -> Permutation (flat_map f a) (flat_map f b).
Proof.
  induction 1; cbn [flat_map]; [reflexivity|apply Permutation_app_head; assumption| |etransitivity; eassumption].
  rewrite !app_assoc. apply Permutation_app_tail, Permutation_app_comm.
Qed.
Lemma times_perm k a b : Permutation a b -> times k a = times k b.
Proof. intros P. unfold times. apply (Permutation_count_occ Nat.eq_dec); exact P. Qed.
Lemma rtc_incl (R S : nat -> nat -> Prop) i j : (forall x y, R x y -> S x y) -> clos_refl_trans nat R i j -> clos_refl_trans nat S i j.
Proof. intros H. induction 1; [apply rt_step; auto|apply rt_refl|eapply rt_trans; eassumption]. Qed.
Lemma combination_ok_perm cats n_con cre ann w w' : Permutation w w' -> combination_ok cats n_con cre ann w -> combination_ok cats n_con cre ann w'.
Proof.
  intros P [H1 H2 [c [H3 H3']] H4 H5 H6]. constructor.
  - intros x Hx. apply H1, (Permutation_in _ (Permutation_sym P)), Hx.
  - intros i j Hi Hj. apply (rtc_incl (linked w)); [|apply H2; assumption]. intros x y [e [E1 E2]]. exists e. split; [apply (Permutation_in _ P), E1|exact E2].
  - exists c. split; [apply (Permutation_in _ P), H3|exact H3'].
  - intros k. unfold creators_used. rewrite <- (times_perm k _ _ (flat_map_permutation _ _ _ P)). apply H4.
  - intros k. unfold annihilators_used. rewrite <- (times_perm k _ _ (flat_map_permutation _ _ _ P)). apply H5.
  - assert (E : legs_of w' = legs_of w).
    { unfold legs_of. assert (FC : forall l : list (list nat), concat l = flat_map (fun x => x) l) by (intros l; rewrite flat_map_concat_map, map_id; reflexivity). rewrite !FC. apply Permutation_length, flat_map_permutation, Permutation_sym, P. }
    rewrite E. exact H6.
Qed.

(** ** exact result *)
Section Macro.
  Context {V : Type} (d : list (list nat * V)) (n_con : Z * Z) (cre ann : list Z).
  Context (Hn : NoDup (map fst d)) (Hc : Forall (category_ok (length cre)) (map fst d)).
  Context (Hl : length ann = length cre) (Hp : Forall (fun a => 0 <= a)%Z cre) (Hq : Forall (fun a => 0 <= a)%Z ann).
  Context (H2 : 2 <= length cre).

  Lemma macro_exact : exists ys, connected_combinations (elementary_sequence d) n_con cre ann = Ok ys /\ NoDup ys /\
    forall w, In w ys <-> combination_ok (map fst d) n_con cre ann w /\ le_sorted category_ord w /\ each_touches_earlier w.
  Proof.
    unfold connected_combinations. pose proof (elementary_sequence_perm d) as P. pose proof (elementary_sequence_rev d) as S.
    set (cats := elementary_sequence d) in *.
    assert (Icats : forall c, In c cats <-> In c (map fst d)).
    { intros c. split; [apply (Permutation_in _ P)|apply (Permutation_in _ (Permutation_sym P))]. }
    assert (Hc' : forall c, In c (map fst d) -> category_ok (length cre) c) by (rewrite Forall_forall in Hc; exact Hc).
    destruct (macro_backtrack_spec n_con (macro_fuel cats cre) cats [] 0 cre ann [] true) as (ws & E & N & W).
    - unfold macro_fuel, zsum. lia.
    - apply Forall_forall. intros c G. apply Hc', Icats, G.
    - apply (Permutation_NoDup (Permutation_sym P)), Hn.
    - exact Hl.
    - exact Hp.
    - exact Hq.
    - clear - S. induction S as [|x l S IH F]; constructor; [exact IH|]. rewrite Forall_forall in *. intros y Hy. apply cle_length, F, Hy.
    - constructor.
    - intros k [].
    - reflexivity.
    - left; reflexivity.
    - rewrite E. cbn [pybind fst]. rewrite map_id. exists ws. split; [reflexivity|]. split; [exact N|]. intros w. rewrite W. clear W E N ws.
      split.
      + intros [A Wk G1 G2 Cv L]. cbn [Nat.eqb app Nat.add] in *. apply arr_iff_sorted in A as [A1 A2]; [|exact S].
        apply walk_fresh in Wk as Wk'. destruct Wk' as [W1 W2]. split; [|split; assumption].
        constructor.
        * intros c G. apply Icats, in_rev, A1, G.
        * apply walk_connects; assumption.
        * destruct w as [|e w]; [destruct (Cv 0); lia|]. exists e. split; [left; reflexivity|exact W1].
        * exact G1.
        * exact G2.
        * exact L.
      + intros [[I C [c [P1 P2]] F1 F2 L] [A W2]]. constructor; cbn [Nat.eqb app Nat.add].
        * apply arr_iff_sorted; [exact S|]. split; [|exact A]. intros x Hx. apply in_rev. rewrite rev_involutive. apply Icats, I, Hx.
        * apply walk_fresh. split; [|exact W2]. destruct w as [|e w]; [exact Logic.I|]. destruct P1 as [->|P1]; [exact P2|].
          inversion A as [|? ? A' F]; subst. rewrite Forall_forall in F. specialize (F c P1). apply cle_length in F.
          destruct (Hc' e) as [[b [B1 B2]] _]; [apply I; left; reflexivity|]. lia.
        * exact F1.
        * exact F2.
        * apply connects_covers; assumption.
        * exact L.
  Qed.

  Lemma no_repeats_sorted ys : NoDup ys -> (forall w, In w ys -> le_sorted category_ord w) -> no_repeats ys.
  Proof.
    clear. intros N S i j a b Ha Hb P.
    assert (a = b) by (apply (sorted_unique category_ord category_lawful category_ext); [apply S; eapply nth_error_In, Ha|apply S; eapply nth_error_In, Hb|exact P]).
    subst b. eapply NoDup_nth_error; [exact N|apply nth_error_Some; congruence|congruence].
  Qed.

  Lemma macro_sound : exists ys, connected_combinations (elementary_sequence d) n_con cre ann = Ok ys /\
    (forall w, In w ys -> combination_ok (map fst d) n_con cre ann w) /\ no_repeats ys.
  Proof.
    destruct macro_exact as (ys & E & N & W). exists ys. split; [exact E|]. split.
    - intros w Hw. apply W, Hw.
    - apply no_repeats_sorted; [exact N|]. intros w Hw. apply W, Hw.
  Qed.

  Lemma three_touch w : length cre <= 3 -> incl w (map fst d) -> each_touches_earlier w.
  Proof.
    intros H3 I k c K Hk. destruct w as [|e w]; [destruct k; discriminate|]. exists 0, e.
    rewrite Forall_forall in Hc. destruct (Hc c) as [_ [R [i [j [I1 [I2 I3]]]]]]; [apply I; eapply nth_error_In, Hk|].
    destruct (Hc e) as [_ [R' [i' [j' [I1' [I2' I3']]]]]]; [apply I; left; reflexivity|].
    assert (Q : i = i' \/ i = j' \/ j = i' \/ j = j').
    { pose proof (R i I1). pose proof (R j I2). pose proof (R' i' I1'). pose proof (R' j' I2'). lia. }
    destruct Q as [<-|[<-|[<-|<-]]]; [exists i|exists i|exists j|exists j]; repeat split; auto.
  Qed.

  Lemma macro_complete : length cre <= 3 -> exists ys, connected_combinations (elementary_sequence d) n_con cre ann = Ok ys /\
    (forall w, In w ys -> combination_ok (map fst d) n_con cre ann w) /\ no_repeats ys /\
    (forall w, combination_ok (map fst d) n_con cre ann w -> exists y, In y ys /\ Permutation y w).
  Proof.
    intros H3. destruct macro_exact as (ys & E & N & W). exists ys. split; [exact E|]. split; [intros w Hw; apply W, Hw|].
    split; [apply no_repeats_sorted; [exact N|intros w Hw; apply W, Hw]|].
    intros w Hw. exists (sort_by (plt category_ord) w). pose proof (sort_by_perm (plt category_ord) w) as P. split; [|exact P].
    apply (combination_ok_perm _ _ _ _ _ _ (Permutation_sym P)) in Hw. apply W. split; [exact Hw|]. split; [apply sort_by_sorted, category_lawful|].
    apply three_touch; [exact H3|]. apply (co_incl _ _ _ _ _ Hw).
  Qed.
End Macro.

Lemma cle_spec a b : ple category_ord a b = true <-> length a < length b \/ (length a = length b /\ ple (list_ord nat_ord) a b = true).
Proof.
  cbn -[list_ord]. unfold pair_op, nat_ord. cbn [fst snd peq ple]. destruct (Nat.eqb_spec (length a) (length b)) as [E|E].
  - split; [intros H; right; auto|intros [H|[_ H]]; [lia|exact H]].
  - rewrite Nat.leb_le. split; [intros H; left; lia|intros [H|[H _]]; lia].
Qed.
