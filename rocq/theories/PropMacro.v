(** Properties C26 and C27: the category-level backtracking of the connected contractions. *)
From Verif Require Import PyBase OrderSpec SpaceModel IndicesModel IndicesProofs ElemModel CodeModel MacroModel MacroSpec ConnectProofs.
From Coq Require Import ZArith Relations Sorting.Sorted.

(** C26. [d] is the dictionary of categorized contractions: its keys are pairwise different
    categories over the operators 0..n-1; [cre], [ann] hold the number of creators and annihilators
    of each operator. *)
Theorem C26_macro_backtracking_sound :
  forall V (d : list (list nat * V)) n_con cre ann,
  NoDup (map fst d) -> Forall (category_ok (length cre)) (map fst d) -> length ann = length cre ->
  Forall (fun a => 0 <= a)%Z cre -> Forall (fun a => 0 <= a)%Z ann -> 2 <= length cre ->
  exists ys, connected_combinations (elementary_sequence d) n_con cre ann = Ok ys /\
    (forall w, In w ys -> combination_ok (map fst d) n_con cre ann w) /\ no_repeats ys.
Proof. exact @macro_sound. Qed.
Print Assumptions C26_macro_backtracking_sound.

(** The exact result for any number of operators: the admissible combinations which, sorted by
    (length, lexicographic order), attach every member to an earlier one. *)
Theorem C26_macro_backtracking_exact :
  forall V (d : list (list nat * V)) n_con cre ann,
  NoDup (map fst d) -> Forall (category_ok (length cre)) (map fst d) -> length ann = length cre ->
  Forall (fun a => 0 <= a)%Z cre -> Forall (fun a => 0 <= a)%Z ann -> 2 <= length cre ->
  exists ys, connected_combinations (elementary_sequence d) n_con cre ann = Ok ys /\ NoDup ys /\
    forall w, In w ys <-> combination_ok (map fst d) n_con cre ann w /\
      StronglySorted (fun a b => length a < length b \/ (length a = length b /\ ple (list_ord nat_ord) a b = true)) w /\
      (forall k c, 0 < k -> nth_error w k = Some c -> exists j c' x, j < k /\ nth_error w j = Some c' /\ In x c /\ In x c').
Proof.
  intros V d n_con cre ann H1 H2 H3 H4 H5 H6. destruct (macro_exact d n_con cre ann H1 H2 H3 H4 H5 H6) as (ys & E & N & W).
  exists ys. split; [exact E|]. split; [exact N|]. intros w. rewrite W. clear W E N.
  assert (Q : le_sorted category_ord w <->
    StronglySorted (fun a b => length a < length b \/ (length a = length b /\ ple (list_ord nat_ord) a b = true)) w).
  { split; intros S; (induction S as [|x l S IH F]; constructor; [exact IH|]); rewrite Forall_forall in *; intros y Hy;
      specialize (F y Hy); apply cle_spec, F. }
  rewrite Q. reflexivity.
Qed.
Print Assumptions C26_macro_backtracking_exact.

(** Three operators with one and two bodies: pairwise categories and one two-body cumulant category. *)
Definition ex_cats : list (list nat * unit) := map (fun c => (c, tt)) [[0; 1]; [1; 0]; [1; 2]; [0; 1; 1; 2]; [2; 0]].
Example C26_hypotheses :
  NoDup (map fst ex_cats) /\ Forall (category_ok (length [1; 2; 1]%Z)) (map fst ex_cats) /\
  Forall (fun a => 0 <= a)%Z [1; 2; 1]%Z.
Proof.
  split; [repeat constructor; simpl; intuition discriminate|]. split; [|repeat constructor; discriminate].
  simpl. repeat (constructor; [split; [|split]; [|simpl; intuition lia|]|]); try constructor.
  all: try (exists 1; simpl; split; lia); try (exists 2; simpl; split; lia).
  all: first [exists 0, 1; simpl; intuition discriminate|exists 1, 2; simpl; intuition discriminate|exists 0, 2; simpl; intuition discriminate].
Qed.
Example C26_example :
  connected_combinations (elementary_sequence ex_cats) (2, 8)%Z [1; 2; 1]%Z [1; 2; 1]%Z =
  Ok [[[0; 1]; [1; 0]; [1; 2]]; [[0; 1]; [1; 2]; [2; 0]]; [[0; 1]; [1; 2]]; [[0; 1]; [2; 0]]; [[1; 0]; [1; 2]];
      [[1; 0]; [0; 1; 1; 2]]; [[1; 2]; [2; 0]]; [[2; 0]; [0; 1; 1; 2]]].
Proof. vm_compute. reflexivity. Qed.

(** C27. For two or three operators nothing is missed. *)
Theorem C27_macro_backtracking_complete :
  forall V (d : list (list nat * V)) n_con cre ann,
  NoDup (map fst d) -> Forall (category_ok (length cre)) (map fst d) -> length ann = length cre ->
  Forall (fun a => 0 <= a)%Z cre -> Forall (fun a => 0 <= a)%Z ann -> 2 <= length cre -> length cre <= 3 ->
  exists ys, connected_combinations (elementary_sequence d) n_con cre ann = Ok ys /\
    (forall w, In w ys -> combination_ok (map fst d) n_con cre ann w) /\ no_repeats ys /\
    (forall w, combination_ok (map fst d) n_con cre ann w -> exists y, In y ys /\ Permutation y w).
Proof. exact @macro_complete. Qed.
Print Assumptions C27_macro_backtracking_complete.

(** With four operators, the chain 0-3, 3-2, 2-1 is admissible but not yielded: its sorted order
    starts with (0,3), (1,2), and (1,2) does not touch (0,3). *)
Definition ex_four : list (list nat * unit) := map (fun c => (c, tt)) [[0; 3]; [1; 2]; [2; 3]; [0; 1]].
Theorem C27_four_operators_refuted :
  exists (d : list (list nat * unit)) n_con cre ann,
    NoDup (map fst d) /\ Forall (category_ok (length cre)) (map fst d) /\ length ann = length cre /\
    Forall (fun a => 0 <= a)%Z cre /\ Forall (fun a => 0 <= a)%Z ann /\ length cre = 4 /\
    exists ys w, connected_combinations (elementary_sequence d) n_con cre ann = Ok ys /\
      combination_ok (map fst d) n_con cre ann w /\ forall y, In y ys -> ~ Permutation y w.
Proof.
  exists ex_four, (2, 6)%Z, [1; 1; 1; 1]%Z, [1; 1; 1; 2]%Z.
  split; [repeat constructor; simpl; intuition discriminate|].
  split; [|split; [reflexivity|split; [repeat constructor; discriminate|split; [repeat constructor; discriminate|split; [reflexivity|]]]]].
  { simpl. repeat (constructor; [split; [exists 1; simpl; split; lia|split; [simpl; intuition lia|]]|]); try constructor.
    all: first [exists 0, 3; simpl; intuition discriminate|exists 1, 2; simpl; intuition discriminate|exists 2, 3; simpl; intuition discriminate|
                exists 0, 1; simpl; intuition discriminate]. }
  eexists. exists [[0; 3]; [1; 2]; [2; 3]]. split; [vm_compute; reflexivity|]. split.
  - constructor.
    + simpl. intros x. simpl. tauto.
    + assert (L : forall i j, (i, j) = (0, 3) \/ (i, j) = (3, 2) \/ (i, j) = (2, 1) -> linked [[0; 3]; [1; 2]; [2; 3]] i j).
      { intros i j [[= -> ->]|[[= -> ->]|[= -> ->]]]; [exists [0; 3]|exists [2; 3]|exists [1; 2]]; simpl; tauto. }
      assert (R : forall i, i < 4 -> clos_refl_trans nat (linked [[0; 3]; [1; 2]; [2; 3]]) 0 i).
      { assert (R3 : clos_refl_trans nat (linked [[0; 3]; [1; 2]; [2; 3]]) 0 3) by (apply rt_step, L; auto).
        assert (R2 : clos_refl_trans nat (linked [[0; 3]; [1; 2]; [2; 3]]) 0 2) by (eapply rt_trans; [exact R3|apply rt_step, L; auto]).
        intros [|[|[|[|i]]]] Hi; [apply rt_refl|eapply rt_trans; [exact R2|apply rt_step, L; auto]|exact R2|exact R3|lia]. }
      intros i j Hi Hj. eapply rt_trans; [apply rtc_sym, R, Hi|apply R, Hj].
    + exists [0; 3]. simpl. auto.
    + intros [|[|[|[|k]]]]; vm_compute; try (intros H; discriminate). destruct k; discriminate.
    + intros [|[|[|[|k]]]]; vm_compute; try (intros H; discriminate). destruct k; discriminate.
    + vm_compute. split; discriminate.
  - intros y [<-|[]] P. assert (Q : In [0; 3] [[0; 1]; [1; 2]; [2; 3]]) by (apply (Permutation_in _ (Permutation_sym P)); left; reflexivity).
    simpl in Q. intuition discriminate.
Qed.
Print Assumptions C27_four_operators_refuted.
