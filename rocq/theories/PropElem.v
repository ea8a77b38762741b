(** Properties C18-C21: elementary contractions. *)
From Verif Require Import PyBase SpaceModel IndicesModel ElemModel ElemSpec ElemProofs HalfProofs CumulantProofs.
From Coq Require Import ZArith.

(** C18. The effective cumulant level. *)
Theorem C18_check_max_cu :
  forall ops k,
  let M := Z.max 1 (Z.min (Z.of_nat (n_noncv cre ops)) (Z.of_nat (n_noncv ann ops))) in
  check_max_cu ops k = if ((1 <=? k) && (k <=? M))%Z then k else M.
Proof. exact check_max_cu_ok. Qed.
Print Assumptions C18_check_max_cu.

Theorem C18_check_max_cu_idempotent :
  forall ops k, check_max_cu ops (check_max_cu ops k) = check_max_cu ops k.
Proof. exact check_max_cu_idem. Qed.
Print Assumptions C18_check_max_cu_idempotent.

(** Two operators h0h1|p0p1 and g0 v1|a0 c1. *)
Definition ex_h n : idx := (Lab false Sh, n).
Definition ex_p n : idx := (Lab false Sp, n).
Definition ex_ops : list op :=
  [Op [ex_h 0; ex_h 1] [ex_p 0; ex_p 1];
   Op [(Lab false Sg, 0); (Lab false Sv, 1)] [(Lab false Sa, 0); (Lab false Sc, 1)]].

Example C18_example :
  map (check_max_cu ex_ops) [-1; 0; 1; 2; 3; 4; 9]%Z = [3; 3; 1; 2; 3; 3; 3]%Z.
Proof. reflexivity. Qed.

(** C19. Pairwise contractions: membership under each key, and each once. *)
Theorem C19_pairwise_exact :
  forall ops key c, Forall op_ok ops ->
  (In c (dict_list key_eqb key (elementary_pairwise ops)) <-> pair_contraction ops key c) /\
  NoDup (dict_list key_eqb key (elementary_pairwise ops)).
Proof. exact elementary_pairwise_spec. Qed.
Print Assumptions C19_pairwise_exact.

Theorem C19_pairwise_keys_distinct : forall ops, NoDup (map fst (elementary_pairwise ops)).
Proof. exact pairwise_wf. Qed.
Print Assumptions C19_pairwise_keys_distinct.

Example C19_hypotheses : Forall op_ok ex_ops.
Proof.
  repeat (first [apply Forall_cons|apply Forall_nil|apply NoDup_cons|apply NoDup_nil|split]); simpl; intuition (congruence || discriminate).
Qed.
Example C19_example :
  map (fun d => (fst d, length (snd d))) (elementary_pairwise ex_ops) = [([0; 1], 4); ([1; 0], 4)].
Proof. reflexivity. Qed.

(** C20. Every k-element subset of the (operator, leg) positions exactly once.
    [combinations l k] lists the increasing k-element subsequences of l. *)
Theorem C20_half_cumulant_complete :
  forall pure max_cu,
  exists d, half_cumulant pure max_cu = Ok d /\ NoDup (map fst d) /\
    (forall k, In k (map fst d) <-> 2 <= k <= max_cu) /\
    forall k, 2 <= k <= max_cu ->
      exists l, dict_get Nat.eqb k d = Some l /\ Permutation l (combinations (positions pure) k).
Proof.
  intros pure m. destruct (half_cumulant_ok pure m) as [d [E [N [K G]]]].
  exists d. split; [exact E|]. split; [exact N|]. split; [exact K|].
  intros k Hk. exists (level_choices pure k). split; [apply G, Hk|]. apply level_choices_spec; [exact 0|]. apply Hk.
Qed.
Print Assumptions C20_half_cumulant_complete.

Example C20_example :
  half_cumulant [[ex_h 0; ex_h 1]; [ex_h 2]] 2 = Ok [(2, [[(0, 0); (0, 1)]; [(0, 0); (1, 0)]; [(0, 1); (1, 0)]])].
Proof. reflexivity. Qed.

(** C21. Many-body cumulants: exactly the choices of k creators and k annihilators, not
    all on one operator, for 2 <= k <= level, each once, filed under its operators. *)
Theorem C21_cumulants_exact :
  forall ops max_cu, Forall op_alpha ops -> distinct_active ops ->
  exists d, elementary_cumulant ops max_cu = Ok d /\ NoDup (map fst d) /\
    Permutation (dict_items d) (flat_map (cumulant_choices ops) (cu_levels max_cu)).
Proof. exact elementary_cumulant_spec. Qed.
Print Assumptions C21_cumulants_exact.

(** A cumulant with a repeated index cannot be built: ValueError. *)
Theorem C21_repeated_index_rejected :
  forall ops max_cu, Forall op_alpha ops -> repeated_choice ops max_cu -> elementary_cumulant ops max_cu = Raise ValueError.
Proof. exact elementary_cumulant_repeated. Qed.
Print Assumptions C21_repeated_index_rejected.
Example C21_repeated_example :
  let ops := [Op [ex_h 0] [ex_p 0]; Op [ex_h 0] [ex_p 1]] in
  repeated_choice ops 2 /\ elementary_cumulant ops 2 = Raise ValueError.
Proof.
  split; [|reflexivity]. exists 2, [(0, ex_h 0); (1, ex_h 0)], [(0, ex_p 0); (1, ex_p 1)]. split; [lia|].
  split; [left; reflexivity|]. split; [left; reflexivity|]. split.
  - intros H. discriminate (H 0 1 (or_introl eq_refl) (or_intror (or_introl eq_refl))).
  - intros [H _]. inversion H as [|? ? N _]. apply N. left. reflexivity.
Qed.

(** The filter in [cumulant_choices] is the stated one. *)
Theorem C21_one_operator : forall l, one_operatorb l = true <-> one_operator l.
Proof. exact one_operatorb_ok. Qed.
Print Assumptions C21_one_operator.

(** All elementary contractions together. *)
Theorem C21_elementary_all :
  forall ops max_cu, Forall op_alpha ops -> distinct_active ops ->
  exists d, elementary_categorized ops max_cu = Ok d /\ NoDup (map fst d) /\
    Permutation (dict_items d)
      (dict_items (elementary_pairwise ops) ++
       flat_map (cumulant_choices ops) (cu_levels (Z.to_nat (check_max_cu ops max_cu)))).
Proof.
  intros ops m Hal Hd. destruct (elementary_categorized_spec ops m Hal Hd) as [d [E [N P]]]. exists d. repeat split; try assumption.
  rewrite P. apply Permutation_app_tail. unfold elementary_pairwise.
  rewrite (dict_items_append_all key_eqb key_eqb_eq). simpl. rewrite app_nil_r. reflexivity.
Qed.
Print Assumptions C21_elementary_all.

Example C21_hypotheses : distinct_active ex_ops.
Proof.
  split; simpl; repeat (first [apply NoDup_cons|apply NoDup_nil]); simpl; intuition (congruence || discriminate).
Qed.
Example C21_example :
  exists d, elementary_categorized ex_ops 2 = Ok d /\ length (dict_items d) = 8 + (3 * 3 - 1).
Proof. eexists. split; [reflexivity|]. reflexivity. Qed.
