(** Properties C22-C25, C61: coded contractions, compatibility and leg-level backtracking. *)
From Verif Require Import PyBase SpaceModel IndicesModel ElemModel CodeModel CodeProofs CompatSpec CompatProofs BacktrackProofs.
From Coq Require Import ZArith.

(** C22. Codes are a bijection between (category, position) and 0..size-1. *)
Theorem C22_codes_bijective :
  forall {V} (d : list (list nat * list V)) cats,
  NoDup cats -> (forall c, In c cats -> In c (map fst d)) ->
  exists E n, make_ecc d cats = Ok E /\ ecc_size E = Ok n /\ n = length (flat_map (fun c => dict_list key_eqb c d) cats) /\
    (forall c s v, In c cats -> nth_error (dict_list key_eqb c d) s = Some v ->
       exists code, encode E c s = Ok code /\ code < n /\ find_category E code = Ok c /\ decode E code = Ok v) /\
    (forall code, code < n -> exists c s, In c cats /\ s < length (dict_list key_eqb c d) /\ encode E c s = Ok code /\
       forall c' s', In c' cats -> s' < length (dict_list key_eqb c' d) -> encode E c' s' = Ok code -> c' = c /\ s' = s) /\
    (forall c, In c cats -> exists r, category_range E c = Ok r /\ NoDup r /\
       forall code, In code r <-> exists s, s < length (dict_list key_eqb c d) /\ encode E c s = Ok code).
Proof. exact @codes_bijective. Qed.
Print Assumptions C22_codes_bijective.
(** A code beyond the last one raises IndexError. *)
Theorem C22_out_of_range :
  forall {V} (d : list (list nat * list V)) cats, NoDup cats -> (forall c, In c cats -> In c (map fst d)) ->
  exists E n, make_ecc d cats = Ok E /\ ecc_size E = Ok n /\ forall code, n <= code -> decode E code = Raise IndexError.
Proof.
  intros V d cats Hn Hk. exists (the_ecc d cats), (start d cats (length cats)). split; [apply make_ecc_ok; assumption|]. split; [apply size_ok; assumption|]. intros code Hc.
  assert (B : bisect_right (i_start (the_ecc d cats)) code = length (i_start (the_ecc d cats))).
  { unfold bisect_right. cbn [the_ecc i_start]. assert (F : Forall (fun s => s <= code) (starts d cats)).
    { unfold starts. destruct cats as [|c l] eqn:Q; [constructor; [lia|constructor]|]. rewrite <- Q in *. apply Forall_forall. intros s Hs. apply in_map_iff in Hs as (k & <- & Hs). apply in_seq in Hs. pose proof (start_mono d cats k (length cats)). lia. }
    induction F as [|s l Hs _ IH]; [reflexivity|]. cbn [filter]. destruct (Nat.leb_spec s code); [|lia]. cbn [length]. rewrite IH. reflexivity. }
  unfold decode. rewrite B. cbn [the_ecc i_start categories ele_con]. destruct cats as [|c l] eqn:Q; [reflexivity|]. rewrite <- Q in *.
  assert (L : length (starts d cats) = length cats) by (unfold starts; rewrite Q; rewrite map_length, seq_length; reflexivity). rewrite L.
  assert (LP : 0 < length cats) by (rewrite Q; cbn; lia). destruct (nth_error cats (length cats - 1)) as [c'|] eqn:X; [|apply nth_error_None in X; lia].
  unfold get_item. rewrite X. cbn [pybind]. rewrite (nth_error_starts d cats Hn Hk (length cats - 1)) by lia. cbn [pybind]. rewrite (con_item d cats Hk) by (eapply nth_error_In, X). cbn [pybind].
  pose proof (start_S d cats _ _ X) as Z. replace (S (length cats - 1)) with (length cats) in Z by lia. rewrite (proj2 (nth_error_None _ _)) by lia. reflexivity.
Qed.
Print Assumptions C22_out_of_range.

(** A family with an empty category in the middle and another at the end. *)
Definition ex_dict : list (list nat * list nat) := [([0; 1], [10; 11]); ([1; 2], []); ([0; 2], [12]); ([2; 1], [])].
Definition ex_cats : list (list nat) := [[1; 2]; [0; 1]; [0; 2]; [2; 1]].
Example C22_hypotheses : NoDup ex_cats /\ (forall c, In c ex_cats -> In c (map fst ex_dict)).
Proof.
  split; [repeat constructor; simpl; intuition discriminate|]. simpl. intuition.
Qed.
Example C22_example :
  pybind (make_ecc ex_dict ex_cats) (fun E => pymap (decode E) [0; 1; 2]) = Ok [10; 11; 12] /\
  pybind (make_ecc ex_dict ex_cats) (fun E => pymap (find_category E) [0; 1; 2]) = Ok [[0; 1]; [0; 1]; [0; 2]] /\
  pybind (make_ecc ex_dict ex_cats) (fun E => decode E 3) = Raise IndexError.
Proof. repeat split. Qed.

(** C23. Compatible = different and sharing no creator and no annihilator (flat list). *)
Theorem C23_compatible_list :
  forall l i j,
  (In j (compatible_with (compatible_list l) i) <->
   i <> j /\ exists e f, nth_error l i = Some e /\ nth_error l j = Some f /\ disjoint_con e f) /\
  NoDup (compatible_with (compatible_list l) i).
Proof. exact compatible_list_spec. Qed.
Print Assumptions C23_compatible_list.

(** Categorized version. No contraction is empty, so none is compatible with itself. *)
Theorem C23_compatible_categorized :
  forall d cats, NoDup cats -> (forall c, In c cats -> In c (map fst d)) ->
  (forall kv e, In kv d -> In e (snd kv) -> upper e <> []) ->
  exists E m, make_ecc d cats = Ok E /\ compatible_categorized E = Ok m /\
    forall i j, (In j (compatible_with m i) <->
                 i <> j /\ exists e f, decode E i = Ok e /\ decode E j = Ok f /\ disjoint_con e f) /\
                NoDup (compatible_with m i).
Proof. exact compatible_categorized_spec. Qed.
Print Assumptions C23_compatible_categorized.

Definition ex_g n : idx := (Lab false Sg, n).
Definition ex_con : list econ :=
  [Con false [ex_g 0] [ex_g 1]; Con true [ex_g 2] [ex_g 3]; Con false [ex_g 0] [ex_g 3]; Con false [ex_g 4; ex_g 5] [ex_g 6; ex_g 7]].
Example C23_example :
  map (fun i => compatible_with (compatible_list ex_con) i) [0; 1; 2; 3] = [[1; 3]; [0; 3]; [3]; [0; 1; 2]].
Proof. reflexivity. Qed.

(** C24. For every way set.pop() may choose elements and every iteration order of the initial set. *)
Theorem C24_general_backtracking :
  forall pick l available desired, Permutation available (seq 0 (length l)) ->
  exists ys available',
    composite_backtrack (S (length l)) pick [] available [] (compatible_list l) 0 l desired = Ok (ys, available', []) /\
    Permutation available' available /\
    lists_each_set_once (fun s => s <> [] /\ (forall x, In x s -> x < length l) /\
       (fst desired <= Z.of_nat (contracted_legs l s) <= snd desired)%Z /\
       (forall x y e f, In x s -> In y s -> x <> y -> nth_error l x = Some e -> nth_error l y = Some f -> disjoint_con e f)) ys.
Proof. exact general_backtrack_ok. Qed.
Print Assumptions C24_general_backtracking.

Example C24_example :
  pybind (composite_backtrack 5 (fun _ s => length s - 1) [] [0; 1; 2; 3] [] (compatible_list ex_con) 0 ex_con (2, 6)%Z)
    (fun r => Ok (fst (fst r))) = Ok [[3; 2]; [3; 1]; [3; 0]; [3]; [2]; [1; 0]; [1]; [0]] /\
  pybind (composite_backtrack 5 (fun _ _ => 0) [] [0; 1; 2; 3] [] (compatible_list ex_con) 0 ex_con (6, 8)%Z)
    (fun r => Ok (fst (fst r))) = Ok [[0; 1; 3]; [0; 3]; [1; 3]; [2; 3]].
Proof. split; reflexivity. Qed.

(** C25. [target] is a Counter with positive counts over categories of the family. *)
Theorem C25_categorized_backtracking :
  forall pick d cats target,
  NoDup cats -> (forall c, In c cats -> In c (map fst d)) ->
  NoDup (map fst target) -> incl (map fst target) cats -> (forall kv, In kv target -> (0 < snd kv)%Z) ->
  exists E compatible ys choices',
    make_ecc d cats = Ok E /\ compatible_categorized E = Ok compatible /\
    composite_contractions pick E target compatible = Ok (ys, (choices', target, [])) /\
    lists_each_set_once (fun s =>
       (forall x, In x s -> exists e, decode E x = Ok e) /\
       (forall x y e f, In x s -> In y s -> x <> y -> decode E x = Ok e -> decode E y = Ok f -> disjoint_con e f) /\
       (forall c, In c cats -> Z.of_nat (count (in_category E c) s) = counter_get c target)) ys.
Proof. exact composite_contractions_ok. Qed.
Print Assumptions C25_categorized_backtracking.

Definition ex_dict2 : list (list nat * list econ) :=
  [([0; 1], [Con false [ex_g 0] [ex_g 2]; Con false [ex_g 0] [ex_g 3]; Con false [ex_g 1] [ex_g 2]; Con false [ex_g 1] [ex_g 3]]);
   ([1; 2], [Con true [ex_g 4] [ex_g 5]; Con true [ex_g 6] [ex_g 5]])].
Example C25_hypotheses :
  NoDup (map fst ex_dict2) /\ (forall c, In c (map fst ex_dict2) -> In c (map fst ex_dict2)) /\
  NoDup (map fst [([0; 1], 2%Z); ([1; 2], 1%Z)]) /\ incl (map fst [([0; 1], 2%Z); ([1; 2], 1%Z)]) (map fst ex_dict2) /\
  (forall kv, In kv [([0; 1], 2%Z); ([1; 2], 1%Z)] -> (0 < snd kv)%Z).
Proof.
  repeat split; try (repeat constructor; simpl; intuition discriminate); auto.
  - simpl. intros x Hx. exact Hx.
  - simpl. intros kv [<-|[<-|[]]]; reflexivity.
Qed.
Example C25_example :
  pybind (make_ecc ex_dict2 (map fst ex_dict2)) (fun E => pybind (compatible_categorized E) (fun m =>
  pybind (composite_contractions (fun _ _ => 0) E [([0; 1], 2%Z); ([1; 2], 1%Z)] m) (fun r => Ok (fst r)))) =
  Ok [[0; 3; 4]; [0; 3; 5]; [1; 2; 4]; [1; 2; 5]].
Proof. reflexivity. Qed.

(** C61. compute_operator_contractions_general sets the recursion limit to the number n of
    elementary contractions (sqop_contraction.py:716-717). With at most n nested activations the
    generator never completes; n+1 activations suffice (C24). Fuel counts nested activations. *)
Theorem C61_recursion_limit_refuted :
  forall pick l available desired limit, Permutation available (seq 0 (length l)) -> limit <= length l ->
  composite_backtrack limit pick [] available [] (compatible_list l) 0 l desired = Raise FuelExhausted.
Proof.
  intros pick l available desired limit P L. apply backtrack_depth.
  - apply (Permutation_NoDup (Permutation_sym P)), seq_NoDup.
  - intros x Hx. apply (Permutation_in _ P), in_seq in Hx. lia.
  - rewrite (Permutation_length P), seq_length. exact L.
Qed.
Print Assumptions C61_recursion_limit_refuted.
Example C61_example :
  composite_backtrack 4 (fun _ _ => 0) [] [0; 1; 2; 3] [] (compatible_list ex_con) 0 ex_con (2, 6)%Z = Raise FuelExhausted.
Proof. reflexivity. Qed.
