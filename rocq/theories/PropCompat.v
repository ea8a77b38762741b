(** C93: the optional arguments of compatible_elementary_contractions and composite_contractions. *)
From Verif Require Import PyBase SpaceModel IndicesModel IndicesProofs ElemModel ElemProofs CodeModel CodeProofs CompatSpec CompatProofs BacktrackProofs PropCode CompatModel.
From Coq Require Import ZArith Permutation Lia.

Section Given.
  Context (d : list (list nat * list econ)) (cats : list (list nat)).
  Context (Hn : NoDup cats) (Hk : forall c, In c cats -> In c (map fst d)).
  Local Notation E := (the_ecc d cats).
  Local Notation con c := (dict_list key_eqb c d).

  (** the code i stands for e, in a category of l *)
  Definition coded_in (l : list (list nat)) (i : nat) (e : econ) : Prop := exists c s, In c l /\ nth_error (con c) s = Some e /\ i = cs d cats c + s.
  Lemma pairs_in l a b : In (a, b) (cpairs d cats l) -> exists e f, coded_in l a e /\ coded_in l b f /\ disjoint_con e f.
  Proof.
    induction l as [|c1 rest IH]; cbn [cpairs]; [intros []|]. rewrite in_app_iff, in_flat_map.
    assert (W : forall i e, coded_in rest i e -> coded_in (c1 :: rest) i e) by (intros i e (c & s & H & H'); exists c, s; split; [right; exact H|exact H']).
    intros [[[s e] [H1 H2]]|H]; [|apply IH in H as (e & f & H1 & H2 & H3); exists e, f; auto].
    apply in_enumerate in H1 as [_ H1]. rewrite Nat.sub_0_r in H1. cbn [fst snd] in H2.
    apply in_flat_map in H2 as [c2 [H2 H3]]. apply (in_row d cats) in H3 as [-> [s' [f [H3 [-> H4]]]]].
    exists e, f. split; [exists c1, s; split; [left; reflexivity|split; [exact H1|reflexivity]]|]. split; [exists c2, s'; split; [exact H2|split; [exact H3|reflexivity]]|exact H4].
  Qed.
  Lemma list_map l : incl l cats -> exists m, compatible_elementary E (CatsList l) = Ok m /\
    forall i j, (In j (compatible_with m i) <-> exists e f, coded_in l i e /\ coded_in l j f /\ disjoint_con e f) /\ NoDup (compatible_with m i).
  Proof.
    intros I. unfold compatible_elementary. rewrite (compatible_pairs_ok d cats Hn Hk) by exact I. cbn [pybind]. eexists. split; [reflexivity|]. intros i j. split.
    - rewrite compat_fold. unfold compatible_with; cbn [dict_list dict_get]. split.
      + intros [[]|[H|H]]; apply pairs_in in H; [exact H|]. destruct H as (e & f & H1 & H2 & H3). exists f, e. split; [exact H2|]. split; [exact H1|]. apply disjoint_con_sym, H3.
      + intros (e & f & (c & s & Hc & He & ->) & (c' & s' & Hc' & Hf & ->) & H). right. eapply cpairs_complete; eauto.
    - apply nodup_compat_fold. constructor.
  Qed.
  Lemma coded_in_iff l i e : incl l cats -> coded_in l i e <-> (exists c, In c l /\ find_category E i = Ok c) /\ decode E i = Ok e.
  Proof.
    intros I. rewrite (decode_coded d cats Hn Hk). assert (F : forall c s e', In c cats -> nth_error (con c) s = Some e' -> find_category E (cs d cats c + s) = Ok c).
    { intros c s e' Hc He. apply In_nth_error in Hc as [k Hc]. rewrite (cs_start d cats Hn Hk k c Hc). assert (s < length (con c)) by (apply nth_error_Some; congruence). apply (find_category_ok d cats Hn Hk k c); [exact Hc|lia]. }
    split.
    - intros (c & s & Hc & He & ->). split; [exists c; split; [exact Hc|exact (F c s e (I c Hc) He)]|exists c, s; auto].
    - intros [(c & Hc & Ec) (c' & s & Hc' & He & ->)]. rewrite (F c' s e Hc' He) in Ec. injection Ec as <-. exists c', s. auto.
  Qed.
End Given.

(** The generator only asks for the compatibility of contractions it may still choose. *)
Lemma backtrack_ext {V} (E : ecc V) pick m m' : forall fuel path choices target chosen,
  (forall i j, In i choices -> In j choices -> (In j (compatible_with m i) <-> In j (compatible_with m' i))) ->
  categorized_backtrack fuel pick path E choices target m chosen = categorized_backtrack fuel pick path E choices target m' chosen.
Proof.
  induction fuel as [|f IH]; intros path choices target chosen H; [reflexivity|]. cbn [categorized_backtrack]. destruct (count_available E choices target) as [av|]; [|reflexivity]. cbn [pybind].
  destruct (existsb _ target); [reflexivity|]. destruct choices as [|x s] eqn:EC; [reflexivity|]. rewrite <- EC in *. assert (Hin : In (pop_element pick path x s) choices) by (rewrite EC; apply pop_in).
  set (c := pop_element pick path x s) in *. assert (SUB : forall y, In y (set_remove c choices) -> In y choices) by (intros y Hy; apply filter_In in Hy; tauto).
  assert (EI : set_inter (set_remove c choices) (compatible_with m c) = set_inter (set_remove c choices) (compatible_with m' c)).
  { unfold set_inter. apply filter_ext_in. intros y Hy. apply eq_true_iff_eq. rewrite !mem_nat_in. apply H; [exact Hin|apply SUB, Hy]. }
  destruct (find_category E c) as [cat|]; [|reflexivity]. cbn [pybind]. rewrite EI. set (new := set_inter (set_remove c choices) (compatible_with m' c)).
  assert (SN : forall y, In y new -> In y choices) by (intros y Hy; apply filter_In in Hy as [Hy _]; apply SUB, Hy).
  destruct (if _ : bool then _ else Ok new) as [new'|] eqn:EN; [|reflexivity]. cbn [pybind].
  assert (SN' : forall y, In y new' -> In y choices).
  { destruct (counter_get cat _ =? 0)%Z; [|injection EN as <-; exact SN]. destruct (category_range E cat) as [r|]; [|discriminate]. cbn [pybind] in EN. injection EN as <-. intros y Hy. apply filter_In in Hy as [Hy _]. apply SN, Hy. }
  rewrite (IH (true :: path) new') by (intros i j Hi Hj; apply H; apply SN'; assumption).
  destruct (categorized_backtrack f pick (true :: path) E new' _ m' _) as [[ys1 [[ch1 t2] chosen2]]|]; [|reflexivity]. cbn [pybind].
  rewrite (IH (false :: path) (set_remove c choices)) by (intros i j Hi Hj; apply H; apply SUB; assumption). reflexivity.
Qed.

(** With a list of categories the map relates exactly the contractions in these categories that share no index. *)
Theorem C93_list :
  forall d cats l, NoDup cats -> (forall c, In c cats -> In c (map fst d)) -> incl l cats -> (forall kv e, In kv d -> In e (snd kv) -> upper e <> []) ->
  exists E m, make_ecc d cats = Ok E /\ compatible_elementary E (CatsList l) = Ok m /\
  forall i j, (In j (compatible_with m i) <-> i <> j /\ (exists c, In c l /\ find_category E i = Ok c) /\ (exists c, In c l /\ find_category E j = Ok c) /\
                                              exists e f, decode E i = Ok e /\ decode E j = Ok f /\ disjoint_con e f) /\ NoDup (compatible_with m i).
Proof.
  intros d cats l Hn Hk I He. destruct (list_map d cats Hn Hk l I) as (m & Em & Hm). exists (the_ecc d cats), m. split; [apply make_ecc_ok; assumption|]. split; [exact Em|]. intros i j. split; [|apply (Hm i j)].
  rewrite (proj1 (Hm i j)). split.
  - intros (e & f & H1 & H2 & H3). assert (U : upper e <> []).
    { destruct H1 as (c & s & Hc & Hs & _). apply nth_error_In in Hs. unfold dict_list in Hs. destruct (dict_get key_eqb c d) as [v|] eqn:G; [|destruct Hs]. apply dict_get_some_in in G. exact (He _ _ G Hs). }
    apply (coded_in_iff d cats Hn Hk l _ _ I) in H1 as [C1 D1]. apply (coded_in_iff d cats Hn Hk l _ _ I) in H2 as [C2 D2].
    split; [|split; [exact C1|split; [exact C2|exists e, f; auto]]]. intros <-. rewrite D1 in D2. injection D2 as <-.
    destruct (upper e) as [|u us] eqn:Eu; [congruence|]. destruct H3 as [H3 _]. rewrite Eu in H3. apply (H3 u); left; reflexivity.
  - intros (_ & C1 & C2 & e & f & D1 & D2 & D). exists e, f. split; [apply (coded_in_iff d cats Hn Hk l _ _ I); auto|]. split; [apply (coded_in_iff d cats Hn Hk l _ _ I); auto|exact D].
Qed.
Print Assumptions C93_list.

(** Two maps that agree on the contractions in the categories of the target give the same. *)
Lemma composite_ext d cats pick target m m' : NoDup cats -> (forall c, In c cats -> In c (map fst d)) -> incl (map fst target) cats ->
  (forall i j e f, coded_in d cats (map fst target) i e -> coded_in d cats (map fst target) j f -> (In j (compatible_with m i) <-> In j (compatible_with m' i))) ->
  composite_contractions pick (the_ecc d cats) target m = composite_contractions pick (the_ecc d cats) target m'.
Proof.
  intros Hn Hk I H. unfold composite_contractions. set (rng := fun c => seq (cs d cats c) (length (dict_list key_eqb c d))).
  rewrite (pymap_total _ (fun kv => rng (fst kv))).
  2:{ intros kv Hkv. assert (Hc : In (fst kv) cats) by (apply I, in_map, Hkv). apply In_nth_error in Hc as [k Hc]. unfold rng. rewrite (range_ok d cats Hn Hk k _ Hc), (cs_start d cats Hn Hk k _ Hc). reflexivity. }
  cbn [pybind]. destruct (set_of_spec (concat (map (fun kv => rng (fst kv)) target))) as [_ Ic]. apply backtrack_ext.
  assert (C : forall x, In x (set_of (concat (map (fun kv => rng (fst kv)) target))) -> exists e, coded_in d cats (map fst target) x e).
  { intros x Hx. apply Ic in Hx. rewrite <- flat_map_concat_map in Hx. apply in_flat_map in Hx as (kv & Hkv & Hx). unfold rng in Hx. apply in_seq in Hx.
    destruct (nth_error (dict_list key_eqb (fst kv) d) (x - cs d cats (fst kv))) as [e|] eqn:Ee; [|apply nth_error_None in Ee; lia]. exists e, (fst kv), (x - cs d cats (fst kv)). split; [apply in_map, Hkv|]. split; [exact Ee|lia]. }
  intros i j Hi Hj. destruct (C i Hi) as [e He], (C j Hj) as [f Hf]. exact (H i j e f He Hf).
Qed.

(** composite_contractions without compatible raises TypeError as soon as one category of the target has a contraction, and otherwise
    does what it does with the map of all contractions. *)
Theorem C93_default :
  forall pick d cats target E m, NoDup cats -> (forall c, In c cats -> In c (map fst d)) -> incl (map fst target) cats ->
  make_ecc d cats = Ok E -> compatible_elementary E CatsNone = Ok m ->
  ((exists c e, In c (map fst target) /\ In e (dict_list key_eqb c d)) -> composite_contractions_of pick E target None = Raise TypeError) /\
  ((forall c, In c (map fst target) -> dict_list key_eqb c d = []) -> composite_contractions_of pick E target None = composite_contractions_of pick E target (Some m)).
Proof.
  intros pick d cats target E m Hn Hk I HE Hm. rewrite (make_ecc_ok d cats Hn Hk) in HE. injection HE as <-. unfold composite_contractions_of, compatible_elementary. cbn [pybind].
  split.
  - generalize dependent (map fst target). intros l I (c & e & Hc & He). assert (T : keys_pairs (the_ecc d cats) l = Raise TypeError); [|rewrite T; reflexivity].
    induction l as [|c1 rest IH]; [destruct Hc|]. cbn [keys_pairs]. change (ele_con (the_ecc d cats)) with d. rewrite (con_item d cats Hk c1) by (apply I; left; reflexivity). cbn [pybind].
    destruct (dict_list key_eqb c1 d) as [|e1 es] eqn:E1; [|rewrite (encode_cs d cats Hn Hk) by (apply I; left; reflexivity); reflexivity].
    apply IH; [intros y Hy; apply I; right; exact Hy|]. destruct Hc as [<-|Hc]; [rewrite E1 in He; destruct He|exact Hc].
  - intros Z. assert (T : keys_pairs (the_ecc d cats) (map fst target) = Ok []).
    { generalize dependent (map fst target). intros l I Z. induction l as [|c1 rest IH]; [reflexivity|]. cbn [keys_pairs]. change (ele_con (the_ecc d cats)) with d. rewrite (con_item d cats Hk c1) by (apply I; left; reflexivity). cbn [pybind]. rewrite (Z c1 (or_introl eq_refl)).
      apply IH; [intros y Hy; apply I; right; exact Hy|intros y Hy; apply Z; right; exact Hy]. }
    rewrite T. cbn [pybind fold_left]. apply composite_ext; try assumption. intros i j e f (c & s & Hc & He & _). rewrite (Z c Hc) in He. destruct s; discriminate He.
Qed.
Print Assumptions C93_default.

(** The categories of the target as a list would have done: composite_contractions gives the same with that map as with the map of all contractions. *)
Theorem C93_list_suffices :
  forall pick d cats target E m m', NoDup cats -> (forall c, In c cats -> In c (map fst d)) -> incl (map fst target) cats ->
  make_ecc d cats = Ok E -> compatible_elementary E CatsNone = Ok m -> compatible_elementary E (CatsList (map fst target)) = Ok m' ->
  composite_contractions_of pick E target (Some m') = composite_contractions_of pick E target (Some m).
Proof.
  intros pick d cats target E m m' Hn Hk I HE Hm Hm'. rewrite (make_ecc_ok d cats Hn Hk) in HE. injection HE as <-. cbn [composite_contractions_of pybind].
  destruct (list_map d cats Hn Hk _ I) as (m1 & E1 & H1). rewrite E1 in Hm'. injection Hm' as <-.
  destruct (list_map d cats Hn Hk cats (incl_refl _)) as (m2 & E2 & H2). change (compatible_elementary (the_ecc d cats) CatsNone) with (compatible_elementary (the_ecc d cats) (CatsList cats)) in Hm. rewrite E2 in Hm. injection Hm as <-.
  unfold composite_contractions_of. cbn [pybind]. apply composite_ext; try assumption. intros i j e f Hi Hj. rewrite (proj1 (H1 i j)), (proj1 (H2 i j)).
  assert (W : forall i e, coded_in d cats (map fst target) i e -> coded_in d cats cats i e) by (intros i0 e0 (c & s & H & H'); exists c, s; split; [apply I, H|exact H']).
  split.
  - intros (e' & f' & A & B & C). exists e', f'. auto.
  - intros (e' & f' & A & B & C). exists e, f. split; [exact Hi|]. split; [exact Hj|].
    assert (U : forall i e e', coded_in d cats cats i e -> coded_in d cats cats i e' -> e = e') by (intros i0 e0 e0' X Y; exact (coded_unique d cats Hn Hk i0 e0 e0' X Y)).
    rewrite (U i e e' (W _ _ Hi) A), (U j f f' (W _ _ Hj) B). exact C.
Qed.
Print Assumptions C93_list_suffices.

(** The default is of no use where the explicit map finds contractions. *)
Theorem C93_default_refuted :
  exists d cats target E m r, NoDup cats /\ (forall c, In c cats -> In c (map fst d)) /\ incl (map fst target) cats /\ make_ecc d cats = Ok E /\ compatible_elementary E CatsNone = Ok m /\
  composite_contractions_of (fun _ _ => 0) E target (Some m) = Ok r /\ length (fst r) = 4 /\ composite_contractions_of (fun _ _ => 0) E target None = Raise TypeError.
Proof.
  exists ex_dict2, (map fst ex_dict2), [([0; 1], 2%Z); ([1; 2], 1%Z)]. eexists. eexists. eexists.
  split; [repeat constructor; simpl; intuition discriminate|]. split; [auto|]. split; [intros x Hx; exact Hx|]. split; [vm_compute; reflexivity|]. split; [vm_compute; reflexivity|]. split; [vm_compute; reflexivity|]. split; reflexivity.
Qed.
Print Assumptions C93_default_refuted.

(** With the category (0, 1) alone, contractions of (1, 2) are not related. With no category to fill there is the empty contraction. *)
Example C93_example :
  incl [[0; 1]] (map fst ex_dict2) /\ (forall kv e, In kv ex_dict2 -> In e (snd kv) -> upper e <> []) /\
  (exists E m, make_ecc ex_dict2 (map fst ex_dict2) = Ok E /\ compatible_elementary E (CatsList [[0; 1]]) = Ok m /\ compatible_with m 0 = [3] /\ compatible_with m 4 = [] /\
    pybind (composite_contractions_of (fun _ _ => 0) E [] None) (fun r => Ok (fst r)) = Ok [[]]) /\
  (exists E m, make_ecc ex_dict2 (map fst ex_dict2) = Ok E /\ compatible_elementary E CatsNone = Ok m /\ compatible_with m 0 = [3; 4; 5]).
Proof.
  split; [intros x [<-|[]]; left; reflexivity|]. split; [intros kv e [<-|[<-|[]]] H; cbn in H; intuition (subst; discriminate)|].
  split; eexists; eexists; repeat (split; [vm_compute; reflexivity|]); vm_compute; reflexivity.
Qed.
