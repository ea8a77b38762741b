(** The connected product of the contraction code: the operator product without the dropped contractions. *)
From Coq Require Import Ascii String ZArith QArith Qcanon Ring_theory Ring Lia Bool Sorting.Sorted Relations.
From Verif Require Import PyBase OrderSpec OrderProofs ParitySpec ParityProofs SpaceModel IndicesModel IndicesProofs IterProofs ElemModel ElemSpec ElemProofs MacroModel CompatSpec ConnectedProofs BacktrackProofs CumulantProofs HalfProofs WickModel WickSpec WickProofs DriverProofs CommProofs
  TermModel BchSpec ValueSpec ValueProofs TermSpec SumProofs SymmetrySpec CombineModel PropWick ContractSpec ContractValue FamilySpec FamilyProofs FamilySets FockSpec ExtensionProofs FockProofs FockWick FockValue PropContract FockTerms ConnectedFamilies ConnectedForms.
Local Close Scope Q_scope.
Local Close Scope Qc_scope.
Local Open Scope nat_scope.
Local Notation length := List.length.

Section Sets.
  Context (ops : list op) (D : distinct_legs ops) (K : nat) (lo hi : Z) (L23 : 2 <= length ops <= 3).
  Local Notation W := (tagged_string ops).
  Lemma touches_leg g x : subseq g W -> touches (Nat.eqb x) g = true <-> has_leg ops x (econ_of ops g).
  Proof.
    intros H. pose proof (subseq_incl _ _ H) as I. unfold touches, has_leg. rewrite existsb_exists. split.
    - intros ([n [b i]] & Hy & E). cbn [fst] in E. apply Nat.eqb_eq in E. subst n. destruct (proj1 (in_tagged ops x b i) (I _ Hy)) as (o & Eo & Hi). exists o. split; [exact Eo|]. destruct b; [left|right]; exists i; (split; [|exact Hi]); [apply in_upper_econ|apply in_lower_econ; [exact I|]]; exists x; exact Hy.
    - intros (o & Eo & [(i & Hi & Ho)|(i & Hi & Ho)]).
      + apply in_upper_econ in Hi as [n Hn]. assert (Hx : In (x, (true, i)) W) by (apply in_tagged; exists o; auto). rewrite (tag_unique ops D n x true i (I _ Hn) Hx) in Hn. exists (x, (true, i)). split; [exact Hn|apply Nat.eqb_refl].
      + apply (in_lower_econ ops g i I) in Hi as [n Hn]. assert (Hx : In (x, (false, i)) W) by (apply in_tagged; exists o; auto). rewrite (tag_unique ops D n x false i (I _ Hn) Hx) in Hn. exists (x, (false, i)). split; [exact Hn|apply Nat.eqb_refl].
  Qed.
  Lemma pair_length g : goodb K g = true -> length (upper (econ_of ops g)) = 1 <-> length g = 2.
  Proof.
    intros G. cbn [econ_of upper]. rewrite map_length. destruct (goodb_cases K g G) as (_ & [(n & m & p & q & -> & _)|[(n & m & p & q & -> & _)|(L & Q)]]); [cbn; tauto|cbn; tauto|].
    unfold long_good in Q. rewrite !andb_true_iff, !Nat.leb_le in Q. unfold tleg in *. lia.
  Qed.
  Lemma tag_bound g x : subseq g W -> In x g -> fst x < length ops.
  Proof. intros H Hx. destruct x as [n [b i]]. apply (subseq_incl _ _ H), in_tagged in Hx as (o & E & _). cbn [fst]. apply nth_error_Some. congruence. Qed.
  Lemma other_tag g x : goodb K g = true -> In x g -> exists y, In y g /\ fst y <> fst x.
  Proof.
    intros G Hx. destruct (goodb_cases K g G) as (T & _). destruct (existsb (fun y : tleg => negb (fst y =? fst x)) g) eqn:Q.
    - apply existsb_exists in Q as (y & Hy & Q). exists y. split; [exact Hy|]. apply negb_true_iff, Nat.eqb_neq in Q. exact Q.
    - rewrite (same_tag_any g) in T; [discriminate|]. assert (U : forall y, In y g -> fst y = fst x).
      { intros y Hy. destruct (Nat.eqb_spec (fst y) (fst x)) as [E|N]; [exact E|]. apply not_true_iff_false in Q. destruct Q. apply existsb_exists. exists y. split; [exact Hy|]. apply negb_true_iff, Nat.eqb_neq, N. }
      intros y z Hy Hz. rewrite (U y Hy), (U z Hz). reflexivity.
  Qed.
  Lemma connected_kept gs : Forall (fun g => subseq g W) gs -> forallb (goodb K) gs = true ->
    (connects_ops ops (map (econ_of ops) gs) /\ has_pair (map (econ_of ops) gs)) <-> dropped (length ops) gs = false.
  Proof.
    intros F G. rewrite Forall_forall in F. rewrite forallb_forall in G.
    assert (TL : forall g x, In g gs -> In x g -> has_leg ops (fst x) (econ_of ops g)) by (intros g x Hg Hx; apply touches_leg; [apply F, Hg|]; apply existsb_exists; exists x; split; [exact Hx|apply Nat.eqb_refl]).
    assert (LK : forall g x y, In g gs -> In x g -> In y g -> con_linked ops (map (econ_of ops) gs) (fst x) (fst y)) by (intros g x y Hg Hx Hy; exists (econ_of ops g); split; [apply in_map, Hg|split; apply TL; assumption]).
    unfold dropped. rewrite orb_false_iff. split.
    - intros [C (e & He & L)]. apply in_map_iff in He as (g & <- & Hg). split.
      + unfold no_pair. apply not_true_iff_false. rewrite forallb_forall. intros Q. specialize (Q g Hg). apply negb_true_iff, Nat.eqb_neq in Q. apply Q, pair_length; [apply G, Hg|exact L].
      + apply not_true_iff_false. intros Q. apply existsb_exists in Q as (x & Hx & I). apply in_seq in Hx. destruct Hx as [_ Hx]. cbn in Hx. set (j := if x =? 0 then 1 else 0). assert (N : x <> j /\ j < length ops) by (unfold j; destruct (Nat.eqb_spec x 0); lia). destruct N as [N Hj].
        pose proof (C x j Hx Hj) as R. apply clos_rt_rt1n in R. inversion R as [E|y ? (e & He & Q & _) _]; [congruence|]. apply in_map_iff in He as (g' & <- & Hg'). apply touches_leg in Q; [|apply F, Hg'].
        unfold isolated in I. rewrite forallb_forall in I. specialize (I g' Hg'). rewrite Q in I. discriminate.
    - intros [NP NI]. unfold no_pair in NP.
      assert (X : exists g, In g gs /\ length g = 2).
      { clear - NP. unfold tleg in *. induction gs as [|g gs IH]; [discriminate|]. cbn [forallb] in NP. destruct (Nat.eqb_spec (length g) 2) as [E|N]; [exists g; split; [left; reflexivity|exact E]|]. destruct (IH NP) as (h & Hh & E). exists h. split; [right; exact Hh|exact E]. }
      destruct X as (g & Hg & Lg). split; [|exists (econ_of ops g); split; [apply in_map, Hg|apply pair_length; [apply G, Hg|exact Lg]]].
      destruct g as [|y [|z [|]]]; try discriminate Lg. assert (NT : fst y <> fst z) by (destruct (other_tag _ y (G _ Hg) (or_introl eq_refl)) as (w & [<-|[<-|[]]] & N); congruence).
      assert (ZY : clos_refl_trans nat (con_linked ops (map (econ_of ops) gs)) (fst z) (fst y)) by (apply rt_step, (LK _ z y Hg); [right; left|left]; reflexivity).
      pose proof (tag_bound _ y (F _ Hg) (or_introl eq_refl)) as By. pose proof (tag_bound _ z (F _ Hg) (or_intror (or_introl eq_refl))) as Bz.
      assert (ALL : forall i, i < length ops -> clos_refl_trans nat (con_linked ops (map (econ_of ops) gs)) i (fst y)).
      { intros i Hi. destruct (Nat.eq_dec i (fst y)) as [->|N1]; [apply rt_refl|]. destruct (Nat.eq_dec i (fst z)) as [->|N2]; [exact ZY|].
        assert (I : isolated i gs = false) by (apply not_true_iff_false; intros I; apply not_true_iff_false in NI; apply NI, existsb_exists; exists i; split; [apply in_seq; lia|exact I]).
        assert (X : exists g', In g' gs /\ touches (Nat.eqb i) g' = true).
        { clear - I. unfold isolated in I. unfold tleg in *. induction gs as [|g' gs IH]; [discriminate|]. cbn [forallb] in I. destruct (touches (Nat.eqb i) g') eqn:E; [exists g'; split; [left; reflexivity|exact E]|]. destruct (IH I) as (h & Hh & E'). exists h. split; [right; exact Hh|exact E']. }
        destruct X as (g' & Hg' & T). apply existsb_exists in T as (x & Hx & T). apply Nat.eqb_eq in T. subst i. destruct (other_tag g' x (G _ Hg') Hx) as (w & Hw & N3). pose proof (tag_bound _ w (F _ Hg') Hw) as Bw.
        assert (W1 : fst w = fst y \/ fst w = fst z) by lia. eapply rt_trans; [apply rt_step, (LK g' x w); assumption|]. destruct W1 as [->| ->]; [apply rt_refl|exact ZY]. }
      assert (SYM : forall i j, clos_refl_trans nat (con_linked ops (map (econ_of ops) gs)) i j -> clos_refl_trans nat (con_linked ops (map (econ_of ops) gs)) j i).
      { intros i j R. induction R as [i j (e & He & H1 & H2)|i|i j k _ IH1 _ IH2]; [apply rt_step; exists e; auto|apply rt_refl|eapply rt_trans; eassumption]. }
      intros i j Hi Hj. eapply rt_trans; [apply ALL, Hi|apply SYM, ALL, Hj].
  Qed.
  Definition kept_family (p : bool * list (list tleg) * list tleg) : bool := good_family K lo hi p && negb (dropped (length ops) (snd (fst p))).
  Definition kept_sets : list (list econ) := map (fun p => map (econ_of ops) (snd (fst p))) (filter kept_family (families (length W) W)).
  Lemma kept_once : lists_each_set_once (fun s => wick_set ops K lo hi s /\ connects_ops ops s /\ has_pair s) kept_sets.
  Proof.
    destruct (sets_once ops D K lo hi) as (H1 & H2 & H3).
    assert (MEM : forall p, In p (families (length W) W) -> Forall (fun g => subseq g W) (snd (fst p))) by (intros [[s gs] r] H; destruct (family_spec _ _ _ _ _ (le_n _) H) as (F & _); eapply Forall_impl; [|exact F]; intros g Q; apply Q).
    assert (KEPT : forall p, In p (families (length W) W) -> good_family K lo hi p = true -> (connects_ops ops (map (econ_of ops) (snd (fst p))) /\ has_pair (map (econ_of ops) (snd (fst p)))) <-> dropped (length ops) (snd (fst p)) = false).
    { intros p Hp G. apply connected_kept; [apply MEM, Hp|]. unfold good_family in G. apply andb_true_iff in G. apply G. }
    assert (SUB : subseq kept_sets (good_sets ops K lo hi)).
    { unfold kept_sets, good_sets. apply subseq_map. clear. induction (families (length W) W) as [|p l IH]; [constructor|]. cbn [filter]. unfold kept_family at 1. destruct (good_family K lo hi p); cbn [andb]; [|exact IH]. destruct (negb _); constructor; exact IH. }
    split; [|split].
    - intros s Hs. destruct (H1 s (subseq_incl _ _ SUB s Hs)) as [N Q]. split; [exact N|]. split; [exact Q|]. unfold kept_sets in Hs. apply in_map_iff in Hs as (p & <- & Hp). apply filter_In in Hp as [Hp Gp]. unfold kept_family in Gp. apply andb_true_iff in Gp as [G1 G2]. apply negb_true_iff in G2. apply KEPT; assumption.
    - intros s N (Q & C & P). destruct (H2 s N Q) as (y & Hy & Py). exists y. split; [|exact Py]. unfold good_sets in Hy. apply in_map_iff in Hy as (p & <- & Hp). apply filter_In in Hp as [Hp Gp]. unfold kept_sets. apply in_map_iff. exists p. split; [reflexivity|]. apply filter_In. split; [exact Hp|]. unfold kept_family. rewrite Gp. cbn [andb]. apply negb_true_iff, (KEPT p Hp Gp). split.
      + intros i j Hi Hj. specialize (C i j Hi Hj). clear - C Py. induction C as [i j (e & He & Q)|i|i j k _ IH1 _ IH2]; [apply rt_step; exists e; split; [apply (Permutation_in _ (Permutation_sym Py)), He|exact Q]|apply rt_refl|eapply rt_trans; eassumption].
      + destruct P as (e & He & Le). exists e. split; [apply (Permutation_in _ (Permutation_sym Py)), He|exact Le].
    - apply once_pairs. apply once_pairs in H3. exact (pairs_subseq _ _ _ SUB H3).
  Qed.
End Sets.

Lemma families_map {X Y} (f : X -> Y) : forall n w, families n (map f w) = map (fun p => let '(s, gs, r) := p in (s, map (map f) gs, map f r)) (families n w).
Proof.
  induction n as [|n IH]; intros [|x w]; try reflexivity. cbn [map families]. rewrite map_app, IH, splits_map, !map_map. f_equal.
  - apply map_ext. intros [[s gs] r]. rewrite <- concat_map, map_length. reflexivity.
  - rewrite !flat_map_concat_map, concat_map, !map_map. f_equal. apply map_ext. intros [[s g] r]. rewrite IH, !map_map. apply map_ext. intros [[s' gs] r']. reflexivity.
Qed.
Section Values.
  Context {A : qalg} (B : fermions A) (S : system) (v : tvaluation A).
  Context (PH : physical S v) (AU : forall n l, alternates (fun u => vtensor v TCumulant n u l)) (AL : forall n u, alternates (fun l => vtensor v TCumulant n u l)).
  Context (MB : norb S <= modes B) (ops : list op) (D : distinct_legs ops) (OA : Forall op_alpha ops) (K : nat) (lo hi : Z) (L23 : 2 <= length ops <= 3).
  Context (e : idx -> nat) (HE : forall l, In l (written_string ops) -> In (e (snd l)) (orbitals S (snd l))).
  Context (HK : forall g, subseq g (tagged_string ops) -> 2 <= length (cres g) -> K < length (cres g) -> length (cres g) = length (anns g) -> forallb (fun x : tleg => active_like (snd (snd x))) g = true ->
                forall qs, vtensor v TCumulant "L" (map e (map snd (cres g))) qs = q0).
  Local Notation E := (extension B).
  Add Ring alg_ring94 : (q_ring E).
  Local Notation W := (tagged_string ops).
  Local Notation V := (without_holes E (lift B v) e).
  Lemma drop_families : drop B v lo hi (map (op_string e) ops) = asum (map (fun p => if dropped (length ops) (snd (fst p)) && in_range lo hi (length (snd p)) then family_term B v e p else q0) (families (length W) W)).
  Proof.
    unfold drop. rewrite map_length.
    assert (EW : tag_all 0 (map (op_string e) ops) = map (at_tagged e) W).
    { unfold tagged_string. unfold at_tagged. rewrite <- (tag_all_map (at_leg e)). f_equal. rewrite map_map. apply map_ext. intros o. unfold op_string, open_string. rewrite map_app, !map_map. reflexivity. }
    rewrite EW, map_length, families_map, map_map. f_equal. apply map_ext_in. intros [[s gs] r] H. cbn [fst snd]. rewrite (dropped_map (at_tagged e)) by reflexivity. destruct (dropped (length ops) gs); cbn [andb]; [|reflexivity].
    destruct (family_spec _ _ _ _ _ (le_n _) H) as (_ & Sr & _).
    assert (R : rest B v lo hi (map (at_tagged e) r) = if in_range lo hi (length r) then normal_value B v (map snd (map (at_tagged e) r)) else q0).
    { unfold rest. rewrite map_length. replace (forallb _ _) with true; [reflexivity|]. symmetry. apply forallb_forall. intros x Hx. apply in_map_iff in Hx as (y & <- & Hy). cbn [at_tagged at_leg snd]. apply Nat.ltb_lt. apply (leg_mode B S MB ops e HE). rewrite <- tagged_snd. apply (in_map snd), (subseq_incl _ _ Sr), Hy. }
    match goal with |- context [rest B v lo hi ?x] => change x with (map (at_tagged e) r) end. rewrite R. destruct (in_range lo hi (length r)); [cbn [family_term]; rewrite map_map; reflexivity|destruct s; cbn [signed]; ring].
  Qed.
  Theorem result_connected T eh result : truncation B v ops lo hi T -> wick_sum ops eh (fun s => wick_set ops K lo hi s /\ connects_ops ops s /\ has_pair s) result ->
    result_value V result = (oper B (T (nprod (map (fun o => normal_product B v (op_string e o)) ops))) - drop B v lo hi (map (op_string e) ops))%alg.
  Proof.
    set (P := fun s => wick_set ops K lo hi s /\ connects_ops ops s /\ has_pair s).
    intros HT WS. assert (PF : forall s, P s -> Forall (from_ops ops) s) by (intros s [Hs _]; apply (wick_set_from ops K lo hi); assumption).
    destruct (wick_sum_family E ops V eh P result) as (sets & O & FV); [apply without_holes_ok|exact PF|exact WS|].
    assert (GV : family_value E ops V (kept_sets ops K lo hi) (asum (map (family_term B v e) (filter (kept_family ops K lo hi) (families (length W) W))))).
    { exists (map (family_term B v e) (filter (kept_family ops K lo hi) (families (length W) W))). split; [|reflexivity]. unfold kept_sets.
      assert (SUB : forall p, In p (filter (kept_family ops K lo hi) (families (length W) W)) -> set_value E ops V (map (econ_of ops) (snd (fst p))) (family_term B v e p)).
      { intros p Hp; apply filter_In in Hp as [Hp1 Hp2]. unfold kept_family in Hp2. apply andb_true_iff in Hp2 as [Hp2 _]. apply (family_set_value B S v PH AU AL MB ops D OA K lo hi e HE); assumption. }
      induction (filter (kept_family ops K lo hi) (families (length W) W)) as [|p l IH]; cbn [map]; constructor; [apply SUB; left; reflexivity|apply IH; intros q Hq; apply SUB; right; exact Hq]. }
    rewrite (family_once E ops V P sets (kept_sets ops K lo hi) _ _ D PF O (kept_once ops D K lo hi L23) FV GV).
    rewrite <- (asum_filter B). pose proof (string_families B v ops e) as Q. apply (f_equal (second B T)) in Q. rewrite second_sum, map_map in Q by apply HT. match type of Q with _ = second _ _ (oper _ ?x) => change (second B T (oper B x)) with (oper B (T x)) in Q end. rewrite <- Q, drop_families.
    assert (SUBT : forall (f g : bool * list (list tleg) * list tleg -> E) l, (asum (map f l) - asum (map g l))%alg = asum (map (fun p => (f p - g p)%alg) l)).
    { intros f g l. induction l as [|p l IH]; [cbn [map]; change (@asum E []) with (@q0 E); ring|]. cbn [map]. rewrite !(FamilyProofs.sum_cons E), <- IH. ring. }
    rewrite SUBT. f_equal. apply map_ext_in. intros p Hp. rewrite (term_second B S v MB ops lo hi e HE T p HT Hp). unfold kept_family, good_family. destruct (forallb (goodb K) (snd (fst p))) eqn:G; cbn [andb].
    - unfold tleg in *. destruct (in_range lo hi (length (snd p))), (dropped (length ops) (snd (fst p))); cbn [negb andb]; ring.
    - rewrite (bad_family B S v PH MB ops K e HE HK p Hp G). destruct (in_range _ _ _), (dropped _ _); cbn [andb]; ring.
  Qed.
End Values.
