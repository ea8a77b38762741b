(** The value of a contraction result in the operator algebra is the product of the normal products. *)
From Coq Require Import Ascii String ZArith QArith Qcanon Ring_theory Ring Lia Bool Sorting.Sorted.
From Verif Require Import PyBase OrderSpec OrderProofs ParitySpec ParityProofs SpaceModel IndicesModel IndicesProofs IterProofs ElemModel ElemSpec ElemProofs MacroModel CompatSpec ConnectedProofs BacktrackProofs CumulantProofs HalfProofs WickModel WickSpec WickProofs DriverProofs
  TermModel BchSpec ValueSpec ValueProofs TermSpec SumProofs SymmetrySpec CombineModel ContractSpec ContractValue FamilySpec FamilyProofs FamilySets FockSpec ExtensionProofs FockProofs FockWick.
Local Close Scope Q_scope.
Local Close Scope Qc_scope.
Local Open Scope nat_scope.
Local Notation length := List.length.

Lemma pairs_subseq {Y} (R : Y -> Y -> Prop) l' l : subseq l' l -> ForallOrdPairs R l -> ForallOrdPairs R l'.
Proof.
  intros H. induction H as [|x c l H IH|x c l H IH]; intros O; [constructor| |]; inversion O as [|? ? O1 O2]; subst; [|apply IH, O2]. constructor; [|apply IH, O2]. rewrite Forall_forall in *. intros y Hy. apply O1, (subseq_incl _ _ H), Hy.
Qed.
Lemma pairs_map {Y Z} (f : Y -> Z) (R : Z -> Z -> Prop) l : ForallOrdPairs (fun a b => R (f a) (f b)) l -> ForallOrdPairs R (map f l).
Proof. intros H. induction H as [|x l F H IH]; cbn [map]; constructor; [|exact IH]. rewrite Forall_map. exact F. Qed.
Lemma pairs_map_inv {Y Z} (f : Y -> Z) (R : Z -> Z -> Prop) l : ForallOrdPairs R (map f l) -> ForallOrdPairs (fun a b => R (f a) (f b)) l.
Proof. induction l as [|x l IH]; cbn [map]; intros H; constructor; inversion H as [|? ? F H']; subst; [rewrite Forall_map in F; exact F|apply IH, H']. Qed.
Lemma pairs_in {Y} (R R' : Y -> Y -> Prop) l : (forall a b, In a l -> In b l -> R a b -> R' a b) -> ForallOrdPairs R l -> ForallOrdPairs R' l.
Proof.
  intros H O. induction O as [|x l F O IH]; constructor.
  - rewrite Forall_forall in *. intros y Hy. apply H; [left; reflexivity|right; exact Hy|apply F, Hy].
  - apply IH. intros a b Ha Hb. apply H; right; assumption.
Qed.
Lemma map_same {Y Z} (f : Y -> Z) (g : Z -> Y) l : (forall x, In x l -> g (f x) = x) -> map g (map f l) = l.
Proof. intros H. rewrite map_map, <- (map_id l) at 1. rewrite map_id. rewrite <- (map_id l) at 2. apply map_ext_in. exact H. Qed.

Section Sets.
  Context (ops : list op) (D : distinct_legs ops) (K : nat) (lo hi : Z).
  Local Notation W := (tagged_string ops).
  Definition in_range (n : nat) : bool := (lo <=? Z.of_nat n)%Z && (Z.of_nat n <=? hi)%Z.
  Definition good_family (p : bool * list (list tleg) * list tleg) : bool := forallb (goodb K) (snd (fst p)) && in_range (length (snd p)).
  Definition good_sets : list (list econ) := map (fun p => map (econ_of ops) (snd (fst p))) (filter good_family (families (length W) W)).
  Lemma legs_perm (g : list tleg) : Permutation (map snd g) (map (pair true) (map snd (cres g)) ++ map (pair false) (map snd (anns g))).
  Proof.
    unfold cres, anns. induction g as [|[n [[|] i]] g IH]; [constructor|..]; cbn [map filter fst snd negb untag app].
    - constructor. exact IH.
    - rewrite IH. apply Permutation_middle.
  Qed.
  Lemma group_perm g : subseq g W -> goodb K g = true -> Permutation (map snd g) (group (econ_of ops g)).
  Proof.
    intros H G. destruct (goodb_cases K g G) as (_ & [(n & m & p & q & -> & _)|[(n & m & p & q & -> & _)|(L & _)]]).
    - rewrite (econ_pair ops D n m p q H). reflexivity.
    - rewrite (econ_hole ops D n m p q H). reflexivity.
    - unfold group, econ_of. cbn [hole upper lower]. rewrite hole_long by exact L. rewrite legs_perm. apply Permutation_app_head, Permutation_map. rewrite <- Permutation_rev. apply Permutation_map. symmetry. apply lowers_perm; assumption.
  Qed.
  Lemma groups_length gs : Forall (fun g => subseq g W) gs -> forallb (goodb K) gs = true -> length (flat_map group (map (econ_of ops) gs)) = length (concat gs).
  Proof.
    intros F G. induction F as [|g gs H F IH]; [reflexivity|]. cbn [forallb] in G. apply andb_true_iff in G as [G1 G2]. cbn [map flat_map concat]. rewrite !app_length, IH by exact G2. rewrite <- (Permutation_length (group_perm g H G1)), map_length. reflexivity.
  Qed.
  Lemma family_open s gs r : In (s, gs, r) (families (length W) W) -> forallb (goodb K) gs = true -> n_open ops (map (econ_of ops) gs) = Z.of_nat (length r).
  Proof.
    intros H G. destruct (family_spec _ _ _ _ _ (le_n _) H) as (F & _ & P). apply reorder_sign_perm, Permutation_length in P. rewrite app_length in P. unfold n_open. rewrite groups_length by (first [exact G|eapply Forall_impl; [|exact F]; intros g Q; apply Q]).
    rewrite <- tagged_snd, map_length. unfold tleg in *. lia.
  Qed.
  Lemma sets_once : lists_each_set_once (wick_set ops K lo hi) good_sets.
  Proof.
    pose proof (tagged_nodup ops D) as NW. destruct (families_once tleg_dec W NW) as (F1 & F2 & F3).
    assert (MEM : forall s gs r, In (s, gs, r) (families (length W) W) -> Forall (fun g => subseq g W) gs) by (intros s gs r H; destruct (family_spec _ _ _ _ _ (le_n _) H) as (F & _); eapply Forall_impl; [|exact F]; intros g Q; apply Q).
    assert (BACK : forall gs, Forall (fun g => subseq g W) gs -> map (group_of ops) (map (econ_of ops) gs) = gs) by (intros gs F; apply map_same; intros g Hg; apply group_econ; [exact D|rewrite Forall_forall in F; apply F, Hg]).
    split; [|split].
    - intros y Hy. apply in_map_iff in Hy as ([[s gs] r] & <- & Hy). apply filter_In in Hy as [Hy G]. unfold good_family in G. cbn [fst snd] in *. apply andb_true_iff in G as [G1 G2].
      destruct (F1 gs) as (N & (Q1 & Q2)); [apply in_map_iff; exists (s, gs, r); auto|]. pose proof (MEM _ _ _ Hy) as M. rewrite Forall_forall in M. rewrite forallb_forall in G1. split.
      + apply (NoDup_map_inv (group_of ops)). rewrite BACK; [exact N|apply Forall_forall; exact M].
      + constructor.
        * apply Forall_map, Forall_forall. intros g Hg. apply good_allowed; [exact D|apply M, Hg|apply G1, Hg].
        * apply pairs_map. apply (pairs_in apart_groups); [|exact Q2]. intros a b Ha Hb. apply apart_disjoint; [exact D|apply subseq_incl, M, Ha|apply subseq_incl, M, Hb].
        * rewrite (family_open s gs r Hy) by (apply forallb_forall; exact G1). unfold in_range in G2. lia.
    - intros s NS [W1 W2 W3]. assert (EC : map (econ_of ops) (map (group_of ops) s) = s) by (apply map_same; intros e He; rewrite Forall_forall in W1; apply (allowed_good ops D K), W1, He).
      assert (GS : grouping W (map (group_of ops) s)).
      { split.
        - apply Forall_map, Forall_forall. intros e He. rewrite Forall_forall in W1. destruct (allowed_good ops D K e (W1 e He)) as [G _]. split; [intros Q; rewrite Q in G; discriminate|apply group_of_sub].
        - apply pairs_map. apply (pairs_in disjoint_con); [|exact W2]. intros a b Ha Hb Q. rewrite Forall_forall in W1. destruct (allowed_good ops D K a (W1 a Ha)) as [_ Ea]. destruct (allowed_good ops D K b (W1 b Hb)) as [_ Eb].
          apply (apart_disjoint ops D); [apply subseq_incl, group_of_sub..|]. rewrite Ea, Eb. exact Q. }
      destruct (F2 (map (group_of ops) s)) as (gs & Hgs & P); [|exact GS|].
      { apply (NoDup_map_inv (econ_of ops)). rewrite EC. exact NS. }
      apply in_map_iff in Hgs as ([[sg gs'] r] & E & Hgs). cbn [fst snd] in E. subst gs'. pose proof (Permutation_map (econ_of ops) P) as P'. rewrite EC in P'. exists (map (econ_of ops) gs). split; [|exact P'].
      apply in_map_iff. exists (sg, gs, r). split; [reflexivity|]. apply filter_In. split; [exact Hgs|]. unfold good_family. cbn [fst snd].
      assert (G : forallb (goodb K) gs = true).
      { apply forallb_forall. intros g Hg. apply (Permutation_in _ P) in Hg. apply in_map_iff in Hg as (e & <- & He). rewrite Forall_forall in W1. apply (allowed_good ops D K), W1, He. }
      rewrite G. cbn [andb]. pose proof (family_open sg gs r Hgs G) as O. assert (O' : n_open ops s = Z.of_nat (length r)) by (rewrite <- O; unfold n_open; rewrite (groups_length_perm _ _ P'); reflexivity). unfold in_range. rewrite <- O'. lia.
    - apply once_pairs. unfold good_sets. apply once_pairs in F3. apply pairs_map_inv in F3. apply pairs_map. apply (pairs_subseq _ _ _ (subseq_filter good_family _)) in F3. refine (pairs_in _ _ _ _ F3).
      intros [[s1 g1] r1] [[s2 g2] r2] H1 H2 Q P. cbn [fst snd] in *. apply Q. apply filter_In in H1 as [H1 _], H2 as [H2 _]. apply (Permutation_map (group_of ops)) in P. rewrite !BACK in P by (eapply MEM; eassumption). exact P.
  Qed.
End Sets.

(** The valuation with values in the extended algebra: tensors are scalars, operators are normal products. *)
Definition in_modes {A : qalg} (B : fermions A) (l : list nat) : bool := forallb (fun p => p <? modes B) l.
Definition lift {A : qalg} (B : fermions A) (v : tvaluation A) : tvaluation (extension B) :=
  TVal (extension B) (fun c n u l => emb B (vtensor v c n u l)) (fun u l => if in_modes B (u ++ l) then normal_value B v (map (pair true) u ++ map (pair false) (rev l)) else q0).
Lemma lift_op {A : qalg} (B : fermions A) (v : tvaluation A) e o : (forall i, In i (cre o ++ ann o) -> e i < modes B) -> op_value (lift B v) e o = oper B (normal_product B v (op_string e o)).
Proof.
  intros H. unfold op_value, lift, normal_value, op_string. cbn [voper]. replace (in_modes B (map e (cre o) ++ map e (ann o))) with true; [rewrite <- map_rev, !map_map; reflexivity|]. symmetry. apply forallb_forall. intros p Hp. rewrite <- map_app in Hp. apply in_map_iff in Hp as (i & <- & Hi). apply Nat.ltb_lt, H, Hi.
Qed.
Lemma lift_tensor {A : qalg} (B : fermions A) (v : tvaluation A) e x : tensor_value (lift B v) e x = emb B (tensor_value v e x).
Proof. reflexivity. Qed.

Section Weights.
  Context {A : qalg} (B : fermions A) (S : system) (v : tvaluation A).
  Context (PH : physical S v) (AU : forall n l, alternates (fun u => vtensor v TCumulant n u l)) (AL : forall n u, alternates (fun l => vtensor v TCumulant n u l)).
  Context (MB : norb S <= modes B) (ops : list op) (D : distinct_legs ops) (OA : Forall op_alpha ops) (K : nat) (lo hi : Z).
  Ltac tlia := unfold tleg in *; lia.
  Context (e : idx -> nat) (HE : forall l, In l (written_string ops) -> In (e (snd l)) (orbitals S (snd l))).
  Context (HK : forall g, subseq g (tagged_string ops) -> 2 <= length (cres g) -> K < length (cres g) -> length (cres g) = length (anns g) -> forallb (fun x : tleg => active_like (snd (snd x))) g = true ->
                forall qs, vtensor v TCumulant "L" (map e (map snd (cres g))) qs = q0).
  Add Ring alg_ring35 : (q_ring A).
  Local Notation E := (extension B).
  Add Ring alg_ring36 : (q_ring E).
  Local Notation W := (tagged_string ops).
  Lemma prod_cons (a : E) l : aprod (a :: l) = (a * aprod l)%alg. Proof. reflexivity. Qed.
  Lemma sum_cons (a : E) l : asum (a :: l) = (a + asum l)%alg. Proof. reflexivity. Qed.
  Definition at_leg (l : leg) : factor := (fst l, e (snd l)).
  Definition at_tagged (x : tleg) : tagged := (fst x, at_leg (snd x)).
  Lemma lift_without d : vden (without_holes E (lift B v) e) d = emb B (vden (without_holes A v e) d).
  Proof.
    destruct d as [k us ls]. destruct k; try reflexivity. destruct us as [|u [|]]; try reflexivity. destruct ls as [|l [|]]; try reflexivity.
    cbn [without_holes vden kind dupper dlower]. rewrite !lift_tensor, emb_sub. f_equal. destruct (_ || _); [reflexivity|apply lift_tensor].
  Qed.
  Lemma leg_orbital n b i : In (n, (b, i)) W -> In (e i) (orbitals S i).
  Proof. intros H. apply (HE (b, i)). rewrite <- tagged_snd. apply (in_map snd) in H. exact H. Qed.
  Lemma orbital_space i : In (e i) (orbitals S i) -> In (lsp (olabel S (e i))) (space_elems (lsp (fst i))).
  Proof. intros H. apply orbitals_in in H as [_ H]. unfold relation in H. apply in_map_iff in H as (s & <- & H). exact H. Qed.
  Lemma elem_space s t : In t (space_elems s) -> t = Sc \/ t = Sa \/ t = Sv.
  Proof. destruct s; cbn; intuition. Qed.
  Lemma share_orbitals bad p q s : In (e p) (orbitals S p) -> In (e q) (orbitals S q) -> lsp (olabel S (e p)) = s -> lsp (olabel S (e q)) = s -> s <> bad -> share bad p q = true.
  Proof. intros Hp Hq Ep Eq N. apply share_spec. exists s. split; [exact N|]. split; [rewrite <- Ep; apply orbital_space, Hp|rewrite <- Eq; apply orbital_space, Hq]. Qed.
  Lemma creators_at (g : list tleg) : creators (map at_leg (map snd g)) = map e (map snd (cres g)).
  Proof. unfold creators, cres. induction g as [|[n [[|] i]] g IH]; [reflexivity|..]; cbn in *; [f_equal|]; exact IH. Qed.
  Lemma annihilators_at (g : list tleg) : annihilators (map at_leg (map snd g)) = map e (map snd (anns g)).
  Proof. unfold annihilators, anns. induction g as [|[n [[|] i]] g IH]; [reflexivity|..]; cbn in *; [|f_equal]; exact IH. Qed.
  Lemma same_tag_at g : same_tag (map at_tagged g) = same_tag g.
  Proof. destruct g as [|x g]; [reflexivity|]. cbn [map same_tag at_tagged fst]. induction g as [|y g IH]; [reflexivity|]. cbn [map forallb]. rewrite IH. reflexivity. Qed.
  Lemma snd_at g : map snd (map at_tagged g) = map at_leg (map snd g).
  Proof. rewrite !map_map. reflexivity. Qed.
  Lemma long_contraction (w : list factor) : length w <> 2 -> contraction v w = cumulant_part v w.
  Proof. intros L. destruct w as [|[[|] q] [|[[|] p] [|z w]]]; try reflexivity. cbn in L. lia. Qed.
  Lemma cumulant_zero u l : (exists p, In p (u ++ l) /\ is_active S p = false) -> length u <> 1 -> vtensor v TCumulant "L" u l = q0.
  Proof. intros (p & H & N) L. apply (ph_higher _ _ PH); [exact L|]. apply existsb_exists. exists p. split; [exact H|]. rewrite N. reflexivity. Qed.
  Lemma not_active_like i : active_like i = false -> In (e i) (orbitals S i) -> is_active S (e i) = false.
  Proof.
    intros H Hi. apply orbital_space in Hi. unfold active_like in H. unfold is_active. destruct i as [[b s] n]. cbn [fst lsp] in *. destruct b; [discriminate|]. destruct s; try discriminate; cbn in Hi; destruct Hi as [<-|[]]; reflexivity.
  Qed.
  (** a group that does not count is worth nothing *)
  Lemma bad_zero g : subseq g W -> goodb K g = false -> cross_weight v (map at_tagged g) = q0.
  Proof.
    intros H G. unfold cross_weight. rewrite same_tag_at, snd_at. destruct (same_tag g) eqn:T; [reflexivity|]. unfold goodb in G. rewrite T in G. cbn [negb andb] in G.
    pose proof (subseq_incl _ _ H) as I.
    assert (LONG : long_good K g = false -> (length g = 2 -> length (cres g) = length (anns g) -> False) -> contraction v (map at_leg (map snd g)) = q0).
    { clear G. intros G N2. destruct (Nat.eq_dec (length g) 2) as [L2|L2].
      - assert (Q : length (cres g) <> length (anns g)) by (intros Q; exact (N2 L2 Q)). destruct g as [|[n [[|] p]] [|[m [[|] q]] [|z g]]]; cbn in L2; try tlia; cbn in Q; try tlia; reflexivity.
      - rewrite long_contraction by (rewrite !map_length; exact L2). unfold cumulant_part. rewrite creators_at, annihilators_at, !map_length. match goal with |- context [0 <? ?n] => destruct (0 <? n) eqn:L0; [|reflexivity] end. cbn [andb]. destruct (length (cres g) =? length (anns g)) eqn:Q; [|reflexivity].
        apply Nat.ltb_lt in L0. apply Nat.eqb_eq in Q. pose proof (count_legs g) as CL. replace (vtensor v TCumulant "L" (map e (map snd (cres g))) (rev (map e (map snd (anns g))))) with (@q0 A); [ring|]. symmetry.
        destruct (forallb (fun x : tleg => active_like (snd (snd x))) g) eqn:F.
        + apply HK; try assumption; [tlia|]. unfold long_good in G. rewrite F in G. rewrite Q, Nat.eqb_refl in G. rewrite <- Q in G. assert (L : 2 <= length (cres g)) by tlia. apply Nat.leb_le in L. rewrite L in G. cbn in G. rewrite !andb_true_r in G. apply Nat.leb_gt in G. exact G.
        + apply cumulant_zero; [|rewrite !map_length; tlia]. assert (X : exists x : tleg, In x g /\ active_like (snd (snd x)) = false).
          { clear - F. induction g as [|x g IH]; [discriminate|]. cbn in F. destruct (active_like (snd (snd x))) eqn:Ex; [destruct (IH F) as (y & Hy & Ey); exists y; split; [right; exact Hy|exact Ey]|exists x; split; [left; reflexivity|exact Ex]]. }
          destruct X as ([n [b i]] & Hx & Ex). cbn [snd] in Ex. exists (e i). split; [|apply not_active_like; [exact Ex|eapply leg_orbital, I, Hx]]. apply in_or_app. destruct b; [left|right; apply -> in_rev]; apply in_map; [apply (in_map snd _ (n, i)), in_cres|apply (in_map snd _ (n, i)), in_anns]; exact Hx. }
    destruct g as [|[n [[|] p]] [|[m [[|] q]] [|z g]]]; try (apply LONG; [exact G|]; cbn; intros; tlia).
    - pose proof (leg_orbital _ _ _ (I _ (or_introl eq_refl))) as Hp. pose proof (leg_orbital _ _ _ (I _ (or_intror (or_introl eq_refl)))) as Hq. clear LONG.
      unfold contraction. cbn [map snd at_leg fst length creators annihilators filter negb crossings rev app Nat.ltb Nat.leb Nat.eqb andb Nat.add sgn Nat.even]. 
      assert (Z0 : vtensor v TCumulant "L" [e p] [e q] = q0); [|rewrite Z0; ring].
      destruct (elem_space _ _ (orbital_space p Hp)) as [Ep|[Ep|Ep]]; [| |apply (ph_one_virtual _ _ PH); left; unfold is_virtual; rewrite Ep; reflexivity].
      + rewrite (ph_one_core _ _ PH) by (left; unfold is_core; rewrite Ep; reflexivity). destruct (Nat.eqb_spec (e p) (e q)) as [Q|Q]; [|reflexivity]. rewrite (share_orbitals Sv p q Sc) in G; [discriminate|assumption..|rewrite <- Q; exact Ep|discriminate].
      + destruct (elem_space _ _ (orbital_space q Hq)) as [Eq|[Eq|Eq]]; [| |apply (ph_one_virtual _ _ PH); right; unfold is_virtual; rewrite Eq; reflexivity].
        * rewrite (ph_one_core _ _ PH) by (right; unfold is_core; rewrite Eq; reflexivity). destruct (Nat.eqb_spec (e p) (e q)) as [Q|Q]; [|reflexivity]. rewrite Q, Eq in Ep. discriminate.
        * rewrite (share_orbitals Sv p q Sa) in G; [discriminate|assumption..|discriminate].
    - pose proof (leg_orbital _ _ _ (I _ (or_introl eq_refl))) as Hq. pose proof (leg_orbital _ _ _ (I _ (or_intror (or_introl eq_refl)))) as Hp. clear LONG. rename p into q', q into p. rename q' into q.
      unfold contraction. cbn [map snd at_leg fst].
      destruct (elem_space _ _ (orbital_space p Hp)) as [Ep|[Ep|Ep]].
      + rewrite (ph_one_core _ _ PH) by (left; unfold is_core; rewrite Ep; reflexivity). ring.
      + destruct (elem_space _ _ (orbital_space q Hq)) as [Eq|[Eq|Eq]].
        * rewrite (ph_one_core _ _ PH) by (right; unfold is_core; rewrite Eq; reflexivity). ring.
        * rewrite (share_orbitals Sc p q Sa) in G; [discriminate|assumption..|discriminate].
        * rewrite (ph_one_virtual _ _ PH) by (right; unfold is_virtual; rewrite Eq; reflexivity). destruct (Nat.eqb_spec (e p) (e q)) as [Q|Q]; [|ring]. rewrite Q, Eq in Ep. discriminate.
      + rewrite (ph_one_virtual _ _ PH) by (left; unfold is_virtual; rewrite Ep; reflexivity). destruct (Nat.eqb_spec (e p) (e q)) as [Q|Q]; [|ring]. rewrite (share_orbitals Sc p q Sv) in G; [discriminate|assumption..|rewrite <- Q; exact Ep|discriminate].
  Qed.
  (** the value of an ordered group *)
  Lemma ordered_cumulant us ls : length us = length ls -> 0 < length us -> cumulant_part v (map at_leg (map (pair true) us ++ map (pair false) (rev ls))) = vtensor v TCumulant "L" (map e us) (map e ls).
  Proof.
    intros L P. unfold cumulant_part. rewrite map_app, !map_map.
    assert (C1 : creators (map (fun x => at_leg (true, x)) us ++ map (fun x => at_leg (false, x)) (rev ls)) = map e us).
    { rewrite creators_app. replace (creators (map (fun x => at_leg (false, x)) (rev ls))) with (@nil nat); [rewrite app_nil_r|].
      - unfold creators. clear. induction us as [|u us IH]; [reflexivity|]. cbn in *. f_equal. exact IH.
      - unfold creators. clear. induction (rev ls) as [|u l IH]; [reflexivity|]. cbn in *. exact IH. }
    assert (C2 : annihilators (map (fun x => at_leg (true, x)) us ++ map (fun x => at_leg (false, x)) (rev ls)) = map e (rev ls)).
    { rewrite annihilators_app. replace (annihilators (map (fun x => at_leg (true, x)) us)) with (@nil nat); [cbn [app]|].
      - unfold annihilators. clear. induction (rev ls) as [|u l IH]; [reflexivity|]. cbn in *. f_equal. exact IH.
      - unfold annihilators. clear. induction us as [|u l IH]; [reflexivity|]. cbn in *. exact IH. }
    assert (C3 : crossings (map (fun x => at_leg (true, x)) us ++ map (fun x => at_leg (false, x)) (rev ls)) = 0).
    { clear. induction us as [|u us IH]; [|cbn in *; exact IH]. cbn [map app]. generalize (rev ls). intros l. induction l as [|u l IH]; [reflexivity|]. cbn [map crossings at_leg fst]. rewrite IH, Nat.add_0_r. clear. induction l as [|u l IH]; [reflexivity|]. exact IH. }
    rewrite C1, C2, C3, <- map_rev, rev_involutive, !map_length, rev_length, L, Nat.eqb_refl. rewrite app_length, !map_length. assert (P' : 0 <? length us + length (rev ls) = true) by (apply Nat.ltb_lt; lia). rewrite P'. cbn [andb]. change (sgn 0) with 1%Z. rewrite (zin_1 A). ring.
  Qed.
  Lemma good_weight g : subseq g W -> goodb K g = true -> exists t, reorder_sign (map snd g) (group (econ_of ops g)) t /\ cross_weight v (map at_tagged g) = (zin t * vden (without_holes A v e) (density_of (econ_of ops g)))%alg.
  Proof.
    intros H G. pose proof (subseq_incl _ _ H) as IW. unfold cross_weight. rewrite same_tag_at, snd_at. destruct (goodb_cases K g G) as (T & [(n & m & p & q & -> & Q)|[(n & m & p & q & -> & Q)|(L & Q)]]); rewrite T.
    - exists 1%Z. rewrite (econ_pair ops D n m p q H). split; [apply reorder_sign_refl|]. reflexivity.
    - exists 1%Z. rewrite (econ_hole ops D n m p q H). split; [apply reorder_sign_refl|]. rewrite (zin_1 A). cbn [map at_leg fst snd contraction density_of hole upper lower without_holes vden kind dupper dlower].
      unfold tensor_value. cbn [tensor_of kind dupper dlower tcls tname tupper tlower map]. rewrite (ph_kronecker _ _ PH).
      pose proof (leg_orbital _ _ _ (IW _ (or_introl eq_refl))) as Hq. pose proof (leg_orbital _ _ _ (IW _ (or_intror (or_introl eq_refl)))) as Hp.
      destruct (space_eqb (lsp (fst p)) Sv || space_eqb (lsp (fst q)) Sv) eqn:V; [|ring]. rewrite (ph_one_virtual _ _ PH); [ring|]. apply orb_true_iff in V as [V|V]; apply space_eqb_eq in V; [left; eapply virtual_orbital; [exact V|exact Hp]|right; eapply virtual_orbital; [exact V|exact Hq]].
    - destruct (reorder_sign_exists _ _ (group_perm ops D K g H G)) as [t R]. exists t. split; [exact R|]. rewrite long_contraction by (rewrite !map_length; tlia). rewrite (alternating_sign A _ (cumulant_part v) _ _ t (cumulant_alternating v AU AL) (proj2 (Forall_forall _ _) (fun _ _ => I)) (reorder_sign_map at_leg _ _ _ R)). f_equal.
      unfold long_good in Q. rewrite !andb_true_iff, !Nat.leb_le, Nat.eqb_eq in Q. destruct Q as (((Q1 & Q2) & Q3) & _). unfold group, density_of, econ_of. cbn [hole upper lower]. rewrite hole_long by exact L. cbn [without_holes vden kind dupper dlower].
      rewrite ordered_cumulant; [reflexivity|rewrite !map_length, (Permutation_length (lowers_perm ops D g H)); exact Q3|rewrite map_length; tlia].
  Qed.
  (** the legs that remain, in the order of the code *)
  Lemma rest_sorted r : subseq r W -> exists sq t, StronglySorted (fun a b => plt idx_ord a b = true) (cre sq) /\ StronglySorted (fun a b => plt idx_ord a b = true) (ann sq) /\ reorder_sign (map snd r) (open_string sq) t.
  Proof.
    intros H. assert (N : NoDup (map snd r)) by (apply (subseq_NoDup _ (map snd W)); [apply subseq_map, H|rewrite tagged_snd; exact D]).
    assert (IN : forall l, In l (map snd r) -> In l (written_string ops)) by (intros l Hl; rewrite <- tagged_snd; apply (subseq_incl _ _ (subseq_map snd _ _ H)), Hl).
    set (fu := filter (fun l : leg => fst l) (map snd r)). set (fl := filter (fun l : leg => negb (fst l)) (map snd r)).
    assert (Iu : forall x, In x fu -> fst x = true /\ In x (map snd r)) by (intros x Hx; apply filter_In in Hx as [? ?]; auto).
    assert (Il : forall x, In x fl -> fst x = false /\ In x (map snd r)) by (intros x Hx; apply filter_In in Hx as [? E1]; apply negb_true_iff in E1; auto).
    destruct (sorted_indices_ok true fu) as (_ & U2 & U3); [apply NoDup_filter, N|intros x Hx; apply Iu, Hx|intros x Hx; apply (written_alpha ops); [exact OA|apply IN, Iu, Hx]|].
    destruct (sorted_indices_ok false fl) as (_ & L2 & L3); [apply NoDup_filter, N|intros x Hx; apply Il, Hx|intros x Hx; apply (written_alpha ops); [exact OA|apply IN, Il, Hx]|].
    assert (P : Permutation (map snd r) (open_string (Op (sorted_indices fu) (sorted_indices fl)))).
    { unfold open_string. cbn [cre ann]. rewrite U2, (Permutation_map (pair false) (Permutation_sym (Permutation_rev (sorted_indices fl)))), L2. unfold fu, fl. clear. induction (map snd r) as [|[[|] i] l IH]; [constructor|..]; cbn [filter fst negb app]; [constructor; exact IH|]. rewrite IH at 1. apply Permutation_middle. }
    destruct (reorder_sign_exists _ _ P) as [t Rt]. exists (Op (sorted_indices fu) (sorted_indices fl)), t. auto.
  Qed.
  Local Notation V := (without_holes E (lift B v) e).
  Lemma leg_mode l : In l (written_string ops) -> e (snd l) < modes B.
  Proof. intros H. apply HE, orbitals_in in H as [H _]. lia. Qed.
  Lemma rest_value r sq t : subseq r W -> reorder_sign (map snd r) (open_string sq) t -> normal_value B v (map snd (map at_tagged r)) = (zin t * vop V sq)%alg.
  Proof.
    intros Sr R. assert (IN : forall l, In l (map snd r) -> In l (written_string ops)) by (intros l Hl; rewrite <- tagged_snd; apply (subseq_incl _ _ (subseq_map snd _ _ Sr)), Hl).
    rewrite snd_at. rewrite (alternating_sign E (mode B) (normal_value B v) (map at_leg (map snd r)) (map at_leg (open_string sq)) t (normal_alternates B v AU AL)); [|apply Forall_map, Forall_forall; intros l Hl; apply leg_mode, IN, Hl|apply (reorder_sign_map at_leg), R].
    f_equal. cbn [without_holes vop]. rewrite lift_op; [unfold normal_value, op_string, open_string; rewrite map_app, !map_map; reflexivity|]. intros i Hi. apply reorder_sign_perm in R. apply in_app_or in Hi. assert (X : exists b, In (b, i) (open_string sq)).
    { unfold open_string. destruct Hi as [Hi|Hi]; [exists true; apply in_or_app; left; apply in_map, Hi|exists false; apply in_or_app; right; apply in_map; apply -> in_rev; exact Hi]. }
    destruct X as [b X]. apply (leg_mode (b, i)), IN. exact (Permutation_in _ (Permutation_sym R) X).
  Qed.
  Lemma groups_weight gs : Forall (fun g => subseq g W) gs -> forallb (goodb K) gs = true ->
    exists t, reorder_sign (concat (map (map snd) gs)) (flat_map group (map (econ_of ops) gs)) t /\ aprod (map (fun g => emb B (cross_weight v (map at_tagged g))) gs) = (zin t * aprod (map (con_value E V) (map (econ_of ops) gs)))%alg.
  Proof.
    induction gs as [|g gs IH]; intros F G; [exists 1%Z; split; [apply reorder_sign_refl|]; cbn [map]; rewrite (zin_1 E); ring|]. inversion F as [|? ? F1 F2]; subst. cbn [forallb] in G. apply andb_true_iff in G as [G1 G2].
    destruct (IH F2 G2) as (t & R & Q). destruct (good_weight g F1 G1) as (t' & R' & Q'). exists (t' * t)%Z. cbn [map concat flat_map]. split; [apply reorder_sign_app; assumption|].
    rewrite !prod_cons, Q, Q', emb_mul, emb_zin, (zin_mul E). unfold con_value at 2. rewrite lift_without. ring.
  Qed.
  Lemma zin_flag s (x : E) : signed s x = (zin (flag s) * x)%alg.
  Proof. destruct s; cbn [signed flag]; [change (-1)%Z with (- (1))%Z; rewrite (zin_opp E)|]; rewrite (zin_1 E); ring. Qed.
  Definition family_term (p : bool * list (list tleg) * list tleg) : E :=
    let '(s, gs, r) := p in signed s (aprod (map (fun g => emb B (cross_weight v (map at_tagged g))) gs) * normal_value B v (map snd (map at_tagged r)))%alg.
  Lemma family_set_value p : In p (families (length W) W) -> good_family K lo hi p = true -> set_value E ops V (map (econ_of ops) (snd (fst p))) (family_term p).
  Proof.
    destruct p as [[s gs] r]. intros H G. unfold good_family in G. cbn [fst snd] in *. apply andb_true_iff in G as [G _]. destruct (family_spec _ _ _ _ _ (le_n _) H) as (F & Sr & R).
    assert (F' : Forall (fun g => subseq g W) gs) by (eapply Forall_impl; [|exact F]; intros g Q; apply Q).
    destruct (groups_weight gs F' G) as (t & Rt & Q). destruct (rest_sorted r Sr) as (sq & t' & S1 & S2 & Rr). exists (flag s * (t * t'))%Z, sq. split.
    - constructor; [exact S1|exact S2|]. apply (reorder_sign_map snd) in R. rewrite tagged_snd, map_app, concat_map in R. eapply reorder_sign_trans; [exact R|]. apply reorder_sign_app; assumption.
    - cbn [family_term]. rewrite Q, (rest_value r sq t' Sr Rr), zin_flag, !(zin_mul E). ring.
  Qed.
  Lemma bad_family p : In p (families (length W) W) -> forallb (goodb K) (snd (fst p)) = false -> family_term p = q0.
  Proof.
    destruct p as [[s gs] r]. intros H G. cbn [fst snd] in *. destruct (family_spec _ _ _ _ _ (le_n _) H) as (F & _ & _). cbn [family_term].
    replace (aprod (map (fun g => emb B (cross_weight v (map at_tagged g))) gs)) with (@q0 E); [destruct s; cbn [signed]; ring|]. symmetry. clear H r. induction F as [|g gs [_ Fg] F IH]; [discriminate|]. cbn [map]. rewrite prod_cons. cbn [forallb] in G. destruct (goodb K g) eqn:Eg; [rewrite IH by exact G; ring|]. rewrite (bad_zero g Fg Eg). change (emb B q0) with (@q0 E). ring.
  Qed.
  (** keeps the normal products with a number of legs in the range and removes the others *)
  Definition truncation (T : B -> B) : Prop := linear B T /\ forall w, Forall (mode B) w -> length w <= length (written_string ops) -> T (normal_product B v w) = if in_range lo hi (length w) then normal_product B v w else n0.
  Lemma term_second T p : truncation T -> In p (families (length W) W) -> second B T (family_term p) = if in_range lo hi (length (snd p)) then family_term p else q0.
  Proof.
    destruct p as [[s gs] r]. intros [LT HT] H. cbn [family_term snd fst]. destruct (family_spec _ _ _ _ _ (le_n _) H) as (_ & Sr & _).
    assert (X : signed s (aprod (map (fun g => emb B (cross_weight v (map at_tagged g))) gs) * normal_value B v (map snd (map at_tagged r)))%alg = oper B (scal (signed s (aprod (map (fun g => cross_weight v (map at_tagged g)) gs))) (normal_product B v (map snd (map at_tagged r))))).
    { rewrite oper_scal, emb_signed, emb_aprod, (map_map _ (emb B)), signed_mul. reflexivity. }
    rewrite X. unfold second. cbn [oper snd]. rewrite (proj2 LT), HT.
    - rewrite !map_length. destruct (in_range lo hi (length r)); [reflexivity|]. rewrite scal_0r. reflexivity.
    - rewrite snd_at. apply Forall_map, Forall_forall. intros l Hl. apply leg_mode. rewrite <- tagged_snd. apply (subseq_incl _ _ (subseq_map snd _ _ Sr)), Hl.
    - rewrite !map_length. rewrite <- tagged_snd, map_length. apply subseq_length, Sr.
  Qed.
  Lemma string_families : asum (map family_term (families (length W) W)) = oper B (nprod (map (fun o => normal_product B v (op_string e o)) ops)).
  Proof.
    pose proof (generalized_wick B v (map (op_string e) ops)) as Q. rewrite map_map in Q. rewrite <- Q.
    assert (EW : tag_all 0 (map (op_string e) ops) = map at_tagged W).
    { unfold tagged_string. unfold at_tagged. rewrite <- (tag_all_map at_leg). f_equal. rewrite map_map. apply map_ext. intros o. unfold op_string, open_string. rewrite map_app, !map_map. reflexivity. }
    rewrite EW. rewrite (family_map E at_tagged (fun g => emb B (cross_weight v g)) (fun r : list tagged => normal_value B v (map snd r)) W (cross_even B v)). reflexivity.
  Qed.
  Lemma asum_filter {Y} (p : Y -> bool) (f : Y -> E) l : asum (map (fun y => if p y then f y else q0) l) = asum (map f (filter p l)).
  Proof. induction l as [|y l IH]; [reflexivity|]. cbn [map filter]. rewrite sum_cons, IH. destruct (p y); cbn [map]; [rewrite sum_cons; reflexivity|ring]. Qed.
  Theorem result_operator T eh result : truncation T -> wick_sum ops eh (wick_set ops K lo hi) result ->
    result_value V result = oper B (T (nprod (map (fun o => normal_product B v (op_string e o)) ops))).
  Proof.
    intros HT WS. destruct (wick_sum_family E ops V eh (wick_set ops K lo hi) result) as (sets & O & FV); [apply without_holes_ok|intros s Hs; apply (wick_set_from ops K lo hi); assumption|exact WS|].
    assert (GV : family_value E ops V (good_sets ops K lo hi) (asum (map family_term (filter (good_family K lo hi) (families (length W) W))))).
    { exists (map family_term (filter (good_family K lo hi) (families (length W) W))). split; [|reflexivity]. unfold good_sets.
      assert (SUB : forall p, In p (filter (good_family K lo hi) (families (length W) W)) -> set_value E ops V (map (econ_of ops) (snd (fst p))) (family_term p)) by (intros p Hp; apply filter_In in Hp as [Hp1 Hp2]; apply family_set_value; assumption).
      induction (filter (good_family K lo hi) (families (length W) W)) as [|p l IH]; cbn [map]; constructor; [apply SUB; left; reflexivity|apply IH; intros q Hq; apply SUB; right; exact Hq]. }
    rewrite (family_once E ops V (wick_set ops K lo hi) sets (good_sets ops K lo hi) _ _ D (fun s Hs => wick_set_from ops K lo hi s OA D Hs) O (sets_once ops D K lo hi) FV GV).
    rewrite <- asum_filter. pose proof string_families as Q. apply (f_equal (second B T)) in Q. rewrite second_sum, map_map in Q by apply HT. match type of Q with _ = second _ _ (oper _ ?x) => change (second B T (oper B x)) with (oper B (T x)) in Q end. rewrite <- Q. f_equal. apply map_ext_in. intros p Hp. rewrite (term_second T p HT Hp). unfold good_family. destruct (forallb (goodb K) (snd (fst p))) eqn:G; cbn [andb]; [reflexivity|]. rewrite (bad_family p Hp G). destruct (in_range _ _ _); reflexivity.
  Qed.
End Weights.
