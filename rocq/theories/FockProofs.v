(** Normal products: they alternate, strings are sums of contracted normal products, and the product of normal products is the
    sum over the contractions between different factors (generalized Wick theorem). *)
From Coq Require Import Ascii String ZArith QArith Qcanon Ring_theory Ring Lia Bool.
From Verif Require Import PyBase ParitySpec ParityProofs SpaceModel IndicesModel ElemModel TermModel BchSpec ValueSpec ValueProofs FamilySpec FamilyProofs IndicesProofs TermSpec FockSpec ExtensionProofs.
Local Close Scope Q_scope.
Local Close Scope Qc_scope.
Local Open Scope nat_scope.
Local Notation length := List.length.

(** ** Alternating functions of lists *)
Section Alternating.
  Context (A : qalg) {X : Type}.
  Add Ring alg_ring32 : (q_ring A).
  Definition alternating_in (P : X -> Prop) (F : list X -> A) : Prop := forall l1 x y l2, P x -> P y -> F (l1 ++ x :: y :: l2) = (- F (l1 ++ y :: x :: l2))%alg.
  Lemma zin_sgn_S n : @zin A (sgn (Datatypes.S n)) = (- zin (sgn n))%alg.
  Proof. unfold sgn. rewrite Nat.even_succ, <- Nat.negb_even. destruct (Nat.even n); cbn [negb]; [change (-1)%Z with (- (1))%Z|change (-1)%Z with (- (1))%Z]; rewrite (zin_opp A); [reflexivity|ring]. Qed.
  Lemma alternating_sign P F l l' (s : Z) : alternating_in P F -> Forall P l -> reorder_sign l l' s -> F l = (zin s * F l')%alg.
  Proof.
    intros H FP (n & W & ->). induction W as [l|n l1 x y l2 l' W IH]; [change (sgn 0) with 1%Z; rewrite (zin_1 A); ring|]. apply Forall_app in FP as [F1 F2]. inversion F2 as [|? ? Px F3]; subst. inversion F3 as [|? ? Py F4]; subst.
    rewrite H, IH, zin_sgn_S by (first [assumption|apply Forall_app; split; [exact F1|constructor; [exact Py|constructor; [exact Px|exact F4]]]]). ring.
  Qed.
End Alternating.

Lemma creators_app u w : creators (u ++ w) = creators u ++ creators w.
Proof. unfold creators. rewrite filter_app, map_app. reflexivity. Qed.
Lemma annihilators_app u w : annihilators (u ++ w) = annihilators u ++ annihilators w.
Proof. unfold annihilators. rewrite filter_app, map_app. reflexivity. Qed.
Lemma count_factors w : length (creators w) + length (annihilators w) = length w.
Proof. induction w as [|[[|] p] w IH]; [reflexivity|..]; cbn in *; unfold creators, annihilators in IH; lia. Qed.
Lemma crossings_app u w : crossings (u ++ w) = crossings u + length (annihilators u) * length (creators w) + crossings w.
Proof.
  induction u as [|[[|] p] u IH]; cbn [app crossings fst]; [reflexivity|exact IH|]. rewrite IH, creators_app, app_length. cbn. unfold annihilators. lia.
Qed.

(** members with the number of the string they come from *)
Fixpoint tag_all {Y} (i : nat) (ws : list (list Y)) : list (nat * Y) :=
  match ws with [] => [] | w :: ws' => map (pair i) w ++ tag_all (Datatypes.S i) ws' end.
Definition same_tag {Y} (g : list (nat * Y)) : bool := match g with [] => true | x :: g' => forallb (fun y => fst y =? fst x) g' end.
Lemma tag_all_snd {Y} (ws : list (list Y)) : forall i, map snd (tag_all i ws) = concat ws.
Proof. induction ws as [|w ws IH]; intros i; [reflexivity|]. cbn [tag_all concat]. rewrite map_app, map_map, IH. f_equal. cbn. apply map_id. Qed.
Lemma tag_all_map {Y Z} (f : Y -> Z) (ws : list (list Y)) : forall i, tag_all i (map (map f) ws) = map (fun x => (fst x, f (snd x))) (tag_all i ws).
Proof. induction ws as [|w ws IH]; intros i; [reflexivity|]. cbn [tag_all map]. rewrite map_app, !map_map, IH. reflexivity. Qed.

Section Contractions.
  Context {A : qalg} (B : fermions A) (v : tvaluation A).
  Context (AU : forall n l, alternates (fun u => vtensor v TCumulant n u l)) (AL : forall n u, alternates (fun l => vtensor v TCumulant n u l)).
  Add Ring alg_ring33 : (q_ring A).
  Local Notation E := (extension B).
  Add Ring alg_ring34 : (q_ring E).
  (** the cumulant alone *)
  Definition cumulant_part (g : list factor) : A :=
    if (0 <? length g) && (length (creators g) =? length (annihilators g)) then (zin (sgn (crossings g)) * vtensor v TCumulant "L" (creators g) (rev (annihilators g)))%alg else q0.
  Definition delta_part (g : list factor) : A :=
    match g with [(false, q); (true, p)] => if p =? q then q1 else q0 | _ => q0 end.
  Lemma contraction_parts g : contraction v g = (cumulant_part g + delta_part g)%alg.
  Proof.
    assert (G : forall g, delta_part g = q0 -> contraction v g = cumulant_part g -> contraction v g = (cumulant_part g + delta_part g)%alg) by (intros g' -> ->; ring).
    destruct g as [|[[|] q] [|[[|] p] [|z g]]]; try (apply G; reflexivity).
    unfold cumulant_part. cbn [contraction delta_part length creators annihilators filter fst snd negb map crossings rev app Nat.ltb Nat.leb Nat.eqb andb Nat.add].
    change (sgn 1) with (- (1))%Z. rewrite (zin_opp A), (zin_1 A). ring.
  Qed.
  Lemma vlower_rev u l1 x y l2 : vtensor v TCumulant "L" u (rev (l1 ++ x :: y :: l2)) = (- vtensor v TCumulant "L" u (rev (l1 ++ y :: x :: l2)))%alg.
  Proof. rewrite !rev_app_distr. cbn [rev]. rewrite <- !app_assoc. cbn [app]. apply (AL "L" u). Qed.
  Lemma cumulant_alternating : alternating_in A (fun _ => True) cumulant_part.
  Proof.
    intros l1 x y l2 _ _. unfold cumulant_part.
    assert (L : forall u w, length (l1 ++ u :: w :: l2) = length l1 + length l2 + 2) by (intros; rewrite app_length; cbn; lia). rewrite !L.
    assert (C : length (creators (l1 ++ x :: y :: l2)) = length (creators (l1 ++ y :: x :: l2))) by (rewrite !creators_app, !app_length; f_equal; destruct x as [[|] p], y as [[|] q]; reflexivity).
    assert (N : length (annihilators (l1 ++ x :: y :: l2)) = length (annihilators (l1 ++ y :: x :: l2))) by (rewrite !annihilators_app, !app_length; f_equal; destruct x as [[|] p], y as [[|] q]; reflexivity).
    rewrite C, N. destruct (_ && _); [|ring]. destruct x as [[|] p], y as [[|] q]; rewrite !creators_app, !annihilators_app, !crossings_app; cbn [crossings fst]; unfold creators, annihilators; cbn [filter fst snd negb map length]; fold (creators l1) (creators l2) (annihilators l1) (annihilators l2).
    - rewrite (AU "L"). cbn [Nat.add]. ring.
    - replace (length (annihilators l1) * Datatypes.S (length (creators l2)) + (0 + (length (creators l2) + crossings l2))) with (length (annihilators l1) * Datatypes.S (length (creators l2)) + (length (creators l2) + crossings l2)) by lia.
      match goal with |- (zin (sgn ?a) * ?c)%alg = (- (zin (sgn ?b) * ?c))%alg => replace b with (Datatypes.S a) by lia end. rewrite zin_sgn_S. ring.
    - match goal with |- (zin (sgn ?a) * ?c)%alg = (- (zin (sgn ?b) * ?c))%alg => replace a with (Datatypes.S b) by lia end. rewrite zin_sgn_S. ring.
    - rewrite vlower_rev. match goal with |- (zin (sgn ?a) * _)%alg = (- (zin (sgn ?b) * _))%alg => replace a with b by lia end. ring.
  Qed.
  Definition anticommutator (x y : factor) : A := if xorb (fst x) (fst y) && (snd x =? snd y) then q1 else q0.
  Lemma contraction_swap g1 g2 x y : g1 ++ g2 <> [] -> contraction v (g1 ++ x :: y :: g2) = (- contraction v (g1 ++ y :: x :: g2))%alg.
  Proof.
    intros H. rewrite !contraction_parts, cumulant_alternating by exact I.
    assert (D : forall u w, delta_part (g1 ++ u :: w :: g2) = q0).
    { intros [[|] p] [[|] q]; destruct g1 as [|[[|] ?] [|[[|] ?] [|? ?]]], g2 as [|? ?]; try reflexivity; exfalso; apply H; reflexivity. }
    rewrite !D. ring.
  Qed.
  Lemma contraction_pair x y : (contraction v [x; y] + contraction v [y; x])%alg = anticommutator x y.
  Proof.
    rewrite !contraction_parts. pose proof (cumulant_alternating [] x y [] I I) as Q. cbn [app] in Q. rewrite Q. unfold anticommutator. destruct x as [[|] p], y as [[|] q]; cbn [delta_part fst snd xorb andb]; try ring. rewrite (Nat.eqb_sym q p). ring.
  Qed.
  Lemma contraction_even g : Nat.odd (length g) = true -> contraction v g = q0.
  Proof.
    intros H. rewrite contraction_parts. unfold cumulant_part. assert (N : length (creators g) <> length (annihilators g)).
    { intros Q. pose proof (count_factors g) as C. rewrite <- C, Q in H. replace (length (annihilators g) + length (annihilators g)) with (2 * length (annihilators g)) in H by lia. rewrite Nat.odd_mul in H. discriminate. }
    apply Nat.eqb_neq in N. rewrite N, andb_false_r. destruct g as [|[[|] ?] [|[[|] ?] [|? ?]]]; cbn [delta_part]; try ring. discriminate.
  Qed.
  Lemma contraction_nil : contraction v [] = q0. Proof. reflexivity. Qed.

  (** ** strings and normal products *)
  Definition weight (g : list factor) : E := emb B (contraction v g).
  Definition opposite (g : list factor) : E := emb B (- contraction v g)%alg.
  Definition product_value (w : list factor) : E := oper B (string_product B w).
  Definition normal_value (w : list factor) : E := oper B (normal_product B v w).
  Lemma weight_even : even E weight.
  Proof. intros g H. unfold weight. rewrite contraction_even by exact H. reflexivity. Qed.
  Lemma opposite_even : even E opposite.
  Proof. intros g H. unfold opposite. rewrite contraction_even by exact H. rewrite emb_opp. change (emb B q0) with (@q0 E). ring. Qed.
  Lemma normal_sum w : normal_value w = family_sum opposite product_value w.
  Proof. unfold normal_value, normal_product. symmetry. apply (family_oper B (fun g => (- contraction v g)%alg) (string_product B)). Qed.
  Lemma inverse_family F w : family_sum weight (family_sum opposite F) w = F w.
  Proof.
    rewrite <- family_family by (apply weight_even || apply opposite_even). rewrite (family_ext E (plus E weight opposite) (fun _ => q0) F F).
    - apply family_zero.
    - intros g H. unfold plus. rewrite weight_even, opposite_even by exact H. ring.
    - intros g _. reflexivity.
    - intros g _. unfold plus, weight, opposite. rewrite emb_opp. ring.
    - reflexivity.
  Qed.
  Theorem string_contractions w : product_value w = family_sum weight normal_value w.
  Proof. rewrite (family_rest E weight normal_value (family_sum opposite product_value)) by (try apply weight_even; intros; apply normal_sum). symmetry. apply inverse_family. Qed.
  Lemma string_app u w : string_product B (u ++ w) = nmul (string_product B u) (string_product B w).
  Proof. unfold string_product. rewrite map_app. generalize (map (fun x : factor => if fst x then (creator (snd x) : B) else annihilator (snd x)) u) as l. intros l. induction l as [|x l IH]; cbn [app nprod fold_right]; [symmetry; apply nmul_1l|]. unfold nprod in IH. rewrite IH. apply nmul_assoc. Qed.
  Definition mode (x : factor) : Prop := snd x < modes B.
  Lemma pair_swap x y : mode x -> mode y -> string_product B [x; y] = nadd (nopp (string_product B [y; x])) (scal (anticommutator x y) n1).
  Proof.
    intros Mx My. unfold mode in *. unfold string_product, anticommutator. cbn [map nprod fold_right]. rewrite !nmul_1r.
    assert (G : forall a b c : B, nadd a b = c -> a = nadd (nopp b) c) by (intros a b c <-; rewrite (nadd_comm _ a b), nadd_assoc, (nadd_comm _ (nopp b) b), nadd_opp, nadd_0; reflexivity).
    apply G. destruct x as [[|] p], y as [[|] q]; cbn [fst snd xorb andb] in *.
    - rewrite anti_creators, scal_0l by assumption. reflexivity.
    - rewrite nadd_comm, anti_mixed, Nat.eqb_sym by assumption. destruct (p =? q); [rewrite scal_1|rewrite scal_0l]; reflexivity.
    - rewrite anti_mixed by assumption. destruct (p =? q); [rewrite scal_1|rewrite scal_0l]; reflexivity.
    - rewrite anti_annihilators, scal_0l by assumption. reflexivity.
  Qed.
  Lemma string_swap l1 x y l2 : mode x -> mode y -> product_value (l1 ++ x :: y :: l2) = (- product_value (l1 ++ y :: x :: l2) + emb B (anticommutator x y) * product_value (l1 ++ l2))%alg.
  Proof.
    intros Mx My. unfold product_value. rewrite <- oper_opp, <- oper_scal, <- oper_add. f_equal. change (x :: y :: l2) with ([x; y] ++ l2). change (y :: x :: l2) with ([y; x] ++ l2). rewrite !string_app, pair_swap by assumption.
    rewrite nmul_addl, nmul_addr. f_equal.
    - rewrite <- (linear_opp B (fun z => nmul (string_product B l1) z)) by apply linear_left. f_equal. rewrite <- (linear_opp B (fun z => nmul z (string_product B l2))) by apply linear_right. reflexivity.
    - rewrite scal_mull, nmul_1l, scal_mulr. reflexivity.
  Qed.
  Theorem normal_alternates : alternating_in E mode normal_value.
  Proof.
    intros l1 x y l2 Mx My. rewrite !normal_sum. apply (family_swap E opposite x y (emb B (anticommutator x y)) opposite_even).
    - intros g1 g2 H. unfold opposite. rewrite contraction_swap by exact H. rewrite !emb_opp. ring.
    - unfold opposite. rewrite <- emb_add, <- emb_opp. f_equal. rewrite <- contraction_pair. ring.
    - intros r1 r2. apply string_swap; assumption.
  Qed.
  Lemma normal_nil : normal_product B v [] = n1.
  Proof. unfold normal_product. cbn. rewrite scal_1, nadd_0r. reflexivity. Qed.

  (** ** products *)
  Definition tagged : Type := (nat * factor)%type.
  Definition cross_weight (g : list tagged) : A := if same_tag g then q0 else contraction v (map snd g).
  Definition inner_weight (g : list tagged) : A := if same_tag g then contraction v (map snd g) else q0.
  Lemma tag_all_above (ws : list (list factor)) : forall i, forallb (fun x : tagged => negb (fst x =? i)) (tag_all (Datatypes.S i) ws) = true.
  Proof.
    intros i. apply forallb_forall. assert (G : forall j, i < j -> forall x, In x (tag_all j ws) -> negb (fst x =? i) = true).
    { induction ws as [|w ws IH]; intros j Hj x Hx; [destruct Hx|]. cbn [tag_all] in Hx. apply in_app_or in Hx as [Hx|Hx]; [|apply (IH (Datatypes.S j)); [lia|exact Hx]]. apply in_map_iff in Hx as (y & <- & _). cbn [fst]. apply negb_true_iff, Nat.eqb_neq. lia. }
    intros x Hx. exact (G _ (Nat.lt_succ_diag_r i) x Hx).
  Qed.
  Lemma same_tag_map i (w : list factor) : same_tag (map (pair i) w) = true.
  Proof. destruct w as [|x w]; [reflexivity|]. cbn [map same_tag fst]. apply forallb_forall. intros y Hy. apply in_map_iff in Hy as (z & <- & _). apply Nat.eqb_refl. Qed.
  Lemma inner_even : even E (fun g => emb B (- inner_weight g)%alg).
  Proof. intros g H. unfold inner_weight. destruct (same_tag g); [rewrite contraction_even by (rewrite map_length; exact H)|]; rewrite emb_opp; change (emb B q0) with (@q0 E); ring. Qed.
  Lemma cross_even : even E (fun g => emb B (cross_weight g)).
  Proof. intros g H. unfold cross_weight. destruct (same_tag g); [|rewrite contraction_even by (rewrite map_length; exact H)]; reflexivity. Qed.
  Lemma inner_product ws : forall i, family_sum (A := E) (fun g => emb B (- inner_weight g)%alg) (fun r : list tagged => oper B (string_product B (map snd r))) (tag_all i ws) = oper B (nprod (map (normal_product B v) ws)).
  Proof.
    induction ws as [|w ws IH]; intros i; cbn [tag_all map]; [rewrite family_nil; reflexivity|].
    rewrite (family_parts E (fun x : tagged => negb (fst x =? i))); [|exact inner_even| |apply forallb_forall; intros y Hy; apply in_map_iff in Hy as (z & <- & _); cbn [fst]; rewrite Nat.eqb_refl; reflexivity|apply tag_all_above].
    2:{ intros g H1 H2. unfold inner_weight. destruct (same_tag g) eqn:Q; [|rewrite emb_opp; change (emb B q0) with (@q0 E); ring]. exfalso. apply existsb_exists in H1 as (a & Ha & H1). apply existsb_exists in H2 as (b & Hb & H2). rewrite negb_involutive in H2. apply Nat.eqb_eq in H2. apply negb_true_iff, Nat.eqb_neq in H1. destruct g as [|x g]; [destruct Ha|]. cbn [same_tag] in Q. rewrite forallb_forall in Q.
        assert (U : forall y, In y (x :: g) -> fst y = fst x) by (intros y [<-|Hy]; [reflexivity|apply Nat.eqb_eq, Q, Hy]). rewrite (U a Ha) in H1. rewrite (U b Hb) in H2. contradiction. }
    set (R := nprod (map (normal_product B v) ws)) in *.
    rewrite (family_rest E _ _ (fun r1 : list tagged => oper B (nmul (string_product B (map snd r1)) R))); [|exact inner_even|].
    2:{ intros r1 _. rewrite (family_rest E _ _ (fun r2 : list tagged => oper B (nmul (string_product B (map snd r1)) (string_product B (map snd r2))))); [|exact inner_even|intros r2 _; rewrite map_app, string_app; reflexivity].
        rewrite <- (family_linear B (fun z => nmul (string_product B (map snd r1)) z) (fun g => (- inner_weight g)%alg) (fun r2 : list tagged => string_product B (map snd r2))) by apply linear_left. rewrite IH. reflexivity. }
    rewrite <- (family_linear B (fun z => nmul z R) (fun g => (- inner_weight g)%alg) (fun r : list tagged => string_product B (map snd r))) by apply linear_right.
    rewrite (family_map E) by exact inner_even. rewrite (family_ext E _ opposite _ product_value).
    - rewrite <- normal_sum. reflexivity.
    - intros g H. apply inner_even. rewrite map_length. exact H.
    - exact opposite_even.
    - intros g _. unfold inner_weight, opposite. rewrite same_tag_map, map_map. cbn. rewrite map_id. reflexivity.
    - intros r _. unfold product_value. rewrite map_map. cbn. rewrite map_id. reflexivity.
  Qed.
  Theorem generalized_wick ws : family_sum (A := E) (fun g => emb B (cross_weight g)) (fun r : list tagged => normal_value (map snd r)) (tag_all 0 ws) = oper B (nprod (map (normal_product B v) ws)).
  Proof.
    rewrite <- (inner_product ws 0). set (whole := fun g : list tagged => weight (map snd g)).
    assert (We : even E whole) by (intros g H; apply weight_even; rewrite map_length; exact H).
    rewrite (family_rest E _ (fun r : list tagged => oper B (string_product B (map snd r))) (family_sum whole (fun r : list tagged => normal_value (map snd r)))); [|exact inner_even|].
    - rewrite <- family_family by (first [exact inner_even|exact We]). apply family_ext; [exact cross_even| |intros g _|reflexivity].
      + intros g H. unfold plus. rewrite inner_even, We by exact H. ring.
      + unfold plus, whole, weight, cross_weight, inner_weight. rewrite emb_opp. destruct (same_tag g); change (emb B q0) with (@q0 E); ring.
    - intros r _. pose proof (string_contractions (map snd r)) as Q. unfold product_value in Q. rewrite Q. exact (family_map E snd weight normal_value r weight_even).
  Qed.
End Contractions.
