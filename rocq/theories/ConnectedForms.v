(** The contractions dropped by the connected product of two or three operators, as forms in the strings of the operators. *)
From Coq Require Import Ascii String ZArith QArith Qcanon Ring_theory Ring Lia Bool.
From Verif Require Import PyBase OrderSpec ParitySpec ParityProofs SpaceModel IndicesModel IndicesProofs IterProofs ElemModel ElemSpec ElemProofs TermModel ValueSpec ValueProofs TermSpec SumProofs SymmetrySpec FamilySpec FamilyProofs FamilySets FockSpec ExtensionProofs FockProofs FockWick FockValue
  ConnectedFamilies.
Local Close Scope Q_scope.
Local Close Scope Qc_scope.
Local Open Scope nat_scope.
Local Notation length := List.length.

Lemma touches_app {Y} z (g h : list (nat * Y)) : touches z (g ++ h) = touches z g || touches z h.
Proof. apply existsb_app. Qed.
Lemma same_tag_swap {Y} (g1 g2 : list (nat * Y)) x y : same_tag (g1 ++ x :: y :: g2) = same_tag (g1 ++ y :: x :: g2).
Proof.
  apply eq_true_iff_eq. assert (G : forall (l l' : list (nat * Y)), (forall z, In z l -> In z l') -> same_tag l' = true -> same_tag l = true).
  { intros [|a l] [|b l'] H T; try reflexivity; [destruct (H a (or_introl eq_refl))|]. cbn [same_tag] in *. rewrite forallb_forall in *. assert (U : forall z, In z (a :: l) -> fst z = fst b) by (intros z Hz; destruct (H z Hz) as [<-|Hz']; [reflexivity|apply Nat.eqb_eq, T, Hz']).
    intros z Hz. rewrite (U z (or_intror Hz)), (U a (or_introl eq_refl)). apply Nat.eqb_refl. }
  split; apply G; intros z Hz; apply in_app_or in Hz as [Hz|[Hz|[Hz|Hz]]]; apply in_or_app; auto; right; cbn [In]; auto.
Qed.

Lemma same_tag_any {Y} (g : list (nat * Y)) : (forall x y, In x g -> In y g -> fst x = fst y) -> same_tag g = true.
Proof. destruct g as [|x g]; [reflexivity|]. intros H. cbn. apply forallb_forall. intros y Hy. apply Nat.eqb_eq. apply H; [right; exact Hy|left; reflexivity]. Qed.

Section Forms.
  Context {A : qalg} (B : fermions A) (v : tvaluation A).
  Context (AU : forall n l, alternates (fun u => vtensor v TCumulant n u l)) (AL : forall n u, alternates (fun l => vtensor v TCumulant n u l)).
  Context (lo hi : Z).
  Add Ring alg_ring92 : (q_ring A).
  Local Notation E := (extension B).
  Add Ring alg_ring93 : (q_ring E).
  Definition rest (r : list tagged) : E := if forallb (fun x : tagged => snd (snd x) <? modes B) r && in_range lo hi (length r) then normal_value B v (map snd r) else q0.
  Definition cross (g : list tagged) : E := emb B (cross_weight v g).
  Definition limited (z : nat -> bool) (pl : bool) : list tagged -> E := away z (if pl then pairless cross else cross).
  Lemma limited_even z pl : even E (limited z pl).
  Proof. apply away_even. destruct pl; [apply pairless_even|]; apply cross_even. Qed.
  Lemma rest_swaps x y : swaps rest x y.
  Proof.
    intros g1 g2. unfold rest. rewrite !app_length. cbn [length]. assert (M : forallb (fun x : tagged => snd (snd x) <? modes B) (g1 ++ x :: y :: g2) = forallb (fun x : tagged => snd (snd x) <? modes B) (g1 ++ y :: x :: g2)).
    { rewrite !forallb_app. cbn [forallb]. f_equal. rewrite !andb_assoc, (andb_comm (_ <? _)). reflexivity. }
    rewrite <- M. destruct (forallb _ _) eqn:Q; cbn [andb]; [|ring]. destruct (in_range _ _ _); [|ring]. rewrite !map_app. cbn [map]. rewrite forallb_app in Q. cbn [forallb] in Q. rewrite !andb_true_iff, !Nat.ltb_lt in Q. apply (normal_alternates B v AU AL); unfold mode; tauto.
  Qed.
  Lemma long_group (w : list factor) : length w <> 2 -> contraction v w = cumulant_part v w.
  Proof. intros L. destruct w as [|[[|] q] [|[[|] p] [|z w]]]; try reflexivity. cbn in L. lia. Qed.
  Lemma cross_swap g1 g2 x y : length (g1 ++ x :: y :: g2) <> 2 -> cross (g1 ++ x :: y :: g2) = (- cross (g1 ++ y :: x :: g2))%alg.
  Proof.
    intros L. unfold cross, cross_weight. assert (ST : same_tag (g1 ++ x :: y :: g2) = same_tag (g1 ++ y :: x :: g2)) by apply same_tag_swap. rewrite ST. clear ST. assert (L' : length (g1 ++ y :: x :: g2) <> 2) by (rewrite app_length in *; cbn [length] in *; exact L).
    destruct (same_tag _); [change (emb B q0) with (@q0 E); ring|]. rewrite !long_group by (rewrite map_length; assumption). rewrite !map_app. cbn [map]. rewrite (cumulant_alternating v AU AL) by exact I. apply emb_opp.
  Qed.
  Lemma limited_swaps z pl x y : pl = true \/ z (fst x) = true \/ z (fst y) = true -> swaps (limited z pl) x y.
  Proof.
    intros H g1 g2. unfold limited, away. assert (T : touches z (g1 ++ x :: y :: g2) = touches z (g1 ++ y :: x :: g2)) by (rewrite !touches_app; f_equal; unfold touches; cbn [existsb]; rewrite !orb_assoc, (orb_comm (z (fst x))); reflexivity). rewrite <- T.
    destruct (touches z (g1 ++ x :: y :: g2)) eqn:Q; [ring|]. destruct H as [->|H].
    - unfold pairless. assert (LE : length (g1 ++ y :: x :: g2) = length (g1 ++ x :: y :: g2)) by (rewrite !app_length; reflexivity). rewrite LE. destruct (Nat.eqb_spec (length (g1 ++ x :: y :: g2)) 2) as [L|L]; [ring|]. apply cross_swap, L.
    - exfalso. rewrite touches_app in Q. apply orb_false_iff in Q as [_ Q]. unfold touches in Q. cbn [existsb] in Q. apply orb_false_iff in Q as [Q1 Q]. apply orb_false_iff in Q as [Q2 _]. destruct H; congruence.
  Qed.
  Definition blocks (bs : list (nat * list factor)) : list tagged := flat_map (fun b => map (pair (fst b)) (snd b)) bs.
  Definition form (z : nat -> bool) (pl : bool) (bs : list (nat * list factor)) : E := family_sum (limited z pl) rest (blocks bs).
  Lemma form_swap z pl p a b q : pl = true \/ z (fst a) = true \/ z (fst b) = true -> Nat.even (length (snd b)) = true -> form z pl (p ++ a :: b :: q) = form z pl (p ++ b :: a :: q).
  Proof.
    intros H Ev. unfold form, blocks. rewrite !flat_map_app. cbn [flat_map]. apply block_swap; [apply limited_even| |rewrite map_length; exact Ev]. intros x y Hx Hy. split; [|apply rest_swaps]. apply limited_swaps.
    apply in_map_iff in Hx as (x' & <- & _), Hy as (y' & <- & _). exact H.
  Qed.
  Lemma form_retag (s : nat -> nat) z pl bs : (forall i j, s i = s j -> i = j) -> form z pl (map (fun b => (s (fst b), snd b)) bs) = form (fun n => z (s n)) pl bs.
  Proof.
    intros IJ. unfold form. set (f := fun x : tagged => (s (fst x), snd x) : tagged).
    assert (EB : blocks (map (fun b => (s (fst b), snd b)) bs) = map f (blocks bs)) by (unfold blocks; induction bs as [|b bs IH]; [reflexivity|]; cbn [map flat_map fst snd]; rewrite map_app, IH, map_map; reflexivity).
    rewrite EB, family_map by apply limited_even.
    assert (ST : forall g, same_tag (map f g) = same_tag g).
    { intros [|x g]; [reflexivity|]. cbn [map same_tag f fst]. induction g as [|y g IH]; [reflexivity|]. cbn [map forallb f fst]. rewrite IH. f_equal. apply eq_true_iff_eq. rewrite !Nat.eqb_eq. split; [apply IJ|intros ->; reflexivity]. }
    assert (SN : forall g, map snd (map f g) = map snd g) by (intros g; rewrite map_map; reflexivity).
    apply family_ext; [intros g Hg; apply limited_even; rewrite map_length; exact Hg|apply limited_even| |].
    - intros g _. unfold limited, away. assert (T : touches z (map f g) = touches (fun n => z (s n)) g) by exact (touches_map (fun x => x) s z g). rewrite T. destruct (touches _ g); [reflexivity|]. assert (C : cross (map f g) = cross g) by (unfold cross, cross_weight; rewrite ST, SN; reflexivity). destruct pl; [unfold pairless; rewrite map_length, C; reflexivity|exact C].
    - intros r _. unfold rest. rewrite SN, map_length. assert (M : forallb (fun x : tagged => snd (snd x) <? modes B) (map f r) = forallb (fun x : tagged => snd (snd x) <? modes B) r) by (induction r as [|x r IH]; [reflexivity|]; cbn [map forallb]; rewrite IH; reflexivity). rewrite M. reflexivity.
  Qed.
  Lemma form_ext z z' pl bs : (forall n, z n = z' n) -> form z pl bs = form z' pl bs.
  Proof.
    intros H. unfold form. apply family_ext; [apply limited_even..| |reflexivity]. intros g _. unfold limited, away. assert (T : touches z g = touches z' g) by (unfold touches; induction g as [|x g IH]; [reflexivity|]; cbn [existsb]; rewrite H, IH; reflexivity). rewrite T. reflexivity.
  Qed.
  (** ** The dropped part *)
  Definition drop (us : list (list factor)) : E :=
    asum (map (fun p : bool * list (list tagged) * list tagged => let '(s, gs, r) := p in if dropped (length us) gs then signed s (aprod (map cross gs) * rest r)%alg else q0) (families (length (tag_all 0 us)) (tag_all 0 us))).
  Lemma cross_same g : same_tag g = true -> cross g = q0.
  Proof. intros H. unfold cross, cross_weight. rewrite H. reflexivity. Qed.
  Lemma tag_all_tags {Y} (us : list (list Y)) : forall i y, In y (tag_all i us) -> i <= fst y < i + length us.
  Proof.
    induction us as [|u us IH]; intros i y H; [destruct H|]. cbn [tag_all length] in *. apply in_app_or in H as [H|H]; [apply in_map_iff in H as (z & <- & _); cbn; lia|]. specialize (IH _ _ H). lia.
  Qed.
  Lemma drop_forms us : length us <= 3 ->
    drop us = (family_sum (pairless cross) rest (tag_all 0 us) + asum (map (fun x => (family_sum (limited (Nat.eqb x) false) rest (tag_all 0 us) - family_sum (limited (Nat.eqb x) true) rest (tag_all 0 us))%alg) (seq 0 (length us))))%alg.
  Proof. intros L. apply dropped_sum; [exact L|exact cross_same|]. intros y Hy. apply tag_all_tags in Hy. lia. Qed.
  Definition nobody : nat -> bool := fun _ => false.
  Lemma pairless_form us : family_sum (pairless cross) rest us = family_sum (limited nobody true) rest us.
  Proof. apply family_ext; [apply pairless_even, cross_even|apply limited_even| |reflexivity]. intros g _. unfold limited, away, nobody. assert (T : touches (Y := factor) (fun _ => false) g = false) by (unfold touches; induction g; [reflexivity|assumption]). rewrite T. reflexivity. Qed.
  Definition N3 (a b c : list factor) : E := form nobody true [(0, a); (1, b); (2, c)].
  Definition G3 (a b c : list factor) : E := (form (Nat.eqb 0) false [(0, a); (1, b); (2, c)] - form (Nat.eqb 0) true [(0, a); (1, b); (2, c)])%alg.
  Definition swap01 (n : nat) : nat := match n with 0 => 1 | 1 => 0 | _ => n end.
  Definition swap12 (n : nat) : nat := match n with 1 => 2 | 2 => 1 | _ => n end.
  Definition turn (n : nat) : nat := match n with 0 => 2 | 1 => 0 | 2 => 1 | _ => n end.
  Lemma swap01_inj i j : swap01 i = swap01 j -> i = j. Proof. destruct i as [|[|i]], j as [|[|j]]; cbn; congruence. Qed.
  Lemma swap12_inj i j : swap12 i = swap12 j -> i = j. Proof. destruct i as [|[|[|i]]], j as [|[|[|j]]]; cbn; congruence. Qed.
  Lemma turn_inj i j : turn i = turn j -> i = j. Proof. destruct i as [|[|[|i]]], j as [|[|[|j]]]; cbn; congruence. Qed.
  Ltac step t H := let Q := fresh "Q" in pose proof t as Q; cbn [app fst snd] in Q; rewrite Q by (first [exact H|left; reflexivity|right; right; reflexivity]); clear Q.
  Section Even.
    Context (a b c : list factor) (Ea : Nat.even (length a) = true) (Eb : Nat.even (length b) = true) (Ec : Nat.even (length c) = true).
    Lemma N3_first : N3 a b c = N3 b a c.
    Proof.
      unfold N3. step (form_swap nobody true [] (0, a) (1, b) [(2, c)]) Eb. exact (form_retag swap01 nobody true [(0, b); (1, a); (2, c)] swap01_inj).
    Qed.
    Lemma N3_last : N3 a b c = N3 a c b.
    Proof.
      unfold N3. step (form_swap nobody true [(0, a)] (1, b) (2, c) []) Ec. exact (form_retag swap12 nobody true [(0, a); (1, c); (2, b)] swap12_inj).
    Qed.
    Lemma second_out pl : form (Nat.eqb 1) pl [(0, a); (1, b); (2, c)] = form (Nat.eqb 0) pl [(0, b); (1, a); (2, c)].
    Proof.
      step (form_swap (Nat.eqb 1) pl [] (0, a) (1, b) [(2, c)]) Eb. rewrite <- (form_ext (fun n => Nat.eqb 1 (swap01 n)) (Nat.eqb 0)) by (intros [|[|n]]; reflexivity). exact (form_retag swap01 (Nat.eqb 1) pl [(0, b); (1, a); (2, c)] swap01_inj).
    Qed.
    Lemma third_out pl : form (Nat.eqb 2) pl [(0, a); (1, b); (2, c)] = form (Nat.eqb 0) pl [(0, c); (1, a); (2, b)].
    Proof.
      step (form_swap (Nat.eqb 2) pl [(0, a)] (1, b) (2, c) []) Ec. step (form_swap (Nat.eqb 2) pl [] (0, a) (2, c) [(1, b)]) Ec.
      rewrite <- (form_ext (fun n => Nat.eqb 2 (turn n)) (Nat.eqb 0)) by (intros [|[|[|n]]]; reflexivity). exact (form_retag turn (Nat.eqb 2) pl [(0, c); (1, a); (2, b)] turn_inj).
    Qed.
    Lemma drop3 : drop [a; b; c] = (N3 a b c + (G3 a b c + (G3 b a c + G3 c a b)))%alg.
    Proof.
      rewrite drop_forms by (cbn; lia). rewrite pairless_form. change (family_sum (limited nobody true) rest (tag_all 0 [a; b; c])) with (N3 a b c). cbn [length seq map].
      repeat match goal with |- context [family_sum (limited ?z ?pl) rest (tag_all 0 [a; b; c])] => change (family_sum (limited z pl) rest (tag_all 0 [a; b; c])) with (form z pl [(0, a); (1, b); (2, c)]) end.
      rewrite !second_out, !third_out, !(FamilyProofs.sum_cons E). change (@asum E []) with (@q0 E). unfold G3. ring.
    Qed.
  End Even.
  Theorem drop3_nested h b c : Nat.even (length h) = true -> Nat.even (length b) = true -> Nat.even (length c) = true ->
    (drop [h; b; c] - drop [b; h; c] - (drop [c; h; b] - drop [c; b; h]))%alg = q0.
  Proof.
    intros Eh Eb Ec. rewrite !drop3 by assumption. rewrite (N3_first b h c), (N3_first c h b), (N3_last h c b), (N3_first c b h), (N3_last b c h), (N3_first b h c) by assumption. ring.
  Qed.
  Theorem drop2_commutator h b : Nat.even (length h) = true -> Nat.even (length b) = true -> (drop [h; b] - drop [b; h])%alg = q0.
  Proof.
    intros Eh Eb.
    assert (D : forall a b, drop [a; b] = form nobody true [(0, a); (1, b)]).
    { intros a c. rewrite drop_forms by (cbn; lia). rewrite pairless_form. rewrite (sum_zero E); [change (family_sum (limited nobody true) rest (tag_all 0 [a; c])) with (form nobody true [(0, a); (1, c)]); ring|]. intros x Hx.
      assert (Q : family_sum (limited (Nat.eqb x) false) rest (tag_all 0 [a; c]) = family_sum (limited (Nat.eqb x) true) rest (tag_all 0 [a; c])); [|rewrite Q; ring]. apply family_in; [apply limited_even..| |reflexivity].
      intros g Hg. unfold limited, away. destruct (touches (Nat.eqb x) g) eqn:T; [reflexivity|]. assert (ST : same_tag g = true); [|unfold pairless; rewrite (cross_same g ST); destruct (_ =? _); reflexivity].
      apply (same_tag_any). intros y y' Hy Hy'. cbn in Hx. assert (U : forall y, In y g -> fst y < 2 /\ fst y <> x).
      { intros w Hw. split; [apply Hg, tag_all_tags in Hw; cbn in Hw; lia|]. intros <-. apply not_true_iff_false in T. apply T, existsb_exists. exists w. split; [exact Hw|apply Nat.eqb_refl]. }
      destruct (U y Hy), (U y' Hy'). lia. }
    rewrite !D. step (form_swap nobody true [] (0, h) (1, b) []) Eb. pose proof (form_retag swap01 nobody true [(0, b); (1, h)] swap01_inj) as Q. cbn [map fst snd swap01] in Q. rewrite Q. unfold nobody. ring.
  Qed.
End Forms.
