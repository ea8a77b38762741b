(** canonicalize_sympy: labels of dummy indices with the same orbital label may be exchanged at will. *)
From Coq Require Import Ascii String ZArith QArith Qcanon Sorting.Sorted Lia.
From Verif Require Import PyBase OrderSpec OrderProofs SortProofs ParitySpec ParityProofs SpaceModel IndexProofs IndicesModel IterProofs IndicesProofs SpaceProofs ElemModel MacroModel TermModel ValueSpec ValueProofs TermSpec SumProofs TermProofs RenameProofs
  SimplifyProofs CanonProofs SymmetryModel SymmetrySpec SymmetryProofs SympyProofs SympyValue SympyShape MergeMoves.
Local Close Scope Q_scope.
Local Close Scope Qc_scope.
Local Open Scope nat_scope.
Local Notation length := List.length.

(** ** Runs of equal keys *)
Lemma neighbours_accumulate {B} (gs1 : list (list B)) g gs2 s : In (s + length (concat gs1), s + length (concat gs1) + length g) (neighbours (s :: accumulate s (map (@length B) (gs1 ++ g :: gs2)))).
Proof.
  revert s. induction gs1 as [|g1 gs1 IH]; intros s; cbn [app map accumulate concat length]; rewrite neighbours_cons.
  - left. f_equal; lia.
  - right. specialize (IH (s + length g1)). rewrite app_length. replace (s + (length g1 + length (concat gs1))) with (s + length g1 + length (concat gs1)) by lia. exact IH.
Qed.
Lemma groupby_head {B K} (eqk : K -> K -> bool) (key : B -> K) x l : exists ys gs, groupby eqk key (x :: l) = (x :: ys) :: gs.
Proof. cbn [groupby]. destruct (groupby eqk key l) as [|[|y ys] gs]; [eauto|eauto|]. destruct (eqk _ _); eauto. Qed.
Lemma groupby_same {B K} (eqk : K -> K -> bool) (key : B -> K) (d : B) (RE : forall a, eqk a a = true) (EE : forall a b, eqk a b = true -> a = b) : forall l k q, k <= q -> q < length l ->
  (forall j, k <= j <= q -> key (nth j l d) = key (nth k l d)) -> exists gs1 g gs2, groupby eqk key l = gs1 ++ g :: gs2 /\ length (concat gs1) <= k /\ q < length (concat gs1) + length g.
Proof.
  induction l as [|x l IH]; intros k q KQ Q H; [cbn in Q; lia|]. destruct k as [|k].
  - destruct q as [|q]; [destruct (groupby_head eqk key x l) as (ys & gs & ->); exists [], (x :: ys), gs; cbn; split; [reflexivity|lia]|].
    destruct (IH 0 q) as (gs1 & g & gs2 & E & L1 & L2); [lia|cbn in Q; lia|intros j Hj; transitivity (key x); [apply (H (S j)); lia|symmetry; apply (H 1); lia]|].
    destruct l as [|y l]; [cbn in Q; lia|]. destruct (groupby_head eqk key y l) as (ys & gs & E'). change (groupby eqk key (x :: y :: l)) with (match groupby eqk key (y :: l) with (y :: ys) :: gs => if eqk (key x) (key y) then (x :: y :: ys) :: gs else [x] :: (y :: ys) :: gs | gs => [x] :: gs end).
    rewrite E'. assert (Kxy : key x = key y) by (symmetry; apply (H 1); lia). rewrite Kxy, RE. exists [], (x :: y :: ys), gs. split; [reflexivity|]. split; [cbn; lia|]. rewrite E' in E. destruct gs1 as [|g1 gs1].
    + injection E as <- _. cbn in *. lia.
    + injection E as <- _. cbn in L1. lia.
  - destruct q as [|q]; [lia|]. destruct (IH k q) as (gs1 & g & gs2 & E & L1 & L2); [lia|cbn in Q; lia|intros j Hj; apply (H (S j)); lia|].
    cbn [groupby]. rewrite E. destruct gs1 as [|[|y ys] gs1]; cbn [app] in *.
    + destruct g as [|y ys]; [exists [[x]], [], gs2; cbn in *; split; [reflexivity|lia]|]. destruct (eqk (key x) (key y)); [exists [], (x :: y :: ys), gs2|exists [[x]], (y :: ys), gs2]; (split; [reflexivity|]); cbn in *; lia.
    + exists ([x] :: [] :: gs1), g, gs2. split; [reflexivity|]. cbn in *. lia.
    + destruct (eqk (key x) (key y)); [exists ((x :: y :: ys) :: gs1), g, gs2|exists ([x] :: (y :: ys) :: gs1), g, gs2]; (split; [reflexivity|]); cbn in *; lia.
Qed.
Lemma label_after x y : ple idx_ord x y = true -> priority (fst x) <= priority (fst y).
Proof.
  unfold idx_ord. cbn [ple pair_ord]. unfold pair_op, idx_key. cbn [fst snd nat_ord peq ple]. destruct (priority (fst x) =? priority (fst y)) eqn:E; [apply Nat.eqb_eq in E; lia|]. intros H. apply Nat.leb_le in H. exact H.
Qed.
Lemma sorted_nth {B} (o : pyord B) (L : lawful o) d l : le_sorted o l -> forall j k, j <= k -> k < length l -> ple o (nth j l d) (nth k l d) = true.
Proof.
  induction 1 as [|x l H IH F]; intros j k JK K; [cbn in K; lia|]. destruct j as [|j], k as [|k]; cbn [nth length] in *; try lia; [apply (ple_refl o L)| |apply IH; lia]. rewrite Forall_forall in F. apply F, nth_In. lia.
Qed.
Lemma one_range dummy d k l : le_sorted idx_ord dummy -> k < length dummy -> l < length dummy -> fst (nth k dummy d) = fst (nth l dummy d) ->
  exists a b, In (2 * a, 2 * b) (dummy_ranges dummy) /\ a <= k < b /\ a <= l < b.
Proof.
  intros SD. assert (G : forall k l, k <= l -> k < length dummy -> l < length dummy -> fst (nth k dummy d) = fst (nth l dummy d) -> exists a b, In (2 * a, 2 * b) (dummy_ranges dummy) /\ a <= k < b /\ a <= l < b).
  { clear k l. intros k l KL K L E. destruct (groupby_same label_eqb fst d (fun a => proj2 (label_ext a a) eq_refl) (fun a b => proj1 (label_ext a b)) dummy k l KL L) as (gs1 & g & gs2 & EG & L1 & L2).
    - intros j Hj. apply priority_inj. pose proof (label_after _ _ (sorted_nth idx_ord idx_lawful d dummy SD k j (proj1 Hj) ltac:(lia))) as P1. pose proof (label_after _ _ (sorted_nth idx_ord idx_lawful d dummy SD j l (proj2 Hj) L)) as P2. apply (f_equal priority) in E. unfold idx in *. lia.
    - exists (length (concat gs1)), (length (concat gs1) + length g). split; [|lia]. unfold dummy_ranges. rewrite EG. apply in_map_iff. exists (length (concat gs1), length (concat gs1) + length g). split; [reflexivity|]. apply (neighbours_accumulate gs1 g gs2 0). }
  intros K L E. destruct (le_lt_dec k l) as [H|H]; [apply G; assumption|]. destruct (G l k) as (a & b & H1 & H2 & H3); [lia|exact L|exact K|symmetry; exact E|]. exists a, b. auto.
Qed.

(** ** Relabelling *)
Section Relabel.
  Context (sl : list (list nat)) (dummy : list idx) (d0 : idx) (N : nat) (SD : le_sorted idx_ord dummy) (HD : N = 2 * length dummy).
  Let M := length dummy.
  Notation E := (equivalent_form sl (dummy_symmetries N (dummy_ranges dummy))).
  Definition swap2 (i j i' j' x : nat) : nat := if x =? i then j else if x =? j then i else if x =? i' then j' else if x =? j' then i' else x.
  (** labels of one index go to labels of one index with the same orbital label *)
  Record relabelling (f : nat -> nat) : Prop := {
    rl_range : forall x, x < N -> f x < N; rl_inj : forall x y, x < N -> y < N -> f x = f y -> x = y;
    rl_pair : forall k, k < M -> f (2 * k) / 2 = f (2 * k + 1) / 2; rl_label : forall x, x < N -> fst (nth (f x / 2) dummy d0) = fst (nth (x / 2) dummy d0);
    rl_tail : f N = N /\ f (N + 1) = N + 1 }.
  Lemma half_lt x : x < N -> x / 2 < M.
  Proof. intros H. apply Nat.div_lt_upper_bound; unfold M; lia. Qed.
  Lemma pair_half f x y : relabelling f -> x < N -> y < N -> x / 2 = y / 2 -> f x / 2 = f y / 2.
  Proof.
    intros R Hx Hy HE. pose proof (half_lt x Hx) as K. pose proof (rl_pair f R _ K) as P. rewrite HE in P.
    destruct (halves x) as [Ex|Ex], (halves y) as [Ey|Ey]; rewrite Ex, Ey, HE; congruence.
  Qed.
  Lemma relabelling_compose f g : relabelling f -> relabelling g -> relabelling (fun x => f (g x)).
  Proof.
    intros Rf Rg. constructor.
    - intros x Hx. apply (rl_range f Rf), (rl_range g Rg), Hx.
    - intros x y Hx Hy H. apply (rl_inj g Rg); [exact Hx|exact Hy|]. apply (rl_inj f Rf); [apply (rl_range g Rg), Hx|apply (rl_range g Rg), Hy|exact H].
    - intros k Hk. apply (pair_half f); [exact Rf|apply (rl_range g Rg); unfold M in Hk; lia|apply (rl_range g Rg); unfold M in Hk; lia|apply (rl_pair g Rg), Hk].
    - intros x Hx. rewrite (rl_label f Rf) by (apply (rl_range g Rg), Hx). apply (rl_label g Rg), Hx.
    - destruct (rl_tail f Rf) as [F1 F2], (rl_tail g Rg) as [G1 G2]. rewrite G1, G2. auto.
  Qed.
  Lemma swap2_invol i j i' j' x : i <> i' -> i <> j' -> j <> i' -> j <> j' -> swap2 i j i' j' (swap2 i j i' j' x) = x.
  Proof.
    intros. unfold swap2. destruct (Nat.eqb_spec x i) as [->|]; [|destruct (Nat.eqb_spec x j) as [->|]; [|destruct (Nat.eqb_spec x i') as [->|]; [|destruct (Nat.eqb_spec x j') as [->|]]]]; repeat eqb_cases; congruence.
  Qed.
  Lemma flip_invol k x : swap2 (2 * k) (2 * k + 1) (2 * k) (2 * k + 1) (swap2 (2 * k) (2 * k + 1) (2 * k) (2 * k + 1) x) = x.
  Proof. unfold swap2. destruct (Nat.eqb_spec x (2 * k)) as [->|]; [|destruct (Nat.eqb_spec x (2 * k + 1)) as [->|]]; repeat eqb_cases; lia. Qed.
  (** a generator: an exchange of two indices of the same kind, or of the two labels of an index *)
  Definition generator (f : nat -> nat) : Prop := (forall x, f (f x) = x) /\ relabelling f /\ In (map f (seq 0 (N + 2))) (dummy_symmetries N (dummy_ranges dummy)).
  Lemma flip_generator k : k < M -> generator (swap2 (2 * k) (2 * k + 1) (2 * k) (2 * k + 1)).
  Proof.
    intros Hk. split; [apply flip_invol|]. assert (HH : forall x, swap2 (2 * k) (2 * k + 1) (2 * k) (2 * k + 1) x / 2 = x / 2).
    { intros x. unfold swap2. repeat (eqb_cases; [subst x; rewrite ?half_even, ?half_odd; reflexivity|]). reflexivity. }
    split.
    - constructor.
      + intros x Hx. unfold swap2, M in *. repeat eqb_cases; lia.
      + intros x y _ _ H. apply (f_equal (swap2 (2 * k) (2 * k + 1) (2 * k) (2 * k + 1))) in H. rewrite !flip_invol in H. exact H.
      + intros q _. rewrite !HH, half_even, half_odd. reflexivity.
      + intros x _. rewrite HH. reflexivity.
      + unfold swap2, M in *. split; repeat (eqb_cases; [lia|]); reflexivity.
    - destruct (one_range dummy d0 k k SD Hk Hk eq_refl) as (a & b & Hr & Hab & _). unfold dummy_symmetries. apply in_flat_map. exists (2 * a, 2 * b). split; [exact Hr|]. cbn [fst snd]. rewrite !half_even. apply in_or_app. left.
      apply in_map_iff. exists k. split; [reflexivity|]. apply in_seq. lia.
  Qed.
  Lemma exchange_generator k l : k <> l -> k < M -> l < M -> fst (nth k dummy d0) = fst (nth l dummy d0) -> generator (swap2 (2 * k) (2 * l) (2 * k + 1) (2 * l + 1)).
  Proof.
    intros KL Hk Hl HE. set (f := swap2 (2 * k) (2 * l) (2 * k + 1) (2 * l + 1)). assert (IV : forall x, f (f x) = x) by (intros x; apply swap2_invol; lia). split; [exact IV|].
    assert (HH : forall x, f x / 2 = if x / 2 =? k then l else if x / 2 =? l then k else x / 2).
    { intros x. unfold f, swap2. eqb_cases; [subst x; rewrite !half_even, Nat.eqb_refl; reflexivity|]. eqb_cases; [subst x; rewrite !half_even, Nat.eqb_refl; destruct (Nat.eqb_spec l k); lia|].
      eqb_cases; [subst x; rewrite !half_odd, Nat.eqb_refl; reflexivity|]. eqb_cases; [subst x; rewrite !half_odd, Nat.eqb_refl; destruct (Nat.eqb_spec l k); lia|]. pose proof (halves x). repeat eqb_cases; lia. }
    split.
    - constructor.
      + intros x Hx. unfold f, swap2, M in *. repeat eqb_cases; lia.
      + intros x y _ _ H. apply (f_equal f) in H. rewrite !IV in H. exact H.
      + intros q _. rewrite !HH, half_even, half_odd. reflexivity.
      + intros x _. rewrite HH. eqb_cases; [rewrite Ex; symmetry; exact HE|]. eqb_cases; [rewrite Ex0; exact HE|reflexivity].
      + unfold f, swap2, M in *. split; repeat (eqb_cases; [lia|]); reflexivity.
    - destruct (one_range dummy d0 k l SD Hk Hl HE) as (a & b & Hr & Hk' & Hl'). unfold dummy_symmetries. apply in_flat_map. exists (2 * a, 2 * b). split; [exact Hr|]. cbn [fst snd]. rewrite !half_even. apply in_or_app. right.
      apply in_map_iff. exists (k, l). split; [reflexivity|]. apply in_prod; apply in_seq; lia.
  Qed.

  Lemma undo f d g : relabelling f -> generator d -> Forall (fun x => x < N + 2) g -> E g (map (fun x => d (f x)) g) -> E g (map f g).
  Proof.
    intros Rf (IV & Rd & Hd) Fg H. assert (Q : map f g = compose (map d (seq 0 (N + 2))) (map (fun x => d (f x)) g)).
    { assert (LT : forall h x, relabelling h -> x < N + 2 -> h x < N + 2). { intros h x Rh Hx. destruct (lt_dec x N) as [L|L]; [pose proof (rl_range h Rh x L); lia|]. destruct (rl_tail h Rh) as [T1 T2]. assert (Q : x = N \/ x = N + 1) by lia. destruct Q as [->| ->]; lia. }
      rewrite compose_map, map_map; [apply map_ext; intros x; symmetry; apply IV|]. rewrite Forall_forall in *. intros y Hy. apply in_map_iff in Hy as (x & <- & Hx). apply (LT d); [exact Rd|]. apply (LT f); [exact Rf|apply Fg, Hx]. }
    rewrite Q. apply ef_dummy; [exact H|exact Hd].
  Qed.
  Lemma relabel_form : forall m f g, relabelling f -> (forall x, x < N -> x / 2 < M - m -> f x = x) -> Forall (fun x => x < N + 2) g -> E g (map f g).
  Proof.
    induction m as [|m IH]; intros f g Rf FX Fg.
    - replace (map f g) with g; [apply ef_refl|]. symmetry. rewrite <- (map_id g) at 2. apply map_ext_in. intros x Hx. rewrite Forall_forall in Fg. specialize (Fg x Hx). destruct (lt_dec x N) as [L|L]; [apply FX; [exact L|pose proof (half_lt x L); lia]|].
      destruct (rl_tail f Rf) as [T1 T2]. assert (Q : x = N \/ x = N + 1) by lia. destruct Q as [->| ->]; assumption.
    - destruct (le_lt_dec M m) as [Q|Q]; [apply IH; [exact Rf|intros x Hx; lia|exact Fg]|]. set (k := M - Datatypes.S m) in *. assert (Hk : k < M) by (unfold k; lia). assert (K2 : 2 * k + 1 < N) by (unfold M in *; lia).
      (** it is enough to move the labels 2k and 2k+1 back, one generator after the other *)
      assert (ST : forall f, relabelling f -> (forall x, x < N -> x / 2 < k -> f x = x) -> f (2 * k) / 2 = k -> E g (map f g)).
      { clear f Rf FX. intros f Rf FX Ek.
        assert (S2 : forall f, relabelling f -> (forall x, x < N -> x / 2 < k -> f x = x) -> f (2 * k) = 2 * k -> E g (map f g)).
        { clear f Rf FX Ek. intros f Rf FX Ek. apply IH; [exact Rf| |exact Fg]. intros x Hx Hm. destruct (Nat.eq_dec (x / 2) k) as [Exk|Nxk]; [|apply FX; [exact Hx|unfold k in *; lia]].
          destruct (halves x) as [Ex|Ex]; rewrite Exk in Ex; subst x; [exact Ek|]. pose proof (rl_pair f Rf k Hk) as P. rewrite Ek, half_even in P. destruct (halves (f (2 * k + 1))) as [Ey|Ey]; rewrite <- P in Ey; [|exact Ey].
          assert (2 * k + 1 = 2 * k) by (apply (rl_inj f Rf); lia). lia. }
        destruct (halves (f (2 * k))) as [Ey|Ey]; rewrite Ek in Ey; [apply S2; assumption|]. set (d := swap2 (2 * k) (2 * k + 1) (2 * k) (2 * k + 1)). pose proof (flip_generator k Hk) as Gd. fold d in Gd.
        apply (undo f d g Rf Gd Fg). apply S2; [apply relabelling_compose; [apply Gd|exact Rf]| |].
        - intros x Hx Hm. rewrite (FX x Hx Hm). unfold d, swap2. pose proof (halves x). repeat (eqb_cases; [lia|]). reflexivity.
        - rewrite Ey. unfold d, swap2. repeat eqb_cases; lia. }
      destruct (Nat.eq_dec (f (2 * k) / 2) k) as [Ek|Nk]; [apply ST; assumption|]. set (l := f (2 * k) / 2) in *. assert (Hf : f (2 * k) < N) by (apply (rl_range f Rf); lia). assert (Hl : l < M) by (apply half_lt, Hf).
      assert (KL : k < l).
      { destruct (le_lt_dec l k) as [H|H]; [exfalso|exact H]. assert (Hlk : l < k) by lia. assert (F1 : f (2 * l) = 2 * l) by (apply FX; [unfold M in *; lia|rewrite half_even; exact Hlk]). assert (F2 : f (2 * l + 1) = 2 * l + 1) by (apply FX; [unfold M in *; lia|rewrite half_odd; exact Hlk]).
        destruct (halves (f (2 * k))) as [Ey|Ey]; fold l in Ey; [assert (2 * k = 2 * l) by (apply (rl_inj f Rf); [lia|unfold M in *; lia|congruence]); lia|assert (2 * k = 2 * l + 1) by (apply (rl_inj f Rf); [lia|unfold M in *; lia|congruence]); lia]. }
      set (d := swap2 (2 * k) (2 * l) (2 * k + 1) (2 * l + 1)). assert (Gd : generator d). { apply exchange_generator; [lia|exact Hk|exact Hl|]. pose proof (rl_label f Rf (2 * k)) as P. rewrite half_even in P. fold l in P. symmetry. apply P. lia. }
      apply (undo f d g Rf Gd Fg). apply ST; [apply relabelling_compose; [apply Gd|exact Rf]| |].
      + intros x Hx Hm. rewrite (FX x Hx Hm). unfold d, swap2. pose proof (halves x). repeat (eqb_cases; [lia|]). reflexivity.
      + destruct (halves (f (2 * k))) as [Ey|Ey]; fold l in Ey; rewrite Ey; unfold d, swap2; repeat (eqb_cases; [first [apply half_even|apply half_odd|lia]|]); lia.
  Qed.
End Relabel.
