(** Two even operators: the contractions dropped by the connected driver are the same in A*B and B*A. *)
From Verif Require Import PyBase OrderSpec OrderProofs ParitySpec ParityProofs SpaceModel IndicesModel IndicesProofs IterProofs HalfProofs ElemModel ElemSpec CumulantProofs CompatSpec
  WickModel WickSpec WickProofs DriverProofs ConnectedProofs ValueSpec ValueProofs.
From Coq Require Import ZArith QArith Qcanon Ring_theory Ring Relations.
Local Close Scope Q_scope.
Local Close Scope Qc_scope.
Local Open Scope nat_scope.

Definition has_pairb (s : list econ) : bool := existsb (fun e => length (upper e) =? 1) s.
Lemma has_pairb_ok s : has_pairb s = true <-> has_pair s.
Proof.
  unfold has_pairb, has_pair. rewrite existsb_exists. split; intros [e [H1 H2]]; exists e; (split; [exact H1|]); [apply Nat.eqb_eq, H2|apply Nat.eqb_eq, H2].
Qed.

Lemma set_once_filter {B} (P Q : list B -> Prop) (f : list B -> bool) ys : (forall y, f y = true <-> Q y) -> (forall y z, Permutation y z -> f y = f z) ->
  lists_each_set_once P ys -> lists_each_set_once (fun s => P s /\ Q s) (filter f ys).
Proof.
  intros Hf Hp (H1 & H2 & H3). split; [|split].
  - intros y Hy. apply filter_In in Hy as [Hy Fy]. destruct (H1 y Hy) as [N G]. split; [exact N|]. split; [exact G|apply Hf, Fy].
  - intros s N [G G']. destruct (H2 s N G) as [y [Hy Py]]. exists y. split; [|exact Py]. apply filter_In. split; [exact Hy|]. rewrite (Hp y s Py). apply Hf, G'.
  - apply once_pairs. apply once_pairs in H3. clear H1 H2. induction H3 as [|y ys F O IH]; cbn [filter]; [constructor|]. destruct (f y); [|exact IH]. constructor; [|exact IH].
    rewrite Forall_forall in *. intros z Hz. apply filter_In in Hz as [Hz _]. apply F, Hz.
Qed.
Lemma existsb_perm {B} (f : B -> bool) l m : Permutation l m -> existsb f l = existsb f m.
Proof. intros P. apply eq_true_iff_eq. rewrite !existsb_exists. split; intros [x [H1 H2]]; exists x; (split; [|exact H2]); [apply (Permutation_in _ P), H1|apply (Permutation_in _ (Permutation_sym P)), H1]. Qed.

(** ** swapping the two operators inside a cumulant *)
Definition mem_i (x : idx) (l : list idx) : bool := existsb (idx_eqb x) l.
Definition swap_list (front l : list idx) : list idx := filter (fun x => mem_i x front) l ++ filter (fun x => negb (mem_i x front)) l.
Definition swap_con (B : op) (e : econ) : econ := Con (hole e) (swap_list (cre B) (upper e)) (swap_list (ann B) (lower e)).

Lemma mem_i_in x l : mem_i x l = true <-> In x l.
Proof.
  unfold mem_i. rewrite existsb_exists. split; [intros [y [H1 H2]]; apply idx_eqb_eq in H2; congruence|]. intros H. exists x. split; [exact H|apply idx_eqb_eq; reflexivity].
Qed.
Lemma swap_list_app front a b : (forall x, In x a -> ~ In x front) -> incl b front -> swap_list front (a ++ b) = b ++ a.
Proof.
  intros Ha Hb. unfold swap_list. rewrite !filter_app.
  rewrite (filter_false _ a), (filter_true _ b), (filter_true _ a), (filter_false _ b); [rewrite app_nil_r; reflexivity| | | |].
  - intros x Hx. apply negb_false_iff, mem_i_in, Hb, Hx.
  - intros x Hx. apply negb_true_iff. destruct (mem_i x front) eqn:E; [|reflexivity]. apply mem_i_in in E. destruct (Ha x Hx E).
  - intros x Hx. apply mem_i_in, Hb, Hx.
  - intros x Hx. destruct (mem_i x front) eqn:E; [|reflexivity]. apply mem_i_in in E. destruct (Ha x Hx E).
Qed.

Definition act (l : list idx) : list idx := filter active_like l.
(** a cumulant of level k over A and B *)
Record two_cumulant (A B : op) (K : nat) (e : econ) (c0 c1 a0 a1 : list idx) : Prop := {
  tc_level : 2 <= length (c0 ++ c1) <= K;
  tc_len : length (a0 ++ a1) = length (c0 ++ c1);
  tc_c0 : subseq c0 (act (cre A)); tc_c1 : subseq c1 (act (cre B));
  tc_a0 : subseq a0 (act (ann A)); tc_a1 : subseq a1 (act (ann B));
  tc_left : c0 ++ a0 <> []; tc_right : c1 ++ a1 <> [];
  tc_eq : e = Con false (c0 ++ c1) (a0 ++ a1) }.

Lemma two_allowed A B K e : length (upper e) <> 1 -> allowed [A; B] K e -> exists c0 c1 a0 a1, two_cumulant A B K e c0 c1 a0 a1.
Proof.
  intros L [key H|k c a Hk Sc Sa Lc La No ->].
  - destruct H as [? ? ? ? ? ? ? ? ? ? ? ?|? ? ? ? ? ? ? ? ? ? ? ?]; cbn in L; contradiction.
  - unfold cre_legs, ann_legs, legs in Sc, Sa. cbn [map enumerate flat_map fst snd] in Sc, Sa. rewrite app_nil_r in Sc, Sa.
    apply subseq_app_inv in Sc as (c0 & c1 & -> & S0 & S1). apply subseq_app_inv in Sa as (a0 & a1 & -> & S2 & S3).
    apply subseq_map_inv in S0 as (c0' & -> & S0). apply subseq_map_inv in S1 as (c1' & -> & S1).
    apply subseq_map_inv in S2 as (a0' & -> & S2). apply subseq_map_inv in S3 as (a1' & -> & S3).
    assert (Ec : forall p q : list idx, map snd (map (pair 0) p ++ map (pair 1) q) = p ++ q) by (intros p q; rewrite map_app, !map_map; cbn; rewrite !map_id; reflexivity).
    exists c0', c1', a0', a1'. rewrite app_length, !map_length in Lc, La. constructor; try assumption.
    + rewrite app_length. lia.
    + rewrite !app_length. lia.
    + intros E. apply app_eq_nil in E as [-> ->]. apply No. cbn [map app]. rewrite !map_map. cbn. intros x y Hx Hy.
      apply in_app_iff in Hx. apply in_app_iff in Hy. rewrite !in_map_iff in Hx, Hy. destruct Hx as [[? [<- _]]|[? [<- _]]], Hy as [[? [<- _]]|[? [<- _]]]; reflexivity.
    + intros E. apply app_eq_nil in E as [-> ->]. apply No. cbn [map app]. rewrite !app_nil_r, !map_map. cbn. intros x y Hx Hy.
      apply in_app_iff in Hx. apply in_app_iff in Hy. rewrite !in_map_iff in Hx, Hy. destruct Hx as [[? [<- _]]|[? [<- _]]], Hy as [[? [<- _]]|[? [<- _]]]; reflexivity.
    + rewrite !Ec. reflexivity.
Qed.
Lemma two_allowed_rev A B K e c0 c1 a0 a1 : two_cumulant A B K e c0 c1 a0 a1 -> allowed [A; B] K e /\ length (upper e) <> 1.
Proof.
  intros [Lv Ln S0 S1 S2 S3 Nl Nr ->]. split; [|cbn; lia].
  assert (Ec : forall p q : list idx, map snd (map (pair 0) p ++ map (pair 1) q) = p ++ q) by (intros p q; rewrite map_app, !map_map; cbn; rewrite !map_id; reflexivity).
  apply (allowed_cumulant _ _ _ (length (c0 ++ c1)) (map (pair 0) c0 ++ map (pair 1) c1) (map (pair 0) a0 ++ map (pair 1) a1)).
  - exact Lv.
  - unfold cre_legs, legs. cbn [map enumerate flat_map fst snd]. rewrite app_nil_r. apply subseq_app; apply subseq_map; assumption.
  - unfold ann_legs, legs. cbn [map enumerate flat_map fst snd]. rewrite app_nil_r. apply subseq_app; apply subseq_map; assumption.
  - rewrite !app_length, !map_length. reflexivity.
  - rewrite <- Ln, !app_length, !map_length. reflexivity.
  - intros O.
    assert (I0 : In 0 (map fst (map (pair 0) c0 ++ map (pair 1) c1) ++ map fst (map (pair 0) a0 ++ map (pair 1) a1))).
    { destruct c0 as [|x c0]; [destruct a0 as [|x a0]; [contradiction|]|left; reflexivity]. apply in_app_iff. right. left. reflexivity. }
    assert (I1 : In 1 (map fst (map (pair 0) c0 ++ map (pair 1) c1) ++ map fst (map (pair 0) a0 ++ map (pair 1) a1))).
    { rewrite !map_app, !map_map. cbn. rewrite !in_app_iff. destruct c1 as [|x c1]; [destruct a1 as [|x a1]; [contradiction|]|]; cbn; tauto. }
    discriminate (O 0 1 I0 I1).
  - rewrite !Ec. reflexivity.
Qed.

Lemma reorder_flat {X} (f : X -> X) (g : X -> list leg) (t : X -> Z) s : (forall e, In e s -> reorder_sign (g e) (g (f e)) (t e)) ->
  reorder_sign (flat_map g s) (flat_map g (map f s)) (fold_right Z.mul 1%Z (map t s)).
Proof.
  intros H. induction s as [|e s IH]; cbn [flat_map map fold_right]; [apply reorder_sign_refl|]. apply reorder_sign_app; [apply H; left; reflexivity|].
  apply IH. intros x Hx. apply H. right. exact Hx.
Qed.

Lemma n_open_two A B s : n_open [B; A] s = n_open [A; B] s.
Proof. unfold n_open, written_string. cbn [flat_map]. rewrite !app_nil_r, !app_length. lia. Qed.
Lemma distinct_two A B : distinct_legs [A; B] -> distinct_legs [B; A].
Proof. unfold distinct_legs, written_string. cbn [flat_map]. rewrite !app_nil_r. intros N. eapply Permutation_NoDup; [|exact N]. apply Permutation_app_comm. Qed.

Section Two.
  Context (A B : op) (D : distinct_legs [A; B]).
  Let even (o : op) := exists k, length (cre o) + length (ann o) = 2 * k.

  Lemma cre_apart x : In x (cre A) -> ~ In x (cre B).
  Proof.
    intros H1 H2. unfold distinct_legs, written_string in D. cbn [flat_map] in D. rewrite app_nil_r in D. apply NoDup_app_iff in D as [_ [_ D']].
    apply (D' (true, x)); unfold open_string; apply in_app_iff; left; apply in_map; assumption.
  Qed.
  Lemma ann_apart x : In x (ann A) -> ~ In x (ann B).
  Proof.
    intros H1 H2. unfold distinct_legs, written_string in D. cbn [flat_map] in D. rewrite app_nil_r in D. apply NoDup_app_iff in D as [_ [_ D']].
    apply (D' (false, x)); unfold open_string; apply in_app_iff; right; apply in_map, in_rev; rewrite rev_involutive; assumption.
  Qed.
  Lemma act_in x c l : subseq c (act l) -> In x c -> In x l.
  Proof. intros S H. apply (subseq_incl _ _ S) in H. apply filter_In in H. apply H. Qed.

  Lemma swap_two K e c0 c1 a0 a1 : two_cumulant A B K e c0 c1 a0 a1 -> swap_con B e = Con false (c1 ++ c0) (a1 ++ a0) /\ two_cumulant B A K (swap_con B e) c1 c0 a1 a0.
  Proof.
    intros [Lv Ln S0 S1 S2 S3 Nl Nr ->]. assert (E : swap_con B (Con false (c0 ++ c1) (a0 ++ a1)) = Con false (c1 ++ c0) (a1 ++ a0)).
    { unfold swap_con. cbn [hole upper lower]. rewrite !swap_list_app; [reflexivity| | | |].
      - intros x Hx. apply ann_apart. eapply act_in; eassumption.
      - intros x Hx. eapply act_in; eassumption.
      - intros x Hx. apply cre_apart. eapply act_in; eassumption.
      - intros x Hx. eapply act_in; eassumption. }
    split; [exact E|]. rewrite !app_length in *. constructor; rewrite ?app_length; try assumption; try lia.
  Qed.
End Two.

Definition pure_cu (A B : op) (K : nat) (e : econ) : Prop := allowed [A; B] K e /\ length (upper e) <> 1.
Definition no_pairs (A B : op) K lo hi (s : list econ) : Prop := wick_set [A; B] K lo hi s /\ ~ has_pair s.

Lemma swap_back A B K e : distinct_legs [A; B] -> pure_cu A B K e -> swap_con A (swap_con B e) = e.
Proof.
  intros D [Ha Hl]. destruct (two_allowed A B K e Hl Ha) as (c0 & c1 & a0 & a1 & T). destruct (swap_two A B D K e _ _ _ _ T) as [_ T'].
  destruct (swap_two B A (distinct_two _ _ D) K _ _ _ _ _ T') as [E _]. rewrite E. symmetry. apply (tc_eq _ _ _ _ _ _ _ _ T).
Qed.
Lemma swap_pure A B K e : distinct_legs [A; B] -> pure_cu A B K e -> pure_cu B A K (swap_con B e).
Proof.
  intros D [Ha Hl]. destruct (two_allowed A B K e Hl Ha) as (c0 & c1 & a0 & a1 & T). destruct (swap_two A B D K e _ _ _ _ T) as [_ T'].
  eapply two_allowed_rev, T'.
Qed.
Lemma swap_members A B K e : distinct_legs [A; B] -> pure_cu A B K e -> Permutation (upper (swap_con B e)) (upper e) /\ Permutation (lower (swap_con B e)) (lower e) /\ hole e = false.
Proof.
  intros D [Ha Hl]. destruct (two_allowed A B K e Hl Ha) as (c0 & c1 & a0 & a1 & T). destruct (swap_two A B D K e _ _ _ _ T) as [-> _].
  rewrite (tc_eq _ _ _ _ _ _ _ _ T). cbn. repeat split; apply Permutation_app_comm.
Qed.
Lemma pure_of A B K lo hi s : no_pairs A B K lo hi s -> Forall (pure_cu A B K) s.
Proof.
  intros [[F _ _] N]. apply Forall_forall. intros e He. rewrite Forall_forall in F. split; [apply F, He|]. intros L. apply N. exists e. auto.
Qed.

Lemma swap_range A B K s : distinct_legs [A; B] -> Forall (pure_cu A B K) s -> length (flat_map group (map (swap_con B) s)) = length (flat_map group s).
Proof.
  intros D. induction 1 as [|e s H F IH]; cbn [map flat_map]; [reflexivity|]. rewrite !app_length, IH. f_equal.
  destruct (swap_members A B K e D H) as (P1 & P2 & _). apply Permutation_length in P1. apply Permutation_length in P2.
  unfold group. change (hole (swap_con B e)) with (hole e). destruct (hole e); rewrite !app_length, !map_length, ?rev_length; lia.
Qed.

Lemma swap_no_pairs A B K lo hi s : distinct_legs [A; B] -> Forall (pure_cu A B K) s -> no_pairs A B K lo hi s -> no_pairs B A K lo hi (map (swap_con B) s).
Proof.
  intros D Fp [[F Dj R] N]. split.
  - constructor.
    + apply Forall_forall. intros e He. apply in_map_iff in He as [x [<- Hx]]. rewrite Forall_forall in Fp. apply (swap_pure A B K x D), Fp, Hx.
    + clear - D Fp Dj. induction Dj as [|e s Fe O IH]; cbn [map]; [constructor|]. inversion Fp as [|? ? Pe Ps]; subst. constructor; [|apply IH, Ps].
      rewrite Forall_forall in *. intros y Hy. apply in_map_iff in Hy as [x [<- Hx]]. specialize (Fe x Hx). destruct Fe as [U L].
      destruct (swap_members A B K e D Pe) as (P1 & P2 & _). destruct (swap_members A B K x D (Ps x Hx)) as (Q1 & Q2 & _). split; intros i I1 I2.
      * apply (U i); [apply (Permutation_in _ P1), I1|apply (Permutation_in _ Q1), I2].
      * apply (L i); [apply (Permutation_in _ P2), I1|apply (Permutation_in _ Q2), I2].
    + rewrite n_open_two. unfold n_open in *. rewrite (swap_range A B K s D Fp). exact R.
  - intros [e [He L]]. apply in_map_iff in He as [x [<- Hx]]. apply N. exists x. split; [exact Hx|]. rewrite Forall_forall in Fp.
    destruct (swap_members A B K x D (Fp x Hx)) as (P1 & _). rewrite <- L. symmetry. apply Permutation_length, P1.
Qed.

Lemma swap_family A B K lo hi ys : distinct_legs [A; B] -> lists_each_set_once (no_pairs A B K lo hi) ys ->
  lists_each_set_once (no_pairs B A K lo hi) (map (map (swap_con B)) ys).
Proof.
  intros D. assert (D' := distinct_two _ _ D). apply (set_once_map (swap_con B) (pure_cu A B K)).
  - intros a b Ha Hb E. rewrite <- (swap_back A B K a D Ha), <- (swap_back A B K b D Hb), E. reflexivity.
  - intros s. apply pure_of.
  - intros s N F. split; [apply swap_no_pairs; assumption|]. intros H.
    assert (F' : Forall (pure_cu B A K) (map (swap_con B) s)) by (eapply pure_of; exact H).
    pose proof (swap_no_pairs B A K lo hi _ D' F' H) as G. rewrite map_map in G. erewrite map_ext_in in G; [rewrite map_id in G; exact G|].
    intros e He. rewrite Forall_forall in F. apply (swap_back A B K e D), F, He.
  - intros s N H. pose proof (pure_of _ _ _ _ _ _ H) as F. exists (map (swap_con A) s). rewrite Forall_forall in F. split.
    + apply Forall_forall. intros e He. apply in_map_iff in He as [x [<- Hx]]. apply (swap_pure B A K x D'), F, Hx.
    + rewrite map_map. erewrite map_ext_in; [apply map_id|]. intros e He. apply (swap_back B A K e D'), F, He.
Qed.

Section Values.
  Context (R : qalg).
  Add Ring alg_ring : (q_ring R).

  Lemma antisym_upper (v : valuation R) u u' l t : cumulants_antisymmetric v -> reorder_sign u u' t -> vden v (Den KCumulant u l) = (zin t * vden v (Den KCumulant u' l))%alg.
  Proof.
    intros [Ha _] [n [S ->]]. induction S as [u|n p x y q u' S IH].
    - change (sgn 0) with 1%Z. rewrite zin_1. ring.
    - rewrite Ha, IH, sgn_S, zin_opp. ring.
  Qed.
  Lemma antisym_lower (v : valuation R) u l l' t : cumulants_antisymmetric v -> reorder_sign l l' t -> vden v (Den KCumulant u l) = (zin t * vden v (Den KCumulant u l'))%alg.
  Proof.
    intros [_ Ha] [n [S ->]]. induction S as [l|n p x y q l' S IH].
    - change (sgn 0) with 1%Z. rewrite zin_1. ring.
    - rewrite Ha, IH, sgn_S, zin_opp. ring.
  Qed.

  Lemma swap_con_sign A B K e (v : valuation R) : cumulants_antisymmetric v -> distinct_legs [A; B] -> pure_cu A B K e ->
    exists t, reorder_sign (group e) (group (swap_con B e)) t /\ con_value R v e = (zin t * con_value R v (swap_con B e))%alg /\ (t = 1 \/ t = -1)%Z.
  Proof.
    intros Hv D He. destruct (swap_members A B K e D He) as (P1 & P2 & Hh). destruct (reorder_sign_exists _ _ (Permutation_sym P1)) as [t1 R1].
    destruct (reorder_sign_exists _ _ (Permutation_sym P2)) as [t2 R2]. exists (t1 * t2)%Z. split; [|split].
    - unfold group. change (hole (swap_con B e)) with (hole e). rewrite Hh. apply reorder_sign_app; [apply reorder_sign_map, R1|]. apply reorder_sign_map.
      destruct R2 as [n [S ->]]. exists n. split; [|reflexivity]. clear - S. induction S as [l|n p x y q l' S IH]; [constructor|]. rewrite rev_app_distr in *. cbn [rev] in *.
      rewrite <- !app_assoc in *. cbn [app] in *. change (swaps (1 + n) (rev q ++ y :: x :: rev p) (rev l')). eapply swaps_trans; [apply swaps_one|exact IH].
    - unfold con_value, density_of. change (hole (swap_con B e)) with (hole e). rewrite Hh. rewrite (antisym_upper v _ _ _ _ Hv R1), (antisym_lower v _ _ _ _ Hv R2), zin_mul. ring.
    - destruct (reorder_sign_pm _ _ _ R1) as [->| ->], (reorder_sign_pm _ _ _ R2) as [->| ->]; auto.
  Qed.

  Lemma swap_value A B K lo hi s v x : cumulants_antisymmetric v -> distinct_legs [A; B] ->
    (exists k, length (cre A) + length (ann A) = 2 * k) -> no_pairs A B K lo hi s ->
    set_value R [A; B] v s x -> set_value R [B; A] v (map (swap_con B) s) x.
  Proof.
    intros Hv D [ka Ea] Np (sign & sq & [W1 W2 W3] & ->). pose proof (pure_of _ _ _ _ _ _ Np) as F.
    assert (G : exists t, reorder_sign (flat_map group s) (flat_map group (map (swap_con B) s)) t /\
       aprod (map (con_value R v) s) = (zin t * aprod (map (con_value R v) (map (swap_con B) s)))%alg /\ (t = 1 \/ t = -1)%Z).
    { clear W1 W2 W3 Np. induction F as [|e s He F IH].
      - exists 1%Z. split; [apply reorder_sign_refl|]. split; [cbn; rewrite zin_1; ring|auto].
      - destruct IH as (t & R1 & V1 & S1). destruct (swap_con_sign A B K e v Hv D He) as (t' & R2 & V2 & S2). exists (t' * t)%Z. split; [|split].
        + cbn [flat_map map]. apply reorder_sign_app; assumption.
        + transitivity (con_value R v e * aprod (map (con_value R v) s))%alg; [reflexivity|]. rewrite V1, V2, zin_mul.
          transitivity (zin t' * zin t * (con_value R v (swap_con B e) * aprod (map (con_value R v) (map (swap_con B) s))))%alg; [ring|reflexivity].
        + destruct S1 as [->| ->], S2 as [->| ->]; auto. }
    destruct G as (t & R1 & V1 & S1). exists (sign * t)%Z, sq. split.
    - constructor; [exact W1|exact W2|]. replace (sign * t)%Z with (1 * (sign * (t * 1)))%Z by lia.
      eapply reorder_sign_trans; [|eapply reorder_sign_trans; [exact W3|apply reorder_sign_app; [exact R1|apply reorder_sign_refl]]].
      unfold written_string. cbn [flat_map]. rewrite !app_nil_r. pose proof (reorder_sign_blocks (open_string B) (open_string A)) as Rb.
      replace (length (open_string A)) with (ka + ka) in Rb by (unfold open_string; rewrite app_length, !map_length, rev_length; lia).
      rewrite Nat.mul_add_distr_l, sgn_double in Rb. exact Rb.
    - rewrite V1, !zin_mul. ring.
  Qed.

  Lemma swap_family_value A B K lo hi ys v x : cumulants_antisymmetric v -> distinct_legs [A; B] ->
    (exists k, length (cre A) + length (ann A) = 2 * k) -> Forall (no_pairs A B K lo hi) ys ->
    family_value R [A; B] v ys x -> family_value R [B; A] v (map (map (swap_con B)) ys) x.
  Proof.
    intros Hv D E Fn (xs & F & ->). exists xs. split; [|reflexivity]. induction F as [|s x ys xs H F IH]; cbn [map]; constructor.
    - inversion Fn; subst. eapply swap_value; eassumption.
    - apply IH. inversion Fn; assumption.
  Qed.

  Lemma family_split ops v (f : list econ -> bool) sets x : family_value R ops v sets x ->
    exists y z, family_value R ops v (filter f sets) y /\ family_value R ops v (filter (fun s => negb (f s)) sets) z /\ x = (y + z)%alg.
  Proof.
    intros (xs & F & ->). induction F as [|s x sets xs H F IH]; cbn [filter].
    - exists q0, q0. split; [exists []; split; [constructor|reflexivity]|]. split; [exists []; split; [constructor|reflexivity]|]. cbn. ring.
    - destruct IH as (y & z & (ys & Fy & Ey) & (zs & Fz & Ez) & E). change (asum (x :: xs)) with (x + asum xs)%alg. destruct (f s); cbn [negb].
      + exists (x + y)%alg, z. split; [exists (x :: ys); split; [constructor; assumption|rewrite Ey; reflexivity]|]. split; [exists zs; auto|]. rewrite E. ring.
      + exists y, (x + z)%alg. split; [exists ys; auto|]. split; [exists (x :: zs); split; [constructor; assumption|rewrite Ez; reflexivity]|]. rewrite E. ring.
  Qed.

  (** dropped part of the general result *)
  Lemma dropped_part A B K lo hi (v : valuation R) expand expand' r c : holes_ok v -> Forall op_alpha [A; B] -> distinct_legs [A; B] ->
    wick_sum [A; B] expand (wick_set [A; B] K lo hi) r ->
    wick_sum [A; B] expand' (fun s => wick_set [A; B] K lo hi s /\ has_pair s) c ->
    exists sets z, lists_each_set_once (no_pairs A B K lo hi) sets /\ family_value R [A; B] v sets z /\ result_value v r = (result_value v c + z)%alg.
  Proof.
    intros Hv Hal D Wr Wc. assert (Fr : forall s, wick_set [A; B] K lo hi s -> Forall (from_ops [A; B]) s) by (intros s; apply wick_set_from; assumption).
    destruct (wick_sum_family R _ v _ _ _ Hv Fr Wr) as (sets & O & V). destruct (wick_sum_family R _ v _ (fun s => wick_set [A; B] K lo hi s /\ has_pair s) _ Hv (fun s H => Fr s (proj1 H)) Wc) as (sets' & O' & V').
    destruct (family_split [A; B] v has_pairb sets _ V) as (y & z & V1 & V2 & E). exists (filter (fun s => negb (has_pairb s)) sets), z.
    assert (Pp : forall s t, Permutation s t -> has_pairb s = has_pairb t) by (intros s t P; apply existsb_perm, P).
    split; [|split; [exact V2|]].
    - apply set_once_filter; [|intros s t P; rewrite (Pp s t P); reflexivity|exact O]. intros s. rewrite negb_true_iff, <- not_true_iff_false, has_pairb_ok. tauto.
    - rewrite E. f_equal. apply (family_once R [A; B] v (fun s => wick_set [A; B] K lo hi s /\ has_pair s) (filter has_pairb sets) sets' y _ D (fun s H => Fr s (proj1 H))); [|exact O'|exact V1|exact V'].
      apply set_once_filter; [exact has_pairb_ok|exact Pp|exact O].
  Qed.

  Lemma sub_cancel (a b z : R) : (a + z - (b + z) = a - b)%alg.
  Proof. ring. Qed.
End Values.

(** a pairwise contraction between two operators connects them *)
Lemma two_connected A B K lo hi s : wick_set [A; B] K lo hi s -> has_pair s -> connects_ops [A; B] s.
Proof.
  intros [F _ _] (e & He & L). rewrite Forall_forall in F. pose proof (F e He) as Ha. destruct Ha as [key Hp|k c a Hk _ _ Lc _ _ ->]; [|cbn in L; rewrite map_length in L; lia].
  assert (Lk : has_leg [A; B] 0 e /\ has_leg [A; B] 1 e).
  { assert (Two : forall i j (p q : op), i < j -> nth_error [A; B] i = Some p -> nth_error [A; B] j = Some q -> i = 0 /\ j = 1).
    { intros i j p q H1 H2 H3. assert (j < 2) by (change 2 with (length [A; B]); apply nth_error_Some; congruence). lia. }
    destruct Hp as [i j p q u l Hij Hi Hj Hu Hl _|i j p q u l Hij Hi Hj Hu Hl _]; destruct (Two i j p q Hij Hi Hj) as [-> ->]; cbn in Hi, Hj; injection Hi as <-; injection Hj as <-.
    - split; [exists A|exists B]; (split; [reflexivity|]); [left; exists u|right; exists l]; cbn; auto.
    - split; [exists A|exists B]; (split; [reflexivity|]); [right; exists l|left; exists u]; cbn; auto. }
  destruct Lk as [L0 L1]. intros i j Hi Hj. cbn in Hi, Hj.
  assert (Q : forall i j, i < 2 -> j < 2 -> con_linked [A; B] s i j).
  { intros i' j' H1 H2. exists e. split; [exact He|]. split; [destruct i' as [|[|?]]|destruct j' as [|[|?]]]; try lia; assumption. }
  apply rt_step, Q; assumption.
Qed.

Lemma commutator_cancel (R : qalg) (v : valuation R) pickA pickB pA pB iter A B max_cu max_n min_n expand :
  holes_ok v -> cumulants_antisymmetric v -> Forall op_alpha [A; B] -> distinct_legs [A; B] ->
  (exists k, length (cre A) + length (ann A) = 2 * k) -> (forall l, Permutation (iter l) l) ->
  exists gAB gBA cAB cBA,
    compute_general pickA iter [A; B] max_cu max_n min_n expand = Ok gAB /\ compute_general pickB iter [B; A] max_cu max_n min_n expand = Ok gBA /\
    compute_connected pA [A; B] max_cu max_n min_n expand = Ok cAB /\ compute_connected pB [B; A] max_cu max_n min_n expand = Ok cBA /\
    (result_value v gAB - result_value v gBA)%alg = (result_value v cAB - result_value v cBA)%alg.
Proof.
  intros Hv Ha Hal D E Hit. assert (D' := distinct_two _ _ D).
  assert (Hal' : Forall op_alpha [B; A]) by (inversion Hal as [|? ? H1 H2]; subst; inversion H2; subst; apply Forall_cons; [assumption|apply Forall_cons; [exact H1|apply Forall_nil]]).
  assert (EK : cumulant_level [B; A] max_cu = cumulant_level [A; B] max_cu).
  { unfold cumulant_level, n_noncv. cbn [flat_map]. rewrite !app_nil_r, !app_length. rewrite (Nat.add_comm (length (filter active_like (cre B)))), (Nat.add_comm (length (filter active_like (ann B)))). reflexivity. }
  destruct (general_driver_ok pickA iter [A; B] max_cu max_n min_n expand Hal Hit D) as (gAB & E1 & W1).
  destruct (general_driver_ok pickB iter [B; A] max_cu max_n min_n expand Hal' Hit D') as (gBA & E2 & W2). rewrite EK in W2.
  assert (Cn : forall p X Y, Forall op_alpha [X; Y] -> distinct_legs [X; Y] -> exists c, compute_connected p [X; Y] max_cu max_n min_n expand = Ok c /\
     wick_sum [X; Y] expand (fun s => wick_set [X; Y] (cumulant_level [X; Y] max_cu) min_n max_n s /\ has_pair s) c).
  { intros p X Y HX DX. destruct (connected_driver_ok p [X; Y] max_cu max_n min_n expand HX DX) as (c & P & Ec & (sets & blocks & O & Fb & Eb) & S & C). exists c. split; [exact Ec|].
    exists sets, blocks. split; [|split; assumption]. revert O. apply set_once_ext. intros s _. split; [intros H; split; apply S, H|]. intros [H1 H2]. apply C; [cbn; lia|exact H1| |exact H2].
    eapply two_connected; eassumption. }
  destruct (Cn pA A B Hal D) as (cAB & E3 & W3). destruct (Cn pB B A Hal' D') as (cBA & E4 & W4). rewrite EK in W4. set (K := cumulant_level [A; B] max_cu) in *.
  exists gAB, gBA, cAB, cBA. do 4 (split; [assumption|]).
  destruct (dropped_part R A B K min_n max_n v expand expand gAB cAB Hv Hal D W1 W3) as (sets & z & O & V & ->).
  destruct (dropped_part R B A K min_n max_n v expand expand gBA cBA Hv Hal' D' W2 W4) as (sets' & z' & O' & V' & ->).
  assert (Ez : z = z').
  { apply (family_once R [B; A] v (no_pairs B A K min_n max_n) (map (map (swap_con B)) sets) sets' z z' D').
    - intros s [H _]. eapply wick_set_from; eassumption.
    - apply swap_family; assumption.
    - exact O'.
    - eapply swap_family_value; [exact Ha|exact D|exact E| |exact V]. apply Forall_forall. intros s Hs. destruct O as (O1 & _). apply (O1 s Hs).
    - exact V'. }
  rewrite Ez. apply sub_cancel.
Qed.
