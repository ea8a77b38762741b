(** nested_commutator_cc depends neither on the processes nor on the order in which SymPy lists the products. *)
From Coq Require Import Ascii String ZArith QArith Qcanon Sorting.Sorted Lia Bool Ring_theory Ring.
From Verif Require Import PyBase OrderSpec OrderProofs SpaceModel IndexModel IndicesModel ElemModel MacroModel WickModel TermModel BchSpec TermSpec TermProofs
  SymmetryModel CombineModel BchModel CombineSpec CombineProofs CombineValue ScheduleProofs BilinearProofs PoolProofs LoopSpec BchLoop LevelSpec LevelProofs PropOperator SeriesProofs IndexProofs IterProofs BchProofs TaskProofs NestedOperator SeriesOrder.
Local Close Scope Q_scope.
Local Close Scope Qc_scope.
Local Open Scope nat_scope.
Local Notation length := List.length.

Definition got {X} (d : X) (r : pyres X) : X := match r with Ok x => x | Raise _ => d end.
Definition task_of (n : nat) (hole particle : label) (m : Z * word) : Qc * list term := (Qcmult (inv_fact n) (Qc_of_Z (fst m)), got [] (list_of_terms hole particle 0 (tensor_names (snd m)))).
(** the products of nested_commutator_cc, one for every summand of the expanded commutator *)
Lemma nested_listed order n levels (un sr : bool) : (forall p, Permutation (order p) p) -> 1 <= n -> ~ In 0 levels ->
  let hole := Lab false (if sr then Sc else Sh) in
  let particle := Lab false (if sr then Sv else Sp) in
  exists p, Permutation p (doit_expand (sympy_nested_commutator_recursive n (Poly sum_of_hamiltonians) (Poly (bch_generator levels un)))) /\
  (forall ws mc mx mn fc eh np h, nested_commutator_cc ws order n levels mc mx mn fc eh sr un np h =
    pybind (pymap (fun kt => contract_terms (ws (fst kt)) (snd (snd kt)) mc mx mn (fst (snd kt)) fc eh np h) (positions (map (task_of n hole particle) p))) (fun outs => combine_terms (concat outs))) /\
  Forall (product_ok (list_max levels) n) (map (task_of n hole particle) p).
Proof.
  intros O Hn NZ hole particle. destruct (summands_perm order levels un n O Hn) as (p & Ep & Pp). exists p. split; [exact Pp|].
  assert (W : Forall (fun m => bch_word levels n (snd m)) p) by (apply Forall_forall; intros m Hm; apply (Permutation_in _ Pp) in Hm; apply (expanded_words levels un n m Hn Hm)).
  assert (HL : lbeta hole = false) by reflexivity. assert (PL : lbeta particle = false) by reflexivity.
  assert (HG : hole <> Lab false Sg) by (unfold hole; destruct sr; discriminate). assert (PG : particle <> Lab false Sg) by (unfold particle; destruct sr; discriminate).
  assert (LT : forall m, bch_word levels n (snd m) -> list_of_terms hole particle 0 (tensor_names (snd m)) = Ok (snd (task_of n hole particle m)) /\
    Forall2 (fun s t => exists start', 0 <= start' /\ built hole particle s start' t) (snd m) (snd (task_of n hole particle m)) /\ ForallOrdPairs disjoint_indices (snd (task_of n hole particle m))).
  { intros m Wm. destruct (list_of_terms_ok hole particle HL PL HG PG (snd m) (bch_word_known _ _ _ Wm) (bch_word_apart _ _ _ Wm) 0) as (ts & E & B & D). unfold task_of. cbn [snd]. rewrite E. cbn [got]. auto. }
  split.
  - intros. unfold nested_commutator_cc. cbv zeta. rewrite Ep. cbn [pybind]. f_equal. apply pymap_ext. assert (F2 : Forall2 (fun m task => bch_word levels n (snd m) /\ task = task_of n hole particle m) p (map (task_of n hole particle) p)) by (clear - W; induction W; cbn [map]; constructor; auto).
    eapply Forall2_weaken; [|exact (positions_Forall2 _ _ _ F2)]. intros [k [c w]] [k' task] (Ek & Wm & Et). cbn [fst snd] in *. subst k' task. pose proof (proj1 (LT (c, w) Wm)) as EL. cbn [snd] in EL. fold hole particle. rewrite EL. reflexivity.
  - apply Forall_map. eapply Forall_impl; [|exact W]. intros m Wm. destruct (LT m Wm) as (_ & B & D). apply (task_product levels sr n); [exact NZ| |exact D|eexists; reflexivity|].
    + apply Forall2_len in B. rewrite <- B. destruct Wm as (u & h & u' & -> & _ & _ & L). rewrite app_length in *. cbn. lia.
    + destruct Wm as (u & h & u' & Ew & Hh & FA & _). rewrite Ew in B. apply Forall2_app_inv_l in B as (l & r' & B1 & B2 & Et). inversion B2 as [|? t ? r (st & _ & Bt) B3]; subst. exists l, t, r. split; [exact Et|]. split; [exact (built_h _ _ _ _ _ Hh Bt)|].
      apply Forall_app in FA as [FA1 FA2]. apply Forall_app. split; [exact (built_amplitudes _ _ _ _ _ FA1 B1)|exact (built_amplitudes _ _ _ _ _ FA2 B3)].
Qed.

Section Tasks.
  Context (m n : nat) (BD : (4 * Z.of_nat (fact n) * Z.of_nat (fact m) ^ (2 * Z.of_nat n) <= 10 ^ 15)%Z) (mc mx mn : Z) (fc eh h : bool).
  Lemma tasks_seen : visible (series_unit m n).
  Proof. right. rewrite unit_denominator. apply inverse_visible. split; [apply denominator_pos|]. rewrite denominator_closed. exact BD. Qed.
  Lemma task_facts task : product_ok m n task -> consistent_names (flat_map ttensors (snd task)) /\ (forall t, In t (snd task) -> ttype t = SpinOrbital) /\ visible (fold_left (fun c t => Qcmult c (tcoeff t)) (snd task) (fst task)).
  Proof. intros [_ _ P3 _ P5 _]. split; [apply list_consistent, P3|]. split; [intros t Ht; rewrite Forall_forall in P3; apply (P3 t Ht)|]. exact (multiple_not_tiny _ _ tasks_seen P5). Qed.
  Lemma task_good w np task o : unordered w -> product_ok m n task -> contract_terms w (snd task) mc mx mn (fst task) fc eh np h = Ok o -> Forall (good series_tensors (series_unit m n)) o.
  Proof.
    intros U P H. destruct (task_facts task P) as (CN & TY & VC). pose proof (BilinearProofs.contract_good w (snd task) mc mx mn (fst task) fc eh np h o U CN VC TY H) as G. destruct P as [_ _ P3 _ P5 _].
    eapply Forall_impl; [|exact G]. intros t [G1 G2]. split; [|exact (multiple_trans _ _ _ P5 G2)]. revert G1. apply clean_trans. intros y Hy. apply in_flat_map in Hy as (x & Hx & Hy). rewrite Forall_forall in P3. exact (proj2 (proj2 (P3 x Hx) y Hy)).
  Qed.
  Lemma task_views w w' np np' task o : same_worlds w w' -> product_ok m n task -> contract_terms w (snd task) mc mx mn (fst task) fc eh np h = Ok o ->
    exists o', contract_terms w' (snd task) mc mx mn (fst task) fc eh np' h = Ok o' /\ map view o' = map view o.
  Proof. intros (S1 & U & U') P H. destruct (task_facts task P) as (CN & TY & VC). exact (schedule_ok w w' (snd task) mc mx mn (fst task) fc eh np np' h o S1 U U' CN VC H). Qed.
  Lemma tasks_alike (ws ws' : nat -> world) w np np' tasks tasks' out : (forall k, same_worlds (ws k) w) -> (forall k, same_worlds (ws' k) w) -> Permutation tasks tasks' -> Forall (product_ok m n) tasks ->
    let run (ws : nat -> world) np tasks := pybind (pymap (fun kt => contract_terms (ws (fst kt)) (snd (snd kt)) mc mx mn (fst (snd kt)) fc eh np h) (positions tasks)) (fun outs => combine_terms (concat outs)) in
    run ws np tasks = Ok out -> exists out', run ws' np' tasks' = Ok out' /\ map view out' = map view out.
  Proof.
    intros SW SW' P F run H. unfold run in *. clear run. rewrite Forall_forall in F. assert (SY : forall w1 w2, same_worlds w1 w2 -> same_worlds w2 w1) by (intros w1 w2 ((S1 & S2 & S3 & S4) & U1 & U2); repeat split; try assumption; symmetry; assumption).
    destruct (pymap _ (positions tasks)) as [outs|] eqn:E in H; [|discriminate]. cbn [pybind] in H. apply pymap_val in E as [A ->]. rewrite <- flat_map_concat_map in H.
    set (g := fun task => contract_terms w (snd task) mc mx mn (fst task) fc eh 1 h).
    assert (GA : forall task, In task tasks -> exists o, g task = Ok o).
    { intros task I. destruct (positions_has _ _ I) as [k Hk]. destruct (A _ Hk) as [o E]. cbn [fst snd] in E. destruct (task_views _ w np 1 task o (SW k) (F task I) E) as (o' & E' & _). eauto. }
    assert (IN : forall task, In task tasks' -> In task tasks) by (intros task; apply Permutation_in, Permutation_sym, P).
    assert (B : forall kt, In kt (positions tasks') -> exists o, contract_terms (ws' (fst kt)) (snd (snd kt)) mc mx mn (fst (snd kt)) fc eh np' h = Ok o /\ map view o = map view (val (g (snd kt)))).
    { intros kt Hk. apply in_positions in Hk. destruct (GA _ (IN _ Hk)) as [o E]. rewrite E. cbn [val]. exact (task_views w _ 1 np' (snd kt) o (SY _ _ (SW' (fst kt))) (F _ (IN _ Hk)) E). }
    assert (E' : pymap (fun kt => contract_terms (ws' (fst kt)) (snd (snd kt)) mc mx mn (fst (snd kt)) fc eh np' h) (positions tasks') = Ok (map (fun kt => val (contract_terms (ws' (fst kt)) (snd (snd kt)) mc mx mn (fst (snd kt)) fc eh np' h)) (positions tasks'))) by (apply pymap_val; split; [intros kt Hk; destruct (B kt Hk) as (o & E & _); eauto|reflexivity]).
    rewrite E'. cbn [pybind]. rewrite <- flat_map_concat_map.
    refine (combine_alike series_tensors series_names _ tasks_seen _ _ out _ _ _ H).
    - apply Forall_forall. intros t I. apply in_flat_map in I as (kt & Hk & I). destruct (A kt Hk) as [o E]. rewrite E in I. cbn [val] in I. destruct (SW (fst kt)) as (_ & U1 & _). pose proof (task_good _ np (snd kt) o U1 (F _ (in_positions _ _ Hk)) E) as G. rewrite Forall_forall in G. apply G, I.
    - apply Forall_forall. intros t I. apply in_flat_map in I as (kt & Hk & I). destruct (B kt Hk) as (o & E & _). rewrite E in I. cbn [val] in I. destruct (SW' (fst kt)) as (_ & U1 & _). pose proof (task_good _ np' (snd kt) o U1 (F _ (IN _ (in_positions _ _ Hk))) E) as G. rewrite Forall_forall in G. apply G, I.
    - assert (V : map view (flat_map (fun kt => val (contract_terms (ws (fst kt)) (snd (snd kt)) mc mx mn (fst (snd kt)) fc eh np h)) (positions tasks)) = map view (flat_map (fun task => val (g task)) tasks)).
      { apply positions_views. intros kt Hk. destruct (A kt Hk) as [o E]. destruct (task_views _ w np 1 (snd kt) o (SW (fst kt)) (F _ (in_positions _ _ Hk)) E) as (o' & Eg & W). unfold g. rewrite E, Eg. symmetry. exact W. }
      assert (V' : map view (flat_map (fun kt => val (contract_terms (ws' (fst kt)) (snd (snd kt)) mc mx mn (fst (snd kt)) fc eh np' h)) (positions tasks')) = map view (flat_map (fun task => val (g task)) tasks')).
      { apply positions_views. intros kt Hk. destruct (B kt Hk) as (o & E & W). rewrite E. exact W. }
      intros k. rewrite (view_sums _ _ V k), (view_sums _ _ V' k). apply tot_perm, flat_perm; [exact P|reflexivity].
  Qed.
End Tasks.

(** ** Permuted cluster levels *)
Lemma coef_perm w p q : Permutation p q -> coef w p = coef w q.
Proof. intros P. induction P as [|x p q _ IH|x y p|p q r _ IH _ IH']; rewrite ?coef_cons; [reflexivity|rewrite IH; reflexivity|lia|congruence]. Qed.
Lemma collected_nodup p : NoDup (collected p).
Proof. unfold collected. apply NoDup_filter. apply (NoDup_map_inv snd). apply gathered_nodup. Qed.
Lemma collected_perm p q : Permutation p q -> Permutation (collected p) (collected q).
Proof. intros P. apply NoDup_Permutation; [apply collected_nodup|apply collected_nodup|]. intros [c w]. rewrite !collected_spec, (coef_perm w _ _ P). reflexivity. Qed.
Lemma pmul_perm p p' q q' : Permutation p p' -> Permutation q q' -> Permutation (pmul p q) (pmul p' q').
Proof. intros P Q. unfold pmul. apply flat_perm; [exact P|]. intros m. apply Permutation_map, Q. Qed.
Lemma nested_perm n b b' : Permutation b b' -> Permutation (BchModel.multiplied (sympy_nested_commutator_recursive n (Poly sum_of_hamiltonians) (Poly b))) (BchModel.multiplied (sympy_nested_commutator_recursive n (Poly sum_of_hamiltonians) (Poly b'))).
Proof.
  intros P. assert (C : forall a a' b b', Permutation (BchModel.multiplied a) (BchModel.multiplied a') -> Permutation (BchModel.multiplied b) (BchModel.multiplied b') -> Permutation (BchModel.multiplied (Commutator a b)) (BchModel.multiplied (Commutator a' b'))).
  { intros a a' c c' Q R. cbn [BchModel.multiplied]. unfold padd, pneg. apply Permutation_app; [apply pmul_perm; assumption|apply Permutation_map, pmul_perm; assumption]. }
  induction n as [|[|n] IH]; cbn [sympy_nested_commutator_recursive]; apply C; try exact P; try reflexivity. exact IH.
Qed.
Lemma generator_perm levels levels' un : Permutation levels levels' -> Permutation (bch_generator levels un) (bch_generator levels' un).
Proof. intros P. unfold bch_generator, padd, pneg, sum_of_clusters, sum_of_adjoints. destruct un; [apply Permutation_app; repeat apply Permutation_map; exact P|apply Permutation_map, P]. Qed.

Theorem nested_order ws ws' w order order' n levels levels' mc mx mn fc eh sr un np np' h out : (forall k, same_worlds (ws k) w) -> (forall k, same_worlds (ws' k) w) ->
  (forall p, Permutation (order p) p) -> (forall p, Permutation (order' p) p) -> Permutation levels levels' -> 1 <= n -> ~ In 0 levels -> (4 * Z.of_nat (fact n) * Z.of_nat (fact (list_max levels)) ^ (2 * Z.of_nat n) <= 10 ^ 15)%Z ->
  nested_commutator_cc ws order n levels mc mx mn fc eh sr un np h = Ok out -> exists out', nested_commutator_cc ws' order' n levels' mc mx mn fc eh sr un np' h = Ok out' /\ map view out' = map view out.
Proof.
  intros SW SW' O O' PL Hn NZ B H. assert (NZ' : ~ In 0 levels') by (intros Q; apply NZ, (Permutation_in _ (Permutation_sym PL) Q)). destruct (nested_listed order n levels un sr O Hn NZ) as (p & P & E & F). destruct (nested_listed order' n levels' un sr O' Hn NZ') as (p' & P' & E' & _). rewrite E in H. rewrite E'.
  refine (tasks_alike (list_max levels) n B mc mx mn fc eh h ws ws' w np np' _ _ out SW SW' _ F H). apply Permutation_map. rewrite P, P'. apply collected_perm, nested_perm, generator_perm, PL.
Qed.
