(** A series of commutators does not depend on the processes nor on the order of the cluster operators. *)
From Coq Require Import Ascii String ZArith QArith Qcanon Sorting.Sorted Lia Bool Ring_theory Ring.
From Verif Require Import PyBase OrderSpec OrderProofs SpaceModel IndexModel IndicesModel ElemModel MacroModel WickModel TermModel BchSpec TermSpec TermProofs
  SymmetryModel CombineModel BchModel CombineSpec CombineProofs CombineValue ScheduleProofs BilinearProofs PoolProofs LoopSpec BchLoop LevelSpec LevelProofs PropOperator SeriesProofs.
Local Close Scope Q_scope.
Local Close Scope Qc_scope.
Local Open Scope nat_scope.
Local Notation length := List.length.

(** ** Copies *)
Definition from_view (v : itype * list tensor * op * Qc) : pyres term := let '(ty, xs, o, c) := v in make_term ty xs o c.
Lemma copies_view l : pymap from_term l = pymap from_view (map view l).
Proof. induction l as [|t l IH]; [reflexivity|]. cbn [pymap map]. rewrite IH. reflexivity. Qed.
Lemma copies_perm l l' r : Permutation (map view l) (map view l') -> pymap from_term l = Ok r -> exists r', pymap from_term l' = Ok r' /\ Permutation r r'.
Proof. rewrite !copies_view. intros P. exact (pymap_perm _ _ _ P r). Qed.
Lemma copy_good T u t t' : good T u t -> from_term t = Ok t' -> good T u t'.
Proof.
  intros [[C1 C2] M] E. unfold from_term in E. destruct (make_term_fields _ _ _ _ _ E) as (F1 & F2 & _ & _ & F5 & _). split; [split|].
  - congruence.
  - intros y Y. apply C2. exact (Permutation_in _ F2 Y).
  - rewrite F5. exact M.
Qed.
Lemma copies_good T u l l' : Forall (good T u) l -> pymap from_term l = Ok l' -> Forall (good T u) l'.
Proof. intros F E. apply pymap_results in E. induction E as [|t t' l l' E _ IH]; [constructor|]. inversion F; subst. constructor; [eapply copy_good; eassumption|auto]. Qed.

(** ** One level *)
Definition run (sc : nat -> nat -> nat -> term -> term -> pyres (list term)) (i : nat) (pool rs : list term) : pyres (list (list term)) :=
  pymap (fun al => pybind (pymap (fun br => sc i (fst al) (fst br) (snd al) (snd br)) (positions rs)) (fun ls => Ok (concat ls))) (positions pool).
Lemma row_iff {X} (f : X -> pyres (list term)) ps o : pybind (pymap f ps) (fun ls => Ok (concat ls)) = Ok o <-> (forall x, In x ps -> exists y, f x = Ok y) /\ o = flat_map (fun x => val (f x)) ps.
Proof.
  split.
  - intros H. destruct (pymap f ps) as [ls|] eqn:E; [|discriminate]. cbn [pybind] in H. injection H as <-. apply pymap_val in E as [A ->]. split; [exact A|]. rewrite flat_map_concat_map. reflexivity.
  - intros [A ->]. assert (E : pymap f ps = Ok (map (fun x => val (f x)) ps)) by (apply pymap_val; auto). rewrite E. cbn [pybind]. rewrite flat_map_concat_map. reflexivity.
Qed.
Lemma run_iff sc i pool rs lls : run sc i pool rs = Ok lls <->
  (forall al br, In al (positions pool) -> In br (positions rs) -> exists o, sc i (fst al) (fst br) (snd al) (snd br) = Ok o) /\
  lls = map (fun al => flat_map (fun br => val (sc i (fst al) (fst br) (snd al) (snd br))) (positions rs)) (positions pool).
Proof.
  unfold run. rewrite pymap_val. split.
  - intros [A ->]. assert (B : forall al br, In al (positions pool) -> In br (positions rs) -> exists o, sc i (fst al) (fst br) (snd al) (snd br) = Ok o) by (intros al br Ha Hb; destruct (A al Ha) as [y E]; apply row_iff in E as [E _]; apply E, Hb).
    split; [exact B|]. apply map_ext_in. intros al Ha. destruct (A al Ha) as [y E]. rewrite E. cbn [val]. apply row_iff in E as [_ E]. exact E.
  - intros [A ->]. assert (B : forall al, In al (positions pool) -> pybind (pymap (fun br => sc i (fst al) (fst br) (snd al) (snd br)) (positions rs)) (fun ls => Ok (concat ls)) = Ok (flat_map (fun br => val (sc i (fst al) (fst br) (snd al) (snd br))) (positions rs))) by (intros al Ha; apply row_iff; split; [intros br Hb; apply A; assumption|reflexivity]).
    split; [intros al Ha; eauto|]. apply map_ext_in. intros al Ha. rewrite (B al Ha). reflexivity.
Qed.
Lemma positions_views {X} (F : nat * X -> list term) (G : X -> list term) p : (forall x, In x (positions p) -> map view (F x) = map view (G (snd x))) -> map view (flat_map F (positions p)) = map view (flat_map G p).
Proof.
  intros H. rewrite <- (positions_snd p) at 2. induction (positions p) as [|x ps IH]; [reflexivity|]. cbn [map flat_map]. rewrite !map_app, (H x (or_introl eq_refl)), IH by (intros y Y; apply H; right; exact Y). reflexivity.
Qed.
Lemma positions_has {X} (l : list X) x : In x l -> exists k, In (k, x) (positions l).
Proof. intros H. rewrite <- (positions_snd l) in H. apply in_map_iff in H as ((k & y) & E & H). cbn in E. subst. eauto. Qed.

(** pairs computed alike, whatever their places *)
Definition placed (sc : nat -> nat -> nat -> term -> term -> pyres (list term)) (g : term -> term -> pyres (list term)) (i : nat) (pool rs : list term) : Prop :=
  forall a b l r, In l pool -> In r rs -> (forall o, sc i a b l r = Ok o -> exists o', g l r = Ok o' /\ map view o' = map view o) /\ (forall o, g l r = Ok o -> exists o', sc i a b l r = Ok o' /\ map view o' = map view o).
Lemma in_positions {X} (l : list X) x : In x (positions l) -> In (snd x) l.
Proof. destruct x as [k x]. apply positions_in. Qed.
Lemma run_placed sc g i pool rs : placed sc g i pool rs ->
  (forall lls, run sc i pool rs = Ok lls -> (forall l r, In l pool -> In r rs -> exists o, g l r = Ok o) /\ map view (concat lls) = map view (all_pairs g pool rs)) /\
  ((forall l r, In l pool -> In r rs -> exists o, g l r = Ok o) -> exists lls, run sc i pool rs = Ok lls /\ map view (concat lls) = map view (all_pairs g pool rs)).
Proof.
  intros P. assert (V : (forall al br, In al (positions pool) -> In br (positions rs) -> exists o, sc i (fst al) (fst br) (snd al) (snd br) = Ok o) ->
    map view (flat_map (fun al => flat_map (fun br => val (sc i (fst al) (fst br) (snd al) (snd br))) (positions rs)) (positions pool)) = map view (all_pairs g pool rs)).
  { intros A. unfold all_pairs. apply (positions_views _ (fun a => flat_map (fun b => val (g a b)) rs)). intros al Ha. apply (positions_views _ (fun b => val (g (snd al) b))). intros br Hb.
    destruct (A al br Ha Hb) as [o E]. destruct (P (fst al) (fst br) (snd al) (snd br) (in_positions _ _ Ha) (in_positions _ _ Hb)) as [P1 _]. destruct (P1 o E) as (o' & E' & W). rewrite E, E'. cbn [val]. symmetry. exact W. }
  split.
  - intros lls H. apply run_iff in H as [A ->]. rewrite <- flat_map_concat_map. split; [|apply V, A]. intros l r Hl Hr. destruct (positions_has _ _ Hl) as [a Ha], (positions_has _ _ Hr) as [b Hb]. destruct (A _ _ Ha Hb) as [o E]. cbn [fst snd] in E. destruct (P a b l r Hl Hr) as [P1 _]. destruct (P1 o E) as (o' & E' & _). eauto.
  - intros A. assert (B : forall al br, In al (positions pool) -> In br (positions rs) -> exists o, sc i (fst al) (fst br) (snd al) (snd br) = Ok o).
    { intros al br Ha Hb. destruct (A _ _ (in_positions _ _ Ha) (in_positions _ _ Hb)) as [o E]. destruct (P (fst al) (fst br) _ _ (in_positions _ _ Ha) (in_positions _ _ Hb)) as [_ P2]. destruct (P2 o E) as (o' & E' & _). eauto. }
    eexists. split; [apply run_iff; split; [exact B|reflexivity]|]. rewrite <- flat_map_concat_map. apply V, B.
Qed.

(** ** The loop *)
Section Loop.
  Context (T : list tensor) (CN : consistent_names T) (U : nat -> Qc) (sc sc' : nat -> nat -> nat -> term -> term -> pyres (list term)).
  Definition step_alike (k : nat) (rs rs' : list term) : Prop :=
    visible (U (Datatypes.S k)) /\ forall pool lls, Forall (good T (U k)) pool -> run sc (Datatypes.S k) pool rs = Ok lls ->
    exists lls', run sc' (Datatypes.S k) pool rs' = Ok lls' /\ Permutation (map view (concat lls)) (map view (concat lls')) /\ Forall (good T (U (Datatypes.S k))) (concat lls).
  Fixpoint steps_alike (k : nat) (rights rights' : list (list term)) : Prop :=
    match rights, rights' with
    | [], [] => True
    | rs :: rights, rs' :: rights' => step_alike k rs rs' /\ steps_alike (Datatypes.S k) rights rights'
    | _, _ => False
    end.
  Lemma loop_alike rights : forall rights' k pool outs, steps_alike k rights rights' -> Forall (good T (U k)) pool -> commutator_loop from_term sc (Datatypes.S k) pool rights = Ok outs ->
    exists outs', commutator_loop from_term sc' (Datatypes.S k) pool rights' = Ok outs' /\ map (map view) outs' = map (map view) outs.
  Proof.
    induction rights as [|rs rights IH]; intros [|rs' rights'] k pool outs ST F H; cbn [steps_alike] in ST; try contradiction; [exists outs; split; [exact H|reflexivity]|].
    destruct ST as [[VU ST] SS]. cbn [commutator_loop] in H |- *. fold (run sc (Datatypes.S k) pool rs) in H. fold (run sc' (Datatypes.S k) pool rs'). destruct (run sc _ pool rs) as [lls|] eqn:E1; [|discriminate]. cbn [pybind] in H.
    destruct (ST pool lls F E1) as (lls' & -> & P & G). cbn [pybind]. destruct (pymap from_term (concat lls)) as [ts|] eqn:E2; [|discriminate]. cbn [pybind] in H. destruct (copies_perm _ _ _ P E2) as (ts' & -> & Q). cbn [pybind].
    destruct (combine_terms ts) as [out|] eqn:E3; [|discriminate]. cbn [pybind] in H. pose proof (copies_good _ _ _ _ G E2) as G2. assert (G2' : Forall (good T (U (Datatypes.S k))) ts') by (rewrite Forall_forall in *; intros t I; apply G2, (Permutation_in _ (Permutation_sym Q) I)).
    destruct (combine_alike T CN _ VU ts ts' out G2 G2' (fun key => tot_perm key _ _ Q) E3) as (out' & -> & V). cbn [pybind]. destruct (pymap from_term out) as [lp|] eqn:E4; [|discriminate]. cbn [pybind] in H. rewrite copies_view, V, <- copies_view, E4. cbn [pybind].
    destruct (good_combine T CN _ VU ts G2) as (o2 & E5 & GO & _). rewrite E3 in E5. injection E5 as <-. destruct (commutator_loop from_term sc _ lp rights) as [os|] eqn:E6; [|discriminate]. cbn [pybind] in H. injection H as <-.
    destruct (IH rights' (Datatypes.S k) lp os SS (copies_good _ _ _ _ GO E4) E6) as (os' & -> & VS). cbn [pybind]. eexists. split; [reflexivity|]. cbn [map]. rewrite V, VS. reflexivity.
  Qed.
End Loop.
Lemma run_views sc sc' i pool rs lls : (forall a b l r o, In l pool -> In r rs -> sc i a b l r = Ok o -> exists o', sc' i a b l r = Ok o' /\ map view o' = map view o) ->
  run sc i pool rs = Ok lls -> exists lls', run sc' i pool rs = Ok lls' /\ map view (concat lls') = map view (concat lls).
Proof.
  intros P H. apply run_iff in H as [A ->]. eexists. split.
  - apply run_iff. split; [|reflexivity]. intros al br Ha Hb. destruct (A al br Ha Hb) as [o E]. destruct (P _ _ _ _ _ (in_positions _ _ Ha) (in_positions _ _ Hb) E) as (o' & E' & _). eauto.
  - rewrite <- !flat_map_concat_map. assert (V : forall X (F G : X -> list term) ps, (forall x, In x ps -> map view (F x) = map view (G x)) -> map view (flat_map F ps) = map view (flat_map G ps)).
    { clear. intros X F G ps H. induction ps as [|x ps IH]; [reflexivity|]. cbn [flat_map]. rewrite !map_app, (H x (or_introl eq_refl)), IH by (intros y Y; apply H; right; exact Y). reflexivity. }
    apply V. intros al Ha. apply V. intros br Hb. destruct (A al br Ha Hb) as [o E]. destruct (P _ _ _ _ _ (in_positions _ _ Ha) (in_positions _ _ Hb) E) as (o' & E' & W). rewrite E, E'. exact W.
Qed.

(** ** The cluster operators *)
Lemma max_perm a b : Permutation a b -> list_max a = list_max b.
Proof. intros P. induction P as [|x l l' _ IH|x y l|l l' l'' _ IH _ IH']; cbn [list_max fold_right]; unfold list_max in *; cbn [fold_right] in *; lia. Qed.
Lemma operators_perm levels levels' start un sr ts : Permutation levels levels' -> cluster_operators levels start un sr = Ok ts -> exists ts', cluster_operators levels' start un sr = Ok ts' /\ Permutation ts ts'.
Proof.
  intros P H. unfold cluster_operators in *. cbv zeta in *. destruct (pymap _ levels) as [am|] eqn:E1 in H; [|discriminate]. cbn [pybind] in H. destruct (pymap_perm _ _ _ P _ E1) as (am' & -> & Q). cbn [pybind]. destruct un; [|injection H as <-; eauto].
  destruct (pymap _ levels) as [dm|] eqn:E2 in H; [|discriminate]. cbn [pybind] in H. injection H as <-. destruct (pymap_perm _ _ _ P _ E2) as (dm' & -> & Q'). cbn [pybind]. eexists. split; [reflexivity|]. apply Permutation_app; assumption.
Qed.

Section Series.
  Context (cl : list nat) (n : nat) (levels : list Z) (opens : list (Z * Z)) (fc eh sr un h : bool).
  Local Notation m := (list_max cl).
  Context (B : (series_denominator m n <= 10 ^ 15)%Z).
  Local Notation U := (series_unit m).
  Lemma units_seen k : k <= n -> visible (U k).
  Proof. intros Hk. right. rewrite unit_denominator. apply inverse_visible. split; [apply denominator_pos|]. etransitivity; [apply denominator_mono, Hk|exact B]. Qed.
  Lemma pair_facts k l r N N' : k < n -> good series_tensors (U k) l -> factor_ok series_tensors N N' (inv_sq m) r ->
    consistent_names (ttensors l ++ ttensors r) /\ ttype l = SpinOrbital /\ ttype r = SpinOrbital /\ multiple (U (Datatypes.S k)) (Qcmult (inv_nat (Datatypes.S k)) (Qcmult (tcoeff l) (tcoeff r))).
  Proof.
    intros Hk [Cl [z Ml]] [_ Cr [z' Mr] _ _]. split; [exact (pair_consistent series_tensors series_names l r Cl Cr)|]. split; [apply Cl|]. split; [apply Cr|]. exists (z * z')%Z. rewrite Ml, Mr, Qc_of_Z_mul. cbn [series_unit]. ring.
  Qed.
  Lemma pair_good w1 w2 k l r N N' mc mx mn np o : unordered w1 -> unordered w2 -> k < n -> good series_tensors (U k) l -> factor_ok series_tensors N N' (inv_sq m) r ->
    single_commutator w1 w2 l r mc mx mn (inv_nat (Datatypes.S k)) fc eh np h = Ok o -> Forall (good series_tensors (U (Datatypes.S k))) o.
  Proof.
    intros U1 U2 Hk G F E. destruct (pair_facts k l r N N' Hk G F) as (CN & T1 & T2 & M).
    assert (G1 : Forall (good (ttensors l ++ ttensors r) (U (Datatypes.S k))) o).
    { apply (BilinearProofs.commutator_good _ CN _ (units_seen (Datatypes.S k) Hk) w1 w2 (inv_nat (Datatypes.S k)) l r mc mx mn fc eh np h o U1 U2); [|exact E]. split; [exact T1|]. split; [exact T2|]. split; [apply incl_refl|exact M]. }
    eapply Forall_impl; [|exact G1]. intros t [C M']. split; [|exact M']. apply (clean_trans series_tensors (ttensors l ++ ttensors r)); [|exact C]. intros y Y. apply in_app_or in Y as [Y|Y]; [apply G, Y|apply (fo_clean _ _ _ _ _ F), Y].
  Qed.
  Lemma pair_views w1 w2 w1' w2' k l r N N' mc mx mn np np' o : same_worlds w1 w1' -> same_worlds w2 w2' -> k < n -> good series_tensors (U k) l -> factor_ok series_tensors N N' (inv_sq m) r ->
    single_commutator w1 w2 l r mc mx mn (inv_nat (Datatypes.S k)) fc eh np h = Ok o -> exists o', single_commutator w1' w2' l r mc mx mn (inv_nat (Datatypes.S k)) fc eh np' h = Ok o' /\ map view o' = map view o.
  Proof.
    intros W1 W2 Hk G F E. destruct (pair_facts k l r N N' Hk G F) as (CN & T1 & T2 & M).
    destruct (commutator_ok w1 w2 w1' w2' l r mc mx mn (inv_nat (Datatypes.S k)) fc eh np np' h o W1 W2 CN T1 T2) as (o' & E' & V & _); [exact (multiple_not_tiny _ _ (units_seen (Datatypes.S k) Hk) M)|exact E|]. exists o'. split; [exact E'|symmetry; exact V].
  Qed.

  Context (ws ws' : worlds) (np np' : nat).
  Local Notation sc := (commutator_at ws levels opens inv_nat fc eh np h).
  Local Notation sc' := (commutator_at ws' levels opens inv_nat fc eh np' h).
  (** the same decisions at the same places *)
  Lemma step_schedule k rs N N' : (forall i a b, same_worlds (fst (ws i a b)) (fst (ws' i a b)) /\ same_worlds (snd (ws i a b)) (snd (ws' i a b))) -> k < n -> Forall (factor_ok series_tensors N N' (inv_sq m)) rs ->
    step_alike series_tensors U sc sc' k rs rs.
  Proof.
    intros SW Hk F. split; [apply units_seen, Hk|]. intros pool lls G H. rewrite Forall_forall in F, G.
    destruct (run_views sc sc' (Datatypes.S k) pool rs lls) with (2 := H) as (lls' & E & V).
    - intros a b l r o Hl Hr E. unfold commutator_at in *. destruct (at_level opens _ _) as [mn mx]. destruct (SW (Datatypes.S k) a b) as [S1 S2]. exact (pair_views _ _ _ _ k l r N N' _ _ _ _ _ o S1 S2 Hk (G l Hl) (F r Hr) E).
    - exists lls'. split; [exact E|]. split; [rewrite V; reflexivity|]. apply run_iff in H as [A ->]. rewrite <- flat_map_concat_map. apply Forall_forall. intros t I. apply in_flat_map in I as (al & Ha & I). apply in_flat_map in I as (br & Hb & I). destruct (A al br Ha Hb) as [o Eo]. rewrite Eo in I. cbn [val] in I.
      unfold commutator_at in Eo. destruct (at_level opens _ _) as [mn mx]. destruct (SW (Datatypes.S k) (fst al) (fst br)) as [(_ & S1 & _) (_ & S2 & _)]. pose proof (pair_good _ _ k _ _ N N' _ _ _ _ o S1 S2 Hk (G _ (in_positions _ _ Ha)) (F _ (in_positions _ _ Hb)) Eo) as GO. rewrite Forall_forall in GO. apply GO, I.
  Qed.
  (** the same decisions for the same terms *)
  Lemma step_order w k rs rs' N N' : (forall i a b, same_worlds (fst (ws i a b)) w /\ same_worlds (snd (ws i a b)) w) -> (forall i a b, same_worlds (fst (ws' i a b)) w /\ same_worlds (snd (ws' i a b)) w) ->
    k < n -> Forall (factor_ok series_tensors N N' (inv_sq m)) rs -> Permutation rs rs' -> step_alike series_tensors U sc sc' k rs rs'.
  Proof.
    intros SW SW' Hk F P. split; [apply units_seen, Hk|]. intros pool lls G H. rewrite Forall_forall in F, G.
    set (g := fun l r => let '(mn, mx) := at_level opens (0%Z, 0%Z) (Datatypes.S k) in single_commutator w w l r (at_level levels 0%Z (Datatypes.S k)) mx mn (inv_nat (Datatypes.S k)) fc eh 1 h).
    assert (SY : forall w1 w2, same_worlds w1 w2 -> same_worlds w2 w1) by (intros w1 w2 ((S1 & S2 & S3 & S4) & U1 & U2); repeat split; try assumption; symmetry; assumption).
    assert (PL : forall ws0 np0 rs0, (forall i a b, same_worlds (fst (ws0 i a b)) w /\ same_worlds (snd (ws0 i a b)) w) -> incl rs0 rs -> placed (commutator_at ws0 levels opens inv_nat fc eh np0 h) g (Datatypes.S k) pool rs0).
    { intros ws0 np0 rs0 SW0 I a b l r Hl Hr. unfold commutator_at, g. destruct (at_level opens _ _) as [mn mx]. destruct (SW0 (Datatypes.S k) a b) as [S1 S2]. split; intros o E.
      - exact (pair_views _ _ _ _ k l r N N' _ _ _ _ _ o S1 S2 Hk (G l Hl) (F r (I r Hr)) E).
      - exact (pair_views _ _ _ _ k l r N N' _ _ _ _ _ o (SY _ _ S1) (SY _ _ S2) Hk (G l Hl) (F r (I r Hr)) E). }
    destruct (proj1 (run_placed _ _ _ _ _ (PL ws np rs SW (incl_refl _))) lls H) as [A V].
    destruct (proj2 (run_placed _ _ _ _ _ (PL ws' np' rs' SW' (fun x X => Permutation_in _ (Permutation_sym P) X)))) as (lls' & E & V'); [intros l r Hl Hr; apply A; [exact Hl|exact (Permutation_in _ (Permutation_sym P) Hr)]|].
    exists lls'. split; [exact E|]. split; [rewrite V, V'; apply Permutation_map, pairs_perm; [reflexivity|exact P]|].
    apply run_iff in H as [A' ->]. rewrite <- flat_map_concat_map. apply Forall_forall. intros t I. apply in_flat_map in I as (al & Ha & I). apply in_flat_map in I as (br & Hb & I). destruct (A' al br Ha Hb) as [o Eo]. rewrite Eo in I. cbn [val] in I.
    unfold commutator_at in Eo. destruct (at_level opens _ _) as [mn mx]. destruct (SW (Datatypes.S k) (fst al) (fst br)) as [(_ & S1 & _) (_ & S2 & _)]. pose proof (pair_good _ _ k _ _ N N' _ _ _ _ o S1 S2 Hk (G _ (in_positions _ _ Ha)) (F _ (in_positions _ _ Hb)) Eo) as GO. rewrite Forall_forall in GO. apply GO, I.
  Qed.
  Lemma steps_from (f f' : nat -> pyres (list term)) : (forall k rs, k < n -> f k = Ok rs -> exists rs', f' k = Ok rs' /\ step_alike series_tensors U sc sc' k rs rs') ->
    forall c k amps, k + c <= n -> pymap f (seq k c) = Ok amps -> exists amps', pymap f' (seq k c) = Ok amps' /\ steps_alike series_tensors U sc sc' k amps amps'.
  Proof.
    intros H. induction c as [|c IH]; intros k amps L E; cbn [seq pymap] in *; [injection E as <-; exists []; split; [reflexivity|exact I]|].
    destruct (f k) as [rs|] eqn:Ek; [|discriminate]. cbn [pybind] in E. destruct (pymap f (seq (Datatypes.S k) c)) as [as_|] eqn:Es; [|discriminate]. cbn [pybind] in E. injection E as <-.
    destruct (H k rs ltac:(lia) Ek) as (rs' & -> & S1). destruct (IH (Datatypes.S k) as_ ltac:(lia) Es) as (as' & -> & S2). cbn [pybind]. eexists. split; [reflexivity|]. split; assumption.
  Qed.
  Lemma start_good hl : bch_start = Ok hl -> Forall (good series_tensors (U 0)) hl.
  Proof. intros E. pose proof (start_members hl E) as F. eapply Forall_impl; [|exact F]. intros t [_ _ C M]. split; assumption. Qed.
End Series.

Section Bch.
  Context (n : nat) (cl cl' : list nat) (cu : Z + list Z) (os : (Z * Z) + list (Z * Z)) (fc eh sr un h : bool) (np np' : nat) (ws ws' : worlds) (outs : list (list term)).
  Context (B : (4 * Z.of_nat (fact n) * Z.of_nat (fact (list_max cl)) ^ (2 * Z.of_nat n) <= 10 ^ 15)%Z).
  Lemma bch_alike : Permutation cl cl' ->
    (forall levels opens k rs, k < n -> bch_amplitudes cl un sr k = Ok rs -> exists rs', bch_amplitudes cl' un sr k = Ok rs' /\
      step_alike series_tensors (series_unit (list_max cl)) (commutator_at ws levels opens inv_nat fc eh np h) (commutator_at ws' levels opens inv_nat fc eh np' h) k rs rs') ->
    bch_cc_rsc ws n cl cu os fc eh sr un np h = Ok outs -> exists outs', bch_cc_rsc ws' n cl' cu os fc eh sr un np' h = Ok outs' /\ map (map view) outs' = map (map view) outs.
  Proof.
    intros P ST H. unfold bch_cc_rsc in *.
    destruct (per_level n cu) as [levels|] eqn:E1; [|discriminate]. cbn [pybind] in *. destruct (per_level n os) as [opens|] eqn:E2; [|discriminate]. cbn [pybind] in *. destruct cl as [|c0 cl0] eqn:Ec; [discriminate|]. rewrite <- Ec in *.
    destruct (pymap _ (seq 0 n)) as [amps|] eqn:E3 in H; [|discriminate]. cbn [pybind] in H. destruct bch_start as [hl|] eqn:E4; [|discriminate]. cbn [pybind] in H. destruct (commutator_loop _ _ 1 hl amps) as [outs0|] eqn:E5; [|discriminate]. cbn [pybind] in H. injection H as <-.
    destruct (steps_from cl n levels opens fc eh h ws ws' np np' (bch_amplitudes cl un sr) (bch_amplitudes cl' un sr) (ST levels opens) n 0 amps (le_n _) E3) as (amps' & E6 & SS).
    destruct (loop_alike series_tensors series_names _ _ _ amps amps' 0 hl outs0 SS (start_good cl hl E4) E5) as (outs' & E7 & V).
    destruct cl' as [|c0' cl0'] eqn:Ec'; [apply Permutation_sym, Permutation_nil in P; congruence|]. rewrite E6. cbn [pybind]. rewrite E7. cbn [pybind]. eexists. split; [reflexivity|]. cbn [map]. rewrite V. reflexivity.
  Qed.
  Theorem bch_schedule : cl' = cl -> (forall i a b, same_worlds (fst (ws i a b)) (fst (ws' i a b)) /\ same_worlds (snd (ws i a b)) (snd (ws' i a b))) ->
    bch_cc_rsc ws n cl cu os fc eh sr un np h = Ok outs -> exists outs', bch_cc_rsc ws' n cl' cu os fc eh sr un np' h = Ok outs' /\ map (map view) outs' = map (map view) outs.
  Proof.
    intros Ec SW. pose proof B as B'. rewrite <- denominator_closed in B'. apply bch_alike; [rewrite Ec; reflexivity|]. intros levels opens k rs Hk E. exists rs. split; [rewrite Ec; exact E|]. apply operators_factors in E. exact (step_schedule cl n levels opens fc eh h B' ws ws' np np' k rs _ _ SW Hk E).
  Qed.
  Theorem bch_order w : Permutation cl cl' -> (forall i a b, same_worlds (fst (ws i a b)) w /\ same_worlds (snd (ws i a b)) w) -> (forall i a b, same_worlds (fst (ws' i a b)) w /\ same_worlds (snd (ws' i a b)) w) ->
    bch_cc_rsc ws n cl cu os fc eh sr un np h = Ok outs -> exists outs', bch_cc_rsc ws' n cl' cu os fc eh sr un np' h = Ok outs' /\ map (map view) outs' = map (map view) outs.
  Proof.
    intros P SW SW'. pose proof B as B'. rewrite <- denominator_closed in B'. apply bch_alike; [exact P|]. intros levels opens k rs Hk E. pose proof E as E'. unfold bch_amplitudes in E' |- *. rewrite <- (max_perm _ _ P). destruct (operators_perm _ _ _ _ _ _ P E') as (rs' & Q & PR). exists rs'. split; [exact Q|].
    apply operators_factors in E. exact (step_order cl n levels opens fc eh h B' ws ws' np np' w k rs rs' _ _ SW SW' Hk E PR).
  Qed.
End Bch.
