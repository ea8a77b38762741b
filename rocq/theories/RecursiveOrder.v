(** A recursive commutator of given terms does not depend on the processes. *)
From Coq Require Import Ascii String ZArith QArith Qcanon Sorting.Sorted Lia Bool Ring_theory Ring.
From Verif Require Import PyBase OrderSpec OrderProofs SpaceModel IndexModel IndicesModel ElemModel MacroModel WickModel TermModel BchSpec TermSpec TermProofs
  SymmetryModel CombineModel BchModel CombineSpec CombineProofs CombineValue ScheduleProofs BilinearProofs PoolProofs LoopSpec BchLoop LevelSpec LevelProofs SeriesOrder.
Local Close Scope Q_scope.
Local Close Scope Qc_scope.
Local Open Scope nat_scope.
Local Notation length := List.length.

Lemma contract_view w a b a' b' mc mx mn s fc eh np h : view a = view a' -> view b = view b' -> contract_terms w [a; b] mc mx mn s fc eh np h = contract_terms w [a'; b'] mc mx mn s fc eh np h.
Proof.
  intros Ea Eb. destruct a as [ty1 xs1 o1 c1 ? ?], a' as [ty1' xs1' o1' c1' ? ?], b as [ty2 xs2 o2 c2 ? ?], b' as [ty2' xs2' o2' c2' ? ?]. unfold view in Ea, Eb. cbn [ttype ttensors tsq tcoeff] in Ea, Eb. injection Ea as <- <- <- <-. injection Eb as <- <- <- <-.
  unfold contract_terms. cbn [fold_left flat_map filter ttype ttensors tsq tcoeff]. destruct (negb (op_is_empty o1)), (negb (op_is_empty o2)); cbn [map forallb ttype tsq ttensors tcoeff]; reflexivity.
Qed.
Lemma commutator_view w1 w2 l l' r mc mx mn s fc eh np h : view l = view l' -> single_commutator w1 w2 l r mc mx mn s fc eh np h = single_commutator w1 w2 l' r mc mx mn s fc eh np h.
Proof.
  intros E. unfold single_commutator. assert (Eo : tsq l = tsq l') by (unfold view in E; congruence). rewrite Eo, (contract_view w1 l r l' r _ _ _ _ _ _ _ _ E eq_refl), (contract_view w2 r l r l' _ _ _ _ _ _ _ _ eq_refl E). reflexivity.
Qed.
Lemma view_good T u l l' : map view l = map view l' -> Forall (good T u) l -> Forall (good T u) l'.
Proof.
  intros E G. pose proof (view_clean T l l' E) as VC. assert (C : Forall (clean T) l') by (apply VC; eapply Forall_impl; [|exact G]; intros t [H _]; exact H). clear VC.
  revert l' E C. induction G as [|t l [_ M] _ IH]; intros [|t' l'] E C; try discriminate; [constructor|]. cbn [map] in E. inversion C as [|? ? C1 C2]; subst. assert (E1 : view t = view t') by congruence.
  constructor; [split; [exact C1|unfold view in E1; assert (tcoeff t = tcoeff t') as <- by congruence; exact M]|apply IH; [congruence|exact C2]].
Qed.
Lemma pymap_ok l : pymap (fun t : term => Ok t) l = Ok l.
Proof. induction l as [|t l IH]; [reflexivity|]. cbn [pymap]. rewrite IH. reflexivity. Qed.

Lemma pymap_alike {A B} (f g : A -> pyres B) l : (forall x, f x = g x) -> pymap f l = pymap g l.
Proof. intros E. induction l as [|x l IH]; [reflexivity|]. cbn [pymap]. rewrite E, IH. reflexivity. Qed.

Section Recursive.
  Context (T : list tensor) (CN : consistent_names T) (levels : list Z) (opens : list (Z * Z)) (fc eh h : bool) (np np' : nat) (ws ws' : worlds).
  Context (SW : forall i a b, same_worlds (fst (ws i a b)) (fst (ws' i a b)) /\ same_worlds (snd (ws i a b)) (snd (ws' i a b))).
  Local Notation sc := (commutator_at ws levels opens (fun _ => Q2Qc 1) fc eh np h).
  Local Notation sc' := (commutator_at ws' levels opens (fun _ => Q2Qc 1) fc eh np' h).
  Lemma run_pool i rs pool pool' : map view pool = map view pool' -> run sc' i pool rs = run sc' i pool' rs.
  Proof.
    intros E. unfold run, positions. rewrite <- (map_length view pool), E, map_length. generalize (seq 0 (length pool')). revert pool' E. induction pool as [|t l IH]; intros [|t' l'] E ks; try discriminate; [reflexivity|]. cbn [map] in E.
    destruct ks as [|k ks]; [reflexivity|]. cbn [combine pymap fst snd]. rewrite (IH l') by congruence. assert (E1 : view t = view t') by congruence.
    rewrite (pymap_alike (fun br => sc' i k (fst br) t (snd br)) (fun br => sc' i k (fst br) t' (snd br))); [reflexivity|].
    intros br. unfold commutator_at. destruct (at_level opens _ _) as [mn mx]. apply commutator_view, E1.
  Qed.
  (** the running product of the coefficients stays visible *)
  Fixpoint seen (u : Qc) (rights : list term) : Prop :=
    match rights with [] => True | r :: rest => clean T r /\ visible (Qcmult u (tcoeff r)) /\ seen (Qcmult u (tcoeff r)) rest end.
  Lemma pair_facts u l r : good T u l -> clean T r -> consistent_names (ttensors l ++ ttensors r) /\ ttype l = SpinOrbital /\ ttype r = SpinOrbital /\ multiple (Qcmult u (tcoeff r)) (Qcmult (Q2Qc 1) (Qcmult (tcoeff l) (tcoeff r))).
  Proof.
    intros [Cl [z Ml]] Cr. split; [exact (pair_consistent T CN l r Cl Cr)|]. split; [apply Cl|]. split; [apply Cr|]. exists z. rewrite Ml. ring.
  Qed.
  Lemma step_views i u r pool lls : visible (Qcmult u (tcoeff r)) -> clean T r -> Forall (good T u) pool -> run sc i pool [r] = Ok lls ->
    exists lls', run sc' i pool [r] = Ok lls' /\ map view (concat lls') = map view (concat lls) /\ Forall (good T (Qcmult u (tcoeff r))) (concat lls).
  Proof.
    intros VU Cr G H. rewrite Forall_forall in G.
    destruct (run_views sc sc' i pool [r] lls) with (2 := H) as (lls' & E & V).
    - intros a b l r0 o Hl [<-|[]] E. unfold commutator_at in *. destruct (at_level opens _ _) as [mn mx]. destruct (SW i a b) as [S1 S2]. destruct (pair_facts u l r (G l Hl) Cr) as (CN' & T1 & T2 & M).
      destruct (commutator_ok (fst (ws i a b)) (snd (ws i a b)) (fst (ws' i a b)) (snd (ws' i a b)) l r (at_level levels 0%Z i) mx mn (Q2Qc 1) fc eh np np' h o S1 S2 CN' T1 T2) as (o' & E' & V & _); [exact (multiple_not_tiny _ _ VU M)|exact E|]. exists o'. split; [exact E'|symmetry; exact V].
    - exists lls'. split; [exact E|]. split; [exact V|]. apply run_iff in H as [A ->]. rewrite <- flat_map_concat_map. apply Forall_forall. intros t I. apply in_flat_map in I as (al & Ha & I). apply in_flat_map in I as (br & Hb & I). destruct (A al br Ha Hb) as [o Eo]. rewrite Eo in I. cbn [val] in I.
      unfold commutator_at in Eo. destruct (at_level opens _ _) as [mn mx]. destruct (SW i (fst al) (fst br)) as [(_ & S1 & _) (_ & S2 & _)]. pose proof (in_positions _ _ Hb) as Hr. destruct Hr as [Hr|[]]. pose proof (G _ (in_positions _ _ Ha)) as Gl. rewrite <- Hr in Eo.
      destruct (pair_facts u _ r Gl Cr) as (CN' & T1 & T2 & M).
      assert (G1 : Forall (good (ttensors (snd al) ++ ttensors r) (Qcmult u (tcoeff r))) o).
      { eapply (BilinearProofs.commutator_good _ CN' _ VU); [exact S1|exact S2| |exact Eo]. split; [exact T1|]. split; [exact T2|]. split; [apply incl_refl|exact M]. }
      rewrite Forall_forall in G1. destruct (G1 t I) as [C M']. split; [|exact M']. apply (clean_trans T (ttensors (snd al) ++ ttensors r)); [|exact C]. intros y Y. apply in_app_or in Y as [Y|Y]; [apply Gl, Y|apply Cr, Y].
  Qed.
  Lemma recursive_loop rights : forall i u pool pool' outs, seen u rights -> map view pool = map view pool' -> Forall (good T u) pool ->
    commutator_loop (fun t => Ok t) sc i pool (map (fun t => [t]) rights) = Ok outs ->
    exists outs', commutator_loop (fun t => Ok t) sc' i pool' (map (fun t => [t]) rights) = Ok outs' /\ map (map view) outs' = map (map view) outs.
  Proof.
    induction rights as [|r rights IH]; intros i u pool pool' outs SE EV F H; cbn [map commutator_loop] in *; [exists outs; split; [exact H|reflexivity]|].
    destruct SE as (Cr & VU & SE). fold (run sc i pool [r]) in H. fold (run sc' i pool' [r]). destruct (run sc i pool [r]) as [lls|] eqn:E1; [|discriminate]. cbn [pybind] in H.
    destruct (step_views i u r pool lls VU Cr F E1) as (lls' & E1' & V & G). rewrite <- (run_pool i [r] pool pool' EV), E1'. cbn [pybind]. rewrite !pymap_ok in *. cbn [pybind] in *.
    destruct (combine_terms (concat lls)) as [out|] eqn:E3; [|discriminate]. cbn [pybind] in H. assert (G' : Forall (good T (Qcmult u (tcoeff r))) (concat lls')) by (apply (view_good _ _ _ _ (eq_sym V) G)).
    destruct (combine_alike T CN _ VU _ _ out G G' (view_sums _ _ (eq_sym V)) E3) as (out' & -> & VO). cbn [pybind]. rewrite !pymap_ok in *. cbn [pybind] in *.
    destruct (good_combine T CN _ VU _ G) as (o2 & E5 & GO & _). rewrite E3 in E5. injection E5 as <-. destruct (commutator_loop (fun t => Ok t) sc _ out _) as [os|] eqn:E6; [|discriminate]. cbn [pybind] in H. injection H as <-.
    destruct (IH _ _ out out' os SE (eq_sym VO) GO E6) as (os' & -> & VS). cbn [pybind]. eexists. split; [reflexivity|]. cbn [map]. rewrite VO, VS. reflexivity.
  Qed.
End Recursive.
Definition product (l : list Qc) : Qc := fold_right Qcmult (Q2Qc 1) l.
Lemma seen_prefix T rights : forall u, Forall (clean T) rights -> (forall k, 1 <= k <= length rights -> visible (Qcmult u (product (map tcoeff (firstn k rights))))) -> seen T u rights.
Proof.
  induction rights as [|r rest IH]; intros u C V; [exact I|]. inversion C as [|? ? C1 C2]; subst. cbn [seen]. split; [exact C1|]. split.
  - assert (H := V 1 ltac:(cbn [List.length]; lia)). cbn [firstn map product fold_right] in H. rewrite Qcmult_1_r in H. exact H.
  - apply IH; [exact C2|]. intros k K. assert (H := V (Datatypes.S k) ltac:(cbn [List.length]; lia)). cbn [firstn map product fold_right] in H. rewrite Qcmult_assoc in H. exact H.
Qed.
Lemma recursive_schedule ws ws' terms levels opens fc eh np np' h outs :
  (forall i a b, same_worlds (fst (ws i a b)) (fst (ws' i a b)) /\ same_worlds (snd (ws i a b)) (snd (ws' i a b))) ->
  consistent_names (flat_map ttensors terms) -> (forall t, In t terms -> ttype t = SpinOrbital /\ forall x, In x (ttensors t) -> titype x = SpinOrbital) ->
  (forall k, 2 <= k <= length terms -> visible (product (map tcoeff (firstn k terms)))) ->
  recursive_single_commutator ws terms levels opens fc eh np h = Ok outs ->
  exists outs', recursive_single_commutator ws' terms levels opens fc eh np' h = Ok outs' /\ map (map view) outs' = map (map view) outs.
Proof.
  intros SW CN TY V H. unfold recursive_single_commutator in *. destruct terms as [|t0 [|t1 rest]]; try discriminate. destruct (per_level _ levels) as [lv|]; [|discriminate]. cbn [pybind] in *. destruct (per_level _ opens) as [op|]; [|discriminate]. cbn [pybind] in *.
  set (T := flat_map ttensors (t0 :: t1 :: rest)) in *. assert (C : Forall (clean T) (t0 :: t1 :: rest)).
  { apply Forall_forall. intros t I. destruct (TY t I) as [T1 T2]. split; [exact T1|]. intros y Y. split; [exact (T2 y Y)|]. exists y. split; [apply in_or_app; left; apply in_flat_map; exists t; auto|auto]. }
  inversion C as [|? ? C0 C1]; subst. refine (recursive_loop T CN lv op fc eh h np np' ws ws' SW (t1 :: rest) 1 (tcoeff t0) [t0] [t0] outs _ eq_refl _ H).
  - apply seen_prefix; [exact C1|]. intros k K. exact (V (Datatypes.S k) ltac:(cbn [List.length] in *; lia)).
  - constructor; [|constructor]. split; [exact C0|apply multiple_self].
Qed.
