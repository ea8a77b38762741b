(** C90: commutators are antisymmetric, additive and homogeneous, in the terms that are returned. *)
From Coq Require Import Ascii String ZArith QArith Qcanon Sorting.Sorted Lia.
From Verif Require Import PyBase OrderSpec OrderProofs SpaceModel IndexModel IndicesModel IterProofs IndicesProofs ElemModel MacroModel WickModel TermModel ValueSpec ValueProofs TermSpec TermProofs
  SymmetryModel CombineModel CombineSpec TextProofs CombineProofs CombineValue ScheduleProofs BilinearProofs LoopSpec LinearModel PropTerm PropSimplify PropSchedule.
Local Close Scope Q_scope.
Local Close Scope Qc_scope.
Local Open Scope nat_scope.
Local Notation length := List.length.

(** the term seen by a reader, with the coefficient multiplied by [q] *)
Definition multiplied (q : Qc) (v : itype * list tensor * op * Qc) : itype * list tensor * op * Qc := let '(ty, xs, o, c) := v in (ty, xs, o, Qcmult q c).
Lemma multiplied_times q l : map view (map (times q) l) = map (multiplied q) (map view l).
Proof. rewrite !map_map. reflexivity. Qed.

(** ** One commutator *)
(** Exchanging the two arguments and the sign of scale_factor: the same terms with the same coefficients in the same order. The two runs may use different
    processes. Asked for, as in C35: a tensor name stands for one kind of tensor; the common factor is zero or at least 1e-15. *)
Theorem C90_exchange : forall w1 w2 w1' w2' a b max_cu max_n_open min_n_open scale_factor for_commutator expand_hole n_process n_process' hermitian out,
  same_but_scheduling w1 w2' -> unordered w1 -> unordered w2' -> same_but_scheduling w2 w1' -> unordered w2 -> unordered w1' ->
  consistent_names (ttensors a ++ ttensors b) -> ttype a = SpinOrbital -> ttype b = SpinOrbital ->
  (let c := Qcmult scale_factor (Qcmult (tcoeff a) (tcoeff b)) in c = Q2Qc 0 \/ Qcle tiny (Qc_abs c)) ->
  single_commutator w1 w2 a b max_cu max_n_open min_n_open scale_factor for_commutator expand_hole n_process hermitian = Ok out ->
  exists out', single_commutator w1' w2' b a max_cu max_n_open min_n_open (Qcopp scale_factor) for_commutator expand_hole n_process' hermitian = Ok out' /\ map view out' = map view out.
Proof. intros w1 w2 w1' w2' a b mc mx mn sf fc eh n n' h out S1 U1 U1' S2 U2 U2' CN Ta Tb HC H. apply (commutator_swap w1 w2 w1' w2' a b mc mx mn sf fc eh n n' h out); try assumption; (split; [assumption|split; assumption]). Qed.
Print Assumptions C90_exchange.

(** Multiplying scale_factor by a number multiplies the coefficients. *)
Theorem C90_scale_contraction : forall q w w' terms max_cu max_n_open min_n_open scale_factor for_commutator expand_hole n_process n_process' hermitian out,
  same_but_scheduling w w' -> unordered w -> unordered w' -> consistent_names (flat_map ttensors terms) -> (forall t, In t terms -> ttype t = SpinOrbital) ->
  (let c := fold_left (fun c t => Qcmult c (tcoeff t)) terms scale_factor in c = Q2Qc 0 \/ (Qcle tiny (Qc_abs c) /\ Qcle tiny (Qc_abs (Qcmult q c)))) ->
  contract_terms w terms max_cu max_n_open min_n_open scale_factor for_commutator expand_hole n_process hermitian = Ok out ->
  exists out', contract_terms w' terms max_cu max_n_open min_n_open (Qcmult q scale_factor) for_commutator expand_hole n_process' hermitian = Ok out' /\
    map view out' = map (multiplied q) (map view out).
Proof. intros q w w' terms mc mx mn sf fc eh n n' h out SW U U' CN HT HC H. rewrite <- multiplied_times. eapply contract_times; try eassumption. split; [assumption|split; assumption]. Qed.
Print Assumptions C90_scale_contraction.

Theorem C90_scale : forall q w1 w2 w1' w2' a b max_cu max_n_open min_n_open scale_factor for_commutator expand_hole n_process n_process' hermitian out,
  same_but_scheduling w1 w1' -> unordered w1 -> unordered w1' -> same_but_scheduling w2 w2' -> unordered w2 -> unordered w2' ->
  consistent_names (ttensors a ++ ttensors b) -> ttype a = SpinOrbital -> ttype b = SpinOrbital ->
  (let c := Qcmult scale_factor (Qcmult (tcoeff a) (tcoeff b)) in c = Q2Qc 0 \/ (Qcle tiny (Qc_abs c) /\ Qcle tiny (Qc_abs (Qcmult q c)))) ->
  single_commutator w1 w2 a b max_cu max_n_open min_n_open scale_factor for_commutator expand_hole n_process hermitian = Ok out ->
  exists out', single_commutator w1' w2' a b max_cu max_n_open min_n_open (Qcmult q scale_factor) for_commutator expand_hole n_process' hermitian = Ok out' /\
    map view out' = map (multiplied q) (map view out).
Proof. intros q w1 w2 w1' w2' a b mc mx mn sf fc eh n n' h out S1 U1 U1' S2 U2 U2' CN Ta Tb HC H. rewrite <- multiplied_times. apply (commutator_times q w1 w2 w1' w2' a b mc mx mn sf fc eh n n' h out); try assumption; (split; [assumption|split; assumption]). Qed.
Print Assumptions C90_scale.

Lemma visible_opp c : visible c -> c = Q2Qc 0 \/ (Qcle tiny (Qc_abs c) /\ Qcle tiny (Qc_abs (Qcmult (Q2Qc (-1)) c))).
Proof.
  intros [H|H]; [left; exact H|right]. split; [exact H|]. replace (Qcmult (Q2Qc (-1)) c) with (Qcmult (Qc_of_Z (-1)) c) by reflexivity. destruct (multiple_not_tiny c (Qcmult (Qc_of_Z (-1)) c) (or_intror H)) as [E|E]; [exists (-1)%Z; reflexivity| |exact E].
  exfalso. apply Qcmult_integral in E as [E|E]; [discriminate|]. rewrite E in H. apply is_void_coeff_false in H. discriminate.
Qed.
(** [A, B] and [B, A] with the same scale_factor: the same terms with opposite coefficients, in the same order. *)
Theorem C90_antisymmetric : forall w1 w2 a b max_cu max_n_open min_n_open scale_factor for_commutator expand_hole n_process hermitian out,
  unordered w1 -> unordered w2 -> consistent_names (ttensors a ++ ttensors b) -> ttype a = SpinOrbital -> ttype b = SpinOrbital ->
  (let c := Qcmult scale_factor (Qcmult (tcoeff a) (tcoeff b)) in c = Q2Qc 0 \/ Qcle tiny (Qc_abs c)) ->
  single_commutator w1 w2 a b max_cu max_n_open min_n_open scale_factor for_commutator expand_hole n_process hermitian = Ok out ->
  exists out', single_commutator w2 w1 b a max_cu max_n_open min_n_open scale_factor for_commutator expand_hole n_process hermitian = Ok out' /\
    map view out' = map (multiplied (Q2Qc (-1))) (map view out).
Proof.
  intros w1 w2 a b mc mx mn sf fc eh n h out U1 U2 CN Ta Tb HC H. assert (R : forall w, unordered w -> same_worlds w w) by (intros w U; split; [repeat split|split; exact U]).
  destruct (commutator_times (Q2Qc (-1)) w1 w2 w1 w2 a b mc mx mn sf fc eh n n h out (R _ U1) (R _ U2) CN Ta Tb (visible_opp _ HC) H) as (o1 & E1 & V1).
  destruct (commutator_swap w1 w2 w2 w1 a b mc mx mn (Qcmult (Q2Qc (-1)) sf) fc eh n n h o1 (R _ U1) (R _ U2) CN Ta Tb) with (2 := E1) as (o2 & E2 & V2).
  - replace (Qcmult (Qcmult (Q2Qc (-1)) sf) (Qcmult (tcoeff a) (tcoeff b))) with (Qcmult (Q2Qc (-1)) (Qcmult sf (Qcmult (tcoeff a) (tcoeff b)))) by ring. destruct (visible_opp _ HC) as [E|[_ E]]; [left; rewrite E; ring|right; exact E].
  - exists o2. split; [|rewrite V2, V1; apply multiplied_times]. replace sf with (Qcopp (Qcmult (Q2Qc (-1)) sf)); [exact E2|]. change (Q2Qc (-1)) with (Qcopp (Q2Qc 1)). ring.
Qed.
Print Assumptions C90_antisymmetric.

(** ** Commutators of lists *)
(** The coefficients of the lists are multiples of [u] and [w], so that no sum of coefficients is nearly zero without being zero. *)
Definition summable (ls rs : list term) (scale_factor u w : Qc) : Prop :=
  consistent_names (flat_map ttensors (ls ++ rs)) /\ (forall t, In t (ls ++ rs) -> ttype t = SpinOrbital) /\ Forall (in_units u) ls /\ Forall (in_units w) rs /\
  Qcle tiny (Qc_abs (Qcmult scale_factor (Qcmult u w))).
Definition unordered_all (ws : term -> term -> world * world) : Prop := forall l r, unordered (fst (ws l r)) /\ unordered (snd (ws l r)).

Section Lists.
  Context (ws : term -> term -> world * world) (UO : unordered_all ws) (ls rs : list term) (sf u w : Qc) (SM : summable ls rs sf u w).
  Local Notation tensors := (flat_map ttensors (ls ++ rs)).
  Local Notation unit := (Qcmult sf (Qcmult u w)).
  Lemma unit_seen : visible unit.
  Proof. right. apply SM. Qed.
  Lemma pair_fits a b : In a ls -> In b rs -> fits tensors unit sf a b.
  Proof.
    intros Ha Hb. destruct SM as (CN & TY & UL & UR & _). rewrite Forall_forall in UL, UR. split; [apply TY, in_or_app; auto|]. split; [apply TY, in_or_app; auto|]. split.
    - intros x X. apply in_flat_map. apply in_app_or in X as [X|X]; [exists a|exists b]; (split; [apply in_or_app; auto|exact X]).
    - destruct (UL a Ha) as [z ->], (UR b Hb) as [z' ->]. exists (z * z')%Z. rewrite Qc_of_Z_mul. ring.
  Qed.
  Lemma pairs_good ls' rs' mc mx mn fc n h : incl ls' ls -> incl rs' rs ->
    Forall (good tensors unit) (all_pairs (fun l r => single_commutator (fst (ws l r)) (snd (ws l r)) l r mc mx mn sf fc true n h) ls' rs').
  Proof.
    intros Il Ir. apply pairs_forall. intros a b o Ha Hb E. destruct SM as (CN & _). destruct (UO a b) as [U1 U2]. exact (commutator_good _ CN _ unit_seen _ _ _ _ _ _ _ _ _ _ _ _ _ U1 U2 (pair_fits a b (Il a Ha) (Ir b Hb)) E).
  Qed.
End Lists.

(** The order of the terms in the two lists does not matter. *)
Theorem C90_order : forall ws left_terms right_terms left' right' scale_factor u w min_n_open max_n_open max_cu n_process for_commutator hermitian out,
  unordered_all ws -> summable left_terms right_terms scale_factor u w -> Permutation left_terms left' -> Permutation right_terms right' ->
  linear_commutator_py ws left_terms right_terms scale_factor min_n_open max_n_open max_cu n_process for_commutator hermitian = Ok out ->
  exists out', linear_commutator_py ws left' right' scale_factor min_n_open max_n_open max_cu n_process for_commutator hermitian = Ok out' /\ map view out' = map view out.
Proof.
  intros ws ls rs ls' rs' sf u w mn mx mc n fc h out UO SM PL PR H. unfold linear_commutator_py in *. apply linear_iff in H as [A H]. pose proof SM as (CN & _).
  destruct (combine_alike _ CN _ (unit_seen ls rs sf u w SM) (all_pairs (fun l r => single_commutator (fst (ws l r)) (snd (ws l r)) l r mc mx mn sf fc true n h) ls rs) (all_pairs (fun l r => single_commutator (fst (ws l r)) (snd (ws l r)) l r mc mx mn sf fc true n h) ls' rs') out) with (4 := H) as (out' & E & V).
  - apply (pairs_good ws UO ls rs sf u w SM); apply incl_refl.
  - apply (pairs_good ws UO ls rs sf u w SM); intros x; apply Permutation_in; symmetry; assumption.
  - intros k. apply tot_perm, pairs_perm; assumption.
  - exists out'. split; [|exact V]. apply linear_iff. split; [|exact E]. intros a b Ha Hb. apply A; [apply (Permutation_in _ (Permutation_sym PL) Ha)|apply (Permutation_in _ (Permutation_sym PR) Hb)].
Qed.
Print Assumptions C90_order.

(** Lists can be cut into parts, computed one by one and put together with combine_terms. *)
Theorem C90_parts_left : forall ws left1 left2 right_terms scale_factor u w min_n_open max_n_open max_cu n_process for_commutator hermitian out1 out2,
  unordered_all ws -> summable (left1 ++ left2) right_terms scale_factor u w ->
  linear_commutator_py ws left1 right_terms scale_factor min_n_open max_n_open max_cu n_process for_commutator hermitian = Ok out1 ->
  linear_commutator_py ws left2 right_terms scale_factor min_n_open max_n_open max_cu n_process for_commutator hermitian = Ok out2 ->
  exists out out', linear_commutator_py ws (left1 ++ left2) right_terms scale_factor min_n_open max_n_open max_cu n_process for_commutator hermitian = Ok out /\
    combine_terms (out1 ++ out2) = Ok out' /\ map view out' = map view out.
Proof.
  intros ws l1 l2 rs sf u w mn mx mc n fc h o1 o2 UO SM H1 H2. unfold linear_commutator_py in *. apply linear_iff in H1 as [A1 H1]. apply linear_iff in H2 as [A2 H2]. pose proof SM as (CN & _). pose proof (unit_seen _ _ _ _ _ SM) as VU.
  assert (G1 : forall l, incl l (l1 ++ l2) -> Forall (good (flat_map ttensors ((l1 ++ l2) ++ rs)) (Qcmult sf (Qcmult u w))) (all_pairs (fun l r => single_commutator (fst (ws l r)) (snd (ws l r)) l r mc mx mn sf fc true n h) l rs))
    by (intros l I; apply (pairs_good ws UO _ _ sf u w SM); [exact I|apply incl_refl]).
  destruct (good_combine _ CN _ VU _ (G1 l1 (incl_appl _ (incl_refl _)))) as (o & E & GO1 & S1). rewrite H1 in E. injection E as <-. destruct (good_combine _ CN _ VU _ (G1 l2 (incl_appr _ (incl_refl _)))) as (o & E & GO2 & S2). rewrite H2 in E. injection E as <-.
  destruct (good_combine _ CN _ VU _ (G1 (l1 ++ l2) (incl_refl _))) as (out & E & _ & _).
  destruct (combine_alike _ CN _ VU (all_pairs (fun l r => single_commutator (fst (ws l r)) (snd (ws l r)) l r mc mx mn sf fc true n h) (l1 ++ l2) rs) (o1 ++ o2) out (G1 (l1 ++ l2) (incl_refl _))) with (3 := E) as (out' & E' & V); [apply Forall_app; auto|intros k; rewrite pairs_left, !tot_app, S1, S2; reflexivity|].
  exists out, out'. split; [|auto]. apply linear_iff. split; [|exact E]. intros a b Ha Hb. apply in_app_or in Ha as [Ha|Ha]; auto.
Qed.
Print Assumptions C90_parts_left.

Theorem C90_parts_right : forall ws left_terms right1 right2 scale_factor u w min_n_open max_n_open max_cu n_process for_commutator hermitian out1 out2,
  unordered_all ws -> summable left_terms (right1 ++ right2) scale_factor u w ->
  linear_commutator_py ws left_terms right1 scale_factor min_n_open max_n_open max_cu n_process for_commutator hermitian = Ok out1 ->
  linear_commutator_py ws left_terms right2 scale_factor min_n_open max_n_open max_cu n_process for_commutator hermitian = Ok out2 ->
  exists out out', linear_commutator_py ws left_terms (right1 ++ right2) scale_factor min_n_open max_n_open max_cu n_process for_commutator hermitian = Ok out /\
    combine_terms (out1 ++ out2) = Ok out' /\ map view out' = map view out.
Proof.
  intros ws ls r1 r2 sf u w mn mx mc n fc h o1 o2 UO SM H1 H2. unfold linear_commutator_py in *. apply linear_iff in H1 as [A1 H1]. apply linear_iff in H2 as [A2 H2]. pose proof SM as (CN & _). pose proof (unit_seen _ _ _ _ _ SM) as VU.
  assert (G1 : forall r, incl r (r1 ++ r2) -> Forall (good (flat_map ttensors (ls ++ (r1 ++ r2))) (Qcmult sf (Qcmult u w))) (all_pairs (fun l r => single_commutator (fst (ws l r)) (snd (ws l r)) l r mc mx mn sf fc true n h) ls r))
    by (intros r I; apply (pairs_good ws UO _ _ sf u w SM); [apply incl_refl|exact I]).
  destruct (good_combine _ CN _ VU _ (G1 r1 (incl_appl _ (incl_refl _)))) as (o & E & GO1 & S1). rewrite H1 in E. injection E as <-. destruct (good_combine _ CN _ VU _ (G1 r2 (incl_appr _ (incl_refl _)))) as (o & E & GO2 & S2). rewrite H2 in E. injection E as <-.
  destruct (good_combine _ CN _ VU _ (G1 (r1 ++ r2) (incl_refl _))) as (out & E & _ & _).
  destruct (combine_alike _ CN _ VU (all_pairs (fun l r => single_commutator (fst (ws l r)) (snd (ws l r)) l r mc mx mn sf fc true n h) ls (r1 ++ r2)) (o1 ++ o2) out (G1 (r1 ++ r2) (incl_refl _))) with (3 := E) as (out' & E' & V); [apply Forall_app; auto|intros k; rewrite (tot_perm k _ _ (pairs_right _ _ _ _)), !tot_app, S1, S2; reflexivity|].
  exists out, out'. split; [|auto]. apply linear_iff. split; [|exact E]. intros a b Ha Hb. apply in_app_or in Hb as [Hb|Hb]; auto.
Qed.
Print Assumptions C90_parts_right.

(** The two lists exchanged. [ws' r l] are the set orders met by the exchanged pair. *)
Theorem C90_lists_antisymmetric : forall ws left_terms right_terms scale_factor u w min_n_open max_n_open max_cu n_process for_commutator hermitian out,
  unordered_all ws -> summable left_terms right_terms scale_factor u w ->
  linear_commutator_py ws left_terms right_terms scale_factor min_n_open max_n_open max_cu n_process for_commutator hermitian = Ok out ->
  exists out', linear_commutator_py (fun r l => (snd (ws l r), fst (ws l r))) right_terms left_terms scale_factor min_n_open max_n_open max_cu n_process for_commutator hermitian = Ok out' /\
    map view out' = map (multiplied (Q2Qc (-1))) (map view out).
Proof.
  intros ws ls rs sf u w mn mx mc n fc h out UO SM H. unfold linear_commutator_py in *. cbn [fst snd]. apply linear_iff in H as [A H]. pose proof SM as (CN & TY & _ & _ & VB). pose proof (unit_seen _ _ _ _ _ SM) as VU.
  set (f := fun l r => single_commutator (fst (ws l r)) (snd (ws l r)) l r mc mx mn sf fc true n h) in *. set (g := fun r l => single_commutator (snd (ws l r)) (fst (ws l r)) r l mc mx mn sf fc true n h).
  assert (SW : forall a b, In a ls -> In b rs -> exists o, g b a = Ok o /\ map view o = map (multiplied (Q2Qc (-1))) (map view (val (f a b)))).
  { intros a b Ha Hb. destruct (A a b Ha Hb) as [o E]. change (f a b = Ok o) in E. rewrite E. cbn [val]. destruct (UO a b) as [U1 U2]. destruct (pair_fits ls rs sf u w SM a b Ha Hb) as (T1 & T2 & I & M).
    apply (C90_antisymmetric (fst (ws a b)) (snd (ws a b)) a b mc mx mn sf fc true n h o U1 U2 (consistent_incl _ _ I CN) T1 T2); [exact (multiple_not_tiny _ _ VU M)|exact E]. }
  assert (V1 := visible_opp _ VU).
  destruct (combine_times _ CN (Qcmult sf (Qcmult u w)) (Q2Qc (-1)) V1 (all_pairs f ls rs) (all_pairs g rs ls) out) with (4 := H) as (out' & E & V).
  - apply (pairs_good ws UO ls rs sf u w SM); apply incl_refl.
  - apply pairs_forall. intros b a o Hb Ha E. destruct (UO a b) as [U1 U2]. pose proof (fits_swap _ _ _ _ _ (pair_fits ls rs sf u w SM a b Ha Hb)) as F. destruct F as (F1 & F2 & F3 & M).
    apply (commutator_good _ CN _ (times_visible _ _ V1) (snd (ws a b)) (fst (ws a b)) sf b a mc mx mn fc true n h o U2 U1); [|exact E]. split; [exact F1|]. split; [exact F2|]. split; [exact F3|].
    destruct M as [z M]. exists z. replace (Qcmult sf (Qcmult (tcoeff b) (tcoeff a))) with (Qcopp (Qcmult (Qcopp sf) (Qcmult (tcoeff b) (tcoeff a)))) by ring. rewrite M. change (Q2Qc (-1)) with (Qcopp (Q2Qc 1)). ring.
  - intros k. rewrite (tot_perm k _ _ (pairs_flip g rs ls)). apply pairs_sums. intros a b Ha Hb. destruct (SW a b Ha Hb) as (o & E & V). rewrite E. cbn [val]. rewrite <- multiplied_times in V. rewrite (view_sums _ _ V k). apply tot_times.
  - exists out'. split; [|rewrite V; apply multiplied_times]. apply linear_iff. split; [|exact E]. intros b a Hb Ha. destruct (SW a b Ha Hb) as (o & Eo & _). eauto.
Qed.
Print Assumptions C90_lists_antisymmetric.

(** Example: [H, T] and [T, H] for the one-body Hamiltonian and singles; [H + H', T] from [H, T] and [H', T]. *)
Definition ex_worlds (_ _ : term) : world * world := (ex_serial, ex_serial).
Definition ex_left2 : term := MkTerm SpinOrbital [Ten THamiltonian SpinOrbital "H" 0 [xi Sh 2] [xi Sp 3]] (Op [xi Sp 3] [xi Sh 2]) (Q2Qc (1 # 2)) [xi Sh 2; xi Sp 3] (fun _ => 2) [].
Example C90_example :
  unordered_all ex_worlds /\ summable ([ex_left] ++ [ex_left2]) [ex_right] (Q2Qc 1) (Q2Qc (1 # 2)) (Q2Qc 1) /\
  exists out out1 out2, linear_commutator_py ex_worlds ([ex_left] ++ [ex_left2]) [ex_right] (Q2Qc 1) 0 6 3 1 true true = Ok out /\
    linear_commutator_py ex_worlds [ex_left] [ex_right] (Q2Qc 1) 0 6 3 1 true true = Ok out1 /\ linear_commutator_py ex_worlds [ex_left2] [ex_right] (Q2Qc 1) 0 6 3 1 true true = Ok out2 /\
    (length out, length out1, length out2) = (6, 4, 4) /\
    exists back, linear_commutator_py ex_worlds [ex_right] [ex_left] (Q2Qc 1) 0 6 3 1 true true = Ok back /\ map tcoeff back = map (Qcmult (Q2Qc (-1))) (map tcoeff out1).
Proof.
  split; [intros l r; split; intros k m; reflexivity|]. split.
  - split; [|split; [|split; [|split]]].
    + split; [repeat constructor; intros H; cbn in H; intuition discriminate|]. intros x y X Y E. cbn in X, Y. intuition (subst; cbn in *; try discriminate; auto).
    + intros t H. cbn in H. intuition (subst; reflexivity).
    + constructor; [exists 2%Z; apply Qc_is_canon; reflexivity|constructor; [exists 1%Z; apply Qc_is_canon; reflexivity|constructor]].
    + constructor; [exists 1%Z; apply Qc_is_canon; reflexivity|constructor].
    + vm_compute. discriminate.
  - do 3 eexists. split; [vm_compute; reflexivity|]. split; [vm_compute; reflexivity|]. split; [vm_compute; reflexivity|]. split; [vm_compute; reflexivity|]. eexists. split; [vm_compute; reflexivity|]. vm_compute. reflexivity.
Qed.
