(** Term.simplify keeps the value of a term. *)
From Coq Require Import Ascii String ZArith QArith Qcanon Sorting.Sorted Ring_theory Ring.
From Verif Require Import PyBase OrderSpec OrderProofs SpaceModel IndicesModel IterProofs IndicesProofs SpinProofs SpaceProofs SortProofs ElemModel ElemSpec ElemProofs MacroModel TermModel ValueSpec ValueProofs TermSpec SumProofs TermProofs RenameProofs.
Local Close Scope Q_scope.
Local Close Scope Qc_scope.
Local Open Scope nat_scope.
Local Notation length := List.length.

(** the indices replaced by fresh ones on account of a cumulant *)
Definition core_delta (core : bool) (x : tensor) : bool :=
  match tcls x, tupper x, tlower x with
  | TCumulant, [u], [l] => match downgrade_cumulant u l with Some s => space_eqb (lsp s) Sc && core | None => false end
  | _, _, _ => false
  end.
Definition requests (core : bool) (x : tensor) : list (idx * label) :=
  match tcls x with
  | TCumulant =>
      if length (tupper x) =? 1 then
        match tupper x, tlower x with
        | [u], [l] => match downgrade_cumulant u l with
                      | Some s => if space_eqb (lsp s) Sc && core then [] else [(u, s); (l, s)]
                      | None => []
                      end
        | _, _ => []
        end
      else map (fun i => (i, active_label i)) (tupper x ++ tlower x)
  | _ => []
  end.
Definition as_delta (core : bool) (x : tensor) : tensor :=
  if core_delta core x then Ten TKronecker (titype x) "K" (-1)%Z (tupper x) (tlower x) else x.
Definition is_delta (core : bool) (x : tensor) : bool := tclass_eqb (tcls x) TKronecker || core_delta core x.

Lemma assign_fresh_fold ps : forall r next, NoDup (map fst r ++ map fst ps) -> exists gens next',
  fold_left (fun st p => assign_fresh (fst p) (snd p) st) ps (r, next, []) = (r ++ combine (map fst ps) gens, next', []) /\
  generates next gens next' /\ map fst gens = map snd ps.
Proof.
  induction ps as [|[i s] ps IH]; intros r next N; cbn [fold_left map fst snd].
  - exists [], next. cbn. rewrite app_nil_r. split; [reflexivity|]. split; [constructor|reflexivity].
  - unfold assign_fresh at 2. unfold generate_next_index. cbn [map fst diag_add] in *.
    assert (Ni : ~ In i (map fst r)). { intros H. apply NoDup_remove_2 in N. apply N, in_or_app. left. exact H. }
    rewrite (dict_set_fresh idx_eqb idx_eqb_eq) by exact Ni.
    destruct (IH (r ++ [(i, (s, next s))]) (bump next s)) as (gens & next' & H1 & H2 & H3).
    { rewrite map_app. cbn [map fst]. rewrite <- app_assoc. exact N. }
    exists ((s, next s) :: gens), next'. rewrite <- app_assoc in H1. cbn [app combine] in *. split; [exact H1|]. split; [econstructor; [reflexivity|exact H2]|].
    cbn [map fst]. rewrite H3. reflexivity.
Qed.
Lemma combine_app_len {B C} (l l' : list B) (m m' : list C) : length m = length l -> combine (l ++ l') (m ++ m') = combine l m ++ combine l' m'.
Proof. revert m. induction l as [|x l IH]; intros [|y m] H; try discriminate; [reflexivity|]. cbn in *. f_equal. apply IH. lia. Qed.

Lemma downgrade_step_ok core x r next y st' : downgrade_step core x (r, next, []) = Ok (y, st') ->
  y = as_delta core x /\ st' = fold_left (fun st p => assign_fresh (fst p) (snd p) st) (requests core x) (r, next, []) /\
  (tcls x = TCumulant -> length (tupper x) = 1 -> exists u l s, tupper x = [u] /\ tlower x = [l] /\ downgrade_cumulant u l = Some s).
Proof.
  unfold downgrade_step, as_delta, requests, core_delta. destruct (tcls x) eqn:Ec; try (intros H; inversion H; subst; split; [reflexivity|split; [reflexivity|intros; discriminate]]).
  destruct (length (tupper x) =? 1) eqn:E1.
  - destruct (tupper x) as [|u [|? ?]] eqn:Eu; try discriminate. destruct (tlower x) as [|l [|? ?]] eqn:El; try discriminate.
    destruct (downgrade_cumulant u l) as [s|] eqn:Ed; [|discriminate]. destruct (space_eqb (lsp s) Sc && core) eqn:Es.
    + destruct (check_tensor _) as [k|] eqn:Ek; [|discriminate]. apply check_tensor_ok in Ek as ->. cbn. intros H. inversion H; subst. split; [reflexivity|]. split; [reflexivity|]. intros _ _. eauto 7.
    + intros H. inversion H; subst. split; [reflexivity|]. split; [reflexivity|]. intros _ _. eauto 7.
  - intros H. injection H as <- <-. split; [destruct (tupper x) as [|? [|? ?]]; try reflexivity; discriminate|]. split; [|intros _ L; rewrite L in E1; discriminate].
    clear. assert (G : forall m st, fold_left (fun st i => assign_fresh i (active_label i) st) m st = fold_left (fun st p => assign_fresh (fst p) (snd p) st) (map (fun i => (i, active_label i)) m) st).
    { induction m as [|i m IH]; intros st; [reflexivity|]. cbn [map fold_left fst snd]. apply IH. } apply G.
Qed.

Lemma downgrade_loop_ok core xs : forall r next ys st', downgrade_loop core xs (r, next, []) = Ok (ys, st') ->
  NoDup (map fst r ++ map fst (flat_map (requests core) xs)) ->
  ys = map (as_delta core) xs /\
  Forall (fun x => tcls x = TCumulant -> length (tupper x) = 1 -> exists u l s, tupper x = [u] /\ tlower x = [l] /\ downgrade_cumulant u l = Some s) xs /\
  exists gens next', st' = (r ++ combine (map fst (flat_map (requests core) xs)) gens, next', []) /\ generates next gens next' /\ map fst gens = map snd (flat_map (requests core) xs).
Proof.
  induction xs as [|x xs IH]; intros r next ys st' H N; cbn [downgrade_loop] in H.
  - inversion H; subst. split; [reflexivity|]. split; [constructor|]. exists [], next. cbn. rewrite app_nil_r. split; [reflexivity|]. split; [constructor|reflexivity].
  - destruct (downgrade_step core x _) as [[y st1]|] eqn:E1; [|discriminate]. cbn [pybind snd fst] in H. destruct (downgrade_loop core xs st1) as [[ys' st2]|] eqn:E2; [|discriminate]. cbn [pybind snd fst] in H. inversion H; subst. clear H.
    apply downgrade_step_ok in E1 as (-> & E1 & HC). cbn [flat_map] in N. rewrite map_app, app_assoc in N.
    assert (N1 : NoDup (map fst r ++ map fst (requests core x))) by (apply NoDup_app_elim in N; tauto).
    destruct (assign_fresh_fold (requests core x) r next N1) as (g1 & n1 & A1 & A2 & A3). pose proof (eq_trans E1 A1) as E1'. clear E1. subst st1.
    assert (Lg : length g1 = length (map fst (requests core x))). { apply (f_equal (@length label)) in A3. rewrite !map_length in *. exact A3. }
    apply IH in E2 as (-> & F & g2 & n2 & B1 & B2 & B3).
    2: { rewrite map_app, map_fst_combine by exact Lg. exact N. }
    split; [reflexivity|]. split; [constructor; assumption|]. exists (g1 ++ g2), n2. cbn [flat_map]. rewrite !map_app, combine_app_len by exact Lg. split; [|split].
    + rewrite B1, <- app_assoc. reflexivity.
    + eapply generates_app; eassumption.
    + exact (f_equal2 (@app label) A3 B3).
Qed.

(** ** deltas *)
Definition tri := (idx * idx * option idx)%type.
Definition tri_events (p : tri) : repl := match p with (h, l, Some f) => [(h, f); (l, f)] | (h, l, None) => [(h, l)] end.
Definition tri_fresh (p : tri) : list idx := match snd p with Some f => [f] | None => [] end.
Definition tri_pair (p : tri) : list idx := [fst (fst p); snd (fst p)].
Definition tri_of (x : tensor) (p : tri) : Prop :=
  exists u l rl ru, tupper x = u :: ru /\ tlower x = l :: rl /\ fst p = high_low u l /\
    downgrade_kronecker u l = Some (match snd p with Some f => fst f | None => fst (snd (fst p)) end).

Lemma high_low_cases u l : high_low u l = (u, l) \/ high_low u l = (l, u).
Proof. unfold high_low. destruct (idx_lt l u); auto. Qed.

Lemma tri_keys_incl p : incl (map fst (tri_events p)) (tri_pair p).
Proof. destruct p as [[h l] [f|]]; intros i; cbn; tauto. Qed.

Lemma delta_loop_ok ys : forall r next zs st', delta_loop ys (r, next, []) = Ok (zs, st') ->
  zs = filter (fun y => negb (tclass_eqb (tcls y) TKronecker)) ys /\
  exists ps next', Forall2 tri_of (filter (fun y => tclass_eqb (tcls y) TKronecker) ys) ps /\ generates next (flat_map tri_fresh ps) next' /\
    (NoDup (map fst r ++ flat_map tri_pair ps) -> st' = (r ++ flat_map tri_events ps, next', [])).
Proof.
  induction ys as [|y ys IH]; intros r next zs st' H; cbn [delta_loop] in H.
  - inversion H; subst. split; [reflexivity|]. exists [], next. split; [constructor|]. split; [constructor|]. intros _. cbn. rewrite app_nil_r. reflexivity.
  - cbn [filter]. destruct (tclass_eqb (tcls y) TKronecker) eqn:Ey; cbn [negb].
    + destruct (delta_step y (r, next, [])) as [st1|] eqn:E1; [|discriminate]. cbn [pybind] in H. unfold delta_step in E1.
      destruct (tupper y) as [|u ru] eqn:Eu; [discriminate|]. destruct (tlower y) as [|l rl] eqn:El; [discriminate|].
      destruct (downgrade_kronecker u l) as [w|] eqn:Ew; [|discriminate]. destruct (high_low u l) as [high low] eqn:Eh.
      assert (Ew' : w = if space_eqb (lsp (fst high)) Sp && space_eqb (lsp (fst low)) Sh then active_label high else fst low).
      { unfold downgrade_kronecker, high_low in *. destruct (idx_lt l u); injection Eh as <- <-; (destruct (inter_label _ _); [discriminate|]); destruct (_ && _); injection Ew as <-; reflexivity. }
      destruct (space_eqb (lsp (fst high)) Sp && space_eqb (lsp (fst low)) Sh) eqn:Eph.
      * unfold generate_next_index in E1. cbn [diag_add map] in E1. set (f := (active_label high, next (active_label high))) in *. injection E1 as <-. apply IH in H as (-> & ps & n2 & F & G & D).
        split; [reflexivity|]. exists ((high, low, Some f) :: ps), n2. split; [|split].
        -- constructor; [|exact F]. exists u, l, rl, ru. cbn [fst snd]. rewrite Ew, Ew', Eh. auto.
        -- cbn [flat_map tri_fresh snd app]. econstructor; [reflexivity|exact G].
        -- intros N. cbn [flat_map tri_pair fst snd app] in N. cbn [flat_map tri_events app].
           assert (N1 : ~ In high (map fst r)). { intros Hi. apply NoDup_remove_2 in N. apply N, in_or_app. left. exact Hi. }
           assert (N2 : high <> low /\ ~ In low (map fst r)).
           { pose proof (NoDup_remove_1 _ _ _ N) as N'. split; [|intros Hi; apply NoDup_remove_2 in N'; apply N', in_or_app; left; exact Hi]. intros ->. apply NoDup_remove_2 in N. apply N, in_or_app. right. left. reflexivity. }
           rewrite (dict_set_fresh idx_eqb idx_eqb_eq high) in D by exact N1. rewrite (dict_set_fresh idx_eqb idx_eqb_eq low) in D.
           2: { rewrite map_app, in_app_iff. cbn. intuition. }
           rewrite !map_app in D. cbn [map fst] in D. rewrite <- !app_assoc in D. cbn [app] in D. apply D. exact N.
      * cbn [diag_add map] in E1. injection E1 as <-. apply IH in H as (-> & ps & n2 & F & G & D).
        split; [reflexivity|]. exists ((high, low, None) :: ps), n2. split; [|split].
        -- constructor; [|exact F]. exists u, l, rl, ru. cbn [fst snd]. rewrite Ew, Ew', Eh. auto.
        -- exact G.
        -- intros N. cbn [flat_map tri_pair fst snd app] in N. cbn [flat_map tri_events app].
           assert (N1 : ~ In high (map fst r)). { intros Hi. apply NoDup_remove_2 in N. apply N, in_or_app. left. exact Hi. }
           rewrite (dict_set_fresh idx_eqb idx_eqb_eq high) in D by exact N1. rewrite !map_app in D. cbn [map fst] in D. rewrite <- !app_assoc in D. cbn [app] in D. apply D.
           apply NoDup_app_elim in N as (N3 & N4 & N5). inversion N4 as [|? ? N6 N7]; subst. inversion N7 as [|? ? N8 N9]; subst.
           apply NoDup_app_intro; [exact N3| |].
           ++ constructor; [|exact N9]. intros Hi. apply N6. right. exact Hi.
           ++ intros z Hz [<-|Hz']; [exact (N1 Hz)|]. apply (N5 z Hz). right. right. exact Hz'.
    + destruct (delta_loop ys (r, next, [])) as [[zs' st1]|] eqn:E1; [|discriminate]. cbn [pybind fst snd] in H. inversion H; subst. apply IH in E1 as (-> & E2). split; [reflexivity|exact E2].
Qed.

Lemma nodup_flat_map_unique {B C} (f : B -> list C) l a b z : NoDup (flat_map f l) -> In a l -> In b l -> In z (f a) -> In z (f b) -> a = b.
Proof.
  induction l as [|x l IH]; intros N Ha Hb Za Zb; [destruct Ha|]. cbn [flat_map] in N. apply NoDup_app_elim in N as (N1 & N2 & N3).
  assert (Q : forall c, In c l -> In z (f c) -> In z (flat_map f l)) by (intros c Hc Hz; apply in_flat_map; eauto).
  destruct Ha as [<-|Ha], Hb as [<-|Hb]; [reflexivity| | |apply IH; assumption]; exfalso; eapply N3; eauto.
Qed.
Lemma nodup_keys_unique {B C} (l : list (B * C)) k a b : NoDup (map fst l) -> In (k, a) l -> In (k, b) l -> a = b.
Proof.
  induction l as [|[k' c] l IH]; intros N Ha Hb; [destruct Ha|]. cbn [map fst] in N. inversion N as [|? ? N1 N2]; subst.
  assert (Q : forall d, In (k', d) l -> False) by (intros d Hd; apply N1; exact (in_map fst _ _ Hd)).
  destruct Ha as [Ha|Ha], Hb as [Hb|Hb]; [congruence| | |apply IH; assumption]; exfalso; [injection Ha as -> _|injection Hb as -> _]; eauto.
Qed.
Lemma flat_map_filter {B C} (f : B -> list C) (p : B -> bool) l : (forall x, In x l -> p x = false -> f x = []) -> flat_map f l = flat_map f (filter p l).
Proof.
  induction l as [|x l IH]; intros H; [reflexivity|]. cbn [flat_map filter]. rewrite IH by (intros y Hy; apply H; right; exact Hy). destruct (p x) eqn:E; [reflexivity|].
  rewrite (H x (or_introl eq_refl) E). reflexivity.
Qed.
Lemma flat_map_ext_in {B C} (f g : B -> list C) l : (forall x, In x l -> f x = g x) -> flat_map f l = flat_map g l.
Proof. induction l as [|x l IH]; intros H; [reflexivity|]. cbn [flat_map]. rewrite (H x (or_introl eq_refl)), IH by (intros y Hy; apply H; right; exact Hy). reflexivity. Qed.
Lemma map_flat_map {B C D} (g : C -> D) (f : B -> list C) l : map g (flat_map f l) = flat_map (fun x => map g (f x)) l.
Proof. induction l as [|x l IH]; [reflexivity|]. cbn [flat_map]. rewrite map_app, IH. reflexivity. Qed.
Lemma Permutation_flat_map' {B C} (f : B -> list C) l m : Permutation l m -> Permutation (flat_map f l) (flat_map f m).
Proof. apply Permutation_flat_map. Qed.
Lemma filter_split {B} (p : B -> bool) l : Permutation l (filter (fun x => negb (p x)) l ++ filter p l).
Proof. induction l as [|x l IH]; [reflexivity|]. cbn [filter]. destruct (p x); cbn [negb app]; [apply Permutation_cons_app, IH|constructor; exact IH]. Qed.
Lemma filter_filter {B} (p q : B -> bool) l : filter p (filter q l) = filter (fun x => q x && p x) l.
Proof. induction l as [|x l IH]; [reflexivity|]. cbn [filter]. destruct (q x); cbn [andb filter]; [destruct (p x); rewrite IH; reflexivity|exact IH]. Qed.

Lemma core_delta_density core x : core_delta core x = true -> tcls x = TCumulant.
Proof. unfold core_delta. destruct (tcls x); try discriminate. reflexivity. Qed.
Lemma is_delta_density core x : is_delta core x = true -> is_density x = true.
Proof. unfold is_delta, is_density. rewrite orb_true_iff. intros [H|H]; [apply tclass_eqb_eq in H as ->; reflexivity|]. rewrite (core_delta_density core x H). reflexivity. Qed.
Lemma as_delta_class core x : tclass_eqb (tcls (as_delta core x)) TKronecker = is_delta core x.
Proof. unfold as_delta, is_delta. destruct (core_delta core x); cbn [tcls tclass_eqb]; rewrite ?orb_true_r, ?orb_false_r; reflexivity. Qed.
Lemma filter_as_delta core xs : filter (fun y => tclass_eqb (tcls y) TKronecker) (map (as_delta core) xs) = map (as_delta core) (filter (is_delta core) xs).
Proof. induction xs as [|x xs IH]; [reflexivity|]. cbn [map filter]. rewrite as_delta_class. destruct (is_delta core x); cbn [map]; rewrite IH; reflexivity. Qed.
Lemma filter_as_kept core xs : filter (fun y => negb (tclass_eqb (tcls y) TKronecker)) (map (as_delta core) xs) = filter (fun x => negb (is_delta core x)) xs.
Proof.
  induction xs as [|x xs IH]; [reflexivity|]. cbn [map filter]. rewrite as_delta_class. destruct (is_delta core x) eqn:E; cbn [negb]; [exact IH|]. rewrite IH. f_equal.
  unfold as_delta. unfold is_delta in E. apply orb_false_iff in E as [_ ->]. reflexivity.
Qed.
Lemma as_delta_upper core x : tupper (as_delta core x) = tupper x.
Proof. unfold as_delta. destruct (core_delta core x); reflexivity. Qed.
Lemma as_delta_lower core x : tlower (as_delta core x) = tlower x.
Proof. unfold as_delta. destruct (core_delta core x); reflexivity. Qed.

Lemma valid_kronecker x : valid_tensor x -> tcls x = TKronecker -> exists u l, tupper x = [u] /\ tlower x = [l].
Proof.
  unfold valid_tensor, check_tensor. intros H E. rewrite E in H. destruct (_ && _) eqn:L; [|discriminate]. apply andb_true_iff in L as [L1 L2]. apply Nat.eqb_eq in L1, L2.
  destruct (tupper x) as [|u [|? ?]]; try discriminate. destruct (tlower x) as [|l [|? ?]]; try discriminate. eauto.
Qed.
Lemma delta_shape core x : valid_tensor x -> is_delta core x = true -> exists u l, tupper x = [u] /\ tlower x = [l].
Proof.
  intros V. unfold is_delta. rewrite orb_true_iff. intros [H|H]; [apply tclass_eqb_eq in H; apply valid_kronecker; assumption|].
  unfold core_delta in H. destruct (tcls x); try discriminate. destruct (tupper x) as [|u [|? ?]]; try discriminate. destruct (tlower x) as [|l [|? ?]]; try discriminate. eauto.
Qed.

Definition rep (p : tri) : idx := match snd p with Some f => f | None => snd (fst p) end.
Lemma tri_events_in p k z : In (k, z) (tri_events p) -> In k (tri_pair p) /\ z = rep p.
Proof. destruct p as [[h l] [f|]]; cbn; intuition congruence. Qed.

(** what simplify does to the indices *)
Record simplified (core : bool) (xs : list tensor) (I : list idx) (rho : idx -> idx) : Prop := {
  sm_request : forall x i s, In x xs -> In (i, s) (requests core x) -> fst (rho i) = s;
  sm_delta : forall x, In x xs -> is_delta core x = true -> exists u l w, tupper x = [u] /\ tlower x = [l] /\ downgrade_kronecker u l = Some w /\ rho u = rho l /\ fst (rho u) = w;
  sm_cumulant : forall x, In x xs -> tcls x = TCumulant -> length (tupper x) = 1 -> exists u l s, tupper x = [u] /\ tlower x = [l] /\ downgrade_cumulant u l = Some s;
  sm_other : forall i, In i I -> rho i = i \/ (exists x s, In x xs /\ In (i, s) (requests core x)) \/ (exists x, In x xs /\ is_delta core x = true /\ In i (tensor_indices x));
  sm_fiber : forall i j, In i I -> In j I -> rho i = rho j -> i = j \/ exists x, In x xs /\ is_delta core x = true /\ In i (tensor_indices x) /\ In j (tensor_indices x) }.

(** the two loops *)
Lemma loops_inv core t ys rcu next1 rd1 zs rde next2 rd2 : downgrade_loop core (ttensors t) ([], tnext t, []) = Ok (ys, (rcu, next1, rd1)) -> delta_loop ys ([], next1, []) = Ok (zs, (rde, next2, rd2)) -> NoDup (tindices t) ->
  (forall i, In i (content_indices (ttensors t) (tsq t)) -> In i (tindices t)) ->
  (forall i, In i (tindices t) -> snd i < tnext t (fst i)) ->
  Forall valid_tensor (ttensors t) -> densities_disjoint (ttensors t) ->
  zs = filter (fun x => negb (is_delta core x)) (ttensors t) /\
  exists r rho gs, r = dict_update idx_eqb (dict_update idx_eqb (map (fun i => (i, i)) (tindices t)) rcu) rde /\ simplified core (ttensors t) (tindices t) rho /\ (forall i, In i (tindices t) -> rename r i = rho i) /\ (forall i, In i (map fst r) -> In i (tindices t)) /\
    (forall i, In i (tindices t) -> In i (map fst r)) /\ generates (tnext t) gs next2 /\ (forall i, In i (map snd r) -> In i (tindices t) \/ In i gs).
Proof.
  intros E1 E2 NI HI HN HV HD.
  set (T := ttensors t) in *. set (I := tindices t) in *.
  (* split of the densities *)
  set (B := filter (is_delta core) T). set (K := filter (fun x => is_density x && negb (is_delta core x)) T).
  assert (PD : Permutation (filter is_density T) (K ++ B)).
  { rewrite (filter_split (is_delta core) (filter is_density T)). rewrite !filter_filter. apply Permutation_app; [reflexivity|].
    unfold B. apply Permutation_refl'. apply filter_ext. intros x. destruct (is_delta core x) eqn:E; [rewrite (is_delta_density core x E); reflexivity|apply andb_false_r]. }
  unfold densities_disjoint in HD. rewrite (Permutation_flat_map' tensor_indices _ _ PD), flat_map_app in HD.
  (* first loop; its success does not depend on the keys *)
  assert (HC : Forall (fun x => tcls x = TCumulant -> length (tupper x) = 1 -> exists u l s, tupper x = [u] /\ tlower x = [l] /\ downgrade_cumulant u l = Some s) T).
  { clear -E1. assert (G : forall xs st r, downgrade_loop core xs st = Ok r -> Forall (fun x => tcls x = TCumulant -> length (tupper x) = 1 -> exists u l s, tupper x = [u] /\ tlower x = [l] /\ downgrade_cumulant u l = Some s) xs).
    { induction xs as [|x xs IH]; intros st r H; [constructor|]. cbn [downgrade_loop] in H. destruct (downgrade_step core x st) as [q|] eqn:E; [|discriminate]. cbn [pybind] in H.
      destruct (downgrade_loop core xs (snd q)) as [q'|] eqn:E'; [|discriminate]. constructor; [|eapply IH; exact E']. intros Ec El. unfold downgrade_step in E. rewrite Ec, El in E. cbn [Nat.eqb] in E.
      destruct (tupper x) as [|u [|? ?]]; try discriminate. destruct (tlower x) as [|l [|? ?]]; try discriminate. destruct (downgrade_cumulant u l) as [s|] eqn:Ed; [|discriminate]. eauto 6. }
    eapply G, E1. }
  assert (ER : map fst (flat_map (requests core) T) = flat_map tensor_indices K).
  { rewrite map_flat_map, (flat_map_filter _ (fun x => is_density x && negb (is_delta core x))).
    - fold K. apply flat_map_ext_in. intros x Hx. apply filter_In in Hx as [Hx Ex]. apply andb_true_iff in Ex as [Ex1 Ex2]. rewrite negb_true_iff in Ex2. unfold is_delta in Ex2. apply orb_false_iff in Ex2 as [Ex2 Ex3].
      rewrite Forall_forall in HC. specialize (HC x Hx). unfold requests, core_delta, is_density, tensor_indices in *. destruct (tcls x); try discriminate. destruct (length (tupper x) =? 1) eqn:L.
      + apply Nat.eqb_eq in L. destruct (HC eq_refl L) as (u & l & s & Eu & El & Es). rewrite Eu, El, Es in *. rewrite Ex3. reflexivity.
      + rewrite map_map. cbn [fst]. rewrite map_id. reflexivity.
    - intros x Hx Ex. rewrite Forall_forall in HC. specialize (HC x Hx). unfold requests, is_delta, core_delta, is_density in *. destruct (tcls x); try reflexivity. cbn [andb tclass_eqb orb] in Ex. rewrite negb_false_iff in Ex.
      destruct (tupper x) as [|u [|? ?]]; try discriminate. destruct (tlower x) as [|l [|? ?]]; try discriminate. cbn [length Nat.eqb]. destruct (downgrade_cumulant u l); [|discriminate]. rewrite Ex. reflexivity. }
  assert (NR : NoDup (map fst (flat_map (requests core) T))) by (rewrite ER; apply NoDup_app_elim in HD; tauto).
  apply downgrade_loop_ok in E1; [|exact NR]. destruct E1 as (-> & _ & gens & next1' & Est & Gg & Lg). cbn [app] in Est. injection Est as -> -> ->. rename next1' into next1.
  set (reqs := flat_map (requests core) T) in *. set (C := combine (map fst reqs) gens) in *.
  assert (LC : length gens = length (map fst reqs)). { apply (f_equal (@length label)) in Lg. rewrite !map_length in *. exact Lg. }
  assert (KC : map fst C = map fst reqs) by (apply map_fst_combine, LC).
  assert (VC : map snd C = gens) by (apply map_snd_combine, LC).
  (* second loop *)
  apply delta_loop_ok in E2 as (-> & ps & next2' & FP & Gf & Est2). rewrite filter_as_delta in FP. rewrite filter_as_kept. fold B in FP.
  assert (FB : Forall2 (fun x (p : tri) => In x T /\ is_delta core x = true /\ (exists u l, tupper x = [u] /\ tlower x = [l] /\ fst p = high_low u l /\
      downgrade_kronecker u l = Some (match snd p with Some f => fst f | None => fst (snd (fst p)) end))) B ps).
  { assert (HB : forall x, In x B -> In x T /\ is_delta core x = true /\ valid_tensor x). { intros x Hx. apply filter_In in Hx as [H1 H2]. rewrite Forall_forall in HV. auto. }
    clear -FP HB. clearbody B. remember (map (as_delta core) B) as mB eqn:EB. revert B EB HB. induction FP as [|y p ys ps HP FP IH]; intros [|x B] EB HB; try discriminate; [constructor|]. cbn [map] in EB. inversion EB; subst. constructor; [|apply IH; [reflexivity|intros z Hz; apply HB; right; exact Hz]].
    destruct (HB x (or_introl eq_refl)) as (H1 & H2 & H3). split; [exact H1|]. split; [exact H2|]. destruct (delta_shape core x H3 H2) as (u & l & Eu & El).
    destruct HP as (u' & l' & rl & ru & P1 & P2 & P3 & P4). rewrite as_delta_upper, Eu in P1. rewrite as_delta_lower, El in P2. injection P1 as <- _. injection P2 as <- _. eauto 8. }
  assert (PP : Permutation (flat_map tensor_indices B) (flat_map tri_pair ps)).
  { clear -FB. clearbody B. induction FB as [|x p B ps (_ & _ & u & l & Eu & El & Ep & _) FB IH]; [reflexivity|]. cbn [flat_map]. apply Permutation_app; [|exact IH].
    unfold tensor_indices, tri_pair. rewrite Eu, El, Ep. cbn [app]. destruct (high_low_cases u l) as [->| ->]; cbn [fst snd]; [reflexivity|apply perm_swap]. }
  assert (NA : NoDup (map fst reqs ++ flat_map tri_pair ps)). { rewrite ER, <- PP. exact HD. }
  apply NoDup_app_elim in NA as (_ & NP & NX).
  specialize (Est2 NP). cbn [map app] in Est2. injection Est2 as -> -> ->. rename next2' into next2.
  set (E := flat_map tri_events ps) in *.
  assert (NE : NoDup (map fst E)).
  { unfold E. rewrite map_flat_map. clear -NP. induction ps as [|p ps IH]; [constructor|]. cbn [flat_map] in *. apply NoDup_app_elim in NP as (N1 & N2 & N3). apply NoDup_app_intro; [|apply IH, N2|].
    - destruct p as [[h l] [f|]]; cbn in *; [exact N1|]. repeat constructor. intros [].
    - intros z Hz Hz'. apply tri_keys_incl in Hz. apply (N3 z Hz). apply in_flat_map in Hz' as (q & Hq & Hz'). apply in_flat_map. exists q. split; [exact Hq|apply tri_keys_incl, Hz']. }
  set (r := dict_update idx_eqb (dict_update idx_eqb (map (fun i => (i, i)) I) C) E) in *.
  assert (DR : forall i, dict_get idx_eqb i r = match dict_get idx_eqb i E with Some z => Some z | None => match dict_get idx_eqb i C with Some z => Some z | None => if mem_idx i I then Some i else None end end).
  { intros i. unfold r. rewrite dget_update by exact NE. destruct (dict_get idx_eqb i E); [reflexivity|]. rewrite dget_update by (rewrite KC; exact NR). destruct (dict_get idx_eqb i C); [reflexivity|].
    clear. induction I as [|j J IH]; [reflexivity|]. cbn [map dict_get mem_idx existsb]. destruct (idx_eqb i j) eqn:Eij; [apply idx_eqb_eq in Eij as ->; reflexivity|exact IH]. }
  set (rho := fun i => match dict_get idx_eqb i E with Some z => z | None => match dict_get idx_eqb i C with Some z => z | None => i end end).
  assert (RR : forall i, In i I -> rename r i = rho i).
  { intros i Hi. unfold rename, rho. rewrite DR. destruct (dict_get idx_eqb i E); [reflexivity|]. destruct (dict_get idx_eqb i C); [reflexivity|]. apply mem_idx_in in Hi. rewrite Hi. reflexivity. }
  (* facts *)
  assert (TI : forall x i, In x T -> In i (tensor_indices x) -> In i I).
  { intros x i Hx Hi. apply HI. unfold content_indices. apply in_or_app. right. apply in_flat_map. eauto. }
  assert (PI : forall p i, In p ps -> In i (tri_pair p) -> In i I /\ exists x, In x T /\ is_delta core x = true /\ In i (tensor_indices x)).
  { intros p i Hp Hi. assert (Q : In i (flat_map tensor_indices B)). { apply (Permutation_in _ (Permutation_sym PP)). apply in_flat_map. eauto. }
    apply in_flat_map in Q as (x & Hx & Q). apply filter_In in Hx as [Hx1 Hx2]. split; [eapply TI; eassumption|]. eauto. }
  assert (CI : forall i, In i (map fst C) -> In i I /\ exists x s, In x T /\ In (i, s) (requests core x)).
  { intros i Hi. rewrite KC in Hi. apply in_map_iff in Hi as ([i' s] & Ei & Hi). cbn in Ei. subst i'. apply in_flat_map in Hi as (x & Hx & Hi). split; [|eauto].
    eapply TI; [exact Hx|]. assert (Q : In i (map fst reqs)) by (apply in_map_iff; exists (i, s); split; [reflexivity|apply in_flat_map; eauto]). rewrite ER in Q. apply in_flat_map in Q as (y & Hy & Q).
    clear -Hi. unfold requests in Hi. unfold tensor_indices. destruct (tcls x); try destruct Hi. destruct (length (tupper x) =? 1).
    - destruct (tupper x) as [|u [|? ?]]; try destruct Hi. destruct (tlower x) as [|l [|? ?]]; try destruct Hi. destruct (downgrade_cumulant u l); [|destruct Hi]. destruct (_ && _); [destruct Hi|].
      cbn in Hi |- *. destruct Hi as [Hi|[Hi|[]]]; injection Hi as <- <-; auto.
    - apply in_map_iff in Hi as (j & Ej & Hj). injection Ej as <- _. exact Hj. }
  assert (RP : forall p k, In p ps -> In k (tri_pair p) -> rho k = rep p).
  { intros p k Hp Hk. unfold rho. destruct (dict_get idx_eqb k E) as [z|] eqn:Ez.
    - apply dget_in in Ez. apply in_flat_map in Ez as (q & Hq & Ez). apply tri_events_in in Ez as [Ez ->]. rewrite (nodup_flat_map_unique tri_pair ps p q k NP Hp Hq Hk Ez). reflexivity.
    - assert (Nc : dict_get idx_eqb k C = None). { apply dget_none. rewrite KC. intros Hc. apply (NX k Hc). apply in_flat_map. eauto. } rewrite Nc.
      apply dget_none in Ez. assert (Q : ~ In k (map fst (tri_events p))). { intros Hq. apply Ez. unfold E. rewrite map_flat_map. apply in_flat_map. eauto. }
      destruct p as [[h l] [f|]]; cbn in *; [exfalso; apply Q; tauto|]. intuition. }
  assert (RC : forall i, In i (map fst C) -> rho i = rename C i).
  { intros i Hi. unfold rho, rename. replace (dict_get idx_eqb i E) with (@None idx); [reflexivity|]. symmetry. apply dget_none. intros HE. rewrite KC in Hi. apply (NX i Hi).
    unfold E in HE. rewrite map_flat_map in HE. apply in_flat_map in HE as (p & Hp & HE). apply in_flat_map. exists p. split; [exact Hp|apply tri_keys_incl, HE]. }
  assert (RN : forall i, ~ In i (map fst C) -> ~ In i (flat_map tri_pair ps) -> rho i = i).
  { intros i H1 H2. unfold rho. rewrite (proj2 (dget_none i C) H1). replace (dict_get idx_eqb i E) with (@None idx); [reflexivity|]. symmetry. apply dget_none. intros HE.
    unfold E in HE. rewrite map_flat_map in HE. apply in_flat_map in HE as (p & Hp & HE). apply H2, in_flat_map. exists p. split; [exact Hp|apply tri_keys_incl, HE]. }
  assert (GA : generates (tnext t) (gens ++ flat_map tri_fresh ps) next2) by (eapply generates_app; eassumption).
  destruct (generates_spec _ _ _ GA) as (NG & _ & HG).
  assert (FI : forall z, In z (gens ++ flat_map tri_fresh ps) -> ~ In z I).
  { intros [s n] Hz HzI. apply HG in Hz. specialize (HN _ HzI). cbn in HN. lia. }
  assert (RCin : forall i, In i (map fst C) -> In (rename C i) gens). { intros i Hi. rewrite <- VC. apply (in_map snd) with (x := (i, rename C i)). apply rename_in, Hi. }
  assert (REP : forall p, In p ps -> (exists f, snd p = Some f /\ rep p = f /\ In f (flat_map tri_fresh ps)) \/ (snd p = None /\ rep p = snd (fst p) /\ In (rep p) (tri_pair p))).
  { intros [[h l] [f|]] Hp; cbn; [left|right].
    - exists f. split; [reflexivity|]. split; [reflexivity|]. apply in_flat_map. exists (h, l, Some f). split; [exact Hp|left; reflexivity].
    - split; [reflexivity|]. split; [reflexivity|]. right. left. reflexivity. }
  assert (S : simplified core T I rho).
  { constructor.
    - intros x i s Hx Hi. assert (Hr : In (i, s) reqs) by (apply in_flat_map; eauto). assert (Hk : In i (map fst C)) by (rewrite KC; exact (in_map fst _ _ Hr)).
      rewrite RC by exact Hk. pose proof (rename_in C i Hk) as Hc.
      assert (Q : forall (q : list (idx * label)) (g : list idx), map fst g = map snd q -> forall j z, In (j, z) (combine (map fst q) g) -> In (j, fst z) q).
      { clear. induction q as [|[a b] q IH]; intros [|g gs] HE j z Hz; try discriminate; [destruct Hz|]. cbn in HE. inversion HE. cbn in Hz. destruct Hz as [Hz|Hz]; [injection Hz as <- <-; left; congruence|right; eapply IH; eassumption]. }
      specialize (Q reqs gens Lg i _ Hc). exact (nodup_keys_unique reqs i _ _ NR Q Hr).
    - intros x Hx Dx. assert (HB : In x B) by (apply filter_In; auto). clear -HB FB RP. clearbody B. assert (Q : exists p : tri, In p ps /\ exists u l, tupper x = [u] /\ tlower x = [l] /\ fst p = high_low u l /\
      downgrade_kronecker u l = Some (match snd p with Some f => fst f | None => fst (snd (fst p)) end)).
      { clear RP. induction FB as [|y p B ps (_ & _ & Q) FB IH]; [destruct HB|]. destruct HB as [<-|HB]; [exists p; split; [left; reflexivity|exact Q]|]. destruct (IH HB) as (q & Hq & Q'). exists q. split; [right; exact Hq|exact Q']. }
      destruct Q as (p & Hp & u & l & Eu & El & Ep & Ed). exists u, l. eexists. split; [exact Eu|]. split; [exact El|]. split; [exact Ed|].
      assert (Hu : In u (tri_pair p)) by (unfold tri_pair; rewrite Ep; destruct (high_low_cases u l) as [->| ->]; cbn; auto).
      assert (Hl : In l (tri_pair p)) by (unfold tri_pair; rewrite Ep; destruct (high_low_cases u l) as [->| ->]; cbn; auto).
      rewrite (RP p u Hp Hu), (RP p l Hp Hl). split; [reflexivity|]. unfold rep. destruct (snd p); reflexivity.
    - intros x Hx. rewrite Forall_forall in HC. apply HC, Hx.
    - intros i Hi. destruct (in_dec idx_eq_dec i (map fst C)) as [Hc|Hc]; [right; left; destruct (CI i Hc) as [_ Q]; exact Q|].
      destruct (in_dec idx_eq_dec i (flat_map tri_pair ps)) as [Hp|Hp]; [|left; apply RN; assumption]. apply in_flat_map in Hp as (p & Hp & Hi'). right. right. destruct (PI p i Hp Hi') as [_ Q]. exact Q.
    - intros i j Hi Hj Er.
      assert (SP : forall p, In p ps -> In i (tri_pair p) -> In j (tri_pair p) -> i = j \/ exists x, In x T /\ is_delta core x = true /\ In i (tensor_indices x) /\ In j (tensor_indices x)).
      { intros p Hp H1 H2. right. clear -FB Hp H1 H2. clearbody B. induction FB as [|x q B ps (X1 & X2 & u & l & Eu & El & Ep & _) FB IH]; [destruct Hp|]. destruct Hp as [<-|Hp]; [|apply IH; assumption].
        exists x. split; [exact X1|]. split; [exact X2|]. unfold tensor_indices. rewrite Eu, El. unfold tri_pair in *. rewrite Ep in *. destruct (high_low_cases u l) as [Eh|Eh]; rewrite Eh in *; cbn in *; intuition. }
      destruct (in_dec idx_eq_dec i (map fst C)) as [Ci|Ci]; destruct (in_dec idx_eq_dec j (map fst C)) as [Cj|Cj].
      + left. rewrite RC, RC in Er by assumption. apply (rename_inj C); try assumption. rewrite VC. apply NoDup_app_elim in NG. tauto.
      + exfalso. rewrite RC in Er by exact Ci. pose proof (RCin i Ci) as Gi. destruct (in_dec idx_eq_dec j (flat_map tri_pair ps)) as [Pj|Pj].
        * apply in_flat_map in Pj as (p & Hp & Pj). rewrite (RP p j Hp Pj) in Er. destruct (REP p Hp) as [(f & _ & Ef & Hf)|(_ & _ & Hr)].
          -- apply NoDup_app_elim in NG as (_ & _ & NG). apply (NG _ Gi). rewrite Er, Ef. exact Hf.
          -- apply (FI (rename C i)); [apply in_or_app; left; exact Gi|]. rewrite Er. apply (PI p _ Hp Hr).
        * rewrite RN in Er by assumption. apply (FI (rename C i)); [apply in_or_app; left; exact Gi|]. rewrite Er. exact Hj.
      + exfalso. rewrite (RC j) in Er by exact Cj. pose proof (RCin j Cj) as Gi. destruct (in_dec idx_eq_dec i (flat_map tri_pair ps)) as [Pj|Pj].
        * apply in_flat_map in Pj as (p & Hp & Pj). rewrite (RP p i Hp Pj) in Er. destruct (REP p Hp) as [(f & _ & Ef & Hf)|(_ & _ & Hr)].
          -- apply NoDup_app_elim in NG as (_ & _ & NG). apply (NG _ Gi). rewrite <- Er, Ef. exact Hf.
          -- apply (FI (rename C j)); [apply in_or_app; left; exact Gi|]. rewrite <- Er. apply (PI p _ Hp Hr).
        * rewrite (RN i) in Er by assumption. apply (FI (rename C j)); [apply in_or_app; left; exact Gi|]. rewrite <- Er. exact Hi.
      + destruct (in_dec idx_eq_dec i (flat_map tri_pair ps)) as [Pi|Pi]; destruct (in_dec idx_eq_dec j (flat_map tri_pair ps)) as [Pj|Pj].
        * apply in_flat_map in Pi as (p & Hp & Pi). apply in_flat_map in Pj as (q & Hq & Pj). rewrite (RP p i Hp Pi), (RP q j Hq Pj) in Er.
          assert (Epq : p = q).
          { destruct (REP p Hp) as [(f & Sf & Ef & Hf)|(_ & _ & Hr)], (REP q Hq) as [(f' & Sf' & Ef' & Hf')|(_ & _ & Hr')].
            - apply (nodup_flat_map_unique tri_fresh ps p q f); try assumption; [apply NoDup_app_elim in NG; tauto|unfold tri_fresh; rewrite Sf; left; reflexivity|unfold tri_fresh; rewrite Sf'; left; congruence].
            - exfalso. apply (FI f); [apply in_or_app; right; exact Hf|]. rewrite <- Ef, Er. apply (PI q _ Hq Hr').
            - exfalso. apply (FI f'); [apply in_or_app; right; exact Hf'|]. rewrite <- Ef', <- Er. apply (PI p _ Hp Hr).
            - apply (nodup_flat_map_unique tri_pair ps p q (rep p)); try assumption. rewrite Er. exact Hr'. }
          subst q. apply (SP p); assumption.
        * exfalso. rewrite (RN j) in Er by assumption. apply in_flat_map in Pi as (p & Hp & Pi). rewrite (RP p i Hp Pi) in Er. destruct (REP p Hp) as [(f & _ & Ef & Hf)|(_ & _ & Hr)].
          -- apply (FI f); [apply in_or_app; right; exact Hf|]. rewrite <- Ef, Er. exact Hj.
          -- apply Pj, in_flat_map. exists p. split; [exact Hp|]. rewrite <- Er. exact Hr.
        * exfalso. rewrite (RN i) in Er by assumption. apply in_flat_map in Pj as (p & Hp & Pj). rewrite (RP p j Hp Pj) in Er. destruct (REP p Hp) as [(f & _ & Ef & Hf)|(_ & _ & Hr)].
          -- apply (FI f); [apply in_or_app; right; exact Hf|]. rewrite <- Ef, <- Er. exact Hi.
          -- apply Pi, in_flat_map. exists p. split; [exact Hp|]. rewrite Er. exact Hr.
        * left. rewrite !RN in Er by assumption. exact Er. }
  assert (KR : forall i, In i (map fst r) -> In i I).
  { intros i Hi. destruct (dict_get idx_eqb i r) as [z|] eqn:Ez; [|apply dget_none in Ez; contradiction]. rewrite DR in Ez. destruct (dict_get idx_eqb i E) as [z'|] eqn:Ee.
    - apply dget_in in Ee. apply in_flat_map in Ee as (p & Hp & Ee). apply tri_events_in in Ee as [Ee _]. apply (PI p i Hp Ee).
    - destruct (dict_get idx_eqb i C) as [z'|] eqn:Ec; [apply dget_in in Ec; apply (in_map fst) in Ec; apply (CI i Ec)|]. destruct (mem_idx i I) eqn:Em; [apply mem_idx_in, Em|discriminate]. }
  assert (NKr : NoDup (map fst r)).
  { assert (Q : forall (e d : repl), NoDup (map fst d) -> NoDup (map fst (dict_update idx_eqb d e))).
    { clear. induction e as [|[k v] e IH]; intros d N; [exact N|]. cbn [dict_update fold_left]. apply IH. clear -N. cbn [fst snd]. destruct (in_dec idx_eq_dec k (map fst d)) as [Hk|Hk].
      - replace (map fst (dict_set idx_eqb k v d)) with (map fst d); [exact N|]. clear N. induction d as [|[k' v'] d IH]; [destruct Hk|]. cbn [dict_set]. destruct (idx_eqb k k') eqn:Ek; [reflexivity|]. cbn [map fst]. f_equal. apply IH. destruct Hk as [<-|Hk]; [rewrite idx_eqb_refl in Ek; discriminate|exact Hk].
      - rewrite (dict_set_fresh idx_eqb idx_eqb_eq) by exact Hk. rewrite map_app. cbn [map fst]. apply NoDup_app_intro; [exact N|repeat constructor; intros []|]. intros z Hz [<-|[]]. contradiction. }
    apply Q, Q. rewrite map_map. cbn [fst]. rewrite map_id. exact NI. }
  assert (VR : forall z, In z (map snd r) -> In z I \/ In z (gens ++ flat_map tri_fresh ps)).
  { intros z Hz. apply in_map_iff in Hz as ([i z'] & Ez & Hz). cbn in Ez. subst z'. apply (dget_some i z r NKr) in Hz. rewrite DR in Hz. destruct (dict_get idx_eqb i E) as [z'|] eqn:Ee.
    - injection Hz as ->. apply dget_in in Ee. apply in_flat_map in Ee as (p & Hp & Ee). apply tri_events_in in Ee as [Ee ->]. destruct (REP p Hp) as [(f & _ & Ef & Hf)|(_ & _ & Hr)]; [right; rewrite Ef; apply in_or_app; right; exact Hf|left; apply (PI p _ Hp Hr)].
    - destruct (dict_get idx_eqb i C) as [z'|] eqn:Ec.
      + injection Hz as ->. right. apply in_or_app. left. apply dget_in in Ec. rewrite <- VC. exact (in_map snd _ _ Ec).
      + destruct (mem_idx i I) eqn:Em; [|discriminate]. injection Hz as <-. left. apply mem_idx_in, Em. }
  split; [reflexivity|]. exists r, rho, (gens ++ flat_map tri_fresh ps). split; [reflexivity|]. split; [exact S|]. split; [exact RR|]. split; [exact KR|]. split; [|split; [exact GA|exact VR]].
  intros i Hi. destruct (dict_get idx_eqb i r) as [z|] eqn:Ez; [apply dget_in in Ez; exact (in_map fst _ _ Ez)|]. exfalso. rewrite DR in Ez. destruct (dict_get idx_eqb i E); [discriminate|]. destruct (dict_get idx_eqb i C); [discriminate|]. apply mem_idx_in in Hi. rewrite Hi in Ez. discriminate.
Qed.

Lemma simplify_inv core ra t t' : simplify core ra t = Ok t' -> tdiag t = [] -> NoDup (tindices t) ->
  (forall i, In i (content_indices (ttensors t) (tsq t)) -> In i (tindices t)) ->
  (forall i, In i (tindices t) -> snd i < tnext t (fst i)) ->
  Forall valid_tensor (ttensors t) -> densities_disjoint (ttensors t) ->
  exists r rho, simplified core (ttensors t) (tindices t) rho /\ (forall i, In i (tindices t) -> rename r i = rho i) /\ (forall i, In i (map fst r) -> In i (tindices t)) /\
    (exists gens, generates (tnext t) gens (tnext t') /\ (forall i, In i (map snd r) -> In i (tindices t) \/ In i gens)) /\
    ((ra = true /\ exists x, In x (ttensors t) /\ is_delta core x = false /\ tcls x = TCluster /\ (forall i, In i (tensor_indices x) -> lsp (fst (rho i)) = Sa)) /\ t' = void_term (ttype t) (tnext t')
     \/ t' = MkTerm (ttype t) (map (rename_tensor (rename r)) (filter (fun x => negb (is_delta core x)) (ttensors t))) (rename_op (rename r) (tsq t)) (tcoeff t) (dedup (map snd r)) (tnext t') []).
Proof.
  intros H Hd NI HI HN HV HD. unfold simplify in H. rewrite Hd in H. cbn [diag_init map] in H.
  set (T := ttensors t) in *. set (I := tindices t) in *.
  match type of H with pybind ?a _ = _ => destruct a as [[ys [[rcu next1] rd1]]|] eqn:E1 end; [|discriminate]. cbn [pybind] in H.
  match type of H with pybind ?a _ = _ => destruct a as [[zs [[rde next2] rd2]]|] eqn:E2 end; [|discriminate]. cbn [pybind diagonal_loop] in H.
  destruct (loops_inv core t ys rcu next1 rd1 zs rde next2 rd2 E1 E2 NI HI HN HV HD) as (-> & r & rho & gs & Er & S & RR & KR & _ & GA & VR). fold T I in Er, S, RR, KR, VR. fold T in H. cbv zeta in H. rewrite <- Er in H.
  assert (TI : forall x i, In x T -> In i (tensor_indices x) -> In i I).
  { intros x i Hx Hi. apply HI. unfold content_indices. apply in_or_app. right. apply in_flat_map. eauto. }
  destruct (replace_op_indices (ttype t) (tsq t) r) as [o'|] eqn:Eo; [|discriminate]. cbn [pybind] in H. apply replace_op_ok in Eo as [-> _].
  exists r, rho. split; [exact S|]. split; [exact RR|]. split; [exact KR|].
  destruct (if ra then any_active_amplitude r _ else Ok false) as [[|]|] eqn:Ea; [| |discriminate]; cbn [pybind] in H.
  - injection H as <-. cbn [tnext void_term]. split; [eauto|]. left. split; [|reflexivity]. destruct ra; [|discriminate]. split; [reflexivity|].
    assert (Q : forall xs, any_active_amplitude r xs = Ok true -> exists x, In x xs /\ tcls x = TCluster /\ forall i, In i (tensor_indices x) -> lsp (fst (rename r i)) = Sa).
    { clear. induction xs as [|x xs IH]; [discriminate|]. cbn [any_active_amplitude]. destruct (tclass_eqb (tcls x) TCluster) eqn:Ex.
      - unfold all_active. destruct (replace r (tensor_indices x)) as [l|] eqn:El; [|discriminate]. cbn [pybind]. apply replace_ok in El as ->. destruct (forallb _ _) eqn:Ef.
        + intros _. exists x. split; [left; reflexivity|]. split; [apply tclass_eqb_eq, Ex|]. intros i Hi. rewrite forallb_forall in Ef. apply space_eqb_eq. apply (Ef (rename r i)). apply in_map, Hi.
        + intros H. destruct (IH H) as (y & Hy & Q). exists y. split; [right; exact Hy|exact Q].
      - intros H. destruct (IH H) as (y & Hy & Q). exists y. split; [right; exact Hy|exact Q]. }
    apply Q in Ea as (x & Hx & Cx & Ax). apply filter_In in Hx as [Hx1 Hx2]. rewrite negb_true_iff in Hx2. exists x. split; [exact Hx1|]. split; [exact Hx2|]. split; [exact Cx|].
    intros i Hi. rewrite <- RR by (eapply TI; eassumption). apply Ax, Hi.
  - destruct (replace_tensors_indices _ r) as [zs|] eqn:Et; [|discriminate]. cbn [pybind pymap fold_left] in H. injection H as <-. cbn [tnext]. apply replace_tensors_ok in Et as [_ ->]. split; [eauto|]. right. reflexivity.
Qed.
