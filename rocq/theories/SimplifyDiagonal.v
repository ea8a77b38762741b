(** Term.simplify on terms with diagonal indices: the replacements and the value. *)
From Coq Require Import Ascii String ZArith QArith Qcanon Sorting.Sorted Ring_theory Ring.
From Verif Require Import PyBase OrderSpec OrderProofs SpaceModel IndicesModel IterProofs IndicesProofs SpinProofs SpaceProofs SortProofs ElemModel ElemSpec ElemProofs MacroModel TermModel ValueSpec ValueProofs TermSpec SumProofs TermProofs RenameProofs
  SimplifyProofs SimplifyValue FreshProofs ReturnSpec SimplifyReturns DiagonalSpec.
Local Close Scope Q_scope.
Local Close Scope Qc_scope.
Local Open Scope nat_scope.
Local Notation length := List.length.

(** ** dictionaries *)
Definition adds (ev : repl) (rd : rdiag) : rdiag := fold_left (fun rd p => diag_add (fst p) (snd p) rd) ev rd.
Lemma dict_update_app (d e f : repl) : dict_update idx_eqb d (e ++ f) = dict_update idx_eqb (dict_update idx_eqb d e) f.
Proof. unfold dict_update. apply fold_left_app. Qed.
Lemma adds_app e f rd : adds (e ++ f) rd = adds f (adds e rd).
Proof. unfold adds. apply fold_left_app. Qed.
Lemma update_cases (e : repl) : forall d i, (exists z, In (i, z) e /\ dict_get idx_eqb i (dict_update idx_eqb d e) = Some z) \/ (~ In i (map fst e) /\ dict_get idx_eqb i (dict_update idx_eqb d e) = dict_get idx_eqb i d).
Proof.
  induction e as [|[k w] e IH]; intros d i; [right; split; [intros []|reflexivity]|]. unfold dict_update in *. cbn [fold_left fst snd map].
  destruct (IH (dict_set idx_eqb k w d) i) as [(z & H1 & H2)|[H1 H2]]; [left; exists z; split; [right; exact H1|exact H2]|]. rewrite H2, dget_set.
  destruct (idx_eqb i k) eqn:E; [apply idx_eqb_eq in E as ->; left; exists w; split; [left; reflexivity|reflexivity]|right; split; [|reflexivity]].
  intros [<-|H]; [rewrite idx_eqb_refl in E; discriminate|contradiction].
Qed.
Lemma update_keys (e : repl) : forall d : repl, NoDup (map fst d) -> NoDup (map fst (dict_update idx_eqb d e)).
Proof.
  induction e as [|[k w] e IH]; intros d N; [exact N|]. cbn [dict_update fold_left]. apply IH. clear -N. cbn [fst snd]. destruct (in_dec idx_eq_dec k (map fst d)) as [Hk|Hk].
  - replace (map fst (dict_set idx_eqb k w d)) with (map fst d); [exact N|]. clear N. induction d as [|[k' v'] d IH]; [destruct Hk|]. cbn [dict_set]. destruct (idx_eqb k k') eqn:Ek; [reflexivity|]. cbn [map fst]. f_equal. apply IH. destruct Hk as [<-|Hk]; [cbn in Ek; rewrite idx_eqb_refl in Ek; discriminate|exact Hk].
  - rewrite (dict_set_fresh idx_eqb idx_eqb_eq) by exact Hk. rewrite map_app. cbn [map fst]. apply NoDup_app_intro; [exact N|repeat constructor; intros []|]. intros z Hz [<-|[]]. contradiction.
Qed.
Lemma update_update (d e : repl) i : dict_get idx_eqb i (dict_update idx_eqb d (dict_update idx_eqb [] e)) = dict_get idx_eqb i (dict_update idx_eqb d e).
Proof.
  rewrite dget_update by (apply update_keys; constructor). induction e as [|[k w] e IH] using rev_ind; [reflexivity|]. rewrite !dict_update_app. cbn [dict_update fold_left fst snd] in *. rewrite !dget_set.
  destruct (idx_eqb i k); [reflexivity|exact IH].
Qed.
Lemma update_first (d d' e : repl) i : dict_get idx_eqb i d = dict_get idx_eqb i d' -> dict_get idx_eqb i (dict_update idx_eqb d e) = dict_get idx_eqb i (dict_update idx_eqb d' e).
Proof.
  intros H. induction e as [|[k w] e IH] using rev_ind; [exact H|]. rewrite !dict_update_app. cbn [dict_update fold_left fst snd] in *. rewrite !dget_set. destruct (idx_eqb i k); [reflexivity|exact IH].
Qed.
Lemma diag_add_get i z rd d : dict_get idx_eqb d (diag_add i z rd) =
  match dict_get idx_eqb d rd with Some m => Some (if idx_eqb i d then if mem_idx z m then m else m ++ [z] else m) | None => None end.
Proof.
  induction rd as [|[k m] rd IH]; [reflexivity|]. cbn [diag_add map fst snd]. destruct (idx_eqb i k) eqn:E; cbn [dict_get]; (destruct (idx_eqb d k) eqn:Ed; [|exact IH]); apply idx_eqb_eq in Ed as ->; rewrite E; reflexivity.
Qed.
Lemma adds_get ev : forall rd d m, dict_get idx_eqb d (adds ev rd) = Some m -> exists m0, dict_get idx_eqb d rd = Some m0 /\ forall z, In z m <-> In z m0 \/ In (d, z) ev.
Proof.
  induction ev as [|[i w] ev IH]; intros rd d m H; [exists m; split; [exact H|]; intros z; cbn; tauto|]. unfold adds in H. cbn [fold_left fst snd] in H. fold (adds ev (diag_add i w rd)) in H.
  apply IH in H as (m1 & H1 & H2). rewrite diag_add_get in H1. destruct (dict_get idx_eqb d rd) as [m0|]; [|discriminate]. exists m0. split; [reflexivity|]. injection H1 as <-. intros z. rewrite H2.
  destruct (idx_eqb i d) eqn:E.
  - apply idx_eqb_eq in E as ->. cbn [In]. assert (Q : In (d, z) ((d, w) :: ev) <-> z = w \/ In (d, z) ev) by (cbn; split; (intros [K|K]; [left; congruence|right; exact K])). cbn [In] in Q. rewrite Q.
    destruct (mem_idx w m0) eqn:M; [apply mem_idx_in in M|rewrite in_app_iff; cbn [In]]; intuition congruence.
  - cbn [In]. split; [tauto|]. intros [K|[K|K]]; [tauto| |tauto]. injection K as -> _. rewrite idx_eqb_refl in E. discriminate.
Qed.
Lemma diag_init_get D d m : dict_get idx_eqb d (diag_init D) = Some m -> m = [d].
Proof. induction D as [|[k n] D IH]; [discriminate|]. cbn [diag_init map fst dict_get]. destruct (idx_eqb d k) eqn:E; [apply idx_eqb_eq in E as ->; intros H; injection H as <-; reflexivity|exact IH]. Qed.

(** ** the loops over the tensors *)
Lemma assign_fresh_events ps : forall r next rd, exists gens next',
  fold_left (fun st p => assign_fresh (fst p) (snd p) st) ps (r, next, rd) = (dict_update idx_eqb r (combine (map fst ps) gens), next', adds (combine (map fst ps) gens) rd) /\
  generates next gens next' /\ map fst gens = map snd ps.
Proof.
  induction ps as [|[i s] ps IH]; intros r next rd; cbn [fold_left map fst snd].
  - exists [], next. split; [reflexivity|]. split; [constructor|reflexivity].
  - unfold assign_fresh at 2. unfold generate_next_index. destruct (IH (dict_set idx_eqb i (s, next s) r) (bump next s) (diag_add i (s, next s) rd)) as (gens & next' & H1 & H2 & H3).
    exists ((s, next s) :: gens), next'. split; [exact H1|]. split; [econstructor; [reflexivity|exact H2]|]. cbn [map fst]. rewrite H3. reflexivity.
Qed.
Definition well_shaped (x : tensor) : Prop := tcls x = TCumulant -> length (tupper x) = 1 -> exists u l s, tupper x = [u] /\ tlower x = [l] /\ downgrade_cumulant u l = Some s.
Lemma downgrade_step_events core x st y st' : downgrade_step core x st = Ok (y, st') ->
  y = as_delta core x /\ st' = fold_left (fun st p => assign_fresh (fst p) (snd p) st) (requests core x) st /\ well_shaped x.
Proof.
  unfold downgrade_step, as_delta, requests, core_delta, well_shaped. destruct (tcls x) eqn:Ec; try (intros H; inversion H; subst; split; [reflexivity|split; [reflexivity|intros; discriminate]]).
  destruct (length (tupper x) =? 1) eqn:E1.
  - destruct (tupper x) as [|u [|? ?]] eqn:Eu; try discriminate. destruct (tlower x) as [|l [|? ?]] eqn:El; try discriminate.
    destruct (downgrade_cumulant u l) as [s|] eqn:Ed; [|discriminate]. destruct (space_eqb (lsp s) Sc && core) eqn:Es.
    + destruct (check_tensor _) as [k|] eqn:Ek; [|discriminate]. apply check_tensor_ok in Ek as ->. cbn. intros H. inversion H; subst. split; [reflexivity|]. split; [reflexivity|]. intros _ _. eauto 7.
    + intros H. inversion H; subst. split; [reflexivity|]. split; [reflexivity|]. intros _ _. eauto 7.
  - intros H. injection H as <- <-. split; [destruct (tupper x) as [|? [|? ?]]; try reflexivity; discriminate|]. split; [|intros _ L; rewrite L in E1; discriminate].
    clear. assert (G : forall m st, fold_left (fun st i => assign_fresh i (active_label i) st) m st = fold_left (fun st p => assign_fresh (fst p) (snd p) st) (map (fun i => (i, active_label i)) m) st).
    { induction m as [|i m IH]; intros q; [reflexivity|]. cbn [map fold_left fst snd]. apply IH. } apply G.
Qed.
Lemma downgrade_loop_events core xs : forall r next rd ys st', downgrade_loop core xs (r, next, rd) = Ok (ys, st') ->
  ys = map (as_delta core) xs /\ Forall well_shaped xs /\
  exists gens next', st' = (dict_update idx_eqb r (combine (map fst (flat_map (requests core) xs)) gens), next', adds (combine (map fst (flat_map (requests core) xs)) gens) rd) /\
    generates next gens next' /\ map fst gens = map snd (flat_map (requests core) xs).
Proof.
  induction xs as [|x xs IH]; intros r next rd ys st' H; cbn [downgrade_loop] in H.
  - inversion H; subst. split; [reflexivity|]. split; [constructor|]. exists [], next. split; [reflexivity|]. split; [constructor|reflexivity].
  - destruct (downgrade_step core x _) as [[y st1]|] eqn:E1; [|discriminate]. cbn [pybind snd fst] in H. destruct (downgrade_loop core xs st1) as [[ys' st2]|] eqn:E2; [|discriminate]. cbn [pybind snd fst] in H. inversion H; subst. clear H.
    apply downgrade_step_events in E1 as (-> & E1 & HC). destruct (assign_fresh_events (requests core x) r next rd) as (g1 & n1 & A1 & A2 & A3). pose proof (eq_trans E1 A1) as E1'. clear E1. subst st1.
    assert (Lg : length g1 = length (map fst (requests core x))). { apply (f_equal (@length label)) in A3. rewrite !map_length in *. exact A3. }
    apply IH in E2 as (-> & F & g2 & n2 & B1 & B2 & B3). split; [reflexivity|]. split; [constructor; assumption|]. exists (g1 ++ g2), n2. cbn [flat_map]. rewrite !map_app, combine_app_len by exact Lg. split; [|split].
    + rewrite B1, dict_update_app, adds_app. reflexivity.
    + eapply generates_app; eassumption.
    + exact (f_equal2 (@app label) A3 B3).
Qed.
Definition tri_from (x : tensor) (p : tri) : Prop :=
  exists u l rl ru, tupper x = u :: ru /\ tlower x = l :: rl /\ fst p = high_low u l /\
    downgrade_kronecker u l = Some (match snd p with Some f => fst f | None => fst (snd (fst p)) end) /\
    (snd p <> None -> lsp (fst (fst (fst p))) = Sp /\ lsp (fst (snd (fst p))) = Sh).
Lemma delta_loop_events ys : forall r next rd zs st', delta_loop ys (r, next, rd) = Ok (zs, st') ->
  zs = filter (fun y => negb (tclass_eqb (tcls y) TKronecker)) ys /\
  exists ps next', Forall2 tri_from (filter (fun y => tclass_eqb (tcls y) TKronecker) ys) ps /\ generates next (flat_map tri_fresh ps) next' /\
    st' = (dict_update idx_eqb r (flat_map tri_events ps), next', adds (flat_map tri_events ps) rd).
Proof.
  induction ys as [|y ys IH]; intros r next rd zs st' H; cbn [delta_loop] in H.
  - inversion H; subst. split; [reflexivity|]. exists [], next. split; [constructor|]. split; [constructor|reflexivity].
  - cbn [filter]. destruct (tclass_eqb (tcls y) TKronecker) eqn:Ey; cbn [negb].
    + destruct (delta_step y (r, next, rd)) as [st1|] eqn:E1; [|discriminate]. cbn [pybind] in H. unfold delta_step in E1.
      destruct (tupper y) as [|u ru] eqn:Eu; [discriminate|]. destruct (tlower y) as [|l rl] eqn:El; [discriminate|].
      destruct (downgrade_kronecker u l) as [w|] eqn:Ew; [|discriminate]. destruct (high_low u l) as [high low] eqn:Eh.
      assert (Ew' : w = if space_eqb (lsp (fst high)) Sp && space_eqb (lsp (fst low)) Sh then active_label high else fst low).
      { unfold downgrade_kronecker, high_low in *. destruct (idx_lt l u); injection Eh as <- <-; (destruct (inter_label _ _); [discriminate|]); destruct (_ && _); injection Ew as <-; reflexivity. }
      destruct (space_eqb (lsp (fst high)) Sp && space_eqb (lsp (fst low)) Sh) eqn:Eph.
      * unfold generate_next_index in E1. set (f := (active_label high, next (active_label high))) in *. injection E1 as <-. apply IH in H as (-> & ps & n2 & F & G & D).
        split; [reflexivity|]. exists ((high, low, Some f) :: ps), n2. split; [|split].
        -- constructor; [|exact F]. exists u, l, rl, ru. cbn [fst snd]. rewrite Ew, Ew', Eh. do 4 (split; [auto|]). intros _. apply andb_true_iff in Eph as [P1 P2]. apply space_eqb_eq in P1, P2. auto.
        -- cbn [flat_map tri_fresh snd app]. econstructor; [reflexivity|exact G].
        -- rewrite D. cbn [flat_map]. rewrite dict_update_app, adds_app. reflexivity.
      * injection E1 as <-. apply IH in H as (-> & ps & n2 & F & G & D).
        split; [reflexivity|]. exists ((high, low, None) :: ps), n2. split; [|split].
        -- constructor; [|exact F]. exists u, l, rl, ru. cbn [fst snd]. rewrite Ew, Ew', Eh. do 4 (split; [auto|]). intros Q. congruence.
        -- exact G.
        -- rewrite D. cbn [flat_map]. rewrite dict_update_app, adds_app. reflexivity.
    + destruct (delta_loop ys (r, next, rd)) as [[zs' st1]|] eqn:E1; [|discriminate]. cbn [pybind fst snd] in H. inversion H; subst. apply IH in E1 as (-> & E2). split; [reflexivity|exact E2].
Qed.

(** ** the loop over the diagonal indices *)
Lemma inter_relations a b : inter_label (relation a) (relation b) = [] \/ exists s, inter_label (relation a) (relation b) = relation s.
Proof.
  destruct a as [[|] []], b as [[|] []]; first [left; reflexivity
  |right; exists (Lab true Sc); reflexivity|right; exists (Lab true Sa); reflexivity|right; exists (Lab true Sv); reflexivity|right; exists (Lab true Sh); reflexivity|right; exists (Lab true Sp); reflexivity|right; exists (Lab true Sg); reflexivity
  |right; exists (Lab false Sc); reflexivity|right; exists (Lab false Sa); reflexivity|right; exists (Lab false Sv); reflexivity|right; exists (Lab false Sh); reflexivity|right; exists (Lab false Sp); reflexivity|right; exists (Lab false Sg); reflexivity].
Qed.
Lemma common_relation l : common_spaces l = [] \/ exists s, common_spaces l = relation s.
Proof.
  destruct l as [|i l]; [left; reflexivity|]. cbn [common_spaces]. assert (G : forall l m, (m = [] \/ exists s, m = relation s) -> fold_left (fun s j => inter_label s (relation (fst j))) l m = [] \/ exists s, fold_left (fun s (j : idx) => inter_label s (relation (fst j))) l m = relation s).
  { clear. induction l as [|j l IH]; intros m H; [exact H|]. cbn [fold_left]. apply IH. destruct H as [->|(s & ->)]; [left; reflexivity|apply inter_relations]. }
  apply G. right. eauto.
Qed.
Lemma common_in l x : l <> [] -> (In x (common_spaces l) <-> forall j, In j l -> In x (relation (fst j))).
Proof.
  destruct l as [|i l]; [congruence|]. intros _. cbn [common_spaces]. assert (G : forall l m, In x (fold_left (fun s (j : idx) => inter_label s (relation (fst j))) l m) <-> In x m /\ forall j, In j l -> In x (relation (fst j))).
  { clear. induction l as [|j l IH]; intros m; [cbn; intuition|]. cbn [fold_left]. rewrite IH. unfold inter_label. rewrite filter_In, mem_label_in. cbn. intuition. subst. assumption. }
  rewrite G. cbn. intuition. subst. assumption.
Qed.
Lemma space_label_common l s : l <> [] -> space_label_of (common_spaces l) = Ok s -> forall x, In x (relation s) <-> forall j, In j l -> In x (relation (fst j)).
Proof.
  intros N H x. rewrite <- (common_in l x N). unfold space_label_of in H. destruct (common_relation l) as [E|(s' & E)]; rewrite E in *; [discriminate|].
  rewrite (find_space_label_relation s') in H by reflexivity. cbn [pybind] in H. rewrite char_label_char in H. injection H as ->. reflexivity.
Qed.

Definition pool_of (rc rdl : rdiag) (d : idx) : list idx :=
  match dict_get idx_eqb d rc, dict_get idx_eqb d rdl with Some a, Some b => a ++ b | _, _ => [] end.
Lemma set_all_get (l : list idx) (f : idx) : forall (r : repl) (k : idx), dict_get idx_eqb k (fold_left (fun r j => dict_set idx_eqb j f r) l r) = if mem_idx k l then Some f else dict_get idx_eqb k r.
Proof.
  induction l as [|j l IH]; intros r k; [reflexivity|]. cbn [fold_left]. rewrite IH, dget_set. cbn [mem_idx existsb]. fold (mem_idx k l). destruct (mem_idx k l), (idx_eqb k j); reflexivity.
Qed.
Lemma diagonal_loop_events rc rdl D : forall r next r' next', diagonal_loop D rc rdl r next = Ok (r', next') -> (forall d, In d (map fst D) -> In d (pool_of rc rdl d)) ->
  exists F, map fst F = map fst D /\ generates next (map snd F) next' /\
    (forall d f, In (d, f) F -> forall x, In x (relation (fst f)) <-> forall j, In j (pool_of rc rdl d) -> In x (relation (fst j))) /\
    (forall k, (exists d f, In (d, f) F /\ In k (pool_of rc rdl d) /\ dict_get idx_eqb k r' = Some f) \/
               ((forall d, In d (map fst D) -> ~ In k (pool_of rc rdl d)) /\ dict_get idx_eqb k r' = dict_get idx_eqb k r)).
Proof.
  induction D as [|[d n] D IH]; intros r next r' next' H HP; cbn [diagonal_loop] in H.
  - injection H as <- <-. exists []. split; [reflexivity|]. split; [constructor|]. split; [intros d f []|]. intros k. right. split; [intros d []|reflexivity].
  - pose proof (HP d (or_introl eq_refl)) as Hd. unfold dict_item in H. destruct (dict_get idx_eqb d rc) as [a|] eqn:Ea; [|discriminate]. cbn [pybind] in H. destruct (dict_get idx_eqb d rdl) as [b|] eqn:Eb; [|discriminate]. cbn [pybind] in H.
    assert (EP : pool_of rc rdl d = a ++ b) by (unfold pool_of; rewrite Ea, Eb; reflexivity). rewrite EP in Hd.
    destruct (space_label_of _) as [s|] eqn:Es; [|discriminate]. cbn [pybind] in H. unfold generate_next_index in H. set (f := (s, next s)) in *.
    apply IH in H as (F & F1 & F2 & F3 & F4); [|intros e He; apply HP; right; exact He].
    exists ((d, f) :: F). split; [cbn [map fst]; rewrite F1; reflexivity|]. split; [econstructor; [reflexivity|exact F2]|]. split.
    + intros e g [Hg|Hg]; [|apply F3, Hg]. injection Hg as <- <-. intros x. cbn [fst f]. rewrite EP. rewrite (space_label_common (dedup (a ++ b)) s); [|intros E; apply (proj2 (dedup_in (a ++ b) d)) in Hd; rewrite E in Hd; destruct Hd|exact Es].
      split; intros Q j Hj; apply Q, dedup_in, Hj.
    + intros k. destruct (F4 k) as [(e & g & G1 & G2 & G3)|[G1 G2]]; [left; exists e, g; split; [right; exact G1|auto]|].
      rewrite set_all_get, dget_set in G2. destruct (mem_idx k (dedup (a ++ b))) eqn:M.
      * left. exists d, f. split; [left; reflexivity|]. rewrite EP. split; [apply dedup_in, mem_idx_in, M|exact G2].
      * assert (M' : ~ In k (a ++ b)). { intros Q. apply (proj2 (dedup_in (a ++ b) k)), mem_idx_in in Q. congruence. }
        right. split.
        -- intros e [<-|He]; [cbn [fst]; rewrite EP; exact M'|apply G1, He].
        -- rewrite G2. destruct (idx_eqb k d) eqn:E; [|reflexivity]. apply idx_eqb_eq in E as ->. contradiction.
Qed.

(** ** what the replacements do *)
Definition alive (core : bool) (T : list tensor) (S : system) (e : idx -> nat) : Prop :=
  (forall x u l, In x T -> is_delta core x = true -> tupper x = [u] -> tlower x = [l] -> e u = e l) /\
  (forall x i s, In x T -> In (i, s) (requests core x) -> In (olabel S (e i)) (relation s)).
Record replaced (core : bool) (T : list tensor) (I : list idx) (rho : idx -> idx) : Prop := {
  rp_delta : forall x, In x T -> is_delta core x = true -> exists u l, tupper x = [u] /\ tlower x = [l] /\ rho u = rho l;
  rp_incl : forall i, In i I -> incl (relation (fst (rho i))) (relation (fst i));
  rp_alive : forall S e, (forall i, In i I -> In (e i) (orbitals S i)) -> alive core T S e -> compat S rho I e = true }.

Lemma times_unique {B} (f : B -> list idx) l a b z : idx_times z (flat_map f l) <= 1 -> In a l -> In b l -> In z (f a) -> In z (f b) -> a = b.
Proof.
  induction l as [|x l IH]; intros N Ha Hb Za Zb; [destruct Ha|]. cbn [flat_map] in N. rewrite idx_times_app in N.
  assert (Q : forall c, In c l -> In z (f c) -> 0 < idx_times z (flat_map f l)) by (intros c Hc Hz; apply idx_times_in, in_flat_map; eauto).
  destruct Ha as [<-|Ha], Hb as [<-|Hb]; [reflexivity| | |apply IH; try assumption; lia]; exfalso.
  - apply idx_times_in in Za. specialize (Q b Hb Zb). lia.
  - apply idx_times_in in Zb. specialize (Q a Ha Za). lia.
Qed.

Lemma Forall2_right {B C} (P : B -> C -> Prop) l m y : Forall2 P l m -> In y m -> exists x, In x l /\ P x y.
Proof. induction 1 as [|a b l m H F IH]; [intros []|]. intros [<-|Hy]; [exists a; cbn; auto|]. destruct (IH Hy) as (x & H1 & H2). exists x. cbn. auto. Qed.
Lemma Forall2_left {B C} (P : B -> C -> Prop) l m x : Forall2 P l m -> In x l -> exists y, In y m /\ P x y.
Proof. induction 1 as [|a b l m H F IH]; [intros []|]. intros [<-|Hy]; [exists b; cbn; auto|]. destruct (IH Hy) as (y & H1 & H2). exists y. cbn. auto. Qed.

Lemma requests_incl core T x i s : cumulants_open_active T -> In x T -> In (i, s) (requests core x) -> incl (relation s) (relation (fst i)).
Proof.
  intros HA Hx Hr y Hy. pose proof (requests_in _ _ _ _ Hr) as Hix. unfold requests in Hr. destruct (tcls x) eqn:Ec; try destruct Hr. destruct (length (tupper x) =? 1) eqn:L.
  - destruct (tupper x) as [|u [|? ?]]; try destruct Hr. destruct (tlower x) as [|l [|? ?]]; try destruct Hr. destruct (downgrade_cumulant u l) as [w|] eqn:Ed; [|destruct Hr].
    destruct (_ && core); [destruct Hr|]. assert (Q : w = s /\ (i = u \/ i = l)) by (destruct Hr as [Hr|[Hr|[]]]; injection Hr as <- <-; auto). destruct Q as [-> Q].
    apply (cumulant_relation u l s _ Ed) in Hy as [[H1 H2] _]. destruct Q as [->| ->]; assumption.
  - apply Nat.eqb_neq in L. apply in_map_iff in Hr as (j & Ej & Hj). injection Ej as -> <-. unfold active_label in Hy. cbn in Hy. destruct Hy as [<-|[]]. unfold relation. apply in_map. apply (HA x i Hx Ec L Hix).
Qed.

Section Replaced.
  Context (core : bool) (T : list tensor) (I D : list idx) (gens : list idx) (ps : list tri) (F : list (idx * idx)) (next0 next3 : label -> nat) (pool : idx -> list idx) (r1 r : repl).
  Let reqs := flat_map (requests core) T.
  Let C := combine (map fst reqs) gens.
  Let E := flat_map tri_events ps.
  Context (TI : forall x i, In x T -> In i (tensor_indices x) -> In i I) (HN : forall i, In i I -> snd i < next0 (fst i)) (HA : cumulants_open_active T).
  Context (Lg : map fst gens = map snd reqs) (GA : generates next0 (gens ++ flat_map tri_fresh ps ++ map snd F) next3).
  Context (FB : Forall2 (fun x (p : tri) => In x T /\ is_delta core x = true /\ (exists u l, tupper x = [u] /\ tlower x = [l] /\ fst p = high_low u l /\
      downgrade_kronecker u l = Some (match snd p with Some f => fst f | None => fst (snd (fst p)) end) /\
      (snd p <> None -> lsp (fst (fst (fst p))) = Sp /\ lsp (fst (snd (fst p))) = Sh))) (filter (is_delta core) T) ps).
  Context (ND : NoDup D) (FD : map fst F = D) (FS : forall d f, In (d, f) F -> forall x, In x (relation (fst f)) <-> forall j, In j (pool d) -> In x (relation (fst j))).
  Context (PL : forall d z, In d D -> (In z (pool d) <-> z = d \/ In (d, z) C \/ In (d, z) E)).
  Context (R1 : r1 = dict_update idx_eqb (dict_update idx_eqb (map (fun i => (i, i)) I) C) E).
  Context (RC : forall k, (exists d f, In (d, f) F /\ In k (pool d) /\ dict_get idx_eqb k r = Some f) \/ ((forall d, In d D -> ~ In k (pool d)) /\ dict_get idx_eqb k r = dict_get idx_eqb k r1)).
  (** non-diagonal indices sit on one density at most, diagonal ones are the high indices of deltas that generate nothing *)
  Context (HU : forall i, ~ In i D -> idx_times i (flat_map tensor_indices (filter is_density T)) <= 1).
  Context (HH : forall x u l, In x T -> is_delta core x = true -> tupper x = [u] -> tlower x = [l] ->
    ~ In (snd (high_low u l)) D /\ (In (fst (high_low u l)) D -> ~ (lsp (fst (fst (high_low u l))) = Sp /\ lsp (fst (snd (high_low u l))) = Sh))).

  Lemma tri_delta p : In p ps -> exists x u l, In x T /\ is_delta core x = true /\ tupper x = [u] /\ tlower x = [l] /\ fst p = high_low u l /\
      downgrade_kronecker u l = Some (fst (rep p)) /\ (snd p <> None -> lsp (fst (fst (fst p))) = Sp /\ lsp (fst (snd (fst p))) = Sh).
  Proof.
    intros Hp. destruct (Forall2_right _ _ _ _ FB Hp) as (x & _ & X1 & X2 & u & l & Eu & El & Ep & Ed & Eo). exists x, u, l. unfold rep. destruct (snd p); auto 10.
  Qed.
  Lemma delta_tri x : In x T -> is_delta core x = true -> exists p u l, In p ps /\ tupper x = [u] /\ tlower x = [l] /\ fst p = high_low u l.
  Proof.
    intros Hx Dx. assert (HB : In x (filter (is_delta core) T)) by (apply filter_In; auto). destruct (Forall2_left _ _ _ _ FB HB) as (p & Hp & X1 & X2 & u & l & Eu & El & Ep & Ed & Eo). exists p, u, l. auto.
  Qed.
  Lemma tri_low p : In p ps -> ~ In (snd (fst p)) D.
  Proof. intros Hp. destruct (tri_delta p Hp) as (x & u & l & Hx & Dx & Eu & El & Ep & _). rewrite Ep. apply (HH x u l); assumption. Qed.
  Lemma tri_high p : In p ps -> In (fst (fst p)) D -> snd p = None.
  Proof.
    intros Hp Hd. destruct (tri_delta p Hp) as (x & u & l & Hx & Dx & Eu & El & Ep & _ & Eo). destruct (snd p) as [f|]; [|reflexivity]. exfalso.
    rewrite Ep in *. destruct (HH x u l Hx Dx Eu El) as [_ Q]. apply Q; [exact Hd|]. apply Eo. discriminate.
  Qed.
  Lemma tri_in_I p i : In p ps -> In i (tri_pair p) -> In i I.
  Proof.
    intros Hp Hi. destruct (tri_delta p Hp) as (x & u & l & Hx & Dx & Eu & El & Ep & _). apply (TI x i Hx). unfold tensor_indices. rewrite Eu, El. unfold tri_pair in Hi. rewrite Ep in Hi.
    destruct (high_low_cases u l) as [Q|Q]; rewrite Q in Hi; cbn in Hi |- *; intuition.
  Qed.
  Lemma in_C i z : In (i, z) C -> In z gens /\ exists x, In x T /\ In (i, fst z) (requests core x).
  Proof.
    intros Hz. split.
    - apply in_combine_r in Hz. exact Hz.
    - assert (Q : forall (q : list (idx * label)) (g : list idx), map fst g = map snd q -> forall j z, In (j, z) (combine (map fst q) g) -> In (j, fst z) q).
      { clear. induction q as [|[a b] q IH]; intros [|g gs] HE j z Hz; try discriminate; [destruct Hz|]. cbn in HE. inversion HE. cbn in Hz. destruct Hz as [Hz|Hz]; [injection Hz as <- <-; left; congruence|right; eapply IH; eassumption]. }
      apply (Q reqs gens Lg) in Hz. apply in_flat_map in Hz as (x & Hx & Hz). eauto.
  Qed.
  Lemma in_E i z : In (i, z) E -> exists p, In p ps /\ In i (tri_pair p) /\ z = rep p.
  Proof. intros Hz. apply in_flat_map in Hz as (p & Hp & Hz). apply tri_events_in in Hz as [H1 H2]. eauto. Qed.
  Lemma split_times i : idx_times i (flat_map tensor_indices (filter is_density T)) =
    idx_times i (flat_map tensor_indices (filter (fun x => is_density x && negb (is_delta core x)) T)) + idx_times i (flat_map tri_pair ps).
  Proof.
    assert (PP : Permutation (flat_map tensor_indices (filter (is_delta core) T)) (flat_map tri_pair ps)).
    { pose proof FB as FB0. clear -FB0. induction FB0 as [|x p B qs (_ & _ & u & l & Eu & El & Ep & _) FB' IH]; [reflexivity|]. cbn [flat_map]. apply Permutation_app; [|exact IH].
      unfold tensor_indices, tri_pair. rewrite Eu, El, Ep. cbn [app]. destruct (high_low_cases u l) as [->| ->]; cbn [fst snd]; [reflexivity|apply perm_swap]. }
    rewrite <- idx_times_app. unfold idx_times. apply Permutation_count_occ. rewrite <- PP, <- flat_map_app. apply Permutation_flat_map.
    rewrite (filter_split (is_delta core) (filter is_density T)), !filter_filter. apply Permutation_app; [reflexivity|]. apply Permutation_refl'. apply filter_ext. intros x.
    destruct (is_delta core x) eqn:E'; [rewrite (is_delta_density core x E'); reflexivity|apply andb_false_r].
  Qed.
  Lemma tri_same i p q : ~ In i D -> In p ps -> In q ps -> In i (tri_pair p) -> In i (tri_pair q) -> p = q.
  Proof. intros Hi. apply times_unique. pose proof (HU i Hi) as H. rewrite split_times in H. lia. Qed.
  Lemma tri_not_C i p z : ~ In i D -> In p ps -> In i (tri_pair p) -> In (i, z) C -> False.
  Proof.
    intros Hi Hp Hip Hc. pose proof (HU i Hi) as H. rewrite split_times in H. assert (H1 : 0 < idx_times i (flat_map tri_pair ps)) by (apply idx_times_in, in_flat_map; eauto).
    destruct (in_C i z Hc) as [_ (x & Hx & Hr)]. assert (H2 : 0 < idx_times i (flat_map tensor_indices (filter (fun x => is_density x && negb (is_delta core x)) T))); [|lia].
    apply idx_times_in, in_flat_map. exists x. split; [|apply (requests_in _ _ _ _ Hr)]. apply filter_In. split; [exact Hx|]. clear -Hr. unfold requests, is_density, is_delta, core_delta in *.
    destruct (tcls x); try destruct Hr. cbn [andb tclass_eqb orb]. destruct (tupper x) as [|u [|? ?]]; try reflexivity. destruct (tlower x) as [|l [|? ?]]; try reflexivity. cbn [length Nat.eqb] in Hr.
    destruct (downgrade_cumulant u l); [|destruct Hr]. destruct (_ && core); [destruct Hr|reflexivity].
  Qed.

  Lemma NG : NoDup (gens ++ flat_map tri_fresh ps ++ map snd F).
  Proof. exact (proj1 (generates_spec _ _ _ GA)). Qed.
  Lemma fresh_new z : In z (gens ++ flat_map tri_fresh ps ++ map snd F) -> ~ In z I.
  Proof. intros Hz HI. destruct (generates_spec _ _ _ GA) as (_ & _ & G). destruct z as [s n]. apply G in Hz. apply HN in HI. cbn in HI. lia. Qed.
  Lemma gens_new z : In z gens -> ~ In z I.
  Proof. intros H. apply fresh_new, in_or_app. left. exact H. Qed.
  Lemma rep_cases p : In p ps -> (exists f, snd p = Some f /\ rep p = f /\ In f (flat_map tri_fresh ps)) \/ (snd p = None /\ rep p = snd (fst p) /\ In (rep p) (tri_pair p)).
  Proof.
    destruct p as [[h l] [f|]]; intros Hp; cbn; [left|right].
    - exists f. split; [reflexivity|]. split; [reflexivity|]. apply in_flat_map. exists (h, l, Some f). split; [exact Hp|left; reflexivity].
    - split; [reflexivity|]. split; [reflexivity|]. right. left. reflexivity.
  Qed.

  Let rho := rename r.
  (** how an index is replaced *)
  Inductive way (i : idx) : Prop :=
  | way_diagonal d f : In (d, f) F -> In d D -> rho i = f -> i = d \/ In (d, i, None) ps -> way i
  | way_delta p : ~ In i D -> In p ps -> In i (tri_pair p) -> ~ In (fst (fst p)) D -> rho i = rep p -> way i
  | way_cumulant z : ~ In i D -> In (i, z) C -> rho i = z -> (forall p, In p ps -> ~ In i (tri_pair p)) -> way i
  | way_same : ~ In i D -> rho i = i -> (forall p, In p ps -> ~ In i (tri_pair p)) -> way i.
  Lemma ways i : In i I -> way i.
  Proof.
    intros Hi. destruct (RC i) as [(d & f & H1 & H2 & H3)|[H1 H2]].
    - assert (Hd : In d D) by (rewrite <- FD; exact (in_map fst _ _ H1)). apply (way_diagonal i d f H1 Hd).
      + unfold rho, rename. rewrite H3. reflexivity.
      + apply (PL d i Hd) in H2 as [->|[H2|H2]]; [left; reflexivity| |].
        * exfalso. apply in_C in H2 as [H2 _]. exact (gens_new i H2 Hi).
        * right. apply in_flat_map in H2 as (p & Hp & H2). assert (Hh : In d (tri_pair p)) by (apply (tri_events_in p d i H2)). destruct p as [[h w] [f'|]]; cbn in H2.
          -- exfalso. destruct H2 as [H2|[H2|[]]]; injection H2 as -> ->; [pose proof (tri_high _ Hp Hd) as Q; discriminate|apply (tri_low _ Hp Hd)].
          -- destruct H2 as [H2|[]]. injection H2 as -> ->. exact Hp.
    - assert (Nd : ~ In i D) by (intros Hd; apply (H1 i Hd), (PL i i Hd); left; reflexivity).
      assert (Nh : forall p, In p ps -> In i (tri_pair p) -> ~ In (fst (fst p)) D).
      { intros p Hp Hip Hd. pose proof (tri_high p Hp Hd) as En. destruct p as [[h w] o']. cbn in *. subst o'. destruct Hip as [->|[->|[]]]; [contradiction|]. apply (H1 h Hd), (PL h i Hd). right. right. apply in_flat_map. exists (h, i, None). split; [exact Hp|left; reflexivity]. }
      rewrite R1 in H2. destruct (update_cases E (dict_update idx_eqb (map (fun i => (i, i)) I) C) i) as [(z & Z1 & Z2)|[Z1 Z2]]; rewrite Z2 in H2.
      + destruct (in_E i z Z1) as (p & Hp & Hip & ->). apply (way_delta i p Nd Hp Hip (Nh p Hp Hip)). unfold rho, rename. rewrite H2. reflexivity.
      + destruct (in_dec idx_eq_dec i (flat_map tri_pair ps)) as [Hp|Hp].
        * apply in_flat_map in Hp as (p & Hp & Hip). apply (way_delta i p Nd Hp Hip (Nh p Hp Hip)).
          assert (Q : rep p = i). { assert (Ni : ~ In i (map fst (tri_events p))) by (intros Q; apply Z1; unfold E; rewrite map_flat_map; apply in_flat_map; eauto). destruct p as [[h w] [f|]]; cbn in *; [exfalso; apply Ni; tauto|intuition]. }
          rewrite Q. destruct (update_cases C (map (fun i => (i, i)) I) i) as [(z & Y1 & Y2)|[Y1 Y2]]; [exfalso; eapply tri_not_C; eassumption|]. unfold rho, rename. rewrite H2, Y2.
          destruct (dict_get idx_eqb i (map (fun i => (i, i)) I)) as [z|] eqn:Ez; [|reflexivity]. apply dget_in, in_map_iff in Ez as (j & Ej & _). congruence.
        * assert (Np : forall p, In p ps -> ~ In i (tri_pair p)) by (intros p H3 H4; apply Hp, in_flat_map; eauto).
          destruct (update_cases C (map (fun i => (i, i)) I) i) as [(z & Y1 & Y2)|[Y1 Y2]]; rewrite Y2 in H2.
          -- apply (way_cumulant i z Nd Y1); [unfold rho, rename; rewrite H2; reflexivity|exact Np].
          -- apply (way_same i Nd); [|exact Np]. unfold rho, rename. rewrite H2. destruct (dict_get idx_eqb i (map (fun i => (i, i)) I)) as [z|] eqn:Ez; [|reflexivity]. apply dget_in, in_map_iff in Ez as (j & Ej & _). congruence.
  Qed.
  Lemma F_unique d f g : In (d, f) F -> In (d, g) F -> f = g.
  Proof. apply nodup_keys_unique. rewrite FD. exact ND. Qed.
  Lemma F_values d d' f : In (d, f) F -> In (d', f) F -> d = d'.
  Proof.
    assert (N : NoDup (map snd F)) by (pose proof NG as N; apply NoDup_app_elim in N as (_ & N & _); apply NoDup_app_elim in N; tauto). clear -N. induction F as [|[a b] G IH]; [intros []|]. cbn in N. inversion N as [|? ? N1 N2]; subst.
    assert (Q : forall c, In (c, b) G -> False) by (intros c Hc; apply N1; exact (in_map snd _ _ Hc)).
    intros [H|H] [H'|H']; [congruence| | |apply IH; assumption]; exfalso; [injection H as -> ->|injection H' as -> ->]; eapply Q; eassumption.
  Qed.
  Lemma old_values i : In i I -> (exists d f, In (d, f) F /\ rho i = f) \/ In (rho i) I \/ In (rho i) (gens ++ flat_map tri_fresh ps).
  Proof.
    intros Hi. destruct (ways i Hi) as [d f H1 H2 H3 H4|p H1 H2 H3 H4 H5|z H1 H2 H3 H4|H1 H2 H3]; [left; eauto| | |right; left; rewrite H2; exact Hi].
    - right. rewrite H5. destruct (rep_cases p H2) as [(f & _ & -> & Hf)|(_ & _ & Hf)]; [right; apply in_or_app; right; exact Hf|left; apply (tri_in_I p); assumption].
    - right. right. rewrite H3. apply in_or_app. left. apply in_C in H2. tauto.
  Qed.

  Lemma both p : In p ps -> rho (fst (fst p)) = rho (snd (fst p)).
  Proof.
    intros Hp. pose proof (tri_low p Hp) as Lw. destruct p as [[h w] o']. cbn [fst snd] in *.
    assert (Hh : In h (tri_pair (h, w, o'))) by (left; reflexivity). assert (Hw : In w (tri_pair (h, w, o'))) by (right; left; reflexivity).
    pose proof (tri_in_I _ h Hp Hh) as Ih. pose proof (tri_in_I _ w Hp Hw) as Iw.
    destruct (ways w Iw) as [d f H1 H2 H3 H4|q H1 H2 H3 H4 H5|z H1 H2 H3 H4|H1 H2 H3]; try (exfalso; eapply H4; eassumption); try (exfalso; eapply H3; eassumption).
    - destruct H4 as [->|H4]; [contradiction|]. assert (Q : (d, w, None) = (h, w, o')) by (apply (tri_same w); try assumption; right; left; reflexivity). injection Q as -> <-. rewrite H3.
      destruct (ways h Ih) as [d' f' G1 G2 G3 G4|q G1|z G1|G1]; try contradiction. destruct G4 as [<-|G4]; [rewrite G3; apply (F_unique h); assumption|]. exfalso. apply (tri_low _ G4). exact H2.
    - assert (Q : q = (h, w, o')) by (apply (tri_same w); assumption). subst q. cbn [fst] in H4. rewrite H5.
      destruct (ways h Ih) as [d' f' G1 G2 G3 G4|q G1 G2 G3 G4 G5|z G1 G2 G3 G4|G1 G2 G3]; try (exfalso; eapply G4; eassumption); try (exfalso; eapply G3; eassumption).
      + exfalso. destruct G4 as [->|G4]; [contradiction|]. assert (Q : (d', h, None) = (h, w, o')) by (apply (tri_same h); try assumption; right; left; reflexivity). injection Q as -> _ _. contradiction.
      + rewrite G5. f_equal. apply (tri_same h); assumption.
  Qed.
  Lemma low_pool d i : In d D -> i = d \/ In (d, i, None) ps -> In i (pool d).
  Proof. intros Hd H. apply (PL d i Hd). destruct H as [->|H]; [auto|]. right. right. apply in_flat_map. exists (d, i, None). split; [exact H|left; reflexivity]. Qed.
  Lemma pair_of p u l i : fst p = high_low u l -> (In i (tri_pair p) <-> i = u \/ i = l).
  Proof. intros Ep. unfold tri_pair. rewrite Ep. destruct (high_low_cases u l) as [->| ->]; cbn; intuition. Qed.

  Lemma replaced_ok : replaced core T I rho.
  Proof.
    constructor.
    - intros x Hx Dx. destruct (delta_tri x Hx Dx) as (p & u & l & Hp & Eu & El & Ep). exists u, l. split; [exact Eu|]. split; [exact El|]. pose proof (both p Hp) as B. rewrite Ep in B. destruct (high_low_cases u l) as [Q|Q]; rewrite Q in B; cbn in B; congruence.
    - intros i Hi y Hy. destruct (ways i Hi) as [d f H1 H2 H3 H4|p H1 H2 H3 H4 H5|z H1 H2 H3 H4|H1 H2 H3].
      + rewrite H3 in Hy. apply (proj1 (FS d f H1 y) Hy). apply low_pool; assumption.
      + rewrite H5 in Hy. destruct (tri_delta p H2) as (x & u & l & Hx & Dx & Eu & El & Ep & Ed & _). apply (kronecker_relation u l _ _ Ed) in Hy as [Y1 Y2]. apply (pair_of p u l i Ep) in H3 as [->| ->]; assumption.
      + rewrite H3 in Hy. destruct (in_C i z H2) as [_ (x & Hx & Hr)]. exact (requests_incl core T x i (fst z) HA Hx Hr y Hy).
      + rewrite H2 in Hy. exact Hy.
    - intros S e He [A1 A2].
      assert (PE : forall p i j, In p ps -> In i (tri_pair p) -> In j (tri_pair p) -> e i = e j).
      { intros p i j Hp Hi Hj. destruct (tri_delta p Hp) as (x & u & l & Hx & Dx & Eu & El & Ep & _). apply (pair_of p u l i Ep) in Hi. apply (pair_of p u l j Ep) in Hj. pose proof (A1 x u l Hx Dx Eu El). destruct Hi as [->| ->], Hj as [->| ->]; congruence. }
      assert (DE : forall d i, i = d \/ In (d, i, None) ps -> e i = e d). { intros d i [->|H]; [reflexivity|]. apply (PE _ i d H); cbn; auto. }
      apply compat_spec. split.
      + intros i Hi. apply orbitals_in. pose proof (He i Hi) as Oi. apply orbitals_in in Oi as [On Oi]. split; [exact On|]. destruct (ways i Hi) as [d f H1 H2 H3 H4|p H1 H2 H3 H4 H5|z H1 H2 H3 H4|H1 H2 H3].
        * rewrite H3. apply (FS d f H1). intros j Hj. apply (PL d j H2) in Hj. pose proof (DE d i H4) as Ed. destruct Hj as [->|[Hj|Hj]].
          -- rewrite Ed. assert (Id : In d I). { destruct H4 as [<-|H4]; [exact Hi|]. apply (tri_in_I _ d H4). left. reflexivity. } pose proof (He d Id) as Q. apply orbitals_in in Q. tauto.
          -- destruct (in_C d j Hj) as [_ (x & Hx & Hr)]. rewrite Ed. exact (A2 x d (fst j) Hx Hr).
          -- apply in_E in Hj as (p & Hp & Hd & ->). assert (Hn : snd p = None). { apply (tri_high p Hp). pose proof (tri_low p Hp) as L. unfold tri_pair in Hd. destruct Hd as [Q|[Q|[]]]; [rewrite Q; exact H2|]. exfalso. apply L. rewrite Q. exact H2. }
             destruct (rep_cases p Hp) as [(f' & Q & _)|(_ & _ & Q)]; [congruence|]. rewrite Ed, (PE p d (rep p) Hp Hd Q). pose proof (He _ (tri_in_I p _ Hp Q)) as O. apply orbitals_in in O. tauto.
        * rewrite H5. destruct (tri_delta p H2) as (x & u & l & Hx & Dx & Eu & El & Ep & Ed & _). apply (kronecker_relation u l _ _ Ed).
          assert (Pu : In u (tri_pair p)) by (apply (pair_of p u l u Ep); auto). assert (Pl : In l (tri_pair p)) by (apply (pair_of p u l l Ep); auto).
          rewrite (PE p i u H2 H3 Pu) at 1. rewrite (PE p i l H2 H3 Pl). pose proof (He u (tri_in_I p u H2 Pu)) as Q1. pose proof (He l (tri_in_I p l H2 Pl)) as Q2. apply orbitals_in in Q1, Q2. tauto.
        * rewrite H3. destruct (in_C i z H2) as [_ (x & Hx & Hr)]. exact (A2 x i (fst z) Hx Hr).
        * rewrite H2. exact Oi.
      + pose proof NG as N. apply NoDup_app_elim in N as (N1 & N & N3). apply NoDup_app_elim in N as (N4 & N5 & N6).
        assert (FN : forall d f, In (d, f) F -> ~ In f I /\ ~ In f (gens ++ flat_map tri_fresh ps)).
        { intros d f Hf. apply (in_map snd) in Hf. cbn in Hf. split; [apply fresh_new; rewrite !in_app_iff; auto|]. rewrite in_app_iff. intros [Q|Q]; [apply (N3 f Q), in_or_app; auto|exact (N6 f Q Hf)]. }
        assert (X : forall i j p, In i I -> In j I -> ~ In i D -> In p ps -> In i (tri_pair p) -> rho i = rep p -> rho j = rep p -> way j -> e i = e j).
        { intros i j p Hi Hj Ni Hp Hip Ei Ej W. destruct W as [d f H1 H2 H3 H4|q H1 H2 H3 H4 H5|z H1 H2 H3 H4|H1 H2 H3].
          - exfalso. destruct (FN d f H1) as [Q1 Q2]. destruct (rep_cases p Hp) as [(g & _ & Q & Hg)|(_ & _ & Q)].
            + apply Q2. rewrite <- H3, Ej, Q. apply in_or_app. right. exact Hg.
            + apply Q1. rewrite <- H3, Ej. apply (tri_in_I p _ Hp Q).
          - rewrite H5 in Ej. assert (Q : p = q).
            { destruct (rep_cases p Hp) as [(f & Sf & Ef & Hf)|(_ & Ef & Hr)], (rep_cases q H2) as [(f' & Sf' & Ef' & Hf')|(_ & Ef' & Hr')].
              - apply (nodup_flat_map_unique tri_fresh ps p q f); try assumption; [unfold tri_fresh; rewrite Sf; left; reflexivity|unfold tri_fresh; rewrite Sf'; left; congruence].
              - exfalso. apply (fresh_new f); [rewrite !in_app_iff; auto|]. rewrite <- Ef, <- Ej. apply (tri_in_I q _ H2 Hr').
              - exfalso. apply (fresh_new f'); [rewrite !in_app_iff; auto|]. rewrite <- Ef', Ej. apply (tri_in_I p _ Hp Hr).
              - apply (tri_same (rep p)); try assumption; [rewrite Ef; apply tri_low, Hp|rewrite <- Ej; exact Hr']. }
            subst q. apply (PE p); assumption.
          - exfalso. rewrite H3 in Ej. destruct (in_C j z H2) as [Hz _]. destruct (rep_cases p Hp) as [(f & _ & Ef & Hf)|(_ & Ef & Hr)].
            + apply (N3 z Hz). rewrite Ej, Ef. apply in_or_app. left. exact Hf.
            + apply (gens_new z Hz). rewrite Ej. apply (tri_in_I p _ Hp Hr).
          - rewrite H2 in Ej. destruct (rep_cases p Hp) as [(f & _ & Ef & Hf)|(_ & Ef & Hr)].
            + exfalso. apply (fresh_new f); [rewrite !in_app_iff; auto|]. rewrite <- Ef, <- Ej. exact Hj.
            + rewrite <- Ej in Hr. apply (PE p); assumption. }
        intros i j Hi Hj Er. destruct (ways i Hi) as [d f H1 H2 H3 H4|p H1 H2 H3 H4 H5|z H1 H2 H3 H4|H1 H2 H3].
        * destruct (ways j Hj) as [d' f' G1 G2 G3 G4|q G1 G2 G3 G4 G5|y G1 G2 G3 G4|G1 G2 G3].
          -- assert (Q : f' = f) by congruence. rewrite Q in G1. pose proof (F_values d d' f H1 G1) as Q'. subst d'. rewrite (DE d i H4), (DE d j G4). reflexivity.
          -- symmetry. apply (X j i q); try assumption; [congruence|]. apply ways, Hi.
          -- exfalso. apply (proj2 (FN d f H1)). apply in_or_app. left. rewrite <- H3, Er, G3. apply (in_C j y G2).
          -- exfalso. apply (proj1 (FN d f H1)). rewrite <- H3, Er, G2. exact Hj.
        * apply (X i j p); try assumption; [congruence|apply ways, Hj].
        * destruct (ways j Hj) as [d' f' G1 G2 G3 G4|q G1 G2 G3 G4 G5|y G1 G2 G3 G4|G1 G2 G3].
          -- exfalso. apply (proj2 (FN d' f' G1)). apply in_or_app. left. rewrite <- G3, <- Er, H3. apply (in_C i z H2).
          -- symmetry. apply (X j i q); try assumption; [congruence|]. apply ways, Hi.
          -- assert (Q : y = z) by congruence. rewrite Q in G2. f_equal. assert (Lc : length gens = length (map fst reqs)) by (apply (f_equal (@length label)) in Lg; rewrite !map_length in *; exact Lg).
             revert H2 G2. clear -N1 Lc. unfold C. clear C. revert N1 Lc. generalize (map fst reqs) as ks. induction gens as [|g gs IH]; intros [|k ks] N L; try discriminate; [intros []|]. cbn [combine]. inversion N as [|? ? N1' N2']; subst. cbn in L.
             intros [H|H] [H'|H']; [congruence| | |apply (IH ks); try assumption; lia]; exfalso; [injection H as -> ->; apply in_combine_r in H'; contradiction|injection H' as -> ->; apply in_combine_r in H; contradiction].
          -- exfalso. apply (gens_new z); [apply (in_C i z H2)|]. rewrite <- H3, Er, G2. exact Hj.
        * destruct (ways j Hj) as [d' f' G1 G2 G3 G4|q G1 G2 G3 G4 G5|y G1 G2 G3 G4|G1 G2 G3].
          -- exfalso. apply (proj1 (FN d' f' G1)). rewrite <- G3, <- Er, H2. exact Hi.
          -- symmetry. apply (X j i q); try assumption; [congruence|]. apply ways, Hi.
          -- exfalso. apply (gens_new y); [apply (in_C j y G2)|]. rewrite <- G3, <- Er, H2. exact Hi.
          -- congruence.
  Qed.

  Lemma diagonal_space d x : In d D -> In d I -> (In x (relation (fst (rho d))) <->
    In x (relation (fst d)) /\ (forall y s, In y T -> In (d, s) (requests core y) -> In x (relation s)) /\
    (forall y j, In y T -> is_delta core y = true -> In d (tensor_indices y) -> In j (tensor_indices y) -> In x (relation (fst j)))).
  Proof.
    intros Hd Id. assert (W : exists f, In (d, f) F /\ rho d = f).
    { destruct (ways d Id) as [d' f H1 H2 H3 H4|p H1|z H1|H1]; try contradiction. destruct H4 as [->|H4]; [eauto|]. exfalso. exact (tri_low _ H4 Hd). }
    destruct W as (f & Hf & ->). rewrite (FS d f Hf x). split.
    - intros Q. pose proof (Q d (proj2 (PL d d Hd) (or_introl eq_refl))) as Qd. split; [exact Qd|]. split.
      + intros y s Hy Hr. assert (R : In (d, s) reqs) by (apply in_flat_map; eauto).
        assert (G : forall (q : list (idx * label)) (g : list idx), map fst g = map snd q -> forall j s, In (j, s) q -> exists z, In (j, z) (combine (map fst q) g) /\ fst z = s).
        { clear. induction q as [|[a b] q IH]; intros [|g gs] HE j s Hz; try discriminate; [destruct Hz|]. cbn in HE. inversion HE. destruct Hz as [Hz|Hz]; [injection Hz as <- <-; exists g; cbn; auto|]. destruct (IH gs H1 j s Hz) as (z & Z1 & Z2). exists z. cbn. auto. }
        destruct (G reqs gens Lg d s R) as (z & Hz & <-). apply Q, (PL d z Hd). right. left. exact Hz.
      + intros y j Hy Dy Hdy Hj. destruct (delta_tri y Hy Dy) as (p & u & l & Hp & Eu & El & Ep). unfold tensor_indices in Hdy, Hj. rewrite Eu, El in Hdy, Hj.
        assert (Pd : In d (tri_pair p)) by (apply (pair_of p u l d Ep); cbn in Hdy; intuition). assert (Pj : In j (tri_pair p)) by (apply (pair_of p u l j Ep); cbn in Hj; intuition).
        pose proof (tri_low p Hp) as L. destruct p as [[h w] o']. cbn in Pd, Pj, L. destruct Pd as [->|[->|[]]]; [|contradiction]. pose proof (tri_high _ Hp Hd) as En. cbn in En. subst o'.
        destruct Pj as [<-|[<-|[]]]; [exact Qd|]. apply Q, low_pool; auto.
    - intros (Q1 & Q2 & Q3) j Hj. apply (PL d j Hd) in Hj as [->|[Hj|Hj]]; [exact Q1| |].
      + destruct (in_C d j Hj) as [_ (y & Hy & Hr)]. exact (Q2 y (fst j) Hy Hr).
      + apply in_E in Hj as (p & Hp & Pd & ->). assert (Hn : snd p = None). { apply (tri_high p Hp). pose proof (tri_low p Hp) as L. unfold tri_pair in Pd. destruct Pd as [Q|[Q|[]]]; [rewrite Q; exact Hd|]. exfalso. apply L. rewrite Q. exact Hd. }
        destruct (rep_cases p Hp) as [(f' & Q & _)|(_ & _ & Q)]; [congruence|]. destruct (tri_delta p Hp) as (y & u & l & Hy & Dy & Eu & El & Ep & _).
        apply (pair_of p u l d Ep) in Pd. apply (pair_of p u l _ Ep) in Q. apply (Q3 y); try assumption; unfold tensor_indices; rewrite Eu, El; cbn; intuition.
  Qed.
End Replaced.

(** ** values *)
Section DiagonalValue.
  Context (A : qalg) (S : system) (v : tvaluation A) (P : physical S v).
  Add Ring alg_ring_diag : (q_ring A).
  Context (core : bool) (T : list tensor) (o : op) (I : list idx) (rho : idx -> idx).
  Context (HR : replaced core T I rho) (HV : Forall valid_tensor T) (HI : forall i, In i I <-> In i (content_indices T o)).

  Let TI : forall x i, In x T -> In i (tensor_indices x) -> In i I.
  Proof. intros x i Hx Hi. apply HI. unfold content_indices. apply in_or_app. right. apply in_flat_map. eauto. Qed.

  Lemma alive_or_zero e : (forall i, In i I -> In (e i) (orbitals S i)) -> alive core T S e \/ integrand v T o e = q0.
  Proof.
    intros He.
    destruct (Exists_dec (fun p : idx * label => ~ In (olabel S (e (fst p))) (relation (snd p))) (flat_map (requests core) T)) as [X|X].
    { intros [i s]. cbn [fst snd]. destruct (in_dec label_dec (olabel S (e i)) (relation s)); [right; tauto|left; assumption]. }
    { right. apply Exists_exists in X as ([i s] & Hi & N'). cbn [fst snd] in N'. apply in_flat_map in Hi as (x & Hx & Hr). pose proof (TI x i Hx (requests_in _ _ _ _ Hr)) as Hi.
      apply (integrand_zero A v T o e x Hx). unfold tensor_value. unfold requests in Hr. destruct (tcls x) eqn:Ec; try destruct Hr. destruct (length (tupper x) =? 1) eqn:L.
      - assert (In_u : forall j, In j (tensor_indices x) -> In (e j) (orbitals S j)) by (intros j Hj; apply He, (TI x); assumption). unfold tensor_indices in In_u.
        destruct (tupper x) as [|u [|? ?]]; try destruct Hr. destruct (tlower x) as [|l [|? ?]]; try destruct Hr. destruct (downgrade_cumulant u l) as [w|] eqn:Ed; [|destruct Hr].
        destruct (_ && core); [destruct Hr|]. cbn [map]. apply (cumulant_zero A S v P _ u l w e i Ed); [apply In_u; left; reflexivity|apply In_u; right; left; reflexivity| |].
        + destruct Hr as [Hr|[Hr|[]]]; injection Hr as <- _; auto.
        + destruct Hr as [Hr|[Hr|[]]]; injection Hr as _ <-; exact N'.
      - apply (ph_higher S v P); [rewrite map_length; apply Nat.eqb_neq, L|]. rewrite <- map_app. apply in_map_iff in Hr as (j & Ej & Hj). injection Ej as -> <-. apply existsb_exists. exists (e i). split; [apply in_map, Hj|].
        apply negb_true_iff, not_true_iff_false. intros Ha. apply is_space in Ha. apply N'. destruct (orbital_class S i _ (He i Hi)) as [_ B]. left. symmetry. apply label_eq; [exact B|exact Ha]. }
    destruct (Exists_dec (fun x => match tupper x, tlower x with [u], [l] => e u <> e l | _, _ => False end) (filter (is_delta core) T)) as [Y|Y].
    { intros x. destruct (tupper x) as [|u [|? ?]]; [right; tauto| |right; tauto]. destruct (tlower x) as [|l [|? ?]]; [right; tauto| |right; tauto]. destruct (Nat.eq_dec (e u) (e l)); [right; tauto|left; assumption]. }
    { right. apply Exists_exists in Y as (x & Hx & N). apply filter_In in Hx as [Hx D]. destruct (tupper x) as [|u [|? ?]] eqn:Eu; try contradiction. destruct (tlower x) as [|l [|? ?]] eqn:El; try contradiction.
      apply (integrand_zero A v T o e x Hx). rewrite (delta_value A S v P core x u l e); try assumption.
      - apply Nat.eqb_neq in N. rewrite N. reflexivity.
      - rewrite Forall_forall in HV. auto.
      - apply He, (TI x); [exact Hx|]. unfold tensor_indices. rewrite Eu. left. reflexivity.
      - apply He, (TI x); [exact Hx|]. unfold tensor_indices. rewrite Eu, El. right. left. reflexivity. }
    left. split.
    - intros x u l Hx D Eu El. destruct (Nat.eq_dec (e u) (e l)) as [E|E]; [exact E|]. exfalso. apply Y. apply Exists_exists. exists x. split; [apply filter_In; auto|]. rewrite Eu, El. exact E.
    - intros x i s Hx Hr. destruct (in_dec label_dec (olabel S (e i)) (relation s)) as [E|E]; [exact E|]. exfalso. apply X. apply Exists_exists. exists (i, s). split; [apply in_flat_map; eauto|exact E].
  Qed.
  Lemma replaced_zero e : (forall i, In i I -> In (e i) (orbitals S i)) -> compat S rho I e = false -> integrand v T o e = q0.
  Proof. intros He C. destruct (alive_or_zero e He) as [L|L]; [|exact L]. rewrite (rp_alive _ _ _ _ HR S e He L) in C. discriminate. Qed.
  Lemma replaced_integrand e : (forall i, In i I -> In (e i) (orbitals S i)) -> compat S rho I e = true -> integrand v T o e = integrand v (kept core T) o e.
  Proof.
    intros He C. apply compat_spec in C as [_ C]. unfold integrand, kept. f_equal. apply aprod_filter. intros x Hx D. rewrite negb_false_iff in D.
    destruct (rp_delta _ _ _ _ HR x Hx D) as (u & l & Eu & El & Er).
    assert (Iu : In u I) by (apply (TI x); [exact Hx|unfold tensor_indices; rewrite Eu; left; reflexivity]).
    assert (Il : In l I) by (apply (TI x); [exact Hx|unfold tensor_indices; rewrite Eu, El; right; left; reflexivity]).
    rewrite (delta_value A S v P core x u l e); try assumption; auto; [|rewrite Forall_forall in HV; auto]. rewrite (C u l Iu Il Er), Nat.eqb_refl. reflexivity.
  Qed.
  Context (HK : forall i, In i (content_indices T o) <-> In i (content_indices (kept core T) o)) (NI : NoDup I).
  Lemma replaced_value c : content_value S v c (map (rename_tensor rho) (kept core T)) (rename_op rho o) = content_value S v c T o.
  Proof.
    rewrite content_value_rename. 2: { intros i Hi p Hp. apply orbitals_in in Hp as [Hn Hp]. apply orbitals_in. split; [exact Hn|]. apply (rp_incl _ _ _ _ HR i); [apply HI, HK, Hi|exact Hp]. }
    unfold content_value. f_equal. set (J := nodup idx_eq_dec (content_indices (kept core T) o)).
    rewrite (sum_over_same A S (nodup idx_eq_dec (content_indices T o)) J).
    - apply sum_over_ext; [|apply NoDup_nodup]. intros e He.
      assert (He' : forall i, In i I -> In (e i) (orbitals S i)). { intros i Hi. apply He, nodup_In, HK, HI, Hi. }
      assert (EC : compat S rho J e = compat S rho I e).
      { assert (EJ : forall i, In i J <-> In i I) by (intros i; unfold J; rewrite nodup_In, <- HK, HI; tauto).
        destruct (compat S rho I e) eqn:E; [apply compat_spec in E as [E1 E2]; apply compat_spec; split; [intros i Hi; apply E1, EJ, Hi|intros i j Hi Hj; apply E2; apply EJ; assumption]|].
        apply not_true_iff_false. rewrite <- not_true_iff_false in E. intros E'. apply E. apply compat_spec in E' as [E1 E2]. apply compat_spec. split; [intros i Hi; apply E1, EJ, Hi|intros i j Hi Hj; apply E2; apply EJ; assumption]. }
      rewrite EC. destruct (compat S rho I e) eqn:E; [symmetry; apply replaced_integrand; assumption|symmetry; apply replaced_zero; assumption].
    - apply NoDup_nodup.
    - apply NoDup_nodup.
    - intros i. unfold J. rewrite !nodup_In. apply HK.
    - apply integrand_depends.
  Qed.
  Lemma replaced_active c x : no_active_amplitudes S v -> In x T -> tcls x = TCluster -> (forall i, In i (tensor_indices x) -> lsp (fst (rho i)) = Sa) -> content_value S v c T o = q0.
  Proof.
    intros NA Hx Ec Ha. unfold content_value. rewrite (sum_over_zero A S); [ring|apply NoDup_nodup|]. intros e He.
    assert (He' : forall i, In i I -> In (e i) (orbitals S i)). { intros i Hi. apply He, nodup_In, HI, Hi. }
    destruct (compat S rho I e) eqn:E; [|apply replaced_zero; assumption]. apply compat_spec in E as [E _]. apply (integrand_zero A v T o e x Hx). unfold tensor_value. rewrite Ec. apply NA. rewrite <- map_app.
    apply forallb_forall. intros p Hp. apply in_map_iff in Hp as (i & <- & Hi). specialize (E i (TI x i Hx Hi)). apply orbitals_in in E as [_ E]. unfold is_active. apply space_eqb_eq.
    unfold relation in E. rewrite (Ha i Hi) in E. destruct E as [<-|[]]. reflexivity.
  Qed.
End DiagonalValue.

(** ** simplify *)
Lemma harmless_high xs o u l : harmless xs o u l -> harmless xs o l u ->
  ~ diagonal_in (snd (high_low u l)) xs o /\ (diagonal_in (fst (high_low u l)) xs o -> ~ (lsp (fst (fst (high_low u l))) = Sp /\ lsp (fst (snd (high_low u l))) = Sh)).
Proof.
  intros H1 H2. pose proof (high_low_cases u l) as Q. unfold high_low in *. destruct (idx_lt l u) eqn:E; cbn [fst snd].
  - split; [|intros D; apply H2, D]. intros D. destruct (H1 D) as (L & _). pose proof (lw_asym idx_ord idx_lawful u l L) as Q'. change (plt idx_ord l u) with (idx_lt l u) in Q'. congruence.
  - split; [|intros D; apply H1, D]. intros D. destruct (H2 D) as (L & _). congruence.
Qed.

Lemma kept_diagonal core T o : (forall i, 0 < total_times i T o -> ~ diagonal_in i T o -> total_times i T o = 2) -> densities_apart T o -> (forall x u l, In x T -> is_delta core x = true -> tupper x = [u] -> tlower x = [l] -> u <> l) -> Forall valid_tensor T ->
  forall i, In i (content_indices T o) <-> In i (content_indices (kept core T) o).
Proof.
  intros H2 HD HN HV i. split.
  - intros Hi. destruct (in_dec idx_eq_dec i (content_diagonal T o)) as [D|D].
    + apply content_diagonal_in in D as [[D _]|(x & Hx & D1 & D2)]; unfold content_indices; apply in_or_app; [left; apply in_or_app; left; exact D|right].
      apply in_flat_map. exists x. split; [|apply in_or_app; left; exact D1]. apply filter_In. split; [exact Hx|]. apply negb_true_iff, not_true_iff_false. intros Dx.
      rewrite Forall_forall in HV. destruct (delta_shape core x (HV x Hx) Dx) as (u & l & Eu & El). rewrite Eu in D1. rewrite El in D2. apply (HN x u l Hx Dx Eu El). destruct D1 as [->|[]], D2 as [->|[]]. reflexivity.
    + assert (ND : ~ diagonal_in i T o) by (intros Q; apply D, content_diagonal_in, Q). apply idx_times_in. apply idx_times_in in Hi. pose proof Hi as Ht. rewrite content_times in Ht. apply H2 in Ht; [|exact ND]. rewrite <- content_times in Ht.
      assert (E : idx_times i (content_indices T o) = idx_times i (content_indices (kept core T) o) + idx_times i (flat_map tensor_indices (filter (is_delta core) T))).
      { unfold content_indices. rewrite !idx_times_app. assert (Q : idx_times i (flat_map tensor_indices T) = idx_times i (flat_map tensor_indices (kept core T)) + idx_times i (flat_map tensor_indices (filter (is_delta core) T))).
        { rewrite <- idx_times_app, <- flat_map_app. unfold idx_times. apply Permutation_count_occ. apply Permutation_flat_map, filter_split. }
        rewrite Q. lia. }
      assert (L : idx_times i (flat_map tensor_indices (filter (is_delta core) T)) <= 1); [|lia].
      etransitivity; [|exact (HD i ND)]. unfold idx_times. rewrite (proj1 (Permutation_count_occ idx_eq_dec _ _) (Permutation_flat_map tensor_indices (filter_split (is_delta core) (filter is_density T))) i), flat_map_app, count_occ_app, !filter_filter.
      replace (filter (fun x => is_density x && is_delta core x) T) with (filter (is_delta core) T); [lia|]. apply filter_ext. intros x.
      destruct (is_delta core x) eqn:E'; [rewrite (is_delta_density core x E'); reflexivity|rewrite andb_false_r; reflexivity].
  - unfold content_indices. rewrite !in_app_iff. intros [H|H]; [left; exact H|right]. apply in_flat_map in H as (x & Hx & H). apply filter_In in Hx as [Hx _]. apply in_flat_map. eauto.
Qed.

Lemma diagonal_perm i xs ys o : Permutation xs ys -> (diagonal_in i xs o <-> diagonal_in i ys o).
Proof. intros P. unfold diagonal_in. split; (intros [H|(x & Hx & H)]; [left; exact H|right; exists x; split; [|exact H]]); [rewrite <- P|rewrite P]; exact Hx. Qed.
Lemma filter_perm {B} (p : B -> bool) l m : Permutation l m -> Permutation (filter p l) (filter p m).
Proof. induction 1; cbn [filter]; [reflexivity|destruct (p x); [constructor|]; assumption|destruct (p x), (p y); try reflexivity; apply perm_swap|etransitivity; eassumption]. Qed.

Definition diagonal_spaces (core : bool) (xs : list tensor) (rho : idx -> idx) (d : idx) : Prop := forall x,
  In x (relation (fst (rho d))) <->
    In x (relation (fst d)) /\ (forall y s, In y xs -> In (d, s) (requests core y) -> In x (relation s)) /\
    (forall y j, In y xs -> is_delta core y = true -> In d (tensor_indices y) -> In j (tensor_indices y) -> In x (relation (fst j))).
Lemma simplify_diagonal_inv core ra ty xs o c t t' :
  make_term ty xs o c = Ok t -> Forall valid_tensor xs -> densities_apart xs o -> diagonals_harmless core xs o -> cumulants_open_active xs -> simplify core ra t = Ok t' ->
  Forall well_shaped xs /\ (forall i, In i (tindices t) <-> In i (content_indices (ttensors t) (tsq t))) /\ (forall i, In i (content_indices (ttensors t) (tsq t)) <-> In i (content_indices (kept core (ttensors t)) (tsq t))) /\
  exists rho, replaced core (ttensors t) (tindices t) rho /\ (forall d, diagonal_in d xs o -> diagonal_spaces core xs rho d) /\
    ((ra = true /\ (exists x, In x (ttensors t) /\ tcls x = TCluster /\ forall i, In i (tensor_indices x) -> lsp (fst (rho i)) = Sa) /\ t' = void_term (ttype t) (tnext t'))
     \/ (ttensors t' = map (rename_tensor rho) (kept core (ttensors t)) /\ tsq t' = rename_op rho (tsq t) /\ tcoeff t' = tcoeff t)).
Proof.
  intros M HV0 HD0 HL0 HA0 H. pose proof (make_term_inv _ _ _ _ _ M) as (_ & CN & _).
  destruct (make_term_fields _ _ _ _ _ M) as (E1 & P1 & _ & E2 & E3 & F4 & F5 & F6 & F7 & F8).
  assert (PT : Permutation (content_indices (ttensors t) (tsq t)) (content_indices xs o)). { rewrite E2. unfold content_indices. apply Permutation_app_head, Permutation_flat_map, P1. }
  assert (HI : forall i, In i (tindices t) <-> In i (content_indices (ttensors t) (tsq t))). { intros i. rewrite F5, PT, idx_times_in, content_times. tauto. }
  assert (HV : Forall valid_tensor (ttensors t)) by (rewrite P1; exact HV0).
  assert (HA : cumulants_open_active (ttensors t)). { intros x i Hx. apply HA0. rewrite <- P1. exact Hx. }
  assert (DD : forall i, In i (map fst (tdiag t)) <-> diagonal_in i xs o).
  { intros i. rewrite in_map_iff. split; [intros ([j n] & Ej & Hj); cbn in Ej; subst j; apply (F8 i n) in Hj; tauto|]. intros D. exists (i, total_times i xs o). split; [reflexivity|]. apply F8. auto. }
  unfold simplify in H.
  set (T := ttensors t) in *. set (I := tindices t) in *. set (D := map fst (tdiag t)) in *.
  assert (TI : forall x i, In x T -> In i (tensor_indices x) -> In i I).
  { intros x i Hx Hi. apply HI. unfold content_indices. apply in_or_app. right. apply in_flat_map. eauto. }
  match type of H with pybind ?a _ = _ => destruct a as [[ys [[rcu next1] rd1]]|] eqn:L1 end; [|discriminate]. cbn [pybind] in H.
  match type of H with pybind ?a _ = _ => destruct a as [[zs [[rde next2] rd2]]|] eqn:L2 end; [|discriminate]. cbn [pybind] in H.
  match type of H with pybind ?a _ = _ => destruct a as [[r next3]|] eqn:L3 end; [|discriminate]. cbn [pybind] in H.
  apply downgrade_loop_events in L1 as (-> & WS & gens & next1' & Q & Gg & Lg). injection Q as -> -> ->.
  apply delta_loop_events in L2 as (-> & ps & next2' & FP & Gf & Q). injection Q as -> -> ->. rewrite filter_as_delta in FP. rewrite filter_as_kept in H.
  set (C := combine (map fst (flat_map (requests core) T)) gens) in *. set (E := flat_map tri_events ps) in *.
  assert (FB : Forall2 (fun x (p : tri) => In x T /\ is_delta core x = true /\ (exists u l, tupper x = [u] /\ tlower x = [l] /\ fst p = high_low u l /\
      downgrade_kronecker u l = Some (match snd p with Some f => fst f | None => fst (snd (fst p)) end) /\
      (snd p <> None -> lsp (fst (fst (fst p))) = Sp /\ lsp (fst (snd (fst p))) = Sh))) (filter (is_delta core) T) ps).
  { assert (HB : forall x, In x (filter (is_delta core) T) -> In x T /\ is_delta core x = true /\ valid_tensor x). { intros x Hx. apply filter_In in Hx as [H1 H2]. rewrite Forall_forall in HV. auto. }
    clear -FP HB. revert FP HB. generalize (filter (is_delta core) T) as B. intros B FP HB. remember (map (as_delta core) B) as mB eqn:EB. revert B EB HB. induction FP as [|y p ys ps HP FP IH]; intros [|x B] EB HB; try discriminate; [constructor|]. cbn [map] in EB. inversion EB; subst. constructor; [|apply IH; [reflexivity|intros z Hz; apply HB; right; exact Hz]].
    destruct (HB x (or_introl eq_refl)) as (H1 & H2 & H3). split; [exact H1|]. split; [exact H2|]. destruct (delta_shape core x H3 H2) as (u & l & Eu & El).
    destruct HP as (u' & l' & rl & ru & P1 & P2 & P3 & P4 & P5). rewrite as_delta_upper, Eu in P1. rewrite as_delta_lower, El in P2. injection P1 as <- _. injection P2 as <- _. eauto 10. }
  set (rc := adds C (diag_init (tdiag t))) in *. set (rdl := adds E (diag_init (tdiag t))) in *.
  assert (GI : forall ev d, In d D -> exists m, dict_get idx_eqb d (adds ev (diag_init (tdiag t))) = Some m).
  { clear. intros ev d Hd. assert (G : exists m, dict_get idx_eqb d (diag_init (tdiag t)) = Some m).
    { unfold D in Hd. clear D. induction (tdiag t) as [|[k n] l IH]; [destruct Hd|]. cbn [diag_init map fst dict_get]. destruct (idx_eqb d k) eqn:Ek; [eauto|]. destruct Hd as [<-|Hd]; [cbn in Ek; rewrite idx_eqb_refl in Ek; discriminate|apply IH, Hd]. }
    revert G. generalize (diag_init (tdiag t)) as rd. induction ev as [|[i w] ev IH]; intros rd G; [exact G|]. cbn [adds fold_left fst snd]. apply IH. destruct G as [m G]. rewrite diag_add_get, G. eauto. }
  assert (PL : forall d z, In d D -> (In z (pool_of rc rdl d) <-> z = d \/ In (d, z) C \/ In (d, z) E)).
  { intros d z Hd. unfold pool_of. destruct (GI C d Hd) as [a Ea]. destruct (GI E d Hd) as [b Eb]. fold rc in Ea. fold rdl in Eb. rewrite Ea, Eb. apply adds_get in Ea as (a0 & Ea & Ha). apply adds_get in Eb as (b0 & Eb & Hb).
    apply diag_init_get in Ea as ->. apply diag_init_get in Eb as ->. rewrite in_app_iff, Ha, Hb. cbn. intuition. }
  apply diagonal_loop_events in L3 as (F & FD & Gd & FS & RC); [|intros d Hd; apply (PL d d Hd); auto].
  assert (RC' : forall k, (exists d f, In (d, f) F /\ In k (pool_of rc rdl d) /\ dict_get idx_eqb k r = Some f) \/ ((forall d, In d D -> ~ In k (pool_of rc rdl d)) /\
    dict_get idx_eqb k r = dict_get idx_eqb k (dict_update idx_eqb (dict_update idx_eqb (map (fun i => (i, i)) I) C) E))).
  { intros k. destruct (RC k) as [Q|[Q1 Q2]]; [left; exact Q|right]. split; [exact Q1|]. rewrite Q2, update_update. apply update_first, update_update. }
  assert (HN : forall i, In i I -> snd i < tnext t (fst i)). { intros i Hi. apply F6. exists i. auto. }
  assert (GA : generates (tnext t) (gens ++ flat_map tri_fresh ps ++ map snd F) next3) by (eapply generates_app; [eassumption|eapply generates_app; eassumption]).
  assert (DT : forall i, diagonal_in i T (tsq t) <-> In i D) by (intros i; rewrite E2, (diagonal_perm i T xs o P1); symmetry; apply DD).
  assert (HD : densities_apart T (tsq t)).
  { intros i Hi. rewrite DT, DD in Hi. etransitivity; [|exact (HD0 i Hi)]. apply Nat.eq_le_incl. unfold idx_times. apply Permutation_count_occ, Permutation_flat_map, filter_perm, P1. }
  assert (HL : forall x u l, In x T -> is_delta core x = true -> tupper x = [u] -> tlower x = [l] -> harmless xs o u l /\ harmless xs o l u).
  { intros x u l Hx Dx. apply HL0; [rewrite <- P1; exact Hx|]. apply not_joins; [exact Dx|]. rewrite Forall_forall in HV. apply HV, Hx. }
  assert (HHd : forall x u l, In x T -> is_delta core x = true -> tupper x = [u] -> tlower x = [l] ->
    ~ In (snd (high_low u l)) D /\ (In (fst (high_low u l)) D -> ~ (lsp (fst (fst (high_low u l))) = Sp /\ lsp (fst (snd (high_low u l))) = Sh))).
  { intros x u l Hx Dx Eu El. destruct (HL x u l Hx Dx Eu El) as [Q1 Q2]. rewrite !DD. apply harmless_high; assumption. }
  assert (HUd : forall i, ~ In i D -> idx_times i (flat_map tensor_indices (filter is_density T)) <= 1) by (intros i Hi; apply HD; rewrite DT; exact Hi).
  assert (HR : replaced core T I (rename r)) by exact (replaced_ok core T I D gens ps F (tnext t) next3 (pool_of rc rdl) _ r TI HN HA Lg GA FB F7 FD FS PL eq_refl RC' HUd HHd).
  split; [rewrite <- P1; exact WS|]. split; [exact HI|]. split.
  { apply kept_diagonal; [|exact HD| |exact HV].
    + intros i Hi Nd. assert (ET : total_times i T (tsq t) = total_times i xs o). { rewrite <- !content_times. unfold idx_times. apply Permutation_count_occ, PT. }
      rewrite ET in *. apply CN; [exact Hi|]. rewrite <- DD, <- DT. exact Nd.
    + intros x u l Hx Dx Eu El ->. destruct (HL x l l Hx Dx Eu El) as [Q _]. assert (Dl : diagonal_in l xs o). { apply DD, DT. right. exists x. rewrite Eu, El. cbn. auto. }
      destruct (Q Dl) as (_ & Q' & _). contradiction. }
  exists (rename r). split; [exact HR|]. split.
  { intros d Dd x. assert (Hd : In d D) by (apply DD, Dd). assert (Id : In d I).
    { apply HI. rewrite PT. destruct Dd as [[Q _]|(y & Hy & Q & _)]; unfold content_indices; apply in_or_app; [left; apply in_or_app; left; exact Q|right; apply in_flat_map; exists y; split; [exact Hy|apply in_or_app; left; exact Q]]. }
    rewrite (diagonal_space core T I D gens ps F (tnext t) next3 (pool_of rc rdl) _ r HN Lg GA FB FD FS PL eq_refl RC' HUd HHd d x Hd Id).
    assert (PX : forall y, In y T <-> In y xs) by (intros y; rewrite P1; tauto). split; (intros (Q1 & Q2 & Q3); split; [exact Q1|]; split; [intros y s Hy; apply Q2, PX, Hy|intros y j Hy; apply Q3, PX, Hy]). }
  destruct (replace_op_indices (ttype t) (tsq t) r) as [o'|] eqn:Eo; [|discriminate]. cbn [pybind] in H. apply replace_op_ok in Eo as [-> _].
  destruct (if ra then any_active_amplitude r _ else Ok false) as [[|]|] eqn:Ea; [| |discriminate]; cbn [pybind] in H.
  - injection H as <-. destruct ra; [|discriminate]. left. split; [reflexivity|]. split; [|reflexivity].
    assert (Q : forall xs, any_active_amplitude r xs = Ok true -> exists x, In x xs /\ tcls x = TCluster /\ forall i, In i (tensor_indices x) -> lsp (fst (rename r i)) = Sa).
    { clear. induction xs as [|x xs IH]; [discriminate|]. cbn [any_active_amplitude]. destruct (tclass_eqb (tcls x) TCluster) eqn:Ex.
      - unfold all_active. destruct (replace r (tensor_indices x)) as [l|] eqn:El; [|discriminate]. cbn [pybind]. apply replace_ok in El as ->. destruct (forallb _ _) eqn:Ef.
        + intros _. exists x. split; [left; reflexivity|]. split; [apply tclass_eqb_eq, Ex|]. intros i Hi. rewrite forallb_forall in Ef. apply space_eqb_eq. apply (Ef (rename r i)). apply in_map, Hi.
        + intros H. destruct (IH H) as (y & Hy & Q). exists y. split; [right; exact Hy|exact Q].
      - intros H. destruct (IH H) as (y & Hy & Q). exists y. split; [right; exact Hy|exact Q]. }
    apply Q in Ea as (x & Hx & Cx & Ax). apply filter_In in Hx as [Hx1 Hx2]. eauto.
  - destruct (replace_tensors_indices _ r) as [ws|] eqn:Et; [|discriminate]. cbn [pybind] in H. destruct (pymap _ (tdiag t)) as [d|]; [|discriminate]. cbn [pybind] in H. injection H as <-. apply replace_tensors_ok in Et as [_ ->].
    right. auto.
Qed.
Lemma simplify_diagonal_value (A : qalg) (S : system) (v : tvaluation A) core ra ty xs o c t t' :
  make_term ty xs o c = Ok t -> Forall valid_tensor xs -> densities_apart xs o -> diagonals_harmless core xs o -> cumulants_open_active xs ->
  physical S v -> (ra = true -> no_active_amplitudes S v) -> simplify core ra t = Ok t' -> term_value S v t' = term_value S v t.
Proof.
  intros M HV HD HL HA P NA H. destruct (simplify_diagonal_inv core ra ty xs o c t t' M HV HD HL HA H) as (_ & HI & HK & rho & HR & _ & W).
  destruct (make_term_fields _ _ _ _ _ M) as (_ & P1 & _). assert (HV' : Forall valid_tensor (ttensors t)) by (rewrite P1; exact HV).
  destruct W as [(Er & (x & Hx & Cx & Ax) & ->)|(W1 & W2 & W3)].
  - transitivity (@q0 A).
    + unfold term_value, void_term. cbn [tcoeff ttensors tsq]. unfold content_value. apply inj_0_mul.
    + symmetry. unfold term_value. apply (replaced_active A S v P core (ttensors t) (tsq t) (tindices t) rho HR HV' HI _ x (NA Er) Hx Cx Ax).
  - unfold term_value. rewrite W1, W2, W3. apply (replaced_value A S v P core (ttensors t) (tsq t) (tindices t) rho HR HV' HI HK).
Qed.

Lemma left_over_ok core xs rho d x : Forall valid_tensor xs -> Forall well_shaped xs -> diagonal_spaces core xs rho d -> (In x (relation (fst (rho d))) <-> left_over xs d x).
Proof.
  intros HV HW HS. rewrite (HS x). rewrite Forall_forall in HV, HW. unfold left_over. split.
  - intros (Q1 & Q2 & Q3). split; [exact Q1|]. intros y Hy Hd Dy. unfold is_density in Dy. destruct (tcls y) eqn:Ec; try discriminate.
    + specialize (HW y Hy Ec). destruct (Nat.eq_dec (length (tupper y)) 1) as [L|L].
      * destruct (HW L) as (u & l & s & Eu & El & Es). assert (Q : (forall j, In j (tensor_indices y) -> In x (relation (fst j))) /\ lsp x <> Sv); [|split; [intros _; apply Q|split; [intros _; apply Q|intros _ N; contradiction]]].
        destruct (is_delta core y) eqn:Dl.
        -- assert (QJ : forall j, In j (tensor_indices y) -> In x (relation (fst j))) by (intros j Hj; apply (Q3 y j); assumption). split; [exact QJ|].
           unfold is_delta, core_delta in Dl. rewrite Ec, Eu, El, Es in Dl. cbn [tclass_eqb orb] in Dl. apply andb_true_iff in Dl as [Dl _]. apply space_eqb_eq in Dl.
           rewrite (cumulant_core u l s x Es Dl); [discriminate|apply QJ; unfold tensor_indices; rewrite Eu; left; reflexivity|apply QJ; unfold tensor_indices; rewrite Eu, El; right; left; reflexivity].
        -- assert (QR : In x (relation s)).
           { apply (Q2 y s Hy). unfold requests. unfold is_delta, core_delta in Dl. unfold tensor_indices in Hd. rewrite Ec, Eu, El, Es in *. cbn [tclass_eqb orb length Nat.eqb] in *. rewrite Dl. cbn in Hd |- *. destruct Hd as [->|[->|[]]]; auto. }
           apply (cumulant_relation u l s x Es) in QR as [[R1 R2] R3]. split; [|exact R3]. intros j Hj. unfold tensor_indices in Hj. rewrite Eu, El in Hj. destruct Hj as [<-|[<-|[]]]; assumption.
      * assert (QR : In x (relation (active_label d))).
        { apply (Q2 y _ Hy). unfold requests. rewrite Ec. apply Nat.eqb_neq in L. rewrite L. apply in_map_iff. exists d. split; [reflexivity|exact Hd]. }
        destruct QR as [<-|[]]. split; [intros N; contradiction|]. split; [discriminate|reflexivity].
    + split; [|split; intros; discriminate]. intros _ j Hj. apply (Q3 y j Hy); try assumption. unfold is_delta. rewrite Ec. reflexivity.
  - intros (Q1 & Q). split; [exact Q1|]. split.
    + intros y s Hy Hr. pose proof (requests_in _ _ _ _ Hr) as Hd. assert (Ec : tcls y = TCumulant) by (unfold requests in Hr; destruct (tcls y); try destruct Hr; reflexivity).
      assert (Dy : is_density y = true) by (unfold is_density; rewrite Ec; reflexivity). destruct (Q y Hy Hd Dy) as (R1 & R2 & R3). specialize (R2 Ec). specialize (R3 Ec). unfold requests in Hr. rewrite Ec in Hr.
      destruct (length (tupper y) =? 1) eqn:L.
      * apply Nat.eqb_eq in L. specialize (R1 L). unfold tensor_indices in R1. destruct (tupper y) as [|u [|? ?]]; try destruct Hr. destruct (tlower y) as [|l [|? ?]]; try destruct Hr. destruct (downgrade_cumulant u l) as [w|] eqn:Ed; [|destruct Hr].
        destruct (_ && core); [destruct Hr|]. assert (E : w = s) by (destruct Hr as [Hr|[Hr|[]]]; injection Hr as _ <-; reflexivity). subst w. apply (cumulant_relation u l s x Ed). split; [split; apply R1; cbn; auto|exact R2].
      * apply Nat.eqb_neq in L. apply in_map_iff in Hr as (j & Ej & Hj). injection Ej as -> <-. left. symmetry. apply label_eq; [exact (relation_beta _ _ Q1)|exact (R3 L)].
    + intros y j Hy Dl Hd Hj. destruct (delta_shape core y (HV y Hy) Dl) as (u & l & Eu & El). apply (Q y Hy Hd (is_delta_density core y Dl)); [rewrite Eu; reflexivity|exact Hj].
Qed.
