(** The generated functions together. *)
From Coq Require Import Ascii String ZArith QArith Qcanon Lia Ring_theory Ring.
From Verif Require Import PyBase SortProofs OrderSpec OrderProofs ParitySpec ParityProofs SpaceModel IndexModel IndexProofs IndicesModel IterProofs IndicesProofs ElemModel CombineProofs MacroModel TermModel ValueSpec ValueProofs TermSpec SumProofs TermProofs CanonProofs SymmetryModel CombineModel TextProofs PermuteModel PermuteSpec PermuteProofs OpenProofs RenameProofs AmbitModel AmbitSpec AmbitText AmbitPerm AmbitValue.
Local Close Scope Q_scope.
Local Close Scope Qc_scope.
Local Open Scope nat_scope.
Local Notation length := List.length.

(** ** What categorize_contractions returns *)
Lemma dict_set_keys {K V} (eqb : K -> K -> bool) k (x : V) d y : In y (map fst (dict_set eqb k x d)) -> y = k \/ In y (map fst d).
Proof. induction d as [|[k' x'] d IH]; cbn [dict_set map]; [intros [<-|[]]; auto|]. destruct (eqb k k'); cbn [map In fst]; intros [H|H]; auto. apply IH in H. tauto. Qed.
Lemma dict_set_nodup {V} k (x : V) d : NoDup (map fst d) -> NoDup (map fst (dict_set text_eqb k x d)).
Proof.
  induction d as [|[k' x'] d IH]; intros N; cbn [dict_set map]; [constructor; [intros []|constructor]|]. cbn [map fst] in N. inversion N as [|? ? Hk N']; subst. destruct (text_eqb k k') eqn:E; cbn [map fst].
  - apply text_eqb_eq in E. subst. constructor; assumption.
  - constructor; [|apply IH, N']. intros Q. apply dict_set_keys in Q. destruct Q as [->|Q]; [|contradiction]. rewrite (proj2 (text_eqb_eq k k) eq_refl) in E. discriminate.
Qed.
Lemma dict_set_in {V} k (x : V) d e : In e (dict_set text_eqb k x d) -> e = (k, x) \/ In e d.
Proof. induction d as [|[k' x'] d IH]; cbn [dict_set]; [intros [<-|[]]; auto|]. destruct (text_eqb k k') eqn:E; cbn [In]; [apply text_eqb_eq in E; subst; intros [<-|H]; auto|]. intros [<-|H]; [right; left; reflexivity|]. apply IH in H. tauto. Qed.
Definition tidy (d : list (text * inner)) : Prop := NoDup (map fst d) /\ Forall (fun row => NoDup (map fst (snd row)) /\ snd row <> []) d.
Lemma dict_set_nonempty {K V} (eqb : K -> K -> bool) k (x : V) d : dict_set eqb k x d <> [].
Proof. destruct d as [|[k' x'] d]; cbn [dict_set]; [discriminate|]. destruct (eqb k k'); discriminate. Qed.
Lemma tidy_set k row d : tidy d -> NoDup (map fst row) -> row <> [] -> tidy (dict_set text_eqb k row d).
Proof. intros [N F] R R'. split; [apply dict_set_nodup, N|]. apply Forall_forall. intros e He. apply dict_set_in in He. destruct He as [->|He]; [split; assumption|]. rewrite Forall_forall in F. apply F, He. Qed.
Lemma categorize_tidy terms out : categorize_contractions terms = Ok out -> tidy out.
Proof.
  unfold categorize_contractions. destruct (pymap _ terms) as [events|]; [|discriminate]. cbn [pybind]. set (items := append_all cat_eqb events []). set (d0 := fold_left _ (map fst items) []).
  assert (T0 : tidy d0).
  { unfold d0. assert (G : forall ks d, tidy d -> tidy (fold_left (fun d k => dict_set text_eqb (fst k) [(snd k, [] : list term)] d) ks d)); [|apply G; split; constructor].
    induction ks as [|k ks IH]; intros d Hd; [exact Hd|]. cbn [fold_left]. apply IH, tidy_set; [exact Hd| |discriminate]. constructor; [intros []|constructor]. }
  revert T0. generalize d0. clear d0. induction items as [|kv items IH]; intros d T E; [injection E as <-; exact T|]. cbn [fold_left pybind] in E.
  destruct (sorted_terms (snd kv)) as [s|e] eqn:Es; cbn [pybind] in E; [|exfalso; clear - E; revert E; induction items; [discriminate|exact IHitems]].
  destruct (dict_item text_eqb (fst (fst kv)) d) as [row|e] eqn:Er; cbn [pybind] in E; [|exfalso; clear - E; revert E; induction items; [discriminate|exact IHitems]].
  apply IH in E; [exact E|]. apply tidy_set; [exact T| |apply dict_set_nonempty]. apply dict_set_nodup. unfold dict_item in Er. destruct (dict_get text_eqb (fst (fst kv)) d) as [r|] eqn:G; [|discriminate]. injection Er as <-.
  destruct T as [_ F]. rewrite Forall_forall in F. assert (H : exists k, In (k, r) d). { clear - G. induction d as [|[k x] d IH]; [discriminate|]. cbn [dict_get] in G. destruct (text_eqb _ k); [injection G as <-; exists k; left; reflexivity|]. destruct (IH G) as [k' H]. exists k'. right. exact H. }
  destruct H as [k H]. apply (F _ H).
Qed.
Lemma in_dict_get {V} (d : list (text * V)) k x : NoDup (map fst d) -> In (k, x) d -> dict_get text_eqb k d = Some x.
Proof. intros N H. apply (ElemProofs.dict_get_in text_eqb text_eqb_eq); assumption. Qed.
Definition row_terms (row : text * inner) : list term := concat (map snd (snd row)).
Definition keys_of (out : list (text * inner)) : list (text * text) := flat_map (fun row => map (fun e => (fst row, fst e)) (snd row)) out.
Lemma partition_keys {X K} (dec : forall a b : K, {a = b} + {a <> b}) (key : X -> K) ks : NoDup ks -> forall l, (forall x, In x l -> In (key x) ks) ->
  Permutation (concat (map (fun k => filter (fun x => if dec k (key x) then true else false) l) ks)) l.
Proof.
  induction 1 as [|k ks Hk N IH]; intros l H; cbn [map concat].
  - destruct l as [|x l]; [reflexivity|]. exfalso. apply (H x). left. reflexivity.
  - set (p := fun x => if dec k (key x) then true else false).
    assert (E : concat (map (fun k0 => filter (fun x => if dec k0 (key x) then true else false) l) ks) = concat (map (fun k0 => filter (fun x => if dec k0 (key x) then true else false) (filter (fun x => negb (p x)) l)) ks)).
    { f_equal. apply map_ext_in. intros k0 Hk0. clear - Hk Hk0. induction l as [|x l IHl]; [reflexivity|]. cbn [filter]. unfold p at 1. destruct (dec k (key x)) as [E1|E1]; cbn [negb].
      - destruct (dec k0 (key x)) as [E2|E2]; [exfalso; apply Hk; congruence|exact IHl].
      - cbn [filter]. rewrite IHl. reflexivity. }
    rewrite E, IH; [apply filter_split|]. intros x Hx. apply filter_In in Hx. destruct Hx as [Hx Q]. unfold p in Q. destruct (dec k (key x)) as [E1|E1]; [discriminate|]. destruct (H x Hx) as [Q'|Q']; [congruence|exact Q'].
Qed.
Lemma pair_dec (a b : text * text) : {a = b} + {a <> b}.
Proof. decide equality; apply (list_eq_dec ascii_dec). Qed.
Theorem categorize_rows terms out : (forall t t', In t terms -> In t' terms -> ttype t = ttype t') -> categorize_contractions terms = Ok out ->
  NoDup (map fst out) /\ (forall s row, In (s, row) out -> row <> []) /\ Permutation (concat (map row_terms out)) terms /\
  (forall s row p ts, In (s, row) out -> In (p, ts) row -> ts <> [] /\ Forall (fun t => In t terms /\ key_of t = (s, p)) ts).
Proof.
  intros HT E. pose proof (categorize_tidy _ _ E) as [N F]. destruct (categorize_ok terms) as (out' & E' & B); [intros t t' H H' _; apply HT; assumption|]. rewrite E in E'. injection E' as <-.
  assert (EN : forall s row p ts, In (s, row) out -> In (p, ts) row -> ts = sort_by (plt term_ord) (with_key (s, p) terms) /\ with_key (s, p) terms <> []).
  { intros s row p ts H1 H2. specialize (B s p). unfold bucket in B. pose proof (in_dict_get (V := inner) out s row N H1) as G1. rewrite Forall_forall in F. pose proof (in_dict_get (V := list term) row p ts (proj1 (F _ H1)) H2) as G2. unfold inner in *. rewrite G1 in B. rewrite G2 in B. destruct (with_key (s, p) terms) eqn:W; [discriminate|]. injection B as ->. split; [reflexivity|discriminate]. }
  split; [exact N|]. split; [intros s row H; rewrite Forall_forall in F; apply (F _ H)|]. split.
  - assert (NK : NoDup (keys_of out)).
    { unfold keys_of. clear B EN E. induction out as [|[s row] out IH]; [constructor|]. cbn [flat_map fst snd]. inversion F; subst. cbn [map fst] in N. inversion N; subst. apply NoDup_app_intro; [|apply IH; assumption|].
      - cbn [snd] in H1. destruct H1 as [H1 _]. clear - H1. induction row as [|[p ts] row IH]; [constructor|]. cbn [map fst] in *. inversion H1; subst. constructor; [|apply IH; assumption]. intros Q. apply in_map_iff in Q. destruct Q as ([p' ts'] & [= <-] & Q). apply H2. apply in_map_iff. exists (p', ts'). auto.
      - intros k Q1 Q2. apply in_map_iff in Q1. destruct Q1 as (e & <- & _). apply in_flat_map in Q2. destruct Q2 as ([s' row'] & Hin & Q2). apply in_map_iff in Q2. destruct Q2 as (e' & [= -> _] & _). apply H3. apply in_map_iff. exists (s, row'). auto. }
    assert (P1 : Permutation (concat (map row_terms out)) (concat (map (fun k => filter (fun t => if pair_dec k (key_of t) then true else false) terms) (keys_of out)))).
    { assert (W : forall k, filter (fun t => if pair_dec k (key_of t) then true else false) terms = with_key k terms).
      { intros k. unfold with_key. apply filter_ext. intros t. destruct (pair_dec k (key_of t)) as [Q|Q]; [symmetry; apply cat_eqb_eq; exact Q|]. destruct (cat_eqb k (key_of t)) eqn:X; [apply cat_eqb_eq in X; contradiction|reflexivity]. }
      assert (EN' : forall row, In row out -> forall e, In e (snd row) -> snd e = sort_by (plt term_ord) (with_key (fst row, fst e) terms)) by (intros [s row] H1 [p ts] H2; apply (EN s row p ts H1 H2)).
      clear - EN' W. unfold keys_of. induction out as [|row out IH]; [reflexivity|]. cbn [map concat flat_map]. rewrite map_app, concat_app. apply Permutation_app; [|apply IH; intros r Hr; apply EN'; right; exact Hr].
      specialize (EN' row (or_introl eq_refl)). unfold row_terms. destruct row as [s0 l]. cbn [fst snd] in *. unfold inner in *. clear IH. induction l as [|e l IHl]; [reflexivity|]. cbn [map concat]. apply Permutation_app; [|apply IHl; intros e' He'; apply EN'; right; exact He']. rewrite (EN' e (or_introl eq_refl)), W. apply sort_by_perm. }
    rewrite P1. apply partition_keys; [exact NK|]. intros t Ht. specialize (B (fst (key_of t)) (snd (key_of t))). unfold bucket in B.
    assert (W : with_key (fst (key_of t), snd (key_of t)) terms <> []). { intros Q. assert (X : In t (with_key (fst (key_of t), snd (key_of t)) terms)) by (apply filter_In; split; [exact Ht|apply cat_eqb_eq; destruct (key_of t); reflexivity]). rewrite Q in X. exact X. }
    unfold inner in *. destruct (with_key _ terms) as [|t1 l1]; [congruence|]. destruct (dict_get text_eqb (fst (key_of t)) out) as [row|] eqn:G1; [|discriminate]. destruct (dict_get text_eqb (snd (key_of t)) row) as [ts|] eqn:G2; [|discriminate].
    assert (GI : forall {V} (d : list (text * V)) k x, dict_get text_eqb k d = Some x -> In (k, x) d).
    { clear. intros V d k x. induction d as [|[k' x'] d IH]; [discriminate|]. cbn [dict_get]. destruct (text_eqb k k') eqn:Q; [apply text_eqb_eq in Q; intros [= ->]; left; congruence|intros H; right; apply IH, H]. }
    apply GI in G1. apply GI in G2. unfold keys_of. apply in_flat_map. exists (fst (key_of t), row). split; [exact G1|]. apply in_map_iff. exists (snd (key_of t), ts). split; [destruct (key_of t); reflexivity|exact G2].
  - intros s row p ts H1 H2. destruct (EN s row p ts H1 H2) as [-> W]. pose proof (sort_by_perm (plt term_ord) (with_key (s, p) terms)) as P. split.
    + intros Q. rewrite Q in P. apply Permutation_nil in P. contradiction.
    + apply Forall_forall. intros t Ht. apply (Permutation_in _ P) in Ht. apply filter_In in Ht. destruct Ht as [Ht K]. apply cat_eqb_eq in K. auto.
Qed.

(** ** The function of a block *)
Section Run.
  Context (A : qalg) (S : system) (v : tvaluation A) (HA : antisymmetric v).
  Add Ring alg_ring16 : (q_ring A).
  Definition zero_name (block : text) : text := match block with [] => str "0" | _ => block end.
  Definition proper_row (n : nat) (block : text) (arrays : text -> option (array A)) (row : inner) : Prop :=
    Forall (fun e => Forall (usable A v n arrays) (snd e) /\ Forall (fun t => key_of t = (block, fst e)) (snd e)) row.
  Lemma groups_exec n block row : forall initiate st f, proper_row n block (st_arrays st) row -> st_arrays st (target_name n) = Some f ->
    (declares row = true -> st_declared st = true) -> (initiate = false -> exists g, st_temp st = Some (block, g)) ->
    exists gs st' f', groups_stmts (zero_name block) row initiate = Ok gs /\ exec_leaves S (concat gs) st = Some st' /\
      adds A S v n (asum (map (term_value S v) (concat (map snd row)))) st st' /\ st_arrays st' (target_name n) = Some f'.
  Proof.
    induction row as [|[perm terms] row IH]; intros initiate st f P Ef D T.
    - exists [], st, f. split; [reflexivity|]. split; [reflexivity|]. split; [apply adds_refl|exact Ef].
    - inversion P as [|? ? [U K] P']; subst. cbn [fst snd] in U, K.
      destruct terms as [|t0 terms0] eqn:ET.
      + destruct (IH initiate st f P' Ef) as (gs & st' & f' & Eg & X & AD & F'); [intros Q; apply D; unfold declares; cbn [existsb fst snd]; fold (declares row); rewrite Q; apply Bool.orb_true_r|exact T|].
        exists ([] :: gs), st', f'. split; [|split; [exact X|split; [exact AD|exact F']]]. cbn [groups_stmts]. unfold group_stmts at 1. cbn [enumerate pymap pybind app concat]. destruct perm; rewrite Bool.andb_true_r, Eg; reflexivity.
      + rewrite <- ET in *. assert (NT : terms <> []) by (rewrite ET; discriminate). clear ET t0 terms0.
        destruct (group_exec A S v HA n block perm initiate terms st f U K Ef) as (g & st1 & f1 & Eg & X1 & A1 & F1 & T1 & T1').
        { intros NP. split; [apply D; unfold declares; cbn [existsb fst snd]; destruct perm; [congruence|]; destruct terms; [congruence|reflexivity]|exact T]. }
        destruct (IH (initiate && match perm, terms with [], _ => true | _, [] => true | _, _ => false end) st1 f1) as (gs & st' & f' & Egs & X & AD & F').
        * unfold proper_row in *. revert P'. apply Forall_impl. intros e [He Ke]. split; [|exact Ke]. revert He. apply Forall_impl. intros t. apply (usable_adds A S v n _ _ _ t A1).
        * exact F1.
        * intros Q. rewrite (proj1 A1). apply D. unfold declares. cbn [existsb fst snd]. fold (declares row). rewrite Q. apply Bool.orb_true_r.
        * destruct perm as [|c perm]; [rewrite Bool.andb_true_r; intros Q; rewrite T1' by (left; reflexivity); exact (T Q)|]. intros _. apply T1; [discriminate|exact NT].
        * exists (g :: gs), st', f'. cbn [groups_stmts]. unfold zero_name in *. rewrite Eg. cbn [pybind]. rewrite Egs. cbn [pybind concat map snd]. split; [reflexivity|]. split; [rewrite exec_leaves_app, X1; exact X|]. split; [|exact F'].
          rewrite map_app, asum_app. eapply adds_trans; [exact A1|exact AD].
  Qed.
  (** running the function of a block adds the values of its terms to the target *)
  Theorem block_exec n block row st f : proper_row n block (st_arrays st) row -> st_arrays st (target_name n) = Some f ->
    exists prog st' f', block_program row block = Ok prog /\ exec_leaves S prog st = Some st' /\
      (forall name, name <> target_name n -> st_arrays st' name = st_arrays st name) /\
      st_arrays st' (target_name n) = Some f' /\ array_operator S v n f' = (array_operator S v n f + asum (map (term_value S v) (concat (map snd row))))%alg.
  Proof.
    intros P Ef. unfold block_program. fold (zero_name block). destruct (declares row) eqn:D.
    - destruct (groups_exec n block row true (Store (st_arrays st) true None) f P Ef) as (gs & st' & f' & Eg & X & (_ & O & T) & F'); [reflexivity|discriminate|].
      rewrite Eg. exists ([SDeclare] ++ concat gs), st', f'. split; [reflexivity|]. split; [exact X|]. split; [exact O|]. split; [exact F'|]. destruct (T f Ef) as (f'' & E & V). rewrite F' in E. injection E as <-. exact V.
    - destruct (groups_exec n block row true st f P Ef) as (gs & st' & f' & Eg & X & (_ & O & T) & F'); [congruence|discriminate|].
      rewrite Eg. exists (concat gs), st', f'. split; [reflexivity|]. split; [exact X|]. split; [exact O|]. split; [exact F'|]. destruct (T f Ef) as (f'' & E & V). rewrite F' in E. injection E as <-. exact V.
  Qed.
End Run.
