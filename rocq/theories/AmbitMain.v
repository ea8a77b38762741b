(** The driver function: targets set to zero, one call per block, Hermitian conjugates. *)
From Coq Require Import Ascii String ZArith QArith Qcanon Lia Ring_theory Ring.
From Verif Require Import PyBase SortProofs OrderSpec OrderProofs ParitySpec ParityProofs SpaceModel IndexModel IndexProofs IndicesModel IterProofs IndicesProofs ElemModel CombineProofs MacroModel TermModel ValueSpec ValueProofs TermSpec SumProofs TermProofs CanonProofs SymmetryModel CombineModel TextProofs PermuteModel PermuteSpec PermuteProofs OpenProofs RenameProofs AmbitModel AmbitSpec AmbitText AmbitPerm AmbitValue AmbitDriver.
Local Close Scope Q_scope.
Local Close Scope Qc_scope.
Local Open Scope nat_scope.
Local Notation length := List.length.

(** ** Arguments of the block functions *)
Lemma forall2_in_l {X Y} (R : X -> Y -> Prop) l m x : Forall2 R l m -> In x l -> exists y, In y m /\ R x y.
Proof. induction 1 as [|a b l m H F IH]; intros []; [subst; exists b; split; [left; reflexivity|exact H]|]. destruct (IH H0) as (y & Hy & Ry). exists y. split; [right; exact Hy|exact Ry]. Qed.
Lemma forall2_in_r {X Y} (R : X -> Y -> Prop) l m y : Forall2 R l m -> In y m -> exists x, In x l /\ R x y.
Proof. induction 1 as [|a b l m H F IH]; intros []; [subst; exists a; split; [left; reflexivity|exact H]|]. destruct (IH H0) as (x & Hx & Rx). exists x. split; [right; exact Hx|exact Rx]. Qed.
Lemma sorted_names_perm s l : sorted_names s = Ok l -> Permutation l s.
Proof.
  unfold sorted_names. destruct (pymap _ s) as [ks|] eqn:E; [|discriminate]. cbn [pybind]. intros [= <-]. apply pymap_forall2 in E. rewrite (Permutation_map fst (sort_by_perm _ ks)).
  replace (map fst ks) with s; [reflexivity|]. induction E as [|x y l m H F IH]; [reflexivity|]. cbn [map]. rewrite <- IH. destruct (tensor_ordering x); [|discriminate]. injection H as <-. reflexivity.
Qed.
Lemma tensor_names_array t names x : tensor_names t = Ok names -> In x (ttensors t) -> In (tensor_array x) names.
Proof.
  intros E Hx. apply pymap_forall2 in E. destruct (forall2_in_l _ _ _ _ E Hx) as (y & Hy & R). destruct (Nat.eqb_spec (length (tupper x)) (length (tlower x))) as [L|]; [|discriminate]. injection R as <-.
  unfold tensor_array, array_name. rewrite L, Nat.eqb_refl. exact Hy.
Qed.
Lemma perms_code_names block row : forall initiate out names flag, perms_code block row initiate = Ok (out, names, flag) ->
  forall p ts t x, In (p, ts) row -> In t ts -> In x (ttensors t) -> In (tensor_array x) names.
Proof.
  induction row as [|[perm terms] row IH]; intros initiate out names flag E p ts t x H1 H2 H3; [destruct H1|]. cbn [perms_code] in E.
  destruct (pymap tensor_names terms) as [ns|] eqn:En; [|discriminate]. cbn [pybind] in E. destruct (terms_code _ _ _ _); [|discriminate]. cbn [pybind] in E. destruct (perms_code block row _) as [[[o' n'] f']|] eqn:Er; [|discriminate]. cbn [pybind] in E. injection E as <- <- <-.
  apply in_or_app. destruct H1 as [[= -> ->]|H1]; [left|right; eapply IH; eassumption]. apply pymap_forall2 in En. destruct (forall2_in_l _ _ _ _ En H2) as (y & Hy & R). apply in_concat. exists y. split; [exact Hy|]. eapply tensor_names_array; eassumption.
Qed.
Lemma block_args row block fn ns b : save_terms_blocks row block fn ns = Ok b -> forall p ts t x, In (p, ts) row -> In t ts -> In x (ttensors t) -> In (tensor_array x) (b_tensors b).
Proof.
  unfold save_terms_blocks. destruct (perms_code _ row true) as [[[out names] flag]|] eqn:E; [|discriminate]. cbn [pybind]. destruct (sorted_names (text_set names)) as [l|] eqn:El; [|discriminate]. cbn [pybind]. intros [= <-] p ts t x H1 H2 H3. cbn [b_tensors].
  apply (Permutation_in _ (Permutation_sym (sorted_names_perm _ _ El))). apply nodup_In. eapply perms_code_names; eassumption.
Qed.
Lemma perms_code_names_inv block row : forall initiate out names flag name, perms_code block row initiate = Ok (out, names, flag) -> In name names ->
  exists p ts t x, In (p, ts) row /\ In t ts /\ In x (ttensors t) /\ tensor_array x = name.
Proof.
  induction row as [|[perm terms] row IH]; intros initiate out names flag name E H; [injection E as <- <- <-; destruct H|]. cbn [perms_code] in E.
  destruct (pymap tensor_names terms) as [ns|] eqn:En; [|discriminate]. cbn [pybind] in E. destruct (terms_code _ _ _ _); [|discriminate]. cbn [pybind] in E. destruct (perms_code block row _) as [[[o' n'] f']|] eqn:Er; [|discriminate]. cbn [pybind] in E. injection E as <- <- <-.
  apply in_app_or in H. destruct H as [H|H].
  - apply in_concat in H. destruct H as (l & Hl & H). apply pymap_forall2 in En. destruct (forall2_in_r _ _ _ _ En Hl) as (t & Ht & R). apply pymap_forall2 in R. destruct (forall2_in_r _ _ _ _ R H) as (x & Hx & Q).
    exists perm, terms, t, x. split; [left; reflexivity|]. split; [exact Ht|]. split; [exact Hx|]. destruct (Nat.eqb_spec (length (tupper x)) (length (tlower x))) as [L|]; [|discriminate]. injection Q as <-. unfold tensor_array, array_name. rewrite L, Nat.eqb_refl. reflexivity.
  - destruct (IH _ _ _ _ _ Er H) as (p & ts & t & x & H1 & H2). exists p, ts, t, x. split; [right; exact H1|exact H2].
Qed.
Lemma block_args_inv row block fn ns b name : save_terms_blocks row block fn ns = Ok b -> In name (b_tensors b) -> exists p ts t x, In (p, ts) row /\ In t ts /\ In x (ttensors t) /\ tensor_array x = name.
Proof.
  unfold save_terms_blocks. destruct (perms_code _ row true) as [[[out names] flag]|] eqn:E; [|discriminate]. cbn [pybind]. destruct (sorted_names (text_set names)) as [l|] eqn:El; [|discriminate]. cbn [pybind]. intros [= <-] H. cbn [b_tensors] in H.
  apply (Permutation_in _ (sorted_names_perm _ _ El)) in H. apply nodup_In in H. eapply perms_code_names_inv; eassumption.
Qed.
(** names in the generated functions begin with H, T or C *)
Lemma ordering_temp : tensor_ordering temp_name = Raise KeyError.
Proof. reflexivity. Qed.
Lemma sorted_names_temp s l : sorted_names s = Ok l -> ~ In temp_name s.
Proof.
  unfold sorted_names. destruct (pymap _ s) as [ks|] eqn:E; [|discriminate]. intros _ H. apply pymap_forall2 in E. destruct (forall2_in_l _ _ _ _ E H) as (y & _ & R). rewrite ordering_temp in R. discriminate.
Qed.
Lemma block_args_temp row block fn ns b : save_terms_blocks row block fn ns = Ok b -> ~ In temp_name (b_tensors b).
Proof.
  unfold save_terms_blocks. destruct (perms_code _ row true) as [[[out names] flag]|] eqn:E; [|discriminate]. cbn [pybind]. destruct (sorted_names (text_set names)) as [l|] eqn:El; [|discriminate]. cbn [pybind]. intros [= <-] H. cbn [b_tensors] in H.
  apply (sorted_names_temp _ _ El). apply (Permutation_in _ (sorted_names_perm _ _ El)). exact H.
Qed.

(** ** Names of the block functions *)
Lemma label_char_not0 l : label_char l <> "0"%char.
Proof. destruct l as [[] []]; vm_compute; discriminate. Qed.
Lemma zero_name_inj l m : zero_name (map label_char l) = zero_name (map label_char m) -> map label_char l = map label_char m.
Proof.
  destruct l as [|a l], m as [|b m]; cbn [map zero_name]; intros E; try reflexivity; try exact E; exfalso; cbn in E; injection E as E _; [symmetry in E|]; exact (label_char_not0 _ E).
Qed.
Definition target_of (t : term) : nat := length (ann (tsq t)).
Lemma space_str_labels t : space_str t = map label_char (map fst (ann (tsq t) ++ cre (tsq t))).
Proof. unfold space_str. rewrite map_map. reflexivity. Qed.
Lemma codable_target n t : codable n t -> length (space_str t) / 2 = n /\ target_of t = n.
Proof. intros C. unfold space_str, target_of. rewrite map_length, app_length, (cd_cre_len n t C), (cd_ann_len n t C). split; [|reflexivity]. replace (n + n) with (n * 2) by lia. apply Nat.div_mul. lia. Qed.
Lemma key_space t s p : key_of t = (s, p) -> s = space_str t.
Proof. unfold key_of. destruct (category_total t) as [q ->]. intros [= <- _]. reflexivity. Qed.

Definition lookup (progs : list (text * list stmt)) (name : text) : option (list stmt) := dict_get text_eqb name progs.
(** what is known of the input *)
Record printable (t : term) : Prop := {
  pr_codable : exists n, codable n t;
  pr_names : Forall name_ok (ttensors t);
  pr_tensors : ttensors t <> [];
  pr_targets : Forall (fun x => forall n, tensor_array x <> target_name n) (ttensors t)
}.
Record plan (input : list term) (fn ns : text) (cat : list (text * inner)) (blocks : list block_result) (progs : list (list stmt)) : Prop := {
  pl_blocks : Forall2 (fun kv b => save_terms_blocks (snd kv) (fst kv) fn ns = Ok b) cat blocks;
  pl_progs : Forall2 (fun kv g => block_program (snd kv) (fst kv) = Ok g) cat progs;
  pl_perm : Permutation (concat (map row_terms cat)) input;
  pl_keys : Forall (fun kv => snd kv <> [] /\ Forall (fun e => snd e <> [] /\ Forall (fun t => In t input /\ key_of t = (fst kv, fst e)) (snd e)) (snd kv)) cat;
  pl_names : NoDup (map b_name blocks)
}.
Lemma target_name_inj m n : target_name m = target_name n -> m = n.
Proof. unfold target_name. intros E. apply app_inv_head in E. apply decimal_inj. exact E. Qed.
Lemma label_char_nl l : label_char l <> nl.
Proof. destruct l as [[] []]; vm_compute; discriminate. Qed.
Lemma blocks_nonl t : nonl (space_str t).
Proof. rewrite space_str_labels. intros H. apply in_map_iff in H. destruct H as (l & E & _). exact (label_char_nl l E). Qed.
(** the texts of the functions *)
Definition function_text (ns fn args : text) (prog : list stmt) (s : text) : Prop :=
  exists body, layout prog body /\ s = str "void " ++ ns ++ str "::" ++ fn ++ str "(" ++ args ++ str ") {" ++ body ++ str "}".
Lemma row_term (input : list term) (kv : text * inner) : snd kv <> [] /\ Forall (fun e => snd e <> [] /\ Forall (fun t => In t input /\ key_of t = (fst kv, fst e)) (snd e)) (snd kv) ->
  exists t, In t input /\ fst kv = space_str t /\ In t (row_terms kv).
Proof.
  intros [N F]. destruct kv as [s row]. cbn [fst snd] in *. destruct row as [|[p ts] row]; [congruence|]. inversion F as [|? ? [Nt Ft] _]; subst. cbn [fst snd] in *. destruct ts as [|t ts]; [congruence|]. inversion Ft as [|? ? [Hi K] _]; subst.
  exists t. split; [exact Hi|]. split; [apply (key_space t s p K)|]. unfold row_terms. cbn [snd map concat]. left. reflexivity.
Qed.
Lemma nodup_map_iff {X Y} (f : X -> Y) l : NoDup l -> (forall x y, In x l -> In y l -> f x = f y -> x = y) -> NoDup (map f l).
Proof.
  induction 1 as [|x l Hx N IH]; intros H; [constructor|]. cbn [map]. constructor; [|apply IH; intros; apply H; try right; assumption]. intros Q. apply in_map_iff in Q. destruct Q as (y & E & Hy). apply Hx. rewrite (H x y); [exact Hy|left; reflexivity|right; exact Hy|congruence].
Qed.
Lemma planned input fn ns add destroy r : Forall printable input -> save_terms_ambit_functions input fn ns add destroy = Ok r ->
  exists cat progs footprint, plan input fn ns cat (d_blocks r) progs /\
    function_text ns fn (str "double factor, " ++ footprint) (driver_stmts (d_blocks r) (sort_by Nat.ltb (nodup Nat.eq_dec (map b_target (d_blocks r)))) add (keeps_h (d_blocks r) destroy)) (d_func r) /\
    Forall2 (fun b g => exists args, function_text ns (b_name b) args g (b_func b)) (d_blocks r) progs.
Proof.
  intros P E. destruct (driver_text _ _ _ _ _ _ E) as (cat & targets & body & footprint & Ecat & Eb & -> & Lb & Ef). rewrite Forall_forall in P.
  assert (TY : forall t t', In t input -> In t' input -> ttype t = ttype t'). { intros t t' H H'. destruct (P t H) as [[n C] _ _ _]. destruct (P t' H') as [[n' C'] _ _ _]. rewrite (codable_type n t C), (codable_type n' t' C'). reflexivity. }
  destruct (categorize_rows input cat TY Ecat) as (N & NE & PM & RW). apply pymap_forall2 in Eb.
  assert (KEYS : Forall (fun kv : text * inner => snd kv <> [] /\ Forall (fun e => snd e <> [] /\ Forall (fun t => In t input /\ key_of t = (fst kv, fst e)) (snd e)) (snd kv)) cat).
  { apply Forall_forall. intros [s row] H. split; [apply (NE s row H)|]. apply Forall_forall. intros [p ts] H'. apply (RW s row p ts H H'). }
  assert (BT : Forall2 (fun kv b => exists prog args, block_program (snd kv) (fst kv) = Ok prog /\ function_text ns (b_name b) args prog (b_func b)) cat (d_blocks r)).
  { rewrite Forall_forall in KEYS. clear - Eb KEYS P. induction Eb as [|kv b l m H F IH]; constructor; [|apply IH; intros x Hx; apply KEYS; right; exact Hx].
    destruct (row_term input kv (KEYS kv (or_introl eq_refl))) as (t & _ & Es & _). destruct (KEYS kv (or_introl eq_refl)) as [_ K].
    destruct (AmbitText.block_text (snd kv) (fst kv) fn ns b) as (prog & body & E1 & E2 & E3); [rewrite Es; apply blocks_nonl| |exact H|].
    - revert K. apply Forall_impl. intros e [_ K]. revert K. apply Forall_impl. intros t' [Ht' _]. apply (P t' Ht').
    - exists prog. eexists. split; [exact E1|]. exists body. split; [exact E2|exact E3]. }
  assert (PG : exists progs, Forall2 (fun kv g => block_program (snd kv) (fst kv) = Ok g) cat progs /\ Forall2 (fun b g => exists args, function_text ns (b_name b) args g (b_func b)) (d_blocks r) progs).
  { clear - BT. induction BT as [|kv b l m (prog & args & E1 & E2) F (progs & I1 & I2)]; [exists []; split; constructor|]. exists (prog :: progs). split; constructor; try assumption. exists args. exact E2. }
  destruct PG as (progs & PG1 & PG2). exists cat, progs, footprint. split; [|split; [|exact PG2]].
  - constructor; try assumption. clear - Eb N KEYS.
    assert (EN : map b_name (d_blocks r) = map (fun s => fn ++ str "_" ++ zero_name s) (map fst cat)).
    { rewrite map_map. induction Eb as [|kv b l m H F IH]; [reflexivity|]. inversion KEYS; subst. cbn [map] in *. inversion N; subst. rewrite IH by assumption. f_equal. apply (block_call _ _ _ _ _ H). }
    rewrite EN. apply nodup_map_iff; [exact N|]. rewrite Forall_forall in KEYS. intros s s' H H' Q. apply app_inv_head in Q. apply app_inv_head in Q. apply in_map_iff in H. destruct H as (kv & <- & H). apply in_map_iff in H'. destruct H' as (kv' & <- & H').
    destruct (row_term input kv (KEYS kv H)) as (t & _ & Et & _). destruct (row_term input kv' (KEYS kv' H')) as (t' & _ & Et' & _). rewrite Et, Et', !space_str_labels in *. apply zero_name_inj, Q.
  - exists body. split; [exact Lb|]. rewrite Ef. rewrite <- !app_assoc. reflexivity.
Qed.

Section Calls.
  Context (A : qalg) (S : system) (v : tvaluation A) (HA : antisymmetric v) (functions : text -> option (list stmt)).
  Add Ring alg_ring17 : (q_ring A).
  Lemma mem_text_spec x l : mem_text x l = true <-> In x l.
  Proof. unfold mem_text. destruct (in_dec (list_eq_dec ascii_dec) x l); split; intros; try discriminate; try contradiction; auto. Qed.
  (** arrays other than the targets are kept *)
  Definition values_of (st : store A) (n : nat) (x : A) : Prop := exists f, st_arrays st (target_name n) = Some f /\ array_operator S v n f = x.
  Lemma call_exec input fn ns (kv : text * inner) b g st f :
    Forall printable input -> save_terms_blocks (snd kv) (fst kv) fn ns = Ok b -> block_program (snd kv) (fst kv) = Ok g -> functions (b_name b) = Some g ->
    snd kv <> [] /\ Forall (fun e => snd e <> [] /\ Forall (fun t => In t input /\ key_of t = (fst kv, fst e)) (snd e)) (snd kv) ->
    (forall t, In t input -> arrays_hold v (ttensors t) (st_arrays st)) -> st_arrays st (target_name (b_target b)) = Some f ->
    exists st' f', exec S functions (call_stmt b) st = Some st' /\ st_declared st' = st_declared st /\ st_temp st' = st_temp st /\
      (forall name, name <> target_name (b_target b) -> st_arrays st' name = st_arrays st name) /\
      st_arrays st' (target_name (b_target b)) = Some f' /\
      array_operator S v (b_target b) f' = (array_operator S v (b_target b) f + asum (map (term_value S v) (row_terms kv)))%alg.
  Proof.
    intros P Eb Eg Ef K H Hf. rewrite Forall_forall in P. cbn [exec call_stmt]. unfold call. rewrite Ef. set (n := b_target b) in *. set (args := b_tensors b ++ [target_name n]).
    set (st0 := Store (fun x => if mem_text x args then st_arrays st x else None) false None).
    assert (TI : mem_text (target_name n) args = true) by (apply mem_text_spec, in_or_app; right; left; reflexivity).
    assert (BN : forall t, In t input -> fst kv = space_str t -> codable n t).
    { intros t Ht Es. destruct (P t Ht) as [[m C] _ _ _]. destruct (codable_target m t C) as [L _]. destruct (block_call _ _ _ _ _ Eb) as (_ & En & _). unfold n. rewrite En, Es, L. exact C. }
    assert (PR : proper_row A v n (fst kv) (st_arrays st0) (snd kv)).
    { destruct K as [_ K]. unfold proper_row. rewrite Forall_forall in *. intros [p ts] He. specialize (K _ He). destruct K as [_ K]. cbn [fst snd] in *. split; [|revert K; apply Forall_impl; tauto].
      rewrite Forall_forall in *. intros t Ht. destruct (K t Ht) as [Hi Hk]. pose proof (block_args _ _ _ _ _ Eb p ts t) as BA. split; [apply BN; [exact Hi|apply (key_space t _ p Hk)]|]. split; [|split].
      - apply Forall_forall. intros x Hx Q. apply (block_args_temp _ _ _ _ _ Eb). rewrite <- Q. apply BA; assumption.
      - destruct (P t Hi) as [_ _ _ T]. revert T. apply Forall_impl. auto.
      - intros x Hx. destruct (H t Hi x Hx) as (h & E & V). exists h. split; [|exact V]. unfold st0. cbn [st_arrays]. rewrite (proj2 (mem_text_spec _ _)); [exact E|]. apply in_or_app. left. apply BA; assumption. }
    assert (F0 : st_arrays st0 (target_name n) = Some f) by (unfold st0; cbn [st_arrays]; rewrite TI; exact Hf).
    destruct (block_exec A S v HA n (fst kv) (snd kv) st0 f PR F0) as (prog & st' & f' & Ep & X & O & F' & V). rewrite Eg in Ep. injection Ep as <-. rewrite X.
    eexists. exists f'. split; [reflexivity|]. cbn [st_declared st_temp st_arrays]. split; [reflexivity|]. split; [reflexivity|]. split; [|split; [rewrite TI; exact F'|exact V]].
    intros name Hn. destruct (mem_text name args) eqn:M; [|reflexivity]. rewrite (O name Hn). unfold st0. cbn [st_arrays]. rewrite M. reflexivity.
  Qed.
  Lemma run_app l m (st : store A) : run S functions (l ++ m) st = match run S functions l st with Some st' => run S functions m st' | None => None end.
  Proof. revert st. induction l as [|s l IH]; intros st; [reflexivity|]. cbn [app run]. destruct (exec S functions s st); [apply IH|reflexivity]. Qed.
  Lemma from_zero n x : (array_operator S v n (fun _ => q0) + x)%alg = x.
  Proof. unfold array_operator. rewrite (asum_map_ext A _ (fun _ => q0)) by (intros; ring). rewrite asum_0. ring. Qed.
  Definition row_part (n : nat) (kv : text * inner) : list term := filter (fun t => target_of t =? n) (row_terms kv).
  Lemma row_part_target input fn ns kv b n : Forall printable input -> save_terms_blocks (snd kv) (fst kv) fn ns = Ok b ->
    snd kv <> [] /\ Forall (fun e => snd e <> [] /\ Forall (fun t => In t input /\ key_of t = (fst kv, fst e)) (snd e)) (snd kv) ->
    row_part n kv = if b_target b =? n then row_terms kv else [].
  Proof.
    intros P Eb [_ K]. rewrite Forall_forall in P. assert (T : forall t, In t (row_terms kv) -> target_of t = b_target b).
    { intros t Ht. unfold row_terms in Ht. apply in_concat in Ht. destruct Ht as (ts & Hts & Ht). apply in_map_iff in Hts. destruct Hts as (e & <- & He). rewrite Forall_forall in K. destruct (K e He) as [_ K']. rewrite Forall_forall in K'. destruct (K' t Ht) as [Hi Hk].
      destruct (P t Hi) as [[m C] _ _ _]. destruct (codable_target m t C) as [L L']. destruct (block_call _ _ _ _ _ Eb) as (_ & En & _). rewrite En, (key_space _ _ _ Hk), L, L'. reflexivity. }
    unfold row_part. clear - T. induction (row_terms kv) as [|t l IH]; [destruct (_ =? n); reflexivity|]. cbn [filter]. rewrite IH by (intros t' Ht'; apply T; right; exact Ht'). rewrite (T t (or_introl eq_refl)). destruct (b_target b =? n); reflexivity.
  Qed.
  Lemma calls_exec input fn ns : Forall printable input -> forall cat blocks progs, Forall2 (fun kv b => save_terms_blocks (snd kv) (fst kv) fn ns = Ok b) cat blocks -> Forall2 (fun kv g => block_program (snd kv) (fst kv) = Ok g) cat progs ->
    Forall (fun kv : text * inner => snd kv <> [] /\ Forall (fun e => snd e <> [] /\ Forall (fun t => In t input /\ key_of t = (fst kv, fst e)) (snd e)) (snd kv)) cat ->
    Forall2 (fun b g => functions (b_name b) = Some g) blocks progs ->
    forall st, (forall t, In t input -> arrays_hold v (ttensors t) (st_arrays st)) -> (forall b, In b blocks -> exists f, st_arrays st (target_name (b_target b)) = Some f) ->
    exists st', run S functions (map call_stmt blocks) st = Some st' /\ st_declared st' = st_declared st /\ st_temp st' = st_temp st /\
      (forall name, (forall b, In b blocks -> name <> target_name (b_target b)) -> st_arrays st' name = st_arrays st name) /\
      forall n f, st_arrays st (target_name n) = Some f -> exists f', st_arrays st' (target_name n) = Some f' /\
        array_operator S v n f' = (array_operator S v n f + asum (map (term_value S v) (concat (map (row_part n) cat))))%alg.
  Proof.
    intros P cat blocks progs Fb. revert progs. induction Fb as [|kv b cat blocks Eb Fb IH]; intros progs Fp K Ff st H HT.
    - inversion Fp; subst. exists st. split; [reflexivity|]. split; [reflexivity|]. split; [reflexivity|]. split; [reflexivity|]. intros n f E. exists f. split; [exact E|]. cbn. ring.
    - inversion Fp as [|? g ? progs' Eg Fp']; subst. inversion K as [|? ? Kk K']; subst. inversion Ff as [|? ? ? ? Ef Ff']; subst.
      destruct (HT b (or_introl eq_refl)) as [f0 Hf0]. destruct (call_exec input fn ns kv b g st f0 P Eb Eg Ef Kk H Hf0) as (st1 & f1 & X1 & D1 & T1 & O1 & F1 & V1).
      destruct (IH progs' Fp' K' Ff' st1) as (st' & X & D & T & O & V).
      + intros t Ht x Hx. rewrite Forall_forall in P. destruct (P t Ht) as [_ _ _ Q]. rewrite Forall_forall in Q. rewrite (O1 _ (Q x Hx _)). apply (H t Ht x Hx).
      + intros b' Hb'. destruct (list_eq_dec ascii_dec (target_name (b_target b')) (target_name (b_target b))) as [->|Q]; [exists f1; exact F1|]. rewrite (O1 _ Q). apply HT. right. exact Hb'.
      + exists st'. cbn [map run]. rewrite X1. split; [exact X|]. split; [congruence|]. split; [congruence|]. split.
        * intros name Hn. rewrite O by (intros b' Hb'; apply Hn; right; exact Hb'). apply O1. apply Hn. left. reflexivity.
        * intros n f E. cbn [map concat]. rewrite map_app, asum_app, (row_part_target input fn ns kv b n P Eb Kk). destruct (Nat.eqb_spec (b_target b) n) as [Q|Q].
          -- rewrite <- Q in *. rewrite Hf0 in E. injection E as <-. destruct (V _ f1 F1) as (f' & E' & V'). exists f'. split; [exact E'|]. rewrite V', V1. ring.
          -- destruct (V n f) as (f' & E' & V'); [rewrite O1; [exact E|intros Q'; apply target_name_inj in Q'; congruence]|]. exists f'. split; [exact E'|]. rewrite V'. cbn. ring.
  Qed.
  Lemma zeros_exec targets : forall st, (forall n, In n targets -> exists f, st_arrays st (target_name n) = Some f) ->
    exists st' : store A, run S functions (map SZero targets) st = Some st' /\ st_declared st' = st_declared st /\ st_temp st' = st_temp st /\
      (forall name, (forall n, In n targets -> name <> target_name n) -> st_arrays st' name = st_arrays st name) /\
      forall n, In n targets -> st_arrays st' (target_name n) = Some (fun _ => q0).
  Proof.
    assert (G : forall st done, (forall n, In n targets -> exists f, st_arrays st (target_name n) = Some f) -> (forall n, In n done -> st_arrays st (target_name n) = Some (fun _ => q0)) ->
      exists st' : store A, run S functions (map SZero targets) st = Some st' /\ st_declared st' = st_declared st /\ st_temp st' = st_temp st /\
      (forall name, (forall n, In n targets -> name <> target_name n) -> st_arrays st' name = st_arrays st name) /\
      forall n, In n targets \/ In n done -> st_arrays st' (target_name n) = Some (fun _ => q0)).
    { induction targets as [|m targets IH]; intros st done H D; [exists st; repeat (split; [reflexivity|]); intros n [[]|Hn]; apply D, Hn|].
      destruct (H m (or_introl eq_refl)) as [f Hf]. cbn [map run exec exec_leaf]. rewrite Hf. set (st1 := set_array st (target_name m) (fun _ => q0)).
      assert (U : forall name, name <> target_name m -> st_arrays st1 name = st_arrays st name) by (intros name Q; unfold st1, set_array; cbn [st_arrays]; rewrite text_eqb_ne by exact Q; reflexivity).
      assert (U' : st_arrays st1 (target_name m) = Some (fun _ => q0)) by (unfold st1, set_array; cbn [st_arrays]; rewrite text_eqb_rfl; reflexivity).
      destruct (IH st1 (m :: done)) as (st' & X & D' & T' & O & Z).
      - intros n Hn. destruct (list_eq_dec ascii_dec (target_name n) (target_name m)) as [->|Q]; [eexists; exact U'|]. rewrite (U _ Q). apply H. right. exact Hn.
      - intros n [<-|Hn]; [exact U'|]. destruct (list_eq_dec ascii_dec (target_name n) (target_name m)) as [->|Q]; [exact U'|]. rewrite (U _ Q). apply D, Hn.
      - exists st'. split; [exact X|]. split; [rewrite D'; reflexivity|]. split; [rewrite T'; reflexivity|]. split.
        + intros name Hn. rewrite O by (intros n H'; apply Hn; right; exact H'). apply U, Hn. left. reflexivity.
        + intros n [[<-|Hn]|Hn]; apply Z; [right; left; reflexivity|left; exact Hn|right; right; exact Hn]. }
    intros st H. destruct (G st [] H) as (st' & X & D & T & O & Z); [intros n []|]. exists st'. repeat (split; [assumption|]). intros n Hn. apply Z. left. exact Hn.
  Qed.
End Calls.

(** ** The Hermitian conjugates *)
Definition swap_halves (n : nat) (o : list nat) : list nat := skipn n o ++ firstn n o.
Definition source (n : nat) : text := str "H" ++ decimal n.
Lemma source_not_target n m : source n <> target_name m.
Proof. unfold source, target_name. discriminate. Qed.
Lemma source_not_temp n : source n <> temp_name.
Proof. unfold source, temp_name. discriminate. Qed.
Lemma source_inj m n : source m = source n -> m = n.
Proof. unfold source. intros E. apply app_inv_head in E. apply decimal_inj. exact E. Qed.
Lemma g_chars n : map (fun i => label_char (fst i)) (map g_idx (seq 0 n) ++ map g_idx (seq n n)) = repeat "g"%char (2 * n).
Proof.
  rewrite <- map_app, map_map. replace (seq 0 n ++ seq n n) with (seq 0 (n + n)) by apply seq_app. replace (2 * n) with (n + n) by lia. generalize (n + n) 0. intros k. induction k as [|k IH]; intros a; [reflexivity|]. cbn [seq map repeat]. rewrite IH. reflexivity.
Qed.
Lemma g_chars' n : map (fun i => label_char (fst i)) (map g_idx (seq n n) ++ map g_idx (seq 0 n)) = repeat "g"%char (2 * n).
Proof.
  rewrite <- g_chars, !map_app, !map_map. assert (G : forall a, map (fun x => label_char (fst (g_idx x))) (seq a n) = repeat "g"%char n).
  { clear. induction n as [|n IH]; intros a; [reflexivity|]. cbn [seq map repeat]. rewrite IH. reflexivity. }
  rewrite !G. reflexivity.
Qed.
Lemma zero_first l : In 0 l -> hd 0 (sort_by Nat.ltb l) = 0.
Proof.
  induction l as [|x l IH]; intros H; [destruct H|]. cbn [sort_by fold_right]. fold (sort_by Nat.ltb l). destruct H as [->|H].
  - destruct (sort_by Nat.ltb l) as [|y m]; reflexivity.
  - specialize (IH H). destruct (sort_by Nat.ltb l) as [|y m] eqn:E; [pose proof (sort_by_perm Nat.ltb l) as P; rewrite E in P; apply Permutation_nil in P; subst; destruct H|]. cbn [hd] in IH. subst y. cbn [insert_by]. destruct x; reflexivity.
Qed.
Section Dagger.
  Context (A : qalg) (S : system) (functions : text -> option (list stmt)).
  Add Ring alg_ring18 : (q_ring A).
  (** every orbital is a spin orbital of the space g *)
  Definition all_general : Prop := forall p, p < norb S -> In p (orbitals S (g_idx 0)).
  Lemma einsum_pick L M (g : array A) o : NoDup L -> (forall i, In i M -> In i L) -> In o (assignments S L) -> einsum S L [(M, g)] o = g (map (env L o) M).
  Proof.
    intros N I Ho. unfold einsum. rewrite (sum_over_same A S _ L); [|apply NoDup_nodup|exact N| |].
    - unfold sum_over. rewrite (asum_map_ext A _ (fun a => if list_eq_dec Nat.eq_dec o a then g (map (env L a) M) else q0)).
      + apply (asum_single A (list_eq_dec Nat.eq_dec) o (fun a => g (map (env L a) M))); [apply nodup_iproduct; apply Forall_forall; intros l Hl; apply in_map_iff in Hl; destruct Hl as (i & <- & _); apply NoDup_filter, seq_NoDup|exact Ho].
      + intros a Ha. apply in_assignments_any in Ha. rewrite map_env by (try exact N; apply (Forall2_len _ _ _ Ha)). destruct (list_eq_dec Nat.eq_dec a o) as [Q|Q], (list_eq_dec Nat.eq_dec o a) as [Q'|Q']; try congruence. cbn [map aprod fold_right snd fst]. unfold aprod. cbn [fold_right]. ring.
    - intros i. rewrite nodup_In, in_app_iff. cbn [flat_map fst]. rewrite app_nil_r. split; [intros [H|H]; auto|auto].
    - intros e e' H. rewrite (map_ext_in e e' L) by (intros i Hi; apply H, nodup_In, in_or_app; left; exact Hi). destruct (list_eq_dec _ _ _); [|reflexivity]. cbn [map snd fst]. rewrite (map_ext_in e e' M); [reflexivity|]. intros i Hi. apply H, nodup_In, in_or_app. right. cbn [flat_map fst]. rewrite app_nil_r. exact Hi.
  Qed.
  Lemma halves n o : length o = 2 * n -> let up := map g_idx (seq 0 n) in let lo := map g_idx (seq n n) in
    map (env (up ++ lo) o) (up ++ lo) = o /\ map (env (up ++ lo) o) (lo ++ up) = swap_halves n o.
  Proof.
    intros E up lo. assert (N : NoDup (up ++ lo)).
    { unfold up, lo. rewrite <- map_app, <- seq_app. apply nodup_map_iff; [apply seq_NoDup|]. intros x y _ _ [= Q]. exact Q. }
    assert (EL : length up = n /\ length lo = n) by (unfold up, lo; rewrite !map_length, !seq_length; auto).
    assert (M : map (env (up ++ lo) o) (up ++ lo) = o) by (apply map_env; [exact N|rewrite app_length, E; lia]). split; [exact M|].
    rewrite map_app in M |- *. unfold swap_halves. rewrite <- M at 3 4. rewrite skipn_app, firstn_app, !map_length, (proj1 EL), Nat.sub_diag. cbn [skipn firstn].
    rewrite skipn_all2 by (rewrite map_length; lia). rewrite firstn_all2 by (rewrite map_length; lia). rewrite app_nil_r. reflexivity.
  Qed.
  Lemma general_tuples n o : all_general -> In o (tuples S (2 * n)) -> In o (assignments S (map g_idx (seq 0 n) ++ map g_idx (seq n n))).
  Proof.
    intros G H. apply in_tuples in H. destruct H as [L F]. apply in_assignments_any. rewrite <- map_app, <- seq_app. replace (n + n) with (length o) by lia. clear L n. generalize 0 at 1. revert F. induction o as [|p o IH]; intros F k; [constructor|]. inversion F; subst. cbn [length seq map]. constructor; [|apply IH; assumption]. apply (G p H1).
  Qed.
  Lemma swap_tuples n o : In o (tuples S (2 * n)) -> In (swap_halves n o) (tuples S (2 * n)).
  Proof.
    rewrite !in_tuples. unfold swap_halves. intros [L F]. rewrite app_length, skipn_length, firstn_length. split; [lia|]. rewrite <- (firstn_skipn n o) in F. apply Forall_app in F. apply Forall_app. tauto.
  Qed.
  Definition conjugated (n : nat) (f f' : array A) : Prop := forall o, In o (tuples S (2 * n)) -> f' o = (f o + f (swap_halves n o))%alg.
  Lemma dagger_exec destroy n st f : all_general -> st_arrays st (target_name n) = Some f ->
    (destroy = true -> n <> 0 -> exists h, st_arrays st (source n) = Some h) -> (destroy = false -> n <> 0 -> st_declared st = true) ->
    exists st' f', run S functions (dagger_stmts destroy n) st = Some st' /\ (destroy = false -> st_declared st' = true) /\
      (forall name, name <> target_name n -> (destroy = true -> n <> 0 -> name <> source n) -> st_arrays st' name = st_arrays st name) /\
      st_arrays st' (target_name n) = Some f' /\ conjugated n f f'.
  Proof.
    intros G Ef Hh Hd. unfold dagger_stmts. destruct (Nat.eqb_spec n 0) as [->|NZ].
    - assert (X : forall st1, st_arrays st1 = st_arrays (set_array st (target_name 0) (fun o => (f o + f o)%alg)) ->
        (forall name, name <> target_name 0 -> (destroy = true -> 0 <> 0 -> name <> source 0) -> st_arrays st1 name = st_arrays st name) /\ st_arrays st1 (target_name 0) = Some (fun o => (f o + f o)%alg) /\ conjugated 0 f (fun o => (f o + f o)%alg)).
      { intros st1 ->. unfold set_array. cbn [st_arrays]. split; [intros name Q _; rewrite text_eqb_ne by exact Q; reflexivity|]. split; [rewrite text_eqb_rfl; reflexivity|]. intros o Ho. apply in_tuples in Ho. destruct o; [reflexivity|destruct Ho; discriminate]. }
      destruct destroy; cbn [run exec exec_leaf]; rewrite Ef; eexists; eexists; (split; [reflexivity|]); (split; [try discriminate; reflexivity|]); apply X; reflexivity.
    - set (up := map g_idx (seq 0 n)). set (lo := map g_idx (seq n n)). set (name := if destroy then str "H" ++ decimal n else temp_name).
      assert (G0 : forall o, In o (tuples S (2 * n)) -> in_spaces S (up ++ lo) o = true) by (intros o Ho; unfold in_spaces; destruct (in_dec _ _ _) as [|Q]; [reflexivity|]; exfalso; apply Q; apply general_tuples; assumption).
      assert (N : NoDup (up ++ lo)). { unfold up, lo. rewrite <- map_app, <- seq_app. apply nodup_map_iff; [apply seq_NoDup|]. intros x y _ _ [= Q]. exact Q. }
      assert (E1 : forall (g : array A) o, In o (tuples S (2 * n)) -> einsum S (up ++ lo) [(up ++ lo, g)] o = g o).
      { intros g o Ho. rewrite einsum_pick; [|exact N|auto|apply general_tuples; assumption]. f_equal. exact (proj1 (halves n o (proj1 (proj1 (in_tuples S _ o) Ho)))). }
      assert (E2 : forall (g : array A) o, In o (tuples S (2 * n)) -> einsum S (up ++ lo) [(lo ++ up, g)] o = g (swap_halves n o)).
      { intros g o Ho. rewrite einsum_pick; [|exact N|intros i; rewrite !in_app_iff; tauto|apply general_tuples; assumption]. f_equal. exact (proj2 (halves n o (proj1 (proj1 (in_tuples S _ o) Ho)))). }
      assert (RT : forall st1 a b, st_arrays st1 (target_name n) = Some f -> read st1 (Access (target_name n) a b) = Some f).
      { intros st1 a b Q. unfold read. cbn [a_array]. rewrite text_eqb_ne by apply target_not_temp. exact Q. }
      (* the two last statements *)
      assert (X : forall st1 h, read st1 (Access name up lo) = Some h -> (forall o, In o (tuples S (2 * n)) -> True) -> st_arrays st1 = st_arrays st -> (destroy = false -> st_declared st1 = true) ->
        exists st' f', run S functions [SCopy (Access name up lo) (Access (target_name n) up lo); SAdd (Access (target_name n) up lo) true (Access name lo up)] st1 = Some st' /\ (destroy = false -> st_declared st' = true) /\
        (forall name, name <> target_name n -> (destroy = true -> n <> 0 -> name <> source n) -> st_arrays st' name = st_arrays st name) /\ st_arrays st' (target_name n) = Some f' /\ conjugated n f f').
      { intros st1 h Rh _ SA SD. cbn [run exec exec_leaf]. rewrite Rh, (RT st1) by (rewrite SA; exact Ef). change (a_indices (Access name up lo)) with (up ++ lo). change (a_indices (Access (target_name n) up lo)) with (up ++ lo). change (a_indices (Access name lo up)) with (lo ++ up).
        set (h' := fun o => if in_spaces S (up ++ lo) o then einsum S (up ++ lo) [(up ++ lo, f)] o else h o).
        assert (Hh' : forall o, In o (tuples S (2 * n)) -> h' o = f o) by (intros o Ho; unfold h'; rewrite (G0 o Ho); apply E1, Ho).
        set (st2 := write st1 (Access name up lo) h').
        assert (AT : st_arrays st2 (target_name n) = Some f /\ read st2 (Access name lo up) = Some h' /\ (destroy = false -> st_declared st2 = true) /\ forall m, (destroy = true -> n <> 0 -> m <> source n) -> st_arrays st2 m = st_arrays st m).
        { unfold st2, write, read. cbn [a_array]. destruct (text_eqb name temp_name) eqn:T; cbn [st_arrays st_temp st_declared].
          - rewrite SA. split; [exact Ef|]. split; [|split; [exact SD|reflexivity]]. change (a_indices (Access name up lo)) with (up ++ lo). change (a_indices (Access name lo up)) with (lo ++ up). unfold up, lo. rewrite g_chars, g_chars', text_eqb_rfl. reflexivity.
          - apply Bool.not_true_iff_false in T. rewrite text_eqb_eq in T. assert (D : destroy = true /\ name = source n) by (unfold name in *; destruct destroy; [auto|congruence]). destruct D as [D ->].
            rewrite text_eqb_ne by (intros Q; symmetry in Q; exact (source_not_target _ _ Q)). rewrite text_eqb_rfl, SA. split; [exact Ef|]. split; [reflexivity|]. split; [intros Q; congruence|]. intros m Hm. rewrite text_eqb_ne by (apply Hm; assumption). reflexivity. }
        destruct AT as (AT & RD & SD2 & OT). rewrite (RT st2 up lo AT), RD. eexists. eexists. split; [reflexivity|]. unfold write. cbn [a_array]. rewrite (text_eqb_ne _ _ (target_not_temp n)). cbn [st_declared st_arrays]. split; [exact SD2|]. split.
        - intros m Q1 Q2. rewrite (text_eqb_ne _ _ Q1). apply OT. exact Q2.
        - rewrite text_eqb_rfl. split; [reflexivity|]. intros o Ho. rewrite (E2 h' o Ho), (Hh' _ (swap_tuples n o Ho)). reflexivity. }
      destruct destroy.
      + destruct (Hh eq_refl NZ) as [h Eh]. destruct (X st h) as (st' & f' & R & Q); [|auto|reflexivity|discriminate|]. { unfold read, name. cbn [a_array]. rewrite text_eqb_ne by apply (source_not_temp n). exact Eh. }
        exists st', f'. split; [exact R|exact Q].
      + pose proof (Hd eq_refl NZ) as D. cbn [app run exec exec_leaf]. rewrite D. apply (X _ (fun _ => q0)); [|auto|reflexivity|reflexivity].
        unfold read, name. cbn [a_array]. rewrite text_eqb_rfl. cbn [st_temp]. change (a_indices (Access temp_name up lo)) with (up ++ lo). unfold up, lo. rewrite g_chars, text_eqb_rfl. reflexivity.
  Qed.
  Lemma daggers_exec destroy targets : all_general -> NoDup targets -> forall st : store A, (forall n, In n targets -> exists f, st_arrays st (target_name n) = Some f) ->
    (destroy = true -> forall n, In n targets -> n <> 0 -> exists h, st_arrays st (source n) = Some h) ->
    (destroy = false -> st_declared st = true \/ hd 0 targets = 0) ->
    exists st', run S functions (flat_map (dagger_stmts destroy) targets) st = Some st' /\
      (forall name, (forall n, In n targets -> name <> target_name n /\ (destroy = true -> n <> 0 -> name <> source n)) -> st_arrays st' name = st_arrays st name) /\
      forall n f, In n targets -> st_arrays st (target_name n) = Some f -> exists f', st_arrays st' (target_name n) = Some f' /\ conjugated n f f'.
  Proof.
    intros G. induction 1 as [|n targets Hn N IH]; intros st HT HS HD.
    - exists st. split; [reflexivity|]. split; [reflexivity|]. intros n f [].
    - destruct (HT n (or_introl eq_refl)) as [f0 E0]. destruct (dagger_exec destroy n st f0 G E0) as (st1 & f1 & X1 & D1 & O1 & F1 & C1).
      + intros Q Q'. apply (HS Q n); [left; reflexivity|exact Q'].
      + intros Q Q'. destruct (HD Q) as [H|H]; [exact H|]. cbn [hd] in H. contradiction.
      + assert (U : forall m, In m targets -> m <> n) by (intros m Hm ->; contradiction).
        assert (U1 : forall m, In m targets -> st_arrays st1 (target_name m) = st_arrays st (target_name m)) by (intros m Hm; apply O1; [intros Q; apply target_name_inj in Q; exact (U m Hm Q)|intros _ _ Q; symmetry in Q; exact (source_not_target _ _ Q)]).
        destruct (IH st1) as (st' & X & O & V).
        * intros m Hm. rewrite (U1 m Hm). apply HT. right. exact Hm.
        * intros Q m Hm NZ. rewrite O1; [apply (HS Q m); [right; exact Hm|exact NZ]|apply source_not_target|]. intros _ _ Q'. apply source_inj in Q'. exact (U m Hm Q').
        * intros Q. left. apply D1, Q.
        * exists st'. cbn [flat_map]. rewrite run_app, X1. split; [exact X|]. split.
          -- intros name H. rewrite O by (intros m Hm; apply H; right; exact Hm). apply O1; apply H; left; reflexivity.
          -- intros m f [<-|Hm] Em.
             ++ rewrite E0 in Em. injection Em as <-. exists f1. split; [|exact C1]. rewrite O; [exact F1|]. intros m Hm. split; [intros Q; apply target_name_inj in Q; symmetry in Q; exact (U m Hm Q)|]. intros _ _ Q. symmetry in Q. exact (source_not_target _ _ Q).
             ++ apply V; [exact Hm|]. rewrite (U1 m Hm). exact Em.
  Qed.
End Dagger.
