(** C86: for which terms functions can be written. *)
From Coq Require Import Ascii String ZArith QArith Qcanon Lia Bool.
From Verif Require Import PyBase SortProofs OrderSpec OrderProofs SpaceModel IndexModel IndexProofs IndicesModel IterProofs IndicesProofs ElemModel MacroModel WickModel TermModel ValueSpec ValueProofs TermSpec SumProofs TermProofs SymmetryModel CombineModel CombineProofs BchModel PermuteModel PermuteProofs OpenProofs RenameProofs
  ElemSpec AmbitModel AmbitSpec AmbitText AmbitPerm AmbitValue AmbitDriver AmbitMain PrintProofs SympyShape ScheduleProofs PropSchedule ContractSpec PropContract LoopSpec LevelSpec ClosureProofs PropLevels PropNested PipelineTerms PipelineLevels SingleProofs PropPipeline.
Local Close Scope Q_scope.
Local Close Scope Qc_scope.
Local Open Scope nat_scope.
Local Notation length := List.length.

(** a value, or KeyError *)
Definition found {X} (r : pyres X) : Prop := (exists x, r = Ok x) \/ r = Raise KeyError.
Lemma pymap_found {X Y} (f : X -> pyres Y) l : (forall x, In x l -> found (f x)) -> ((exists r, pymap f l = Ok r) /\ forall x, In x l -> exists y, f x = Ok y) \/ (pymap f l = Raise KeyError /\ exists x, In x l /\ f x = Raise KeyError).
Proof.
  induction l as [|x l IH]; intros H; [left; split; [exists []; reflexivity|intros ? []]|]. cbn [pymap]. destruct (H x (or_introl eq_refl)) as [[y E]|E]; rewrite E; cbn [pybind]; [|right; split; [reflexivity|exists x; split; [left; reflexivity|exact E]]].
  destruct IH as [[[r Er] A]|[Er (z & Hz & Ez)]]; [intros z Hz; apply H; right; exact Hz| |]; rewrite Er; cbn [pybind].
  - left. split; [eexists; reflexivity|]. intros z [<-|Hz]; [eauto|auto].
  - right. split; [reflexivity|]. exists z. split; [right; exact Hz|exact Ez].
Qed.
Lemma ordering_found name : found (tensor_ordering name).
Proof. unfold tensor_ordering, dict_item. destruct (dict_get _ _ _); [left; eauto|right; reflexivity]. Qed.
Lemma ordering_known name : (exists k, tensor_ordering name = Ok k) <-> In name (map fst ordering_items).
Proof.
  unfold tensor_ordering, dict_item. generalize ordering_items as d. intros d. induction d as [|[k x] d IH]; cbn [dict_get map fst In]; [split; [intros [k Q]; discriminate|intros []]|].
  destruct (text_eqb name k) eqn:E.
  - apply text_eqb_eq in E. subst k. split; [left; reflexivity|eauto].
  - rewrite IH. split; [auto|]. intros [Q|Q]; [|exact Q]. exfalso. subst k. assert (text_eqb name name = true) by (apply text_eqb_eq; reflexivity). congruence.
Qed.
Definition known (name : text) : Prop := In name (map fst ordering_items).
Lemma known_names name : known name <-> (exists k, 1 <= k <= 9 /\ (name = str "H" ++ decimal k \/ name = str "T" ++ decimal k)) \/ (exists k, k <= 9 /\ name = target_name k).
Proof.
  unfold known, ordering_items. rewrite !map_app, !map_map, !in_app_iff, !in_map_iff. cbn [fst]. unfold target_name. split.
  - intros [(k & <- & H)|[(k & <- & H)|(k & <- & H)]]; apply in_seq in H; [left|left|right]; exists k; (split; [lia|auto]).
  - intros [(k & H & [->| ->])|(k & H & ->)]; [left|right; left|right; right]; exists k; (split; [reflexivity|apply in_seq; lia]).
Qed.
Lemma sorted_found s : ((exists l, sorted_names s = Ok l) /\ forall x, In x s -> known x) \/ (sorted_names s = Raise KeyError /\ exists x, In x s /\ ~ known x).
Proof.
  unfold sorted_names. destruct (pymap_found (fun x => pybind (tensor_ordering x) (fun k => Ok (x, k))) s) as [[[r E] A]|[E (x & Hx & Q)]].
  - intros x _. destruct (ordering_found x) as [[k ->]| ->]; [left; eexists; reflexivity|right; reflexivity].
  - left. rewrite E. split; [eexists; reflexivity|]. intros x Hx. destruct (A x Hx) as [y Q]. apply ordering_known. destruct (tensor_ordering x); [eauto|discriminate].
  - right. rewrite E. split; [reflexivity|]. exists x. split; [exact Hx|]. intros K. apply ordering_known in K as [k K]. rewrite K in Q. discriminate.
Qed.
(** as many upper as lower indices on every tensor *)
Definition even_tensors (t : term) : Prop := Forall (fun x => length (tupper x) = length (tlower x)) (ttensors t).
Lemma names_total t : even_tensors t -> exists l, tensor_names t = Ok l.
Proof. intros F. apply pymap_total. intros x Hx. unfold even_tensors in F. rewrite Forall_forall in F. rewrite (F x Hx), Nat.eqb_refl. eauto. Qed.
Lemma code_total block perm terms initiate : Forall printable terms -> exists s, terms_code block perm terms initiate = Ok s.
Proof.
  intros P. unfold terms_code. match goal with |- context [pymap ?f ?l] => destruct (pymap_total f l) as [r Er] end; [|rewrite Er; eexists; reflexivity].
  intros [i t] H. apply AmbitText.enumerate_in in H. cbn [fst snd]. assert (Ht : In t terms) by apply H. unfold term_code. destruct (pr_codable t (proj1 (Forall_forall _ _) P t Ht)) as [n C]. destruct (ambit_total n (str "C") (negb (last_index terms i)) false true t C) as [s Es]. rewrite Es. eexists; reflexivity.
Qed.
Lemma perms_total block row : (forall p ts t, In (p, ts) row -> In t ts -> printable t /\ even_tensors t) -> forall initiate, exists r, perms_code block row initiate = Ok r.
Proof.
  induction row as [|[perm terms] row IH]; intros H initiate; [eexists; reflexivity|]. cbn [perms_code].
  destruct (pymap_total tensor_names terms) as [ns En]; [intros t Ht; apply names_total, (H perm terms t (or_introl eq_refl) Ht)|]. rewrite En. cbn [pybind].
  destruct (code_total block perm terms initiate) as [s Es]; [apply Forall_forall; intros t Ht; apply (H perm terms t (or_introl eq_refl) Ht)|]. rewrite Es. cbn [pybind].
  match goal with |- context [perms_code block row ?i] => destruct (IH (fun p ts t A B => H p ts t (or_intror A) B) i) as [[[o n] f] Er] end. rewrite Er. eexists. reflexivity.
Qed.
Definition row_known (row : inner) : Prop := forall p ts t x, In (p, ts) row -> In t ts -> In x (ttensors t) -> known (tensor_array x).
Lemma block_found row block fn ns : (forall p ts t, In (p, ts) row -> In t ts -> printable t /\ even_tensors t) ->
  ((exists b, save_terms_blocks row block fn ns = Ok b) /\ row_known row) \/ (save_terms_blocks row block fn ns = Raise KeyError /\ exists p ts t x, In (p, ts) row /\ In t ts /\ In x (ttensors t) /\ ~ known (tensor_array x)).
Proof.
  intros H. unfold save_terms_blocks. cbv zeta. match goal with |- context [perms_code ?b row true] => destruct (perms_total b row H true) as [[[out names] flag] E] end. rewrite E. cbn [pybind].
  destruct (sorted_found (text_set names)) as [[[l El] A]|[El (x & Hx & K)]]; rewrite El; cbn [pybind].
  - left. split; [eexists; reflexivity|]. intros p ts t x H1 H2 H3. apply A. apply nodup_In. eapply perms_code_names; eassumption.
  - right. split; [reflexivity|]. apply nodup_In in Hx. destruct (perms_code_names_inv _ _ _ _ _ _ _ E Hx) as (p & ts & t & y & H1 & H2 & H3 & <-). exists p, ts, t, y. auto.
Qed.
Lemma block_target row block fn ns b : save_terms_blocks row block fn ns = Ok b -> b_target b = length block / 2.
Proof.
  unfold save_terms_blocks. destruct (perms_code _ row true) as [[[out names] flag]|]; [|discriminate]. cbn [pybind]. destruct (sorted_names (text_set names)) as [l|]; [|discriminate]. cbn [pybind]. intros [= <-]. reflexivity.
Qed.

(** ** C86 *)
(** Functions are written if all tensors are called H1, ..., H9, T1, ..., T9 and no term has more than nine creators; for any other terms that can be printed KeyError is raised. *)
Definition nameable (t : term) : Prop :=
  target_of t <= 9 /\ forall x, In x (ttensors t) -> exists k, 1 <= k <= 9 /\ (tensor_array x = str "H" ++ decimal k \/ tensor_array x = str "T" ++ decimal k).
Theorem C86_written :
  forall input fn ns add destroy, Forall printable input -> Forall even_tensors input ->
  ((exists r, save_terms_ambit_functions input fn ns add destroy = Ok r) <-> Forall nameable input) /\
  (~ Forall nameable input -> save_terms_ambit_functions input fn ns add destroy = Raise KeyError).
Proof.
  intros input fn ns add destroy P V. enough (G : ((exists r, save_terms_ambit_functions input fn ns add destroy = Ok r) /\ Forall nameable input) \/ (save_terms_ambit_functions input fn ns add destroy = Raise KeyError /\ ~ Forall nameable input)).
  { destruct G as [[(r & E) N]|[E N]]; (split; [split|]); intros H.
    - exact N.
    - exists r. exact E.
    - contradiction.
    - destruct H as [r H]. rewrite E in H. discriminate H.
    - contradiction.
    - exact E. }
  destruct (categorize_ok input) as (cat & E & _); [intros t t' H H' _; apply (printable_types input P); assumption|]. destruct (categorize_rows input cat (printable_types input P) E) as (_ & NE & PM & K).
  unfold save_terms_ambit_functions. rewrite E. cbn [pybind].
  assert (RW : forall kv, In kv cat -> forall p ts t, In (p, ts) (snd kv) -> In t ts -> In t input /\ printable t /\ even_tensors t /\ target_of t = length (fst kv) / 2).
  { intros [s row] Hkv p ts t H1 H2. cbn [fst snd] in *. destruct (K s row p ts Hkv H1) as [_ F]. rewrite Forall_forall in F. destruct (F t H2) as [Ht Ke]. rewrite Forall_forall in P, V. split; [exact Ht|]. split; [apply P, Ht|]. split; [apply V, Ht|]. rewrite (key_space t s p Ke). destruct (pr_codable t (P t Ht)) as [n C]. destruct (codable_target n t C) as [-> ->]. reflexivity. }
  assert (IN : forall t, In t input -> exists kv p ts, In kv cat /\ In (p, ts) (snd kv) /\ In t ts).
  { intros t Ht. apply (Permutation_in _ (Permutation_sym PM)) in Ht. apply in_concat in Ht as (l & Hl & Ht). apply in_map_iff in Hl as (kv & <- & Hkv). unfold row_terms in Ht. apply in_concat in Ht as (l & Hl & Ht). apply in_map_iff in Hl as ([p ts] & <- & H). exists kv, p, ts. auto. }
  assert (TN : forall x t, In t input -> In x (ttensors t) -> known (tensor_array x) -> exists k, 1 <= k <= 9 /\ (tensor_array x = str "H" ++ decimal k \/ tensor_array x = str "T" ++ decimal k)).
  { intros x t Ht Hx Q. apply known_names in Q as [Q|(k & _ & Q)]; [exact Q|]. exfalso. rewrite Forall_forall in P. pose proof (pr_targets t (P t Ht)) as F. rewrite Forall_forall in F. exact (F x Hx k Q). }
  destruct (pymap_found (fun kv => save_terms_blocks (snd kv) (fst kv) fn ns) cat) as [[[blocks Eb] A]|[Eb (kv & Hkv & Q)]].
  { intros kv Hkv. destruct (block_found (snd kv) (fst kv) fn ns) as [[B _]|[B _]]; [intros p ts t H1 H2; destruct (RW kv Hkv p ts t H1 H2) as (_ & R1 & R2 & _); auto|left; exact B|right; exact B]. }
  2: { right. rewrite Eb. split; [reflexivity|]. intros F. destruct (block_found (snd kv) (fst kv) fn ns) as [[[b B] _]|[_ (p & ts & t & x & H1 & H2 & H3 & H4)]]; [intros p ts t H1 H2; destruct (RW kv Hkv p ts t H1 H2) as (_ & R1 & R2 & _); auto|congruence|].
    apply H4. rewrite Forall_forall in F. destruct (F t (proj1 (RW kv Hkv p ts t H1 H2))) as [_ N]. apply known_names. left. exact (N x H3). }
  rewrite Eb. cbn [pybind]. apply pymap_forall2 in Eb.
  assert (KT : forall name, In name (text_set (concat (map b_tensors blocks))) -> known name).
  { intros name H. apply nodup_In, in_concat in H as (l & Hl & H). apply in_map_iff in Hl as (b & <- & Hb). destruct (forall2_in_r _ _ _ _ Eb Hb) as (kv & Hkv & B). destruct (block_args_inv _ _ _ _ _ _ B H) as (p & ts & t & x & H1 & H2 & H3 & <-).
    destruct (block_found (snd kv) (fst kv) fn ns) as [[_ R]|[R _]]; [intros p' ts' t' H1' H2'; destruct (RW kv Hkv p' ts' t' H1' H2') as (_ & R1 & R2 & _); auto|exact (R p ts t x H1 H2 H3)|congruence]. }
  assert (TS : forall t x, In t input -> In x (ttensors t) -> known (tensor_array x)).
  { intros t x Ht Hx. destruct (IN t Ht) as (kv & p & ts & Hkv & H1 & H2). destruct (forall2_in_l _ _ _ _ Eb Hkv) as (b & Hb & B). apply KT. apply nodup_In, in_concat. exists (b_tensors b). split; [apply in_map, Hb|]. eapply block_args; eassumption. }
  destruct (sorted_found (text_set (concat (map b_tensors blocks)))) as [[[l El] _]|[_ (x & Hx & Q)]]; [|exfalso; exact (Q (KT x Hx))]. rewrite El. cbn [pybind].
  assert (TG : forall n, In n (nodup Nat.eq_dec (map b_target blocks)) <-> exists t, In t input /\ target_of t = n).
  { intros n. rewrite nodup_In, in_map_iff. split.
    - intros (b & <- & Hb). destruct (forall2_in_r _ _ _ _ Eb Hb) as (kv & Hkv & B). rewrite (block_target _ _ _ _ _ B). destruct kv as [s row]. destruct row as [|[p ts] row0] eqn:ER; [exfalso; exact (NE s [] Hkv eq_refl)|]. destruct (K s ((p, ts) :: row0) p ts Hkv (or_introl eq_refl)) as [N _]. destruct ts as [|t ts]; [exfalso; exact (N eq_refl)|].
      destruct (RW _ Hkv p (t :: ts) t (or_introl eq_refl) (or_introl eq_refl)) as (Ht & _ & _ & Et). exists t. auto.
    - intros (t & Ht & <-). destruct (IN t Ht) as (kv & p & ts & Hkv & H1 & H2). destruct (forall2_in_l _ _ _ _ Eb Hkv) as (b & Hb & B). exists b. split; [|exact Hb]. rewrite (block_target _ _ _ _ _ B). symmetry. apply (RW kv Hkv p ts t H1 H2). }
  assert (K9 : forall n, known (target_name n) <-> n <= 9).
  { intros n. rewrite known_names. split; [|intros H; right; eauto]. intros [(k & _ & [Q|Q])|(k & H & Q)]; [discriminate Q|discriminate Q|]. apply target_name_inj in Q. lia. }
  destruct (pymap_found (fun n => pybind (tensor_ordering (target_name n)) (fun _ => Ok n)) (nodup Nat.eq_dec (map b_target blocks))) as [[[ns' En] A9]|[En (n & Hn & Q)]].
  - intros n _. destruct (ordering_found (target_name n)) as [[k ->]| ->]; [left; eexists; reflexivity|right; reflexivity].
  - left. rewrite En. split; [eexists; reflexivity|]. apply Forall_forall. intros t Ht. split; [|intros x Hx; exact (TN x t Ht Hx (TS t x Ht Hx))]. apply K9. apply ordering_known. destruct (A9 (target_of t)) as [y Y]; [apply TG; eauto|]. destruct (tensor_ordering (target_name (target_of t))); [eauto|discriminate].
  - right. rewrite En. split; [reflexivity|]. intros F. apply TG in Hn as (t & Ht & <-). rewrite Forall_forall in F. destruct (F t Ht) as [L _]. apply K9, ordering_known in L as [k L]. rewrite L in Q. discriminate.
Qed.
Print Assumptions C86_written.

(** ** Series of commutators *)
Lemma printable_even t : printable t -> writables t -> even_tensors t.
Proof. intros _ W. unfold writables in W. unfold even_tensors. eapply Forall_impl; [|exact W]. intros x (Q & _). symmetry. exact Q. Qed.
Lemma writable_named t : writables t -> forall x, In x (ttensors t) -> exists k, 1 <= k <= 9 /\ (tensor_array x = str "H" ++ decimal k \/ tensor_array x = str "T" ++ decimal k).
Proof.
  intros W x Hx. unfold writables in W. rewrite Forall_forall in W. destruct (W x Hx) as (Q1 & Q2 & Q3). exists (length (tupper x)). split; [exact Q2|]. unfold tensor_array, array_name. rewrite Q1, Nat.eqb_refl. destruct Q3 as [-> | ->]; auto.
Qed.
(** With single_reference = True no cumulants are left, so the functions for every level of the series are written unless a term has ten or more creators; level i has terms with up to i m + 2 creators for amplitudes up to T_m. *)
Theorem C86_series_written :
  forall ws nested_level cluster_levels max_cu n_opens for_commutator unitary n_process hermitian outs,
  (forall i a b, sound (fst (ws i a b)) /\ sound (snd (ws i a b))) -> (forall k, In k cluster_levels -> 1 <= k <= 9) ->
  (4 * Z.of_nat (fact nested_level) * Z.of_nat (fact (list_max cluster_levels)) ^ (2 * Z.of_nat nested_level) <= 10 ^ 9)%Z ->
  bch_cc_rsc ws nested_level cluster_levels max_cu n_opens for_commutator true true unitary n_process hermitian = Ok outs ->
  forall i fn ns add destroy,
  ((exists r, save_terms_ambit_functions (nth i outs []) fn ns add destroy = Ok r) <-> Forall (fun t => target_of t <= 9) (nth i outs [])) /\
  (~ Forall (fun t => target_of t <= 9) (nth i outs []) -> save_terms_ambit_functions (nth i outs []) fn ns add destroy = Raise KeyError) /\
  (i * list_max cluster_levels + 2 <= 9 -> exists r, save_terms_ambit_functions (nth i outs []) fn ns add destroy = Ok r).
Proof.
  intros ws n cl cu os fc un np h outs WS HL BD H i fn ns add destroy. pose proof (C85_series_printable ws n cl cu os fc true un np h outs WS BD H i) as P. pose proof (bch_single ws n cl cu os fc un np h outs WS HL BD H i) as W.
  assert (EV : Forall even_tensors (nth i outs [])) by (rewrite Forall_forall in *; intros t Ht; apply printable_even; [auto|apply (W t Ht)]).
  assert (Q : Forall nameable (nth i outs []) <-> Forall (fun t => target_of t <= 9) (nth i outs [])).
  { rewrite !Forall_forall. rewrite Forall_forall in W. split; intros F t Ht; [apply (F t Ht)|]. split; [exact (F t Ht)|]. apply writable_named, (W t Ht). }
  destruct (C86_written (nth i outs []) fn ns add destroy P EV) as [C1 C2]. rewrite Q in C1, C2. split; [exact C1|]. split; [exact C2|]. intros L. apply C1. eapply Forall_impl; [|exact W]. intros t [_ T]. unfold target_of. lia.
Qed.
Print Assumptions C86_series_written.
Theorem C86_nested_written :
  forall ws order n levels max_cu max_n_open min_n_open for_commutator unitary n_process hermitian out,
  (forall k, sound (ws k)) -> (forall p, Permutation (order p) p) -> 1 <= n -> (forall k, In k levels -> 1 <= k <= 9) ->
  (4 * Z.of_nat (fact n) * Z.of_nat (fact (list_max levels)) ^ (2 * Z.of_nat n) <= 10 ^ 9)%Z ->
  nested_commutator_cc ws order n levels max_cu max_n_open min_n_open for_commutator true true unitary n_process hermitian = Ok out ->
  forall fn ns add destroy,
  ((exists r, save_terms_ambit_functions out fn ns add destroy = Ok r) <-> Forall (fun t => target_of t <= 9) out) /\
  (~ Forall (fun t => target_of t <= 9) out -> save_terms_ambit_functions out fn ns add destroy = Raise KeyError).
Proof.
  intros ws order n levels mc mx mn fc un np h out SW PO Hn HL BD H fn ns add destroy. assert (NZ : ~ In 0 levels) by (intros Q; specialize (HL 0 Q); lia).
  pose proof (C85_nested_printable ws order n levels mc mx mn fc true un np h out SW PO Hn NZ BD H) as P. pose proof (nested_single ws order n levels mc mx mn fc un np h out SW PO Hn HL BD H) as W.
  assert (EV : Forall even_tensors out) by (rewrite Forall_forall in *; intros t Ht; apply printable_even; auto).
  assert (Q : Forall nameable out <-> Forall (fun t => target_of t <= 9) out).
  { rewrite !Forall_forall. rewrite Forall_forall in W. split; intros F t Ht; [apply (F t Ht)|]. split; [exact (F t Ht)|]. apply writable_named, (W t Ht). }
  destruct (C86_written out fn ns add destroy P EV) as [C1 C2]. rewrite Q in C1, C2. auto.
Qed.
Print Assumptions C86_nested_written.

(** With the default single_reference = False the terms have cumulants, and no functions can be written. *)
Theorem C86_multireference_refuted :
  exists out, nested_commutator_cc (fun _ => ex_serial) (fun p => p) 1 [1] 3 6 0 true true false true 1 true = Ok out /\
    Forall printable out /\ (exists t x, In t out /\ In x (ttensors t) /\ tensor_array x = str "L1") /\
    forall fn ns add destroy, save_terms_ambit_functions out fn ns add destroy = Raise KeyError.
Proof.
  destruct (nested_commutator_cc (fun _ => ex_serial) (fun p => p) 1 [1] 3 6 0 true true false true 1 true) as [out|] eqn:E; [|vm_compute in E; discriminate].
  assert (P : Forall printable out) by (apply (C85_nested_printable (fun _ => ex_serial) (fun p => p) 1 [1] 3 6 0 true false true 1 true out); [intros _; exact serial_sound|intros p; reflexivity|lia|cbn; lia|vm_compute; discriminate|exact E]).
  assert (L : existsb (fun t => existsb (fun x => text_eqb (tensor_array x) (str "L1")) (ttensors t)) out && forallb (fun t => forallb (fun x => length (tupper x) =? length (tlower x)) (ttensors t)) out = true).
  { vm_compute in E. injection E as <-. vm_compute. reflexivity. }
  exists out. split; [reflexivity|]. split; [exact P|]. clear E. apply andb_true_iff in L as [L V]. apply existsb_exists in L as (t & Ht & L). apply existsb_exists in L as (x & Hx & L). apply text_eqb_eq in L. split; [eauto|].
  assert (EV : Forall even_tensors out). { apply Forall_forall. intros t' Ht'. unfold even_tensors. apply Forall_forall. intros x' Hx'. apply Nat.eqb_eq. rewrite forallb_forall in V. specialize (V t' Ht'). rewrite forallb_forall in V. auto. }
  intros fn ns add destroy. apply (C86_written out fn ns add destroy P EV). intros F. rewrite Forall_forall in F. destruct (F t Ht) as [_ N]. destruct (N x Hx) as (k & _ & [Q|Q]); rewrite L in Q; discriminate Q.
Qed.
Print Assumptions C86_multireference_refuted.

(** one commutator is written; a tensor with another name is not *)
Definition ex_named (name : string) : pyres term :=
  make_term SpinOrbital [Ten THamiltonian SpinOrbital name 0 [(Lab false Sg, 0)] [(Lab false Sg, 1)]] (Op [(Lab false Sg, 1)] [(Lab false Sg, 0)]) (Q2Qc 1).
Example C86_example :
  (exists outs r, bch_cc_rsc (fun _ _ _ => (ex_serial, ex_serial)) 1 [1] (inl 2%Z) (inl (0, 6)%Z) true true true true 1 true = Ok outs /\
    sound ex_serial /\ length (nth 1 outs []) = 106 /\ save_terms_ambit_functions (nth 1 outs []) (str "f") (str "ns") false false = Ok r) /\
  (exists t r, ex_named "H" = Ok t /\ save_terms_ambit_functions [t] (str "f") (str "ns") false false = Ok r) /\
  (exists t, ex_named "F" = Ok t /\ save_terms_ambit_functions [t] (str "f") (str "ns") false false = Raise KeyError).
Proof.
  split; [|split].
  - eexists. eexists. split; [vm_compute; reflexivity|]. split; [exact serial_sound|]. split; vm_compute; reflexivity.
  - eexists. eexists. split; [vm_compute; reflexivity|vm_compute; reflexivity].
  - eexists. split; [vm_compute; reflexivity|vm_compute; reflexivity].
Qed.
