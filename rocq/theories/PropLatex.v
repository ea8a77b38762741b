(** C77: the LaTeX form of terms. *)
From Coq Require Import Ascii String ZArith QArith Qcanon Ring_theory Ring Lia Bool.
From Verif Require Import PyBase OrderSpec OrderProofs ParitySpec ParityProofs SpaceModel IndexModel IndexProofs IndicesModel IndicesProofs IterProofs ElemModel ElemProofs MacroModel HalfProofs TermModel BchSpec ValueSpec ValueProofs TermSpec SumProofs TermProofs RenameProofs CanonProofs
  CombineModel CombineSpec TextProofs PermuteModel PermuteSpec PermuteProofs OpenProofs AmbitModel AmbitPerm FockSpec ExtensionProofs FockProofs FockValue FockTerms LatexModel LatexSpec LatexProofs PathProofs AmbitDriver BchLoop.
Local Close Scope Q_scope.
Local Close Scope Qc_scope.
Local Open Scope nat_scope.
Local Notation length := List.length.

Section Meaning.
  Context {A : qalg} (B : fermions A) (S : system) (v : tvaluation A) (MB : norb S <= modes B) (AT : antisymmetric_tensors v).
  Local Notation E := (extension B).
  Add Ring alg_ring46 : (q_ring E).
  Lemma with_operator_lift t c o : term_value S (lift B v) (with_operator t c o) = content_value S (lift B v) c (ttensors t) o.
  Proof. reflexivity. Qed.
  Lemma spread_operator tm c R1 R2 : R1 <> [] -> R2 <> [] -> (forall s l, In (s, l) R1 -> reorder_sign (cre (tsq tm)) l s) -> (forall s l, In (s, l) R2 -> reorder_sign (ann (tsq tm)) l s) ->
    tcoeff tm = Qcmult c (Qc_of_Z (Z.of_nat (length R1 * length R2))) ->
    list_operator B v S (map (fun p => let '((s1, l1), (s2, l2)) := p in with_operator tm (Qcmult c (Qc_of_Z (s1 * s2))) (Op l1 l2)) (list_prod R1 R2)) = term_operator B v S tm.
  Proof.
    intros N1 N2 H1 H2 EC. apply oper_injective. rewrite <- (list_lift B S v MB), <- (term_lift B S v MB), map_map. pose proof (lift_antisymmetric B v AT) as HA.
    transitivity (asum (map (fun _ : (Z * list idx) * (Z * list idx) => content_value S (lift B v) c (ttensors tm) (tsq tm)) (list_prod R1 R2))).
    - f_equal. apply map_ext_in. intros [[s1 l1] [s2 l2]] Hp. apply in_prod_iff in Hp as [P1 P2]. rewrite with_operator_lift. symmetry. apply (reordered_value E S (lift B v) HA); [apply H1, P1|apply H2, P2].
    - rewrite asum_const, prod_length. unfold term_value, content_value. rewrite EC, inj_mul. ring.
  Qed.
End Meaning.

Lemma good_side ops tog part : NoDup ops -> good_partition ops tog part -> side ops part.
Proof. intros N [C NE _ _ _]. constructor; assumption. Qed.
Lemma orderings_nonempty part self R : NoDup self -> Permutation (concat part) self -> orderings part self R -> length R <> 0.
Proof. intros N P H. rewrite (orderings_count part self R N P H). pose proof (shuffles_count part self (Permutation_NoDup (Permutation_sym P) N) P) as C. pose proof (lt_O_fact (length self)). intros Q. rewrite Q in C. cbn in C. lia. Qed.

Definition tensor_pieces (l : list tensor) : list text := match l with [] => [[]] | _ => map tensor_text l end.
(** the pieces of the line, separated by spaces *)
Definition latex_pieces (coefficient : Qc) (permutations : list text) (tensors : list tensor) (o : op) (delimiter backslash : bool) : list text :=
  [rational_text coefficient] ++ (if delimiter then [str "&"] else []) ++ permutations ++ tensor_pieces tensors ++
  (match cre o, ann o with [], [] => [] | _, _ => [str "a^{ " ++ join (str " ") (map idx_text (cre o)) ++ str " }_{ " ++ join (str " ") (map idx_text (ann o)) ++ str " }"] end) ++ (if backslash then [str "\\"] else []).
Definition in_dollars (b : bool) (s : text) : text := if b then str "$" ++ s ++ str "$" else s.

Lemma join_cons a l : join [sp] (a :: l) = a ++ match l with [] => [] | _ => sp :: join [sp] l end.
Proof. destruct l; cbn [join]; [rewrite app_nil_r; reflexivity|reflexivity]. Qed.
Definition more (l : list text) : text := match l with [] => [] | _ => sp :: join [sp] l end.
Lemma join_more a l : join [sp] (a :: l) = a ++ more l. Proof. apply join_cons. Qed.
Lemma more_cons a l : more (a :: l) = sp :: a ++ more l. Proof. unfold more at 1. rewrite join_more. reflexivity. Qed.
Lemma more_app l m : more (l ++ m) = more l ++ more m.
Proof. induction l as [|a l IH]; [reflexivity|]. cbn [app]. rewrite !more_cons, IH. cbn [app]. rewrite <- app_assoc. reflexivity. Qed.
Lemma op_text_pieces o : op_text o = str "a^{ " ++ join (str " ") (map idx_text (cre o)) ++ str " }_{ " ++ join (str " ") (map idx_text (ann o)) ++ str " }".
Proof. unfold op_text, pair_text, indices_text. cbn [str list_ascii_of_string app]. rewrite <- !app_assoc. cbn [app]. reflexivity. Qed.

Lemma tensors_more l : more (tensor_pieces l) = sp :: join [sp] (map tensor_text l).
Proof. destruct l; reflexivity. Qed.

(** The line has the coefficient c/n first, where n is the number of orderings, then the permutation symbols with the blocks
    of the creators and of the annihilators, the tensors, and the operator. Read as c/n times the sum over all orderings that keep the
    order inside the blocks, with their signs, it stands for the operator of the term. *)
Theorem C77_permutation_format :
  forall (A : qalg) (B : fermions A) (S : system) (v : tvaluation A) t xs o c tm R1 R2 dollar delimiter backslash,
  norb S <= modes B -> antisymmetric_tensors v -> itype_antisymmetric t = true ->
  make_term t xs o c = Ok tm -> tdiag tm = [] -> NoDup (cre o) -> NoDup (ann o) ->
  orderings (fst (perm_partition_open tm)) (cre o) R1 -> orderings (snd (perm_partition_open tm)) (ann o) R2 ->
  (Z.pos (Qden (this (Qcdiv c (Qc_of_Z (Z.of_nat (length R1 * length R2)))))) <= 1000000000)%Z ->
  exists printed,
    term_latex dollar true delimiter backslash tm = Ok (in_dollars dollar (join (str " ")
      (latex_pieces printed (permutation_text (fst (perm_partition_open tm)) (length R1) ++ permutation_text (snd (perm_partition_open tm)) (length R2)) (ttensors tm) o delimiter backslash))) /\
    list_operator B v S (map (fun p => let '((s1, l1), (s2, l2)) := p in with_operator tm (Qcmult printed (Qc_of_Z (s1 * s2))) (Op l1 l2)) (list_prod R1 R2)) = term_operator B v S tm.
Proof.
  intros A B S v t xs o c tm R1 R2 dollar delimiter backslash MB AT IT M TD N1 N2 O1 O2 DB.
  destruct (make_term_fields _ _ _ _ _ M) as (G1 & _ & _ & G4 & G5 & _).
  destruct (open_partition t xs o c tm M TD N1 N2) as [P1 P2]. pose proof (good_side _ _ _ N1 P1) as S1. pose proof (good_side _ _ _ N2 P2) as S2.
  destruct (perm_partition_open tm) as [pc pa] eqn:EP. cbn [fst snd] in *.
  destruct (side_count t IT _ _ S1) as (nc & _ & Ec & Cc & _ & Lc). destruct (side_count t IT _ _ S2) as (na & _ & Ea & Ca & _ & La).
  pose proof (orderings_count pc (cre o) R1 N1 (si_perm _ _ S1) O1) as K1. pose proof (orderings_count pa (ann o) R2 N2 (si_perm _ _ S2) O2) as K2. rewrite <- Ec in K1. rewrite <- Ea in K2.
  pose proof (orderings_nonempty pc (cre o) R1 N1 (si_perm _ _ S1) O1) as Z1. pose proof (orderings_nonempty pa (ann o) R2 N2 (si_perm _ _ S2) O2) as Z2.
  set (printed := Qcdiv c (Qc_of_Z (Z.of_nat (length R1 * length R2)))) in *. exists printed. split.
  - unfold term_latex. rewrite EP, G1, G4, G5.
    assert (FM : exists perm, op_latex_permute_format t o pc pa = Ok (length R1 * length R2, perm, match cre o, ann o with [], [] => [] | _, _ => op_text o end) /\
              match perm with [] => [] | _ => sp :: perm end = more (permutation_text pc (length R1) ++ permutation_text pa (length R2))).
    { unfold op_latex_permute_format, op_is_empty. rewrite Lc, La. cbn [pybind fst snd]. change (permutation_text pc (length R1)) with (if length R1 =? 1 then [] else [perm_text pc]). change (permutation_text pa (length R2)) with (if length R2 =? 1 then [] else [perm_text pa]). rewrite K1, K2.
      assert (PT : forall p, exists w, perm_text p = "{"%char :: w) by (intros p; eexists; reflexivity). destruct (PT pc) as [wc Wc], (PT pa) as [wa Wa]. rewrite Wc, Wa.
      destruct (cre o) as [|x cr] eqn:Ecr; [destruct (ann o) as [|y an] eqn:Ean|].
      - assert (nc = 1 /\ na = 1) as [-> ->]. { pose proof (product_pos pc). pose proof (product_pos pa). cbn in Cc, Ca. nia. } exists []. split; reflexivity.
      - cbn [length Nat.eqb andb]. eexists. split; [reflexivity|]. destruct (nc =? 1), (na =? 1); cbn [more join app]; rewrite ?app_nil_r, <- ?app_assoc; reflexivity.
      - cbn [length Nat.eqb andb]. eexists. split; [destruct (ann o); reflexivity|]. destruct (nc =? 1), (na =? 1); cbn [more join app]; rewrite ?app_nil_r, <- ?app_assoc; reflexivity. }
    destruct FM as (perm & EF & EM). rewrite EF. cbn [pybind]. fold printed. rewrite latex_coeff_printed, (limit_exact _ DB). f_equal.
    assert (EQ : (if delimiter then rational_text printed ++ str " &" else rational_text printed) ++ match perm with [] => [] | _ => str " " ++ perm end ++ (str " " ++ join [sp] (map tensor_text (ttensors tm))) ++
       (if backslash then match match cre o, ann o with [], [] => [] | _, _ => op_text o end with [] => [] | _ => str " " ++ match cre o, ann o with [], [] => [] | _, _ => op_text o end end ++ str " \\"
        else match match cre o, ann o with [], [] => [] | _, _ => op_text o end with [] => [] | _ => str " " ++ match cre o, ann o with [], [] => [] | _, _ => op_text o end end) =
       join (str " ") (latex_pieces printed (permutation_text pc (length R1) ++ permutation_text pa (length R2)) (ttensors tm) o delimiter backslash)).
    { revert EM. generalize (permutation_text pc (length R1) ++ permutation_text pa (length R2)). intros PP EM. unfold latex_pieces.
      set (OT := match cre o, ann o with [], [] => [] | _, _ => op_text o end).
      set (OP := match cre o, ann o with [], [] => [] | _, _ => [str "a^{ " ++ join (str " ") (map idx_text (cre o)) ++ str " }_{ " ++ join (str " ") (map idx_text (ann o)) ++ str " }"] end).
      assert (EO : more OP = match OT with [] => [] | _ => sp :: OT end).
      { unfold OP, OT. rewrite <- op_text_pieces. destruct (cre o), (ann o); try reflexivity; rewrite more_cons; cbn [more]; rewrite app_nil_r; reflexivity. }
      clearbody OP OT. change (str " ") with [sp]. cbn [app]. rewrite join_more, !more_app, <- EM, EO.
      rewrite tensors_more.
      destruct delimiter, backslash; rewrite <- ?app_assoc; cbn [more join app]; rewrite ?app_nil_r; reflexivity. }
    unfold in_dollars. destruct dollar; rewrite <- EQ; reflexivity.
  - rewrite <- G4 in O1, O2. apply (spread_operator B S v MB AT tm printed R1 R2).
    + intros ->. apply Z1. reflexivity.
    + intros ->. apply Z2. reflexivity.
    + intros s l H. apply (proj2 O1) in H. apply H.
    + intros s l H. apply (proj2 O2) in H. apply H.
    + rewrite G5. unfold printed. rewrite Qcmult_comm. symmetry. apply Qcmult_div_r. apply BchLoop.Qc_of_Z_nonzero. nia.
Qed.
Print Assumptions C77_permutation_format.

(** For every antisymmetric term such lists of orderings exist. *)
Theorem C77_orderings_exist :
  forall t xs o c tm, make_term t xs o c = Ok tm -> tdiag tm = [] -> NoDup (cre o) -> NoDup (ann o) ->
  exists R1 R2, orderings (fst (perm_partition_open tm)) (cre o) R1 /\ orderings (snd (perm_partition_open tm)) (ann o) R2.
Proof.
  intros t xs o c tm M TD N1 N2. destruct (open_partition t xs o c tm M TD N1 N2) as [P1 P2].
  assert (G : forall self part, NoDup self -> Permutation (concat part) self -> exists R, orderings part self R).
  { intros self part N P.
    set (h := fun perm => match pick part (repeat 0 (length part)) perm with Ok l => (match count_permutations self l with Ok n => sgn n | Raise _ => 0%Z end, l) | Raise _ => (0%Z, []) end).
    assert (SG : forall l, Permutation l self -> reorder_sign self l (match count_permutations self l with Ok n => sgn n | Raise _ => 0%Z end)).
    { intros l Q. assert (Nl : NoDup l) by (apply (Permutation_NoDup (Permutation_sym Q)), N). destruct (count_permutations_ok self l N Nl) as [H _]. specialize (H (Permutation_sym Q)). rewrite H. apply count_permutations_sign; assumption. }
    exists (map h (multiset_permutations (list_index part))). split.
    - rewrite map_map. assert (K : forall ps, NoDup ps -> incl ps (multiset_permutations (list_index part)) -> NoDup (map (fun p => snd (h p)) ps)); [|apply K; [apply nodup_multiset_perms|apply incl_refl]].
      induction 1 as [|p ps Np _ IH]; intros I; [constructor|]. cbn [map]. constructor; [|apply IH; intros q Hq; apply I; right; exact Hq]. intros Q. apply in_map_iff in Q as (q & E & Hq). apply Np.
      destruct (pick_shuffle part self N P p (I p (or_introl eq_refl))) as (l1 & E1 & _ & M1). destruct (pick_shuffle part self N P q (I q (or_intror Hq))) as (l2 & E2 & _ & M2). unfold h in E. rewrite E1, E2 in E. cbn [snd] in E. subst l2. congruence.
    - intros s l. rewrite in_map_iff. split.
      + intros (perm & E & Hp). destruct (pick_shuffle part self N P perm Hp) as (l' & El & [Q K] & _). unfold h in E. rewrite El in E. injection E as <- <-. auto.
      + intros (Q & K & R). destruct (shuffle_pick part self N P l (conj Q K)) as (perm & Hp & El). exists perm. split; [|exact Hp]. unfold h. rewrite El. f_equal. apply (reorder_sign_unique self l); [exact N|apply SG, Q|exact R]. }
  destruct (G (cre o) (fst (perm_partition_open tm)) N1 (gp_cover _ _ _ P1)) as [R1 H1]. destruct (G (ann o) (snd (perm_partition_open tm)) N2 (gp_cover _ _ _ P2)) as [R2 H2]. eauto.
Qed.
Print Assumptions C77_orderings_exist.

(** Without permute_format, which is also the text of repr() and what __hash__ uses: terms with ordinary tensor names have the same text exactly if they have
    the same tensors, the same operator, and coefficients that are printed alike; with denominators up to 10^9 these are equal. *)
Theorem C77_text_identifies :
  forall t t', plain t -> plain t' -> (Z.pos (Qden (this (tcoeff t))) <= 1000000000)%Z -> (Z.pos (Qden (this (tcoeff t'))) <= 1000000000)%Z ->
  (term_repr t = term_repr t' <-> labels t = labels t' /\ tcoeff t = tcoeff t').
Proof.
  intros t t' H H' D D'. assert (R : forall t, (Z.pos (Qden (this (tcoeff t))) <= 1000000000)%Z -> term_repr t = Ok (rational_text (tcoeff t) ++ sp :: hash_term t)).
  { intros u L. unfold term_repr, term_latex. cbn [pybind]. replace (Qcdiv (tcoeff u) (Qc_of_Z (Z.of_nat 1))) with (tcoeff u) by (unfold Qcdiv; replace (/ Qc_of_Z (Z.of_nat 1))%Qc with 1%Qc by (apply Qc_is_canon; reflexivity); symmetry; apply Qcmult_1_r). rewrite latex_coeff_printed, (limit_exact _ L). unfold hash_term. cbn [op_text app str list_ascii_of_string]. reflexivity. }
  rewrite (R t D), (R t' D'), <- (hash_labels t t' H H'). split; [|intros [-> ->]; reflexivity]. intros E. injection E as E. apply split_at in E as [E1 E2]; [|apply rational_no_space..]. apply rational_inj in E1. auto.
Qed.
Print Assumptions C77_text_identifies.

(** The line printed for a term; [true] marks a line ended by a row separator. *)
Definition line_of (et : bool * term) : text := match term_latex false true true (fst et) (snd et) with Ok s => s ++ [nl] | Raise _ => [] end.
Definition environment (b : list (bool * term)) : text := str "\begin{align}" ++ [nl] ++ concat (map line_of b) ++ str "\end{align}" ++ [nl; nl].
Definition block_space (t : term) : text := map (fun i => label_char (fst i)) (ann (tsq t) ++ cre (tsq t)).
Lemma latex_total d p del b t : exists s, term_latex d p del b t = Ok s.
Proof.
  unfold term_latex. destruct p; [|cbn [pybind]; eexists; reflexivity]. destruct (category_total t) as [q E]. unfold category in E. destruct (perm_partition_open t) as [pc pa]. destruct (op_latex_permute_format (ttype t) (tsq t) pc pa) as [[[n u] r]|]; [|discriminate]. cbn [pybind]. eexists. reflexivity.
Qed.
Lemma pymap_map {X Y} (f : X -> pyres Y) (g : X -> Y) l : (forall x, In x l -> f x = Ok (g x)) -> pymap f l = Ok (map g l).
Proof. induction l as [|x l IH]; intros H; [reflexivity|]. cbn [pymap map]. rewrite (H x (or_introl eq_refl)). cbn [pybind]. rewrite IH; [reflexivity|]. intros y Hy. apply H. right. exact Hy. Qed.
Definition marks (ts : list term) : list (bool * term) := map (fun it => (negb (last_index ts (fst it)), snd it)) (enumerate 0 ts).
Lemma marks_snd ts : map snd (marks ts) = ts.
Proof. unfold marks. rewrite map_map. cbn [snd]. change (map (fun x : nat * term => snd x) (enumerate 0 ts)) with (map snd (enumerate 0 ts)). apply ElemProofs.enumerate_snd. Qed.
Lemma flat_marks {X} (rows : list X) (f : X -> list (text * list term)) : map snd (concat (concat (map (fun r => map (fun pt => marks (snd pt)) (f r)) rows))) = concat (map (fun r => concat (map snd (f r))) rows).
Proof. induction rows as [|r rows IH]; [reflexivity|]. rewrite !map_cons, !concat_cons, concat_app, map_app, IH. f_equal. rewrite concat_map, map_map. f_equal. apply map_ext. intros pt. apply marks_snd. Qed.
Lemma marks_shape ts : ts <> [] -> exists us u, marks ts = map (fun t => (true, t)) us ++ [(false, u)].
Proof.
  intros N. destruct (exists_last N) as (us & u & ->). exists us, u. unfold marks. rewrite PathProofs.enumerate_split, map_app. cbn [enumerate map Nat.add fst snd]. unfold last_index at 2. rewrite app_length. cbn [length]. replace (length us =? length us + 1 - 1) with true by (symmetry; apply Nat.eqb_eq; lia). f_equal.
  transitivity (map (fun t => (true, t)) (map snd (enumerate 0 us))); [|rewrite ElemProofs.enumerate_snd; reflexivity]. rewrite map_map. apply map_ext_in. intros [i t] H. cbn [fst snd]. f_equal. unfold last_index. rewrite app_length. cbn [length].
  apply ElemProofs.in_enumerate in H as [_ H]. assert (i < length us) by (apply nth_error_Some; rewrite Nat.sub_0_r in H; congruence). replace (i =? length us + 1 - 1) with false by (symmetry; apply Nat.eqb_neq; lia). reflexivity.
Qed.

(** print_terms_latex prints every given term exactly once, as one line of the align environment of its block; the lines of
    different blocks are in different environments, and every line but the last one of a permutation group ends the row. *)
Theorem C77_print_terms :
  forall terms, (forall t t', In t terms -> In t' terms -> ttype t = ttype t') ->
  exists blocks : list (list (list (bool * term))),
    print_terms_latex terms = Ok (concat (map (fun b => environment (concat b)) blocks)) /\
    Permutation (map snd (concat (concat blocks))) terms /\
    (forall b et et', In b blocks -> In et (concat b) -> In et' (concat b) -> block_space (snd et) = block_space (snd et')) /\
    (forall i j b b' et et', nth_error blocks i = Some b -> nth_error blocks j = Some b' -> In et (concat b) -> In et' (concat b') -> block_space (snd et) = block_space (snd et') -> i = j) /\
    (forall b group, In b blocks -> In group b -> exists us u, group = map (fun t => (true, t)) us ++ [(false, u)] /\ forall t, In t us -> category t = category u) /\
    (forall e t, exists s, term_latex false true true e t = Ok s).
Proof.
  intros terms HT. destruct (categorize_ok terms) as (out & E & _); [intros t t' H H' _; apply HT; assumption|]. destruct (categorize_rows terms out HT E) as (N & NE & P & K). unfold inner in *.
  exists (map (fun row => map (fun pt => marks (snd pt)) (snd row)) out).
  assert (KS : forall s row p ts t, In (s, row) out -> In (p, ts) row -> In t ts -> block_space t = s /\ key_of t = (s, p)).
  { intros s row p ts t H1 H2 H3. destruct (K s row p ts H1 H2) as [_ F]. rewrite Forall_forall in F. destruct (F t H3) as [_ Q]. split; [|exact Q]. pose proof (key_of_ok t) as O. rewrite Q in O. unfold category in O. destruct (perm_partition_open t). destruct op_latex_permute_format as [[[n u] r]|]; [|discriminate]. cbn [pybind] in O. injection O as O _. exact O. }
  assert (KB : forall s row et, In (s, row) out -> In et (concat (map (fun pt => marks (snd pt)) row)) -> block_space (snd et) = s).
  { intros s row et H1 H2. apply in_concat in H2 as (g & Hg & H2). apply in_map_iff in Hg as ([p ts] & <- & H3). apply (in_map snd) in H2. cbn [snd] in H2. rewrite marks_snd in H2. exact (proj1 (KS s row p ts _ H1 H3 H2)). }
  split; [|split; [|split; [|split; [|split]]]].
  - unfold print_terms_latex. rewrite E. cbn [pybind]. rewrite map_map.
    assert (G : forall pt : text * list term, pymap (fun it => pybind (term_latex false true true (negb (last_index (snd pt) (fst it))) (snd it)) (fun s => Ok (s ++ [nl]))) (enumerate 0 (snd pt)) = Ok (map line_of (marks (snd pt)))).
    { intros pt. unfold marks. rewrite map_map. apply pymap_map. intros it _. unfold line_of. cbn [fst snd]. destruct (latex_total false true true (negb (last_index (snd pt) (fst it))) (snd it)) as [s Q]. rewrite Q. reflexivity. }
    rewrite (pymap_map _ (fun row => environment (concat (map (fun pt => marks (snd pt)) (snd row))))); [reflexivity|]. intros row _.
    rewrite (pymap_map _ (fun pt => map line_of (marks (snd pt)))) by (intros pt _; apply G). cbn [pybind]. f_equal. unfold environment. rewrite concat_map, map_map. reflexivity.
  - pose proof (flat_marks out snd) as Q. unfold inner in *. rewrite Q. exact P.
  - intros b et et' Hb H H'. apply in_map_iff in Hb as ([s row] & <- & Hr). cbn [snd] in H, H'. rewrite (KB s row et Hr H), (KB s row et' Hr H'). reflexivity.
  - intros i j b b' et et' Hi Hj H H' Q. rewrite nth_error_map in Hi, Hj. destruct (nth_error out i) as [[s row]|] eqn:Oi; [|discriminate]. destruct (nth_error out j) as [[s' row']|] eqn:Oj; [|discriminate]. cbn [option_map snd] in Hi, Hj. injection Hi as <-. injection Hj as <-.
    rewrite (KB s row et (nth_error_In _ _ Oi) H), (KB s' row' et' (nth_error_In _ _ Oj) H') in Q. subst s'. apply (proj1 (NoDup_nth_error (map fst out)) N).
    + rewrite map_length. apply nth_error_Some. congruence.
    + rewrite !nth_error_map, Oi, Oj. reflexivity.
  - intros b group Hb Hg. apply in_map_iff in Hb as ([s row] & <- & Hr). cbn [snd] in Hg. apply in_map_iff in Hg as ([p ts] & <- & Hp). cbn [snd]. destruct (K s row p ts Hr Hp) as [Nt _]. destruct (marks_shape ts Nt) as (us & u & M). exists us, u. split; [exact M|]. intros t Ht. pose proof (marks_snd ts) as MS. rewrite M, map_app, map_map in MS. cbn [map snd] in MS. rewrite map_id in MS.
    rewrite !key_of_ok. destruct (KS s row p ts t Hr Hp) as [_ ->]; [rewrite <- MS; apply in_or_app; left; exact Ht|]. destruct (KS s row p ts u Hr Hp) as [_ ->]; [rewrite <- MS; apply in_or_app; right; left; reflexivity|]. reflexivity.
  - intros e t. apply latex_total.
Qed.
Print Assumptions C77_print_terms.

(** When a block has several permutation groups, not every term has its own row: after the last term of a group comes no
    row separator, although the next term follows in the same environment. *)
Theorem C77_rows_refuted :
  exists t1 t2 l1 l2, ttype t1 = ttype t2 /\ block_space t1 = block_space t2 /\ term_latex false true true false t1 = Ok l1 /\ term_latex false true true false t2 = Ok l2 /\
  print_terms_latex [t1; t2] = Ok (str "\begin{align}" ++ [nl] ++ l2 ++ [nl] ++ l1 ++ [nl] ++ str "\end{align}" ++ [nl; nl]).
Proof.
  set (p (n : nat) := (Lab false Sp, n)). set (h (n : nat) := (Lab false Sh, n)).
  destruct (make_term SpinOrbital [Ten TCluster SpinOrbital "T" 1 [h 0] [p 0]; Ten TCluster SpinOrbital "T" 1 [h 1] [p 1]] (Op [p 0; p 1] [h 0; h 1]) (Q2Qc 1)) as [t1|] eqn:E1; [|vm_compute in E1; discriminate].
  destruct (make_term SpinOrbital [Ten TCluster SpinOrbital "T" 1 [h 0; h 1] [p 0; p 1]] (Op [p 0; p 1] [h 0; h 1]) (Q2Qc 1)) as [t2|] eqn:E2; [|vm_compute in E2; discriminate].
  exists t1, t2. vm_compute in E1, E2. injection E1 as <-. injection E2 as <-. do 2 eexists. do 2 (split; [reflexivity|]). do 2 (split; [vm_compute; reflexivity|]). vm_compute. reflexivity.
Qed.
Print Assumptions C77_rows_refuted.

(** Terms with spin-summed operators have no permutation symbols: both formats are the same. *)
Theorem C77_spin_adapted :
  forall t dollar delimiter backslash, itype_antisymmetric (ttype t) = false -> tsq t <> Op [] [] ->
  term_latex dollar true delimiter backslash t = term_latex dollar false delimiter backslash t.
Proof.
  intros t dollar delimiter backslash IT N. destruct (category_total t) as [q E]. unfold category in E. unfold term_latex. destruct (perm_partition_open t) as [pc pa]. unfold op_latex_permute_format in *. destruct (op_is_empty (tsq t)) eqn:Q.
  - exfalso. apply N. destruct (tsq t) as [[|] [|]]; cbn in Q; try discriminate. reflexivity.
  - unfold latex_permute_format in *. rewrite IT in *. destruct (valid_partition (cre (tsq t)) pc); [|discriminate]. cbn [pybind] in *. destruct (valid_partition (ann (tsq t)) pa); [|discriminate]. cbn [pybind fst snd app] in *. reflexivity.
Qed.
Print Assumptions C77_spin_adapted.

(** ** Examples: two single excitations, with the sum over the four orderings written out; it is not the zero operator. *)
Definition p_ (n : nat) : idx := (Lab false Sp, n).
Definition h_ (n : nat) : idx := (Lab false Sh, n).
Definition two_excitations : list tensor := [Ten TCluster SpinOrbital "T" 1 [h_ 0] [p_ 0]; Ten TCluster SpinOrbital "T" 1 [h_ 1] [p_ 1]].
Lemma two_orderings a b : a <> b -> orderings [[a]; [b]] [a; b] [(1%Z, [a; b]); ((-1)%Z, [b; a])].
Proof.
  intros N. assert (F : forall x y, mem_idx x [y] = true <-> x = y) by (intros x y; rewrite mem_idx_in; cbn; intuition congruence).
  assert (FT : forall x, mem_idx x [x] = true) by (intros x; apply F; reflexivity). assert (FF : forall x y, x <> y -> mem_idx x [y] = false) by (intros x y H; destruct (mem_idx x [y]) eqn:Q; [apply F in Q; contradiction|reflexivity]).
  assert (N' : b <> a) by congruence. assert (ND : NoDup [a; b]) by (repeat constructor; cbn; intuition).
  assert (R1 : reorder_sign [a; b] [a; b] 1%Z) by (exists 0; split; [constructor|reflexivity]).
  assert (R2 : reorder_sign [a; b] [b; a] (-1)%Z) by (exists 1; split; [apply (swaps_step 0 [] a b []); constructor|reflexivity]).
  split; [cbn; constructor; [cbn; intros [Q|[]]; congruence|constructor; [easy|constructor]]|]. intros s l. cbn [In]. split.
  - intros [Q|[Q|[]]]; injection Q as <- <-; (split; [first [apply Permutation_refl|apply perm_swap]|split; [|assumption]]); intros z [<-|[<-|[]]]; cbn [filter]; rewrite ?FT, ?(FF a b N), ?(FF b a N'); reflexivity.
  - intros (P & _ & R). apply Permutation_sym, Permutation_length_2_inv in P as [-> | ->]; [left|right; left]; f_equal; eapply reorder_sign_unique; eassumption.
Qed.
Example C77_example :
  exists tm, make_term SpinOrbital two_excitations (Op [p_ 0; p_ 1] [h_ 0; h_ 1]) (Q2Qc 1) = Ok tm /\ tdiag tm = [] /\ NoDup [p_ 0; p_ 1] /\ NoDup [h_ 0; h_ 1] /\ plain tm /\ term_latex true true true true tm = Ok (str "$1/4 & {\cal P} ( p_{0} / p_{1} ) {\cal P} ( h_{0} / h_{1} ) T^{ h_{0} }_{ p_{0} } T^{ h_{1} }_{ p_{1} } a^{ p_{0} p_{1} }_{ h_{0} h_{1} } \\$") /\
  term_repr tm = Ok (str "1 T^{ h_{0} }_{ p_{0} } T^{ h_{1} }_{ p_{1} } a^{ p_{0} p_{1} }_{ h_{0} h_{1} }") /\
  orderings (fst (perm_partition_open tm)) [p_ 0; p_ 1] [(1%Z, [p_ 0; p_ 1]); ((-1)%Z, [p_ 1; p_ 0])] /\ orderings (snd (perm_partition_open tm)) [h_ 0; h_ 1] [(1%Z, [h_ 0; h_ 1]); ((-1)%Z, [h_ 1; h_ 0])].
Proof.
  eexists. split; [vm_compute; reflexivity|]. split; [reflexivity|]. split; [repeat constructor; cbn; intuition discriminate|]. split; [repeat constructor; cbn; intuition discriminate|].
  split; [unfold plain; apply Forall_cons; [|apply Forall_cons; [|apply Forall_nil]]; unfold plain_name; cbn; intuition discriminate|]. split; [vm_compute; reflexivity|]. split; [vm_compute; reflexivity|].
  split; [apply (two_orderings (p_ 0) (p_ 1)); discriminate|apply (two_orderings (h_ 0) (h_ 1)); discriminate].
Qed.
