(** Printed code: texts and values. *)
From Coq Require Import Ascii String ZArith QArith Qcanon Lia Bool Ring_theory Ring.
From Verif Require Import PyBase SpaceModel IndexModel IndexProofs IndicesModel IterProofs IndicesProofs ElemModel MacroModel TermModel ValueSpec ValueProofs TermSpec SumProofs TermProofs SymmetryModel CombineModel CombineProofs PermuteModel PermuteProofs OpenProofs RenameProofs TextProofs
  AmbitModel AmbitSpec AmbitText AmbitPerm AmbitValue AmbitDriver AmbitMain FileModel FileProofs PrintModel PrintSpec.
Local Close Scope Q_scope.
Local Close Scope Qc_scope.
Local Open Scope nat_scope.
Local Notation length := List.length.

(** ** Lines *)
Lemma split_nonempty s : split_lines s <> [].
Proof. destruct s as [|a s]; cbn [split_lines]; [discriminate|]. destruct (Ascii.eqb a nl); [discriminate|]. destruct (split_lines s); discriminate. Qed.
Lemma split_app a b : split_lines (a ++ nl :: b) = split_lines a ++ split_lines b.
Proof.
  induction a as [|c a IH]; [cbn [app split_lines]; rewrite Ascii.eqb_refl; reflexivity|]. cbn [app split_lines]. rewrite IH. destruct (Ascii.eqb c nl); [reflexivity|]. pose proof (split_nonempty a). destruct (split_lines a); [congruence|reflexivity].
Qed.
Lemma split_nonl s : nonl s -> split_lines s = [s].
Proof. induction s as [|c s IH]; intros H; [reflexivity|]. apply nonl_cons in H as [H1 H2]. cbn [split_lines]. rewrite (proj2 (Ascii.eqb_neq c nl)) by exact H1. rewrite IH by exact H2. reflexivity. Qed.
Lemma code_app a b : code_lines (a ++ nl :: b) = code_lines a ++ code_lines b.
Proof. unfold code_lines. rewrite split_app, map_app, filter_app. reflexivity. Qed.
Lemma code_nil : code_lines [] = [].
Proof. reflexivity. Qed.
Lemma code_stmt s : stmt_clean s -> code_lines (stmt_text s) = [stmt_text s].
Proof.
  intros [N F]. unfold code_lines. rewrite split_nonl by exact N. cbn [map]. pose proof (strip_framed (stmt_text s) [] F (Forall_nil _)) as E. rewrite app_nil_r in E. rewrite E. destruct F as [(a & m & Es & _) _]. rewrite Es. reflexivity.
Qed.
Lemma strip_both b s : Forall (fun a => is_blank a = true) b -> framed s -> strip (b ++ s) = s.
Proof. intros B F. unfold strip. rewrite lstrip_blanks by exact B. pose proof (strip_framed s [] F (Forall_nil _)) as E. rewrite app_nil_r in E. exact E. Qed.
Lemma code_indented s : stmt_clean s -> code_lines (str "    " ++ stmt_text s) = [stmt_text s].
Proof.
  intros [N F]. unfold code_lines. rewrite split_nonl by (apply nonl_app2; [nonl_str|exact N]). cbn [map]. rewrite strip_both by (try exact F; repeat constructor). destruct F as [(a & m & Es & _) _]. rewrite Es. reflexivity.
Qed.
Lemma code_join l : Forall stmt_clean l -> code_lines (join [nl] (map stmt_text l)) = map stmt_text l.
Proof.
  induction l as [|s [|s' l] IH]; intros F; [reflexivity|inversion F; subst; cbn [map join]; apply code_stmt; assumption|]. inversion F; subst.
  change (join [nl] (map stmt_text (s :: s' :: l))) with (stmt_text s ++ nl :: join [nl] (map stmt_text (s' :: l))). rewrite code_app, IH, code_stmt by assumption. reflexivity.
Qed.
Lemma code_lines_lines l : Forall stmt_clean l -> forall x, code_lines (x ++ lines l) = code_lines x ++ map stmt_text l.
Proof.
  induction 1 as [|s l C F IH]; intros x; [cbn; rewrite !app_nil_r; reflexivity|]. change (lines (s :: l)) with ((nl :: str "    " ++ stmt_text s) ++ lines l). cbn [app]. rewrite code_app, IH, code_indented by exact C. reflexivity.
Qed.

(** ** print_terms_ambit: the texts *)
Definition exists_perm (t : term) : pyres bool := op_exist_permute_format (ttype t) (tsq t) (fst (perm_partition_open t)) (snd (perm_partition_open t)).
Lemma init_ambit name ig init t : tdiag t = [] ->
  term_ambit name ig init true t = pybind (term_ambit name ig false true t) (fun s => pybind (exists_perm t) (fun e => Ok ((if e && init then build_temp (space_str t) ++ [nl] else []) ++ s))).
Proof.
  intros D. unfold term_ambit, exists_perm. rewrite D. destruct (perm_partition_open t) as [pc pa]. cbn [fst snd]. destruct (op_n_multiset_permutation _ _ _ _) as [n|]; [|reflexivity]. cbn [pybind]. generalize (format_coeff (Qcdiv (Qcmult (tcoeff t) (Qc_of_Z (Z.of_nat (fact (length (cre (tsq t))) * fact (length (ann (tsq t))))))) (Qc_of_Z (Z.of_nat n)))). intros cf. destruct (op_exist_permute_format _ _ _ _) as [e|]; [|reflexivity]. cbn [pybind].
  destruct e; cbn [negb]; [|reflexivity]. replace (negb (ig || init || true)) with false by (destruct ig, init; reflexivity). replace (negb (ig || false || true)) with false by (destruct ig; reflexivity). cbn [orb app]. replace (init || true) with true by (destruct init; reflexivity).
  destruct ig; [cbn [pybind andb app]; destruct init; cbn [app]; rewrite <- ?app_assoc; reflexivity|]. destruct (op_ambit_permute_format _ _ _ _ _) as [ps|]; [|reflexivity]. cbn [pybind andb app]. destruct init; cbn [app]; rewrite <- ?app_assoc; reflexivity.
Qed.
Lemma build_clean block : nonl block -> stmt_clean (SBuild block).
Proof. intros N. pose proof (start_clean block (str "P") true N) as F. cbn in F. inversion F; assumption. Qed.
Lemma print_term_text last init t code : Forall name_ok (ttensors t) -> tdiag t = [] -> term_ambit (str "C") (negb last) init true t = Ok code ->
  exists l e, term_stmts last t = Ok l /\ Forall stmt_clean l /\ exists_perm t = Ok e /\ code_lines code = map stmt_text ((if e && init then [SBuild (space_str t)] else []) ++ l).
Proof.
  intros F D E. rewrite init_ambit in E by exact D. destruct (term_ambit (str "C") (negb last) false true t) as [c|] eqn:Ec; [|discriminate]. cbn [pybind] in E. destruct (exists_perm t) as [e|]; [|discriminate]. cbn [pybind] in E. assert (E2 : code = (if e && init then build_temp (space_str t) ++ [nl] else []) ++ c) by congruence. subst code. clear E.
  destruct (term_text last t c F Ec) as (l & tl & El & N & C & -> & T). exists l, e. split; [exact El|]. split; [exact C|]. split; [reflexivity|].
  assert (G : code_lines (join [nl] (map stmt_text l) ++ tl) = map stmt_text l).
  { destruct T as [-> | ->]; [rewrite app_nil_r; apply code_join, C|]. rewrite code_app, code_nil, app_nil_r. apply code_join, C. }
  destruct (e && init); [|exact G]. rewrite <- app_assoc. cbn [app]. rewrite code_app, G. change (build_temp (space_str t)) with (stmt_text (SBuild (space_str t))). rewrite code_stmt by apply build_clean, blocks_nonl. reflexivity.
Qed.

Definition entry : Type := text * (text * list term).
Definition entry_ok (input : list term) (e : entry) : Prop := let '(s, (p, ts)) := e in ts <> [] /\ Forall (fun t => In t input /\ key_of t = (s, p)) ts.
Lemma exist_key n t s p : codable n t -> key_of t = (s, p) -> exists e, exists_perm t = Ok e /\ (e = true <-> p <> []).
Proof.
  intros C K. destruct (codable_counts n t C) as (_ & (e & E & _ & E2) & _). rewrite K in E2. cbn [snd] in E2. exists e. split; [|exact E2]. exact E.
Qed.
Lemma group_text block perm terms s : terms <> [] -> Forall printable terms -> Forall (fun t => key_of t = (block, perm)) terms -> print_group (perm, terms) = Ok s ->
  exists g, group_stmts block perm true terms = Ok g /\ Forall stmt_clean g /\ forall x, code_lines (s ++ x) = map stmt_text g ++ code_lines x.
Proof.
  intros NE P K E. unfold print_group in E. cbn [fst snd] in E. match type of E with pybind (pymap ?f ?l) _ = _ => destruct (pymap f l) as [rs|] eqn:Er; [|discriminate] end. cbn [pybind] in E. injection E as <-.
  assert (G : forall k ts, (forall it, In it (enumerate k ts) -> In (snd it) terms) -> forall rs, pymap (fun it => pybind (term_ambit (str "C") (negb (last_index terms (fst it))) (fst it =? 0) true (snd it)) (fun s => Ok (s ++ [nl]))) (enumerate k ts) = Ok rs ->
    exists l, pymap (fun it => term_stmts (last_index terms (fst it)) (snd it)) (enumerate k ts) = Ok l /\ Forall stmt_clean (concat l) /\
      forall x, code_lines (concat rs ++ x) = map stmt_text ((if (k =? 0) && negb (length ts =? 0) then start_stmts block perm true else []) ++ concat l) ++ code_lines x).
  { intros k ts. revert k. induction ts as [|t ts IH]; intros k I rs' E.
    - injection E as <-. exists []. split; [reflexivity|]. split; [constructor|]. intros x. rewrite andb_false_r. reflexivity.
    - cbn [enumerate pymap fst snd] in E. destruct (term_ambit (str "C") (negb (last_index terms k)) (k =? 0) true t) as [c|] eqn:Ec; [|discriminate]. cbn [pybind] in E. match type of E with pybind (pymap ?f ?l) _ = _ => destruct (pymap f l) as [rs2|] eqn:E2; [|discriminate] end. cbn [pybind] in E. injection E as <-.
      assert (Ht : In t terms) by (apply (I (k, t)); left; reflexivity). pose proof (proj1 (Forall_forall _ _) P t Ht) as [(n & C) PN _ _]. pose proof (proj1 (Forall_forall _ _) K t Ht) as Kt.
      destruct (print_term_text (last_index terms k) (k =? 0) t c PN (cd_diag n t C) Ec) as (l & e & El & Cl & Ee & CL). destruct (exist_key n t block perm C Kt) as (e' & Ee' & EQ). rewrite Ee in Ee'. injection Ee' as <-.
      destruct (IH (Datatypes.S k)) with (rs := rs2) as (ls & Els & Cls & R); [intros it Hit; apply I; right; exact Hit|exact E2|].
      exists (l :: ls). split; [cbn [enumerate pymap fst snd]; rewrite El; cbn [pybind]; rewrite Els; reflexivity|]. split; [cbn [concat]; apply Forall_app; auto|].
      intros x. cbn [concat]. rewrite <- !app_assoc. cbn [app]. rewrite code_app, CL, R. cbn [Nat.eqb andb]. assert (BS : space_str t = block) by (symmetry; apply (key_space t block perm Kt)). rewrite BS. cbn [length Nat.eqb negb]. rewrite andb_true_r.
      assert (X : (if e && (k =? 0) then [SBuild block] else []) = if k =? 0 then start_stmts block perm true else []).
      { unfold start_stmts. destruct (k =? 0); [|rewrite andb_false_r; reflexivity]. rewrite andb_true_r. destruct perm as [|c0 perm].
        - destruct e; [exfalso; apply (proj1 EQ eq_refl); reflexivity|reflexivity].
        - rewrite (proj2 EQ) by discriminate. reflexivity. }
      rewrite X, !map_app, <- !app_assoc. reflexivity. }
  destruct (G 0 terms) with (rs := rs) as (l & El & Cl & R); [intros [i t] Hit; apply AmbitText.enumerate_in in Hit; apply Hit|exact Er|]. exists (start_stmts block perm true ++ concat l).
  assert (BN : nonl block) by (destruct terms as [|t ts]; [congruence|]; inversion K as [|? ? Kt]; subst; rewrite (key_space _ _ _ Kt); apply blocks_nonl).
  split; [unfold group_stmts; rewrite El; cbn [pybind]; destruct terms; [congruence|reflexivity]|]. split; [apply Forall_app; split; [apply start_clean, BN|exact Cl]|].
  intros x. rewrite <- app_assoc, R. replace (negb (length terms =? 0)) with true by (destruct terms; [congruence|reflexivity]). cbn [Nat.eqb andb]. f_equal. destruct perm; [|reflexivity]. cbn [app]. exact (code_app [] x).
Qed.

(** ** Names and totality *)
Lemma array_not_temp x : tensor_array x <> temp_name.
Proof.
  unfold tensor_array, array_name. assert (G : forall a n, a ++ decimal n <> temp_name).
  { intros a n E. destruct (exists_last (decimal_nonempty n)) as (d & c & Ed). assert (D : is_digit c = true) by (apply (decimal_digits n); rewrite Ed; apply in_or_app; right; left; reflexivity).
    rewrite Ed, app_assoc in E. change temp_name with (str "tem" ++ ["p"%char]) in E. apply app_inj_tail in E as [_ ->]. vm_compute in D. discriminate. }
  destruct (_ =? _); [apply G|]. rewrite !app_assoc. apply G.
Qed.
Lemma printable_not_temp t : not_temp t.
Proof. apply Forall_forall. intros x _. apply array_not_temp. Qed.
Lemma ambit_total n name ig init decl t : codable n t -> exists s, term_ambit name ig init decl t = Ok s.
Proof.
  intros C. destruct (codable_counts n t C) as (En & (e & Ex & _) & _). destruct (term_stmts_ok n t true C) as (ps & Ep & _). rewrite <- (codable_type n t C) in Ep. unfold part_cre, part_ann in *. unfold term_ambit. destruct (perm_partition_open t) as [pc pa]. cbn [fst snd] in *.
  rewrite En. cbn [pybind]. generalize (format_coeff (Qcdiv (Qcmult (tcoeff t) (Qc_of_Z (Z.of_nat (fact (length (cre (tsq t))) * fact (length (ann (tsq t))))))) (Qc_of_Z (Z.of_nat (n_perm t))))). intros cf. rewrite Ex. cbn [pybind].
  destruct e; cbn [negb]; [|eexists; reflexivity]. destruct (negb _); [eexists; reflexivity|]. destruct ig; [eexists; reflexivity|]. unfold op_ambit_permute_format. destruct (op_is_empty (tsq t)); cbn [pybind]; [destruct (init || decl); eexists; reflexivity|]. rewrite Ep. cbn [pybind]. destruct (init || decl); eexists; reflexivity.
Qed.
Lemma pymap_total {X Y} (f : X -> pyres Y) l : (forall x, In x l -> exists y, f x = Ok y) -> exists r, pymap f l = Ok r.
Proof. induction l as [|x l IH]; intros H; [exists []; reflexivity|]. destruct (H x (or_introl eq_refl)) as [y Ey]. destruct IH as [r Er]; [intros z Hz; apply H; right; exact Hz|]. exists (y :: r). cbn [pymap]. rewrite Ey. cbn [pybind]. rewrite Er. reflexivity. Qed.
Lemma print_group_total pt : Forall printable (snd pt) -> exists s, print_group pt = Ok s.
Proof.
  intros P. unfold print_group. match goal with |- context [pymap ?f ?l] => destruct (pymap_total f l) as [r Er] end.
  - intros [i t] H. apply AmbitText.enumerate_in in H. cbn [fst snd]. assert (Ht : In t (snd pt)) by apply H. destruct (pr_codable t (proj1 (Forall_forall _ _) P t Ht)) as [n C]. destruct (ambit_total n (str "C") (negb (last_index (snd pt) i)) (i =? 0) true t C) as [s Es]. rewrite Es. eexists; reflexivity.
  - rewrite Er. eexists. reflexivity.
Qed.
Lemma printable_types input : Forall printable input -> forall t t', In t input -> In t' input -> ttype t = ttype t'.
Proof. intros P t t' H H'. rewrite Forall_forall in P. destruct (pr_codable t (P t H)) as [n C]. destruct (pr_codable t' (P t' H')) as [n' C']. rewrite (codable_type n t C), (codable_type n' t' C'). reflexivity. Qed.
Lemma zero_perm t s p : printable t -> key_of t = (s, p) -> p <> [] -> zero_name s = s.
Proof.
  intros [(n & C) _ _ _] K NP. destruct s as [|c s]; [|reflexivity]. exfalso. pose proof (key_space t [] p K) as E. destruct (codable_counts n t C) as (_ & (e & _ & E1 & E2) & k & Ek). rewrite K in E2. cbn [snd] in E2. apply E2 in NP. apply E1 in NP. apply NP.
  destruct (codable_target n t C) as [L _]. rewrite <- E in L. cbn in L. subst n. cbn in Ek. symmetry in Ek. apply Nat.eq_mul_1 in Ek. apply Ek.
Qed.

(** ** All groups *)
Definition entries (cat : list (text * inner)) : list entry := flat_map (fun kv => map (fun e => (fst kv, e)) (snd kv)) cat.
Definition entry_stmts (e : entry) : pyres (list stmt) := group_stmts (zero_name (fst e)) (fst (snd e)) true (snd (snd e)).
Lemma entries_terms cat : concat (map (fun e : entry => snd (snd e)) (entries cat)) = concat (map row_terms cat).
Proof.
  unfold entries. induction cat as [|[s row] cat IH]; [reflexivity|]. cbn [flat_map map concat fst snd]. rewrite map_app, concat_app. apply (f_equal2 (@app term)); [|exact IH]. unfold row_terms. cbn [snd]. rewrite map_map. reflexivity.
Qed.
Lemma pymap_app_ok {X Y} (f : X -> pyres Y) a b : forall x y, pymap f a = Ok x -> pymap f b = Ok y -> pymap f (a ++ b) = Ok (x ++ y).
Proof.
  induction a as [|e a IH]; intros x y Ea Eb; [injection Ea as <-; exact Eb|]. cbn [app pymap] in *. destruct (f e) as [g|]; [|discriminate]. cbn [pybind] in *. destruct (pymap f a) as [gs|]; [|discriminate]. cbn [pybind] in Ea. injection Ea as <-. rewrite (IH gs y eq_refl Eb). reflexivity.
Qed.
Lemma print_rows input cat : Forall printable input -> Forall (entry_ok input) (entries cat) ->
  exists l, pymap (fun block => pybind (pymap print_group (snd block)) (fun rows => Ok (concat rows))) cat = Ok l /\
  exists gs, pymap entry_stmts (entries cat) = Ok gs /\ Forall stmt_clean (concat gs) /\ forall x, code_lines (concat l ++ x) = map stmt_text (concat gs) ++ code_lines x.
Proof.
  intros P. assert (G : forall s row, Forall (entry_ok input) (map (fun e => (s, e)) row) -> exists r, pymap print_group row = Ok r /\ exists gs, pymap entry_stmts (map (fun e => (s, e)) row) = Ok gs /\ Forall stmt_clean (concat gs) /\ forall x, code_lines (concat r ++ x) = map stmt_text (concat gs) ++ code_lines x).
  { intros s row. induction row as [|[p ts] row IH]; intros F; [exists []; split; [reflexivity|]; exists []; split; [reflexivity|]; split; [constructor|reflexivity]|].
    cbn [map] in F. inversion F as [|? ? OK F']; subst. destruct OK as [NE FT]. assert (PT : Forall printable ts) by (rewrite Forall_forall in *; intros t Ht; apply P, (FT t Ht)). assert (KT : Forall (fun t => key_of t = (s, p)) ts) by (revert FT; apply Forall_impl; intros t Ht; apply Ht).
    destruct (print_group_total (p, ts) PT) as [o Eo]. destruct (group_text s p ts o NE PT KT Eo) as (g & Eg & Cg & Rg). destruct (IH F') as (r & Er & gs & Egs & Cgs & Rgs).
    assert (Eg' : entry_stmts (s, (p, ts)) = Ok g).
    { unfold entry_stmts. cbn [fst snd]. destruct p as [|c p]; [exact Eg|]. destruct ts as [|t ts]; [congruence|]. inversion PT; subst. inversion KT; subst. rewrite (zero_perm t s (c :: p)) by (assumption || discriminate). exact Eg. }
    exists (o :: r). split; [cbn [pymap]; rewrite Eo; cbn [pybind]; rewrite Er; reflexivity|]. exists (g :: gs). split; [cbn [map pymap]; rewrite Eg'; cbn [pybind]; rewrite Egs; reflexivity|]. split; [cbn [concat]; apply Forall_app; auto|].
    intros x. cbn [concat]. rewrite <- app_assoc, Rg, Rgs, map_app, <- app_assoc. reflexivity. }
  induction cat as [|[s row] cat IH]; intros F; [exists []; split; [reflexivity|]; exists []; split; [reflexivity|]; split; [constructor|reflexivity]|].
  unfold entries in F. cbn [flat_map fst snd] in F. apply Forall_app in F as [F1 F2]. destruct (G s row F1) as (r & Er & gs & Egs & Cgs & Rgs). destruct (IH F2) as (l & El & gs2 & Egs2 & Cgs2 & Rgs2).
  exists (concat r :: l). split; [cbn [pymap snd]; unfold inner in *; rewrite Er; cbn [pybind]; rewrite El; reflexivity|]. exists (gs ++ gs2). split.
  - exact (pymap_app_ok entry_stmts _ _ _ _ Egs Egs2).
  - rewrite concat_app. split; [apply Forall_app; auto|]. intros x. cbn [concat]. rewrite <- app_assoc, Rgs, Rgs2, map_app, <- app_assoc. reflexivity.
Qed.
Lemma cat_entries input cat : Forall printable input -> categorize_contractions input = Ok cat -> Forall (entry_ok input) (entries cat) /\ Permutation (concat (map (fun e : entry => snd (snd e)) (entries cat))) input.
Proof.
  intros P E. destruct (categorize_rows input cat (printable_types input P) E) as (_ & _ & PM & K). split; [|rewrite entries_terms; exact PM]. apply Forall_forall. intros [s [p ts]] H. unfold entries in H. apply in_flat_map in H. destruct H as ([s' row] & H1 & H2). cbn [fst snd] in H2. apply in_map_iff in H2. destruct H2 as ([p' ts'] & [= -> -> ->] & H2). exact (K s row p ts H1 H2).
Qed.

Section Exec.
  Context (A : qalg) (S : system) (v : tvaluation A) (HA : antisymmetric v).
  Add Ring alg_ring47 : (q_ring A).
  Definition holding (input : list term) (arrays : text -> option (array A)) : Prop :=
    forall t, In t input -> arrays_hold v (ttensors t) arrays /\ exists f, arrays (target_name (target_of t)) = Some f.
  Definition body (n : nat) (l : list term) : list term := filter (fun t => target_of t =? n) l.
  Lemma usable_of input arrays t n : Forall printable input -> holding input arrays -> In t input -> codable n t -> usable A v n arrays t.
  Proof.
    intros P H Ht C. split; [exact C|]. split; [apply printable_not_temp|]. split; [|apply (H t Ht)]. pose proof (pr_targets t (proj1 (Forall_forall _ _) P t Ht)) as F. revert F. apply Forall_impl. intros x Hx. apply Hx.
  Qed.
  Lemma holding_adds input n x st st' : Forall printable input -> adds A S v n x st st' -> holding input (st_arrays st) -> holding input (st_arrays st').
  Proof.
    intros P AD H t Ht. destruct (H t Ht) as [H1 (f & Hf)]. split.
    - apply (hold_adds A S v (ttensors t) n x st st' AD); [|exact H1]. pose proof (pr_targets t (proj1 (Forall_forall _ _) P t Ht)) as F. revert F. apply Forall_impl. intros y Hy. apply Hy.
    - destruct AD as (_ & O & T). destruct (Nat.eq_dec (target_of t) n) as [E|E]; [subst n; destruct (T f Hf) as (f' & Hf' & _); exists f'; exact Hf'|]. exists f. rewrite O; [exact Hf|]. intros Q. apply E. apply target_name_inj. exact Q.
  Qed.
  Lemma entry_target input s p ts n t : Forall printable input -> entry_ok input (s, (p, ts)) -> In t ts -> codable n t -> Forall (codable n) ts /\ Forall (fun t => target_of t = n) ts.
  Proof.
    intros P [_ F] Ht C. assert (G : forall u, In u ts -> codable n u).
    { intros u Hu. pose proof (proj1 (Forall_forall _ _) F u Hu) as [Iu Ku]. pose proof (proj1 (Forall_forall _ _) F t Ht) as [_ Kt]. destruct (pr_codable u (proj1 (Forall_forall _ _) P u Iu)) as [m Cm]. destruct (codable_target n t C) as [L1 _]. destruct (codable_target m u Cm) as [L2 _]. rewrite <- (key_space t s p Kt) in L1. rewrite <- (key_space u s p Ku) in L2. assert (EM : m = n) by congruence. rewrite <- EM. exact Cm. }
    split; apply Forall_forall; intros u Hu; [apply G, Hu|]. apply (codable_target n u (G u Hu)).
  Qed.
  Lemma body_all n ts : Forall (fun t => target_of t = n) ts -> forall m, body m ts = if n =? m then ts else [].
  Proof. induction 1 as [|t ts H F IH]; intros m; [destruct (n =? m); reflexivity|]. unfold body in *. cbn [filter]. rewrite IH, H. destruct (n =? m); reflexivity. Qed.
  Lemma body_app n a b : body n (a ++ b) = body n a ++ body n b.
  Proof. apply filter_app. Qed.
  Lemma entries_exec input es : Forall printable input -> Forall (entry_ok input) es -> forall gs, pymap entry_stmts es = Ok gs -> forall st, holding input (st_arrays st) -> st_declared st = true ->
    exists st', exec_leaves S (concat gs) st = Some st' /\ st_declared st' = true /\
      (forall name, (forall t, In t input -> name <> target_name (target_of t)) -> st_arrays st' name = st_arrays st name) /\
      forall n f, st_arrays st (target_name n) = Some f -> exists f', st_arrays st' (target_name n) = Some f' /\ array_operator S v n f' = (array_operator S v n f + asum (map (term_value S v) (body n (concat (map (fun e => snd (snd e)) es)))))%alg.
  Proof.
    intros P. induction es as [|[s [p ts]] es IH]; intros F gs E st H D.
    - injection E as <-. exists st. split; [reflexivity|]. split; [exact D|]. split; [reflexivity|]. intros n f Ef. exists f. split; [exact Ef|]. cbn. ring.
    - inversion F as [|? ? OK F']; subst. pose proof OK as OK'. destruct OK' as [NE FT]. destruct ts as [|t0 ts0] eqn:ET; [congruence|]. rewrite <- ET in *. assert (H0 : In t0 ts) by (rewrite ET; left; reflexivity). clear ET ts0.
      pose proof (proj1 (Forall_forall _ _) FT t0 H0) as [I0 K0]. destruct (pr_codable t0 (proj1 (Forall_forall _ _) P t0 I0)) as [n C0]. destruct (entry_target input s p ts n t0 P OK H0 C0) as [CT TT].
      destruct (H t0 I0) as [_ (f & Hf)]. rewrite (proj2 (codable_target n t0 C0)) in Hf.
      destruct (group_exec A S v HA n s p true ts st f) as (g & st1 & f1 & Eg & X1 & A1 & F1 & _); [|revert FT; apply Forall_impl; intros u Hu; apply Hu|exact Hf|intros _; split; [exact D|discriminate]|].
      { apply Forall_forall. intros u Hu. apply (usable_of input); [exact P|exact H|apply (proj1 (Forall_forall _ _) FT u Hu)|apply (proj1 (Forall_forall _ _) CT u Hu)]. }
      cbn [pymap] in E. unfold entry_stmts at 1 in E. cbn [fst snd] in E. fold (zero_name s) in Eg. rewrite Eg in E. cbn [pybind] in E. destruct (pymap entry_stmts es) as [gs'|] eqn:Egs; [|discriminate]. cbn [pybind] in E. injection E as <-.
      pose proof (holding_adds input n _ st st1 P A1 H) as H1. destruct A1 as (D1 & O1 & T1). destruct (IH F' gs' eq_refl st1 H1) as (st' & X' & D' & O' & T'); [congruence|].
      exists st'. split; [cbn [concat]; rewrite exec_leaves_app, X1; exact X'|]. split; [exact D'|]. split.
      + intros name HN. rewrite O' by exact HN. apply O1. pose proof (HN t0 I0) as Q. rewrite (proj2 (codable_target n t0 C0)) in Q. exact Q.
      + intros m fm Em. cbn [map concat snd]. rewrite body_app, map_app, (asum_app A), (body_all n ts TT m). destruct (Nat.eqb_spec n m) as [->|NM].
        * destruct (T1 fm Em) as (f1' & E1 & V1). destruct (T' m f1' E1) as (f' & Ef' & V'). exists f'. split; [exact Ef'|]. rewrite V', V1. ring.
        * assert (E1 : st_arrays st1 (target_name m) = Some fm) by (rewrite O1; [exact Em|]; intros Q; apply NM; symmetry; apply target_name_inj, Q). destruct (T' m fm E1) as (f' & Ef' & V'). exists f'. split; [exact Ef'|]. rewrite V'. cbn. ring.
  Qed.
End Exec.
Lemma print_ok input cat l : categorize_contractions input = Ok cat -> pymap (fun block => pybind (pymap print_group (snd block)) (fun rows => Ok (concat rows))) cat = Ok l -> print_terms_ambit input = Ok (concat l).
Proof. intros E El. unfold print_terms_ambit. rewrite E. exact (f_equal (fun r => pybind r (fun l => Ok (concat l))) El). Qed.
