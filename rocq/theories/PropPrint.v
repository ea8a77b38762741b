(** C79: the code printed by print_terms_ambit; C80: the function written by save_direct_t3. *)
From Coq Require Import Ascii String ZArith QArith Qcanon Lia Bool Ring_theory Ring Sorted.
From Verif Require Import PyBase SortProofs OrderSpec OrderProofs SpaceModel IndexModel IndexProofs IndicesModel IterProofs IndicesProofs ElemModel MacroModel TermModel ValueSpec ValueProofs TermSpec SumProofs TermProofs SymmetryModel CombineModel CombineProofs PermuteModel PermuteProofs OpenProofs RenameProofs TextProofs
  AmbitModel AmbitSpec AmbitText AmbitPerm AmbitValue AmbitDriver AmbitMain PropAmbit FileModel FileProofs PrintModel PrintSpec PrintProofs FillProofs T3Proofs.
Local Close Scope Q_scope.
Local Close Scope Qc_scope.
Local Open Scope nat_scope.
Local Notation length := List.length.

(** ** C79 *)
(** The lines printed, read as a program and run where a BlockedTensor temp has been declared, add to every C0, C1, ... the terms with that
    number of operators. *)
Theorem C79_print_terms_ambit :
  forall input, Forall printable input ->
  exists s prog, print_terms_ambit input = Ok s /\ code_lines s = map stmt_text prog /\
    forall (A : qalg) (S : system) (v : tvaluation A) st, antisymmetric v -> prepared v input (st_arrays st) -> st_declared st = true ->
    exists st', exec_leaves S prog st = Some st' /\
      (forall name, (forall t, In t input -> name <> target_name (target_of t)) -> st_arrays st' name = st_arrays st name) /\
      forall n f, st_arrays st (target_name n) = Some f -> exists f', st_arrays st' (target_name n) = Some f' /\
        array_operator S v n f' = (array_operator S v n f + asum (map (term_value S v) (with_body n input)))%alg.
Proof.
  intros input P. destruct (categorize_ok input) as (cat & E & _); [intros t t' H H' _; apply (printable_types input P); assumption|]. destruct (cat_entries input cat P E) as [F PM]. destruct (print_rows input cat P F) as (l & El & gs & Eg & _ & R).
  exists (concat l), (concat gs). split; [exact (print_ok input cat l E El)|]. split; [specialize (R []); rewrite !app_nil_r in R; exact R|].
  intros A S v st HA PR D. destruct (entries_exec A S v HA input (entries cat) P F gs Eg st PR D) as (st' & X & _ & O & T). exists st'. split; [exact X|]. split; [exact O|].
  intros n f Ef. destruct (T n f Ef) as (f' & Ef' & V). exists f'. split; [exact Ef'|]. rewrite V. f_equal. apply (asum_perm A). apply Permutation_map. apply filter_perm. exact PM.
Qed.
Print Assumptions C79_print_terms_ambit.
(** Nothing printed declares temp: elsewhere the code does not run. *)
Theorem C79_undeclared_refuted :
  exists input s prog, Forall printable input /\ print_terms_ambit input = Ok s /\ code_lines s = map stmt_text prog /\
    forall (A : qalg) (S : system) (arrays : text -> option (array A)), exec_leaves S prog (Store arrays false None) = None.
Proof.
  exists (skipn 2 ex_terms). destruct (print_terms_ambit (skipn 2 ex_terms)) as [s|] eqn:E; [|exfalso; revert E; vm_compute; discriminate]. exists s.
  assert (G : exists g, (match categorize_contractions (skipn 2 ex_terms) with Ok cat => pymap entry_stmts (entries cat) | Raise e => Raise e end) = Ok g /\ (match concat g with SBuild _ :: _ => true | _ => false end) = true) by (eexists; split; [vm_compute; reflexivity|vm_compute; reflexivity]).
  destruct G as (g & Eg & Hg). exists (concat g).
  assert (P : Forall printable (skipn 2 ex_terms)) by (destruct ex_terms_printable as [_ P]; rewrite <- (firstn_skipn 2 ex_terms) in P; apply Forall_app in P; apply P).
  split; [exact P|]. split; [reflexivity|]. split.
  - destruct (categorize_contractions (skipn 2 ex_terms)) as [cat|] eqn:Ec; [|discriminate]. destruct (cat_entries _ cat P Ec) as [F _]. destruct (print_rows _ cat P F) as (l & El & gs & Egs & _ & R). rewrite Eg in Egs. assert (EQ : g = gs) by congruence. subst gs. rewrite (print_ok _ cat l Ec El) in E. assert (ES : s = concat l) by congruence. subst s. specialize (R []). rewrite !app_nil_r in R. exact R.
  - intros A S arrays. destruct (concat g) as [|s0 l0]; [discriminate|]. destruct s0; try discriminate. reflexivity.
Qed.
Print Assumptions C79_undeclared_refuted.
Example C79_example :
  Forall printable ex_terms /\ antisymmetric ones /\ prepared ones ex_terms one_arrays /\
  print_terms_ambit ex_terms = Ok (lines_of
    ["C0 += (1.0 / 2.0) * H1[""v0,c0""] * T1[""c0,v0""];"; "";
     "temp = ambit::BlockedTensor::build(ambit::CoreTensor, ""temp"", {""ccvv""});"; "temp[""c0,c1,v0,v1""] += 2.0 * H1[""c2,c1""] * T2[""c0,c2,v0,v1""];";
     "C2[""c0,c1,v0,v1""] += temp[""c0,c1,v0,v1""];"; "C2[""c1,c0,v0,v1""] -= temp[""c0,c1,v0,v1""];"; "";
     "temp = ambit::BlockedTensor::build(ambit::CoreTensor, ""temp"", {""ccvv""});"; "temp[""c0,c1,v0,v1""] += (1.0 / 2.0) * T1[""c0,v0""] * T1[""c1,v1""];";
     "C2[""c0,c1,v0,v1""] += temp[""c0,c1,v0,v1""];"; "C2[""c0,c1,v1,v0""] -= temp[""c0,c1,v0,v1""];"; "C2[""c1,c0,v0,v1""] -= temp[""c0,c1,v0,v1""];"; "C2[""c1,c0,v1,v0""] += temp[""c0,c1,v0,v1""];"; ""; ""]%string).
Proof. split; [apply ex_terms_printable|]. split; [apply ones_antisymmetric|]. split; [apply ones_prepared|]. vm_compute. reflexivity. Qed.

(** ** C80 *)
(** the terms with three hole annihilators and three particle creators *)
Definition t3_block : text := str "cccvvv".
Definition t3_terms (input : list term) : list term := filter (fun t => text_eqb (space_str t) t3_block) input.
(** names that can be put into the template: no backslashes, and none of the words filled in later *)
Record fits (func_name namespace : text) (names : list text) : Prop := {
  fit_backslash : Forall (fun x => ~ In backslash x) (func_name :: namespace :: names);
  fit_namespace : ~ occurs (str "FUNC_NAME") namespace /\ ~ occurs (str "FUNC_VARIABLES") namespace /\ ~ occurs (str "CPP_EXPRESSIONS") namespace;
  fit_function : ~ occurs (str "FUNC_VARIABLES") func_name /\ ~ occurs (str "CPP_EXPRESSIONS") func_name;
  fit_names : Forall (fun x => ~ occurs (str "CPP_EXPRESSIONS") x) names
}.
Definition arrays_of (input : list term) : list text := flat_map (fun t => map tensor_array (ttensors t)) (t3_terms input).
(** The file is the template with the header, the names, the sorted arrays that occur in the terms, and lines of code. The code sees the
    arguments, C3 (zero) and temp (declared in the template, whatever it contains); it leaves the arguments alone and C3 stands for the
    terms. *)
Theorem C80_direct_t3 :
  forall input cat row func_name namespace, Forall printable input -> (forall t x, In t (t3_terms input) -> In x (ttensors t) -> length (tupper x) = length (tlower x)) ->
  fits func_name namespace (arrays_of input) -> categorize_contractions input = Ok cat -> In (t3_block, row) cat ->
  exists vars code prog, save_direct_t3 row func_name namespace =
      Ok (str "/" ++ func_name ++ str "_direct_t3.cc",
          t3_start (map lower_ascii (str "#include ""mrdsrg-so/" ++ namespace ++ str ".h""")) namespace func_name (join (str ", ") (map (fun x => str "BlockedTensor& " ++ x) vars)) ++ code ++ t3_end) /\
    NoDup vars /\ StronglySorted (fun a b => ple (list_ord char_ord) a b = true) vars /\ (forall x, In x vars <-> In x (arrays_of input)) /\
    code_lines code = map stmt_text prog /\
    forall (A : qalg) (S : system) (v : tvaluation A) arrays g, antisymmetric v -> (forall t, In t (t3_terms input) -> arrays_hold v (ttensors t) arrays) ->
    exists st f, exec_leaves S prog (Store (fun x => if text_eqb x (str "C3") then Some (fun _ => q0) else if mem_text x vars then arrays x else None) true (Some (t3_block, g))) = Some st /\
      (forall x, In x vars -> st_arrays st x = arrays x) /\ st_arrays st (str "C3") = Some f /\
      array_operator S v 3 f = asum (map (term_value S v) (t3_terms input)).
Proof.
  intros input cat row fn ns P SQ FT EC HR. destruct (categorize_rows input cat (printable_types input P) EC) as (N & _ & PM & K).
  assert (RT : Permutation (concat (map snd row)) (t3_terms input)).
  { unfold t3_terms. rewrite <- (filter_perm (fun t => text_eqb (space_str t) t3_block) _ _ PM). change (concat (map snd row)) with (row_terms (t3_block, row)). rewrite <- (T3Proofs.row_filter t3_block row cat N); [reflexivity| |exact HR]. intros s r t Hs Ht. unfold row_terms in Ht. cbn [snd] in Ht. apply in_concat in Ht. destruct Ht as (ts & Hts & Ht). apply in_map_iff in Hts. destruct Hts as ([p ts'] & <- & Hp). destruct (K s r p ts' Hs Hp) as [_ F]. symmetry. apply (key_space t s p). apply (proj1 (Forall_forall _ _) F t Ht). }
  assert (IT : forall p ts t, In (p, ts) row -> In t ts -> In t (t3_terms input) /\ printable t /\ key_of t = (t3_block, p)).
  { intros p ts t Hp Ht. destruct (K t3_block row p ts HR Hp) as [_ F]. pose proof (proj1 (Forall_forall _ _) F t Ht) as [I Kt]. split; [|split; [exact (proj1 (Forall_forall _ _) P t I)|exact Kt]]. apply filter_In. split; [exact I|]. apply text_eqb_eq. symmetry. exact (key_space t _ _ Kt). }
  assert (PL : forall t x, In t (t3_terms input) -> In x (ttensors t) -> In (tensor_array x) (arrays_of input)) by (intros t x Ht Hx; apply in_flat_map; exists t; split; [exact Ht|apply in_map; exact Hx]).
  destruct FT as [FB (FN1 & FN2 & FN3) (FF1 & FF2) FX]. inversion FB as [|? ? FBf FB']; subst. inversion FB' as [|? ? FBn FBx]; subst. clear FB FB'.
  assert (GT : Forall (fun e => good_terms (snd e) /\ Forall square (snd e)) row).
  { apply Forall_forall. intros [p ts] Hp. cbn [snd]. split; apply Forall_forall; intros t Ht; destruct (IT p ts t Hp Ht) as (I & Pt & _).
    - split; [apply (pr_codable t Pt)|]. split; [apply (pr_names t Pt)|]. apply Forall_forall. intros x Hx Q. apply (proj1 (Forall_forall _ _) FBx _ (PL t x I Hx)). unfold tensor_array, array_name. destruct (_ =? _); apply in_or_app; left; exact Q.
    - apply Forall_forall. intros x Hx. apply (SQ t x I Hx). }
  destruct (perms_code_total [] row false GT) as [[[out names] flag] EP].
  assert (GT' : Forall (fun e => good_terms (snd e)) row) by (revert GT; apply Forall_impl; intros e He; apply He).
  assert (NO : Forall (fun pt => Forall (fun t => Forall name_ok (ttensors t)) (snd pt)) row) by (revert GT'; apply Forall_impl; intros e He; revert He; apply Forall_impl; intros t Ht; apply Ht).
  destruct (perms_code_text [] (fun H => H) row false out names flag NO EP) as (gs & Eg & Eo & _ & _).
  assert (NM : forall x, In x names <-> In x (arrays_of input)).
  { intros x. split.
    - intros H. destruct (perms_code_names_inv [] row false out names flag x EP H) as (p & ts & t & y & H1 & H2 & H3 & <-). destruct (IT p ts t H1 H2) as (I & _). exact (PL t y I H3).
    - intros H. apply in_flat_map in H. destruct H as (t & Ht & Hx). apply in_map_iff in Hx. destruct Hx as (y & <- & Hy). apply (Permutation_in _ (Permutation_sym RT)) in Ht. apply in_concat in Ht. destruct Ht as (ts & Hts & Ht). apply in_map_iff in Hts. destruct Hts as ([p ts'] & <- & Hp). exact (perms_code_names [] row false out names flag EP p ts' t y Hp Ht Hy). }
  set (vars := sort_by (plt (list_ord char_ord)) (text_set names)).
  assert (VS : forall x, In x vars <-> In x (arrays_of input)).
  { intros x. rewrite <- NM. unfold vars, text_set. split; intros H; [apply (Permutation_in _ (sort_by_perm _ _)) in H; apply nodup_In in H; exact H|apply (Permutation_in _ (Permutation_sym (sort_by_perm _ _))); apply nodup_In; exact H]. }
  exists vars, out, (concat gs). split; [|split; [|split; [|split; [exact VS|split]]]].
  - unfold save_direct_t3. rewrite EP. cbn [pybind]. fold vars. change (map lower_ascii (str "#include ""mrdsrg-so/" ++ ns ++ str ".h""")) with (t3_header ns). fold (variables vars).
    rewrite t3_filled; try assumption; [reflexivity| | |].
    + apply Forall_forall. intros x Hx. apply VS in Hx. exact (proj1 (Forall_forall _ _) FBx x Hx).
    + rewrite Eo. exact (groups_plain [] row gs GT' Eg).
    + apply Forall_forall. intros x Hx. apply VS in Hx. exact (proj1 (Forall_forall _ _) FX x Hx).
  - unfold vars. eapply Permutation_NoDup; [apply Permutation_sym, sort_by_perm|apply NoDup_nodup].
  - exact (sort_by_sorted (list_ord char_ord) (list_lawful char_ord char_lawful) (text_set names)).
  - rewrite Eo. exact (groups_lines [] row gs GT' Eg).
  - intros A S v arrays g HA AH.
    set (st0 := Store (fun x => if text_eqb x (str "C3") then Some (fun _ : list nat => q0) else if mem_text x vars then arrays x else None) true (Some (t3_block, g))).
    assert (AR : forall t x, In t (t3_terms input) -> In x (ttensors t) -> st_arrays st0 (tensor_array x) = arrays (tensor_array x)).
    { intros t x Ht Hx. unfold st0. cbn [st_arrays]. destruct (text_eqb (tensor_array x) (str "C3")) eqn:Q.
      - exfalso. apply text_eqb_eq in Q. assert (I : In t input) by (apply filter_In in Ht; apply Ht). pose proof (pr_targets t (proj1 (Forall_forall _ _) P t I)) as F. apply (proj1 (Forall_forall _ _) F x Hx 3). exact Q.
      - rewrite (proj2 (mem_text_spec (tensor_array x) vars)) by (apply VS; exact (PL t x Ht Hx)). reflexivity. }
    assert (PR : proper_row A v 3 t3_block (st_arrays st0) row).
    { apply Forall_forall. intros [p ts] Hp. cbn [fst snd]. split; apply Forall_forall; intros t Ht; destruct (IT p ts t Hp Ht) as (I & Pt & Kt); [|exact Kt].
      assert (C : codable 3 t) by (destruct (pr_codable t Pt) as [n C]; pose proof (proj1 (codable_target n t C)) as L; rewrite <- (key_space t _ _ Kt) in L; cbn in L; subst n; exact C).
      split; [exact C|]. split; [apply printable_not_temp|]. split; [pose proof (pr_targets t Pt) as F; revert F; apply Forall_impl; intros x Hx; apply Hx|].
      intros x Hx. destruct (AH t I x Hx) as (f & Ef & Hf). exists f. split; [|exact Hf]. rewrite (AR t x I Hx). exact Ef. }
    destruct (groups_exec A S v HA 3 t3_block row false st0 (fun _ => q0) PR eq_refl) as (gs' & st' & f' & Eg' & X & (D & O & T) & F'); [reflexivity|intros _; exists g; reflexivity|].
    rewrite (groups_false _ [] row), Eg in Eg'. assert (EQ : gs = gs') by congruence. subst gs'. exists st', f'. split; [exact X|]. split; [|split; [exact F'|]].
    + intros x Hx. pose proof (proj1 (VS x) Hx) as Hx'. apply in_flat_map in Hx'. destruct Hx' as (t & Ht & Q). apply in_map_iff in Q. destruct Q as (y & <- & Hy). rewrite O; [apply (AR t y Ht Hy)|]. assert (I : In t input) by (apply filter_In in Ht; apply Ht). pose proof (pr_targets t (proj1 (Forall_forall _ _) P t I)) as F. apply (proj1 (Forall_forall _ _) F y Hy 3).
    + destruct (T (fun _ => q0) eq_refl) as (f'' & E'' & V). rewrite F' in E''. injection E'' as <-. rewrite V, (asum_perm A _ _ (Permutation_map (term_value S v) RT)). apply from_zero.
Qed.
Print Assumptions C80_direct_t3.
(** Example: terms of three blocks; only those of cccvvv are written. *)
Definition ex_t3 : list term := ex_terms ++ flat_map made
  [make_term SpinOrbital [ham [cx 3] [cx 2]; amp [cx 0; cx 1; cx 3] [vx 0; vx 1; vx 2]] (Op [vx 0; vx 1; vx 2] [cx 0; cx 1; cx 2]) (Q2Qc (1 # 12));
   make_term SpinOrbital [ham [vx 3] [vx 2]; amp [cx 0; cx 1; cx 2] [vx 0; vx 1; vx 3]] (Op [vx 0; vx 1; vx 2] [cx 0; cx 1; cx 2]) (Q2Qc (1 # 12))].
Lemma ex_t3_printable : Forall printable ex_t3.
Proof.
  unfold ex_t3. apply Forall_app. split; [apply ex_terms_printable|]. cbn [flat_map].
  assert (G : forall xs o c l, (match make_term SpinOrbital xs o c with Ok t => match tdiag t, ttensors t with [], _ :: _ => (Z.pos (Qden (this (tcoeff t))) <=? 1000000000)%Z && forallb (fun x => (String.eqb (tname x) "H" || String.eqb (tname x) "T")) (ttensors t) | _, _ => false end | Raise _ => true end) = true ->
    make_typed SpinOrbital (cre o) = Ok (cre o) -> make_typed SpinOrbital (ann o) = Ok (ann o) -> length (cre o) = 3 -> length (ann o) = 3 -> Forall printable l -> Forall printable (made (make_term SpinOrbital xs o c) ++ l)).
  { intros xs o c l Q C1 C2 L1 L2 F. destruct (make_term SpinOrbital xs o c) as [t|] eqn:E; [|exact F]. cbn [made app]. constructor; [|exact F]. destruct (tdiag t) eqn:D; [|discriminate]. destruct (ttensors t) eqn:T; [discriminate|]. apply andb_prop in Q. destruct Q as [Q1 Q2].
    apply (printable_made 3 xs o c t E D C1 C2 L1 L2 Q1); rewrite T; [exact Q2|discriminate]. }
  apply G; [vm_compute; reflexivity ..|]. apply G; [vm_compute; reflexivity ..|]. constructor.
Qed.
Example C80_example :
  Forall printable ex_t3 /\ (forall t x, In t (t3_terms ex_t3) -> In x (ttensors t) -> length (tupper x) = length (tlower x)) /\ fits (str "f") (str "NS") (arrays_of ex_t3) /\
  exists cat row, categorize_contractions ex_t3 = Ok cat /\ In (t3_block, row) cat /\ length ex_t3 = 5 /\ length (t3_terms ex_t3) = 2 /\
    save_direct_t3 row (str "f") (str "NS") = Ok (str "/f_direct_t3.cc",
      t3_start (str "#include ""mrdsrg-so/ns.h""") (str "NS") (str "f") (str "BlockedTensor& H1, BlockedTensor& T3") ++ lines_of
        ["";
         "    temp.zero();";
         "    temp[""c0,c1,c2,v0,v1,v2""] += 1.0 * H1[""v3,v2""] * T3[""c0,c1,c2,v0,v1,v3""];";
         "    C3[""c0,c1,c2,v0,v1,v2""] += temp[""c0,c1,c2,v0,v1,v2""];";
         "    C3[""c0,c1,c2,v0,v2,v1""] -= temp[""c0,c1,c2,v0,v1,v2""];";
         "    C3[""c0,c1,c2,v2,v0,v1""] += temp[""c0,c1,c2,v0,v1,v2""];";
         "";
         "    temp.zero();";
         "    temp[""c0,c1,c2,v0,v1,v2""] += 1.0 * H1[""c3,c2""] * T3[""c0,c1,c3,v0,v1,v2""];";
         "    C3[""c0,c1,c2,v0,v1,v2""] += temp[""c0,c1,c2,v0,v1,v2""];";
         "    C3[""c0,c2,c1,v0,v1,v2""] -= temp[""c0,c1,c2,v0,v1,v2""];";
         "    C3[""c2,c0,c1,v0,v1,v2""] += temp[""c0,c1,c2,v0,v1,v2""];";
         ""]%string ++ t3_end).
Proof.
  split; [apply ex_t3_printable|]. split; [|split].
  - assert (F : forallb (fun t => forallb (fun x => length (tupper x) =? length (tlower x)) (ttensors t)) (t3_terms ex_t3) = true) by (vm_compute; reflexivity). intros t x Ht Hx. rewrite forallb_forall in F. specialize (F t Ht). rewrite forallb_forall in F. apply Nat.eqb_eq, F, Hx.
  - assert (E : arrays_of ex_t3 = [str "H1"; str "T3"; str "H1"; str "T3"]) by (vm_compute; reflexivity). rewrite E. constructor; [repeat constructor; vm_compute; intuition discriminate|repeat split; absent|split; absent|repeat constructor; absent].
  - do 2 eexists. split; [vm_compute; reflexivity|]. split; [vm_compute; right; right; left; reflexivity|]. split; [vm_compute; reflexivity|]. split; [vm_compute; reflexivity|]. vm_compute. reflexivity.
Qed.
