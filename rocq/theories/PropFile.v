(** C54, C55, C56: directories, template substitution, the space counter. *)
From Coq Require Import Ascii String.
From Verif Require Import PyBase OrderSpec OrderProofs SpaceModel IndicesModel IndicesProofs FileModel FileProofs CounterModel.
Local Notation length := List.length.

(** ** C54 *)
(** C54. with ChangeDir(name): body leaves the working directory as it was, whether the directory can be entered or not and
    whatever the body does (it may change directories, create, remove, fail), unless the body removes the old working
    directory. An exception of the body is passed on. *)
Theorem C54_restores :
  forall (name : list string) (body : fs -> fs * outcome) (s : fs),
  (forall s1, In (cwd s) (dirs s1) -> In (cwd s) (dirs (fst (body s1)))) -> In (cwd s) (dirs s) ->
  cwd (fst (with_change_dir name body s)) = cwd s.
Proof.
  intros name body s B D. unfold with_change_dir. destruct (with_block_cwd (make_change_dir s name) body s) as [H|[[H _]|[_ H]]]; [exact H|exact H|].
  exfalso. apply H. cbn [cd_cwd make_change_dir]. apply B, enter_dirs, D.
Qed.
Print Assumptions C54_restores.
(** The body runs in the named directory, which exists, or not at all; its outcome is the outcome of the statement. *)
Theorem C54_body :
  forall (name : list string) (body : fs -> fs * outcome) (s : fs),
  In (cwd s) (dirs s) -> (forall s1, In (cwd s) (dirs s1) -> In (cwd s) (dirs (fst (body s1)))) ->
  (exists s1, cwd s1 = resolve (cwd s) name /\ In (cwd s1) (dirs s1) /\ (forall p, In p (dirs s1) <-> In p (dirs s) \/ p = resolve (cwd s) name) /\ files s1 = files s /\
     snd (with_change_dir name body s) = snd (body s1) /\ dirs (fst (with_change_dir name body s)) = dirs (fst (body s1))) \/
  (exists e, snd (with_change_dir name body s) = Failed e /\ files (fst (with_change_dir name body s)) = files s /\ dirs (fst (with_change_dir name body s)) = dirs s).
Proof.
  intros name body s D B. unfold with_change_dir, with_block. set (cd := make_change_dir s name). destruct (enter cd s) as [s1 [|e]] eqn:E.
  - left. exists s1. pose proof (enter_done cd s) as C. rewrite E in C. specialize (C eq_refl). cbn [fst] in C. unfold enter in E. cbn [cd cd_dir make_change_dir] in E, C. set (p := resolve (cwd s) name) in *.
    assert (G : In p (dirs s1) /\ (forall q, In q (dirs s1) <-> In q (dirs s) \/ q = p) /\ files s1 = files s).
    { unfold mkdir, chdir in E. destruct (mem_path p (dirs s) || mem_path p (files s)).
      - destruct (mem_path p (dirs s)) eqn:Em; [|discriminate]. injection E as <-. apply mem_path_in in Em. cbn. split; [exact Em|]. split; [|reflexivity]. intros q. split; [auto|]. intros [H| ->]; assumption.
      - destruct (_ || _); [discriminate|]. cbn [dirs] in E. destruct (mem_path p (p :: dirs s)); [|discriminate]. injection E as <-. cbn. split; [auto|]. split; [|reflexivity]. intros q. split; [intros [<-|H]; auto|intros [H| ->]; auto]. }
    destruct G as (G1 & G2 & G3). split; [exact C|]. split; [rewrite C; exact G1|]. split; [exact G2|]. split; [exact G3|].
    assert (In (cwd s) (dirs s1)) by (apply G2; auto). specialize (B s1 H). destruct (body s1) as [s2 r]. cbn [fst snd] in *. unfold exit, chdir. cbn [cd cd_cwd make_change_dir].
    apply mem_path_in in B. rewrite B. cbn. split; reflexivity.
  - right. exists e. split; [reflexivity|]. cbn [fst]. unfold enter, mkdir, chdir in E. cbn [cd cd_dir make_change_dir] in E. set (p := resolve (cwd s) name) in *. destruct (mem_path p (dirs s) || mem_path p (files s)).
    + destruct (mem_path p (dirs s)); [discriminate|]. injection E as <- _. auto.
    + destruct (_ || _); [injection E as <- _; auto|]. cbn [dirs] in E. destruct (mem_path p (p :: dirs s)) eqn:Em; [discriminate|]. exfalso. assert (mem_path p (p :: dirs s) = true) by (apply mem_path_in; left; reflexivity). congruence.
Qed.
Print Assumptions C54_body.

(** What is restored is the directory at construction, not at entry. *)
Theorem C54_entry_refuted :
  exists s name s' body, let cd := make_change_dir s name in
  In (cwd s) (dirs s) /\ fst (chdir s ["tmp"%string]) = s' /\ (forall s1, body s1 = (s1, Done)) /\
  snd (with_block cd body s') = Done /\ cwd (fst (with_block cd body s')) <> cwd s'.
Proof.
  exists (Fs ["home"%string] [[]; ["home"%string]; ["tmp"%string]] [] []), ["out"%string]. eexists. exists (fun s1 => (s1, Done)). cbv zeta. split; [cbn; auto|]. split; [reflexivity|]. split; [reflexivity|]. split; [reflexivity|]. vm_compute. discriminate.
Qed.
Print Assumptions C54_entry_refuted.
(** If the body removes the old directory, the statement fails and the process stays where it was. *)
Theorem C54_removed_refuted :
  exists s name body, In (cwd s) (dirs s) /\ snd (with_change_dir name body s) = Failed "OSError" /\ cwd (fst (with_change_dir name body s)) <> cwd s.
Proof.
  exists (Fs ["home"%string] [[]; ["home"%string]; ["tmp"%string]] [] []), [".."%string; "tmp"%string], (fun s1 => (Fs (cwd s1) [[]; ["tmp"%string]] [] [], Done)). split; [cbn; auto|]. split; [reflexivity|]. vm_compute. discriminate.
Qed.
Print Assumptions C54_removed_refuted.
(** two nested statements, the inner one failing *)
Example C54_example :
  let s := Fs ["home"%string] [[]; ["home"%string]] [["home"%string; "f"%string]] [] in
  let inner := with_change_dir ["f"%string] (fun s1 => (s1, Done)) in
  let outer := with_change_dir ["a"%string] (fun s1 => with_change_dir [".."%string; "f"%string] (fun s2 => (s2, Done)) s1) in
  outer s = (Fs ["home"%string] [["home"%string; "a"%string]; []; ["home"%string]] [["home"%string; "f"%string]] [], Failed "OSError") /\
  inner s = (s, Failed "OSError").
Proof. split; reflexivity. Qed.

(** ** C55 *)
(** A template is a list of pieces: text, and places for keys. *)
Inductive piece : Type := Lit (t : text) | Place (k : text).
Definition text_dec : forall a b : text, {a = b} + {a <> b} := list_eq_dec ascii_dec.
(** the text of a piece when some keys have been replaced already; [subs] lists these keys and their values *)
Fixpoint lookup (k : text) (subs : list (text * text)) : text :=
  match subs with [] => k | (k', v) :: subs' => if text_dec k k' then v else lookup k subs' end.
Definition piece_text (subs : list (text * text)) (x : piece) : text := match x with Lit t => t | Place k => lookup k subs end.
Definition filled (subs : list (text * text)) (l : list piece) : text := concat (map (piece_text subs) l).

(** A word of letters, digits, blanks and _ *)
Definition plain_word (k : text) : Prop :=
  k <> [] /\ Forall (fun a => In a (list_ascii_of_string "ABCDEFGHIJKLMNOPQRSTUVWXYZabcdefghijklmnopqrstuvwxyz0123456789_ ")) k.
Lemma plain_literal k : plain_word k -> literal_key k = true.
Proof.
  intros [N F]. unfold literal_key. destruct k as [|a k]; [contradiction|]. cbn [negb andb]. apply forallb_forall. rewrite Forall_forall in F. intros x Hx. specialize (F x Hx).
  assert (G : forallb literal_char (list_ascii_of_string "ABCDEFGHIJKLMNOPQRSTUVWXYZabcdefghijklmnopqrstuvwxyz0123456789_ ") = true) by reflexivity.
  rewrite forallb_forall in G. exact (G x F).
Qed.
Lemma plain_by_list k : k <> [] -> forallb (fun a => existsb (Ascii.eqb a) (list_ascii_of_string "ABCDEFGHIJKLMNOPQRSTUVWXYZabcdefghijklmnopqrstuvwxyz0123456789_ ")) k = true -> plain_word k.
Proof.
  intros N H. split; [exact N|]. apply Forall_forall. intros a Ha. rewrite forallb_forall in H. specialize (H a Ha). apply existsb_exists in H as (b & Hb & E). apply Ascii.eqb_eq in E. subst b. exact Hb.
Qed.

(** C55. If each key, when its turn comes, occurs nowhere but in its places, the result is the template with every place filled:
    all substitutions at once. *)
Theorem C55_simultaneous :
  forall (subs : list (text * text)) (pieces : list piece),
  NoDup (map fst subs) -> (forall k v, In (k, v) subs -> plain_word k /\ ~ In backslash v) ->
  (forall l1 k v l2 a b, subs = l1 ++ (k, v) :: l2 -> filled l1 pieces = a ++ k ++ b ->
     exists p1 p2, pieces = p1 ++ Place k :: p2 /\ a = filled l1 p1) ->
  multi_gsub subs (filled [] pieces) = Ok (filled subs pieces).
Proof.
  intros subs pieces N V O.
  assert (G : forall l2 l1, subs = l1 ++ l2 -> multi_gsub l2 (filled l1 pieces) = Ok (filled subs pieces)); [|apply (G subs []); reflexivity].
  induction l2 as [|[k v] l2 IH]; intros l1 E; [cbn; rewrite E, app_nil_r; reflexivity|]. cbn [multi_gsub].
  destruct (V k v) as [L B]; [rewrite E; apply in_elt|]. apply plain_literal in L. rewrite L, expand_plain by exact B. cbn [pybind].
  assert (NK : ~ In k (map fst l1)).
  { rewrite E, map_app in N. cbn [map fst] in N. apply NoDup_remove_2 in N. intros H. apply N, in_or_app. auto. }
  assert (K : k <> []) by (destruct k; [discriminate L|discriminate]).
  assert (LK : lookup k l1 = k).
  { clear - NK. induction l1 as [|[k' v'] l1 IH]; [reflexivity|]. cbn [lookup]. cbn [map fst In] in NK. destruct (text_dec k k') as [->|D]; [exfalso; apply NK; auto|]. apply IH. tauto. }
  set (seg := fun x : piece => match x with Lit t => (t, false) | Place k' => if text_dec k' k then (k, true) else (lookup k' l1, false) end).
  assert (ET : forall x, fst (seg x) = piece_text l1 x).
  { intros [t|k']; [reflexivity|]. cbn [seg piece_text]. destruct (text_dec k' k) as [->|D]; [symmetry; exact LK|reflexivity]. }
  assert (EF : forall l, seg_text (map seg l) = filled l1 l) by (intros l; unfold seg_text, filled; rewrite map_map; f_equal; apply map_ext; exact ET).
  rewrite <- EF, (sub_segments k v K).
  - assert (E2 : seg_filled v (map seg pieces) = filled (l1 ++ [(k, v)]) pieces).
    { unfold seg_filled, filled. rewrite map_map. f_equal. apply map_ext. intros [t|k']; [reflexivity|]. cbn [seg piece_text]. destruct (text_dec k' k) as [->|D]; cbn [fst snd].
      - clear - NK. induction l1 as [|[k' v'] l1 IH]; cbn [lookup app]; [destruct (text_dec k k); congruence|]. cbn [map fst In] in NK. destruct (text_dec k k') as [->|D]; [exfalso; apply NK; auto|]. apply IH. tauto.
      - clear - D. induction l1 as [|[k2 v2] l1 IH]; cbn [lookup app]; [destruct (text_dec k' k); congruence|]. destruct (text_dec k' k2); [reflexivity|exact IH]. }
    rewrite E2. apply IH. rewrite E, <- app_assoc. reflexivity.
  - intros sg H Hs. apply in_map_iff in H as (x & <- & _). destruct x as [t|k']; [discriminate|]. cbn [seg] in *. destruct (text_dec k' k); [reflexivity|discriminate].
  - intros a b Ea. rewrite EF in Ea. destruct (O l1 k v l2 a b E Ea) as (p1 & p2 & E1 & E2). exists (map seg p1), (map seg p2). split.
    + rewrite E1, map_app. cbn [map]. f_equal. f_equal. cbn [seg]. destruct (text_dec k k); congruence.
    + rewrite EF. exact E2.
Qed.
Print Assumptions C55_simultaneous.

Definition s2t : string -> text := list_ascii_of_string.
(** forte_templates/ambit_template *)
Definition ambit_template : text :=
  s2t "HEADERS" ++ [newline; newline] ++ s2t "using namespace psi;" ++ [newline; newline] ++ s2t "namespace forte {" ++ [newline; newline] ++
  s2t "CPP_FUNCTIONS" ++ [newline; newline] ++ s2t "} // namespace forte".
(** str.lower on ASCII *)
Definition lower_char (a : ascii) : ascii := let n := nat_of_ascii a in if (65 <=? n) && (n <=? 90) then ascii_of_nat (n + 32) else a.
Definition lower (t : text) : text := map lower_char t.

(** The files written by write_forte_functions.py (lines 83-85, 148-150): for every class name and every function text without
    backslashes the two places of the template are filled and nothing else is changed, even if the text contains the keys. *)
Theorem C55_ambit_template :
  forall namespace func, ~ In backslash namespace -> ~ In backslash func ->
  let header := lower (s2t "#include ""mrdsrg-so/" ++ namespace ++ s2t ".h""") in
  multi_gsub [(s2t "HEADERS", header); (s2t "CPP_FUNCTIONS", func)] ambit_template =
  Ok (header ++ [newline; newline] ++ s2t "using namespace psi;" ++ [newline; newline] ++ s2t "namespace forte {" ++ [newline; newline] ++
      func ++ [newline; newline] ++ s2t "} // namespace forte").
Proof.
  intros namespace func HN HF header.
  assert (LC : forall a, lower_char a <> "C"%char) by (intros a E; unfold lower_char in E; destruct a as [[] [] [] [] [] [] [] []]; vm_compute in E; discriminate).
  assert (LB : forall a, lower_char a = backslash -> a = backslash) by (intros a E; unfold lower_char in E; destruct a as [[] [] [] [] [] [] [] []]; vm_compute in E |- *; try discriminate; reflexivity).
  assert (HC : ~ In "C"%char header) by (unfold header, lower; intros H; apply in_map_iff in H as (a & E & _); exact (LC a E)).
  assert (HB : ~ In backslash header).
  { unfold header, lower. intros H. apply in_map_iff in H as (a & E & H). apply LB in E. subst a. rewrite !in_app_iff in H. destruct H as [H|[H|H]]; [vm_compute in H; intuition discriminate|exact (HN H)|vm_compute in H; intuition discriminate]. }
  clearbody header. cbn [multi_gsub]. change (literal_key (s2t "HEADERS")) with true. change (literal_key (s2t "CPP_FUNCTIONS")) with true. cbn match.
  rewrite !expand_plain by assumption. cbn [pybind]. f_equal. unfold ambit_template.
  set (mid := [newline; newline] ++ s2t "using namespace psi;" ++ [newline; newline] ++ s2t "namespace forte {" ++ [newline; newline]).
  set (tail := [newline; newline] ++ s2t "} // namespace forte").
  transitivity (sub_literal (s2t "CPP_FUNCTIONS") func (sub_literal (s2t "HEADERS") header (s2t "HEADERS" ++ mid ++ s2t "CPP_FUNCTIONS" ++ tail))); [reflexivity|].
  transitivity (header ++ mid ++ func ++ tail); [|reflexivity].
  rewrite sub_match by discriminate. replace (sub_literal (s2t "HEADERS") header (mid ++ s2t "CPP_FUNCTIONS" ++ tail)) with (mid ++ s2t "CPP_FUNCTIONS" ++ tail).
  - rewrite app_assoc. change (s2t "CPP_FUNCTIONS") with ("C"%char :: s2t "PP_FUNCTIONS") at 1. rewrite sub_pass.
    + rewrite <- app_assoc. reflexivity.
    + rewrite in_app_iff. intros [H|H]; [exact (HC H)|]. vm_compute in H. intuition discriminate.
  - symmetry. rewrite <- (app_nil_r (mid ++ _)) at 1. change (s2t "HEADERS") with ("H"%char :: s2t "EADERS"). rewrite sub_pass by (vm_compute; intuition discriminate). apply app_nil_r.
Qed.
Print Assumptions C55_ambit_template.

(** Later keys do rewrite inserted values ... *)
Theorem C55_sequential_refuted :
  exists subs pieces, NoDup (map fst subs) /\ (forall k v, In (k, v) subs -> plain_word k /\ ~ In backslash v) /\
  multi_gsub subs (filled [] pieces) <> Ok (filled subs pieces).
Proof.
  exists [(s2t "NAMESPACE", s2t "my_FUNC_NAME"); (s2t "FUNC_NAME", s2t "f")], [Lit (s2t "void "); Place (s2t "NAMESPACE"); Lit (s2t "::"); Place (s2t "FUNC_NAME")].
  split; [repeat constructor; cbn; intuition discriminate|]. split.
  - intros k v H. cbn [In] in H. destruct H as [H|[H|[]]]; injection H as <- <-; (split; [apply plain_by_list; [discriminate|reflexivity]|vm_compute; intuition discriminate]).
  - vm_compute. discriminate.
Qed.
Print Assumptions C55_sequential_refuted.
(** ... also if no value contains a later key: the key can arise from a value and the text next to it. *)
Theorem C55_no_value_contains_refuted :
  exists subs pieces, NoDup (map fst subs) /\ (forall k v, In (k, v) subs -> plain_word k /\ ~ In backslash v) /\
  (forall k v k' v' a b, In (k, v) subs -> In (k', v') subs -> v <> a ++ k' ++ b) /\
  multi_gsub subs (filled [] pieces) <> Ok (filled subs pieces).
Proof.
  exists [(s2t "A", s2t "X"); (s2t "XY", s2t "Z")], [Place (s2t "A"); Lit (s2t "Y")]. split; [repeat constructor; cbn; intuition discriminate|]. split; [|split].
  - intros k v H. cbn [In] in H. destruct H as [H|[H|[]]]; injection H as <- <-; (split; [apply plain_by_list; [discriminate|reflexivity]|vm_compute; intuition discriminate]).
  - intros k v k' v' a b H H' E. cbn [In] in H, H'. destruct H as [H|[H|[]]]; injection H as <- <-; destruct H' as [H|[H|[]]]; injection H as <- <-; vm_compute in E; destruct a as [|? [|? ?]]; cbn in E; discriminate.
  - vm_compute. discriminate.
Qed.
Print Assumptions C55_no_value_contains_refuted.
(** Backslashes in a value are interpreted: backslash n becomes a line break. *)
Theorem C55_backslash_refuted :
  exists k v s, plain_word k /\ multi_gsub [(k, v)] s = Ok [newline] /\ s = k /\ v = [backslash; "n"%char].
Proof. exists (s2t "A"), [backslash; "n"%char], (s2t "A"). split; [apply plain_by_list; [discriminate|reflexivity]|]. repeat split. Qed.
Print Assumptions C55_backslash_refuted.
Example C55_example :
  let subs := [(s2t "NAMESPACE", s2t "DSRG"); (s2t "NAME", s2t "f")] in
  multi_gsub subs (s2t "void NAMESPACE::NAME();") = Ok (s2t "void DSRG::f();") /\
  filled subs [Lit (s2t "void "); Place (s2t "NAMESPACE"); Lit (s2t "::"); Place (s2t "NAME"); Lit (s2t "();")] = s2t "void DSRG::f();".
Proof. split; reflexivity. Qed.
Example C55_hypotheses :
  let subs := [(s2t "A", s2t "bb"); (s2t "B", s2t "A")] in let pieces := [Place (s2t "A"); Lit (s2t "x"); Place (s2t "B")] in
  (forall l1 k v l2 a b, subs = l1 ++ (k, v) :: l2 -> filled l1 pieces = a ++ k ++ b -> exists p1 p2, pieces = p1 ++ Place k :: p2 /\ a = filled l1 p1) /\
  multi_gsub subs (filled [] pieces) = Ok (s2t "bbxA").
Proof.
  cbv zeta. split; [|reflexivity]. intros l1 k v l2 a b E H. destruct l1 as [|x1 [|x2 l1]]; cbn [app] in E.
  - injection E as <- <- _. exists [], [Lit (s2t "x"); Place (s2t "B")]. split; [reflexivity|]. vm_compute in H. destruct a as [|? [|? [|? [|? a]]]]; cbn in H; try discriminate; reflexivity.
  - injection E as <- <- <- _. exists [Place (s2t "A"); Lit (s2t "x")], []. split; [reflexivity|]. vm_compute in H. destruct a as [|? [|? [|? [|? [|? a]]]]]; cbn in H; try discriminate. injection H as <- <- <- _. reflexivity.
  - injection E as _ _ E. destruct l1; discriminate.
Qed.

(** ** C56 *)
Lemma incr_length k l : length (incr k l) = length l.
Proof. revert k. induction l as [|x l IH]; intros [|k]; cbn; auto. Qed.
Lemma incr_nth k l j : k < length l -> nth j (incr k l) 0 = nth j l 0 + (if j =? k then 1 else 0).
Proof.
  revert k j. induction l as [|x l IH]; intros k j H; [cbn in H; lia|]. destruct k as [|k]; cbn [incr].
  - destruct j; cbn [nth Nat.eqb]; lia.
  - destruct j as [|j]; cbn [nth Nat.eqb]; [lia|]. apply IH. cbn in H. lia.
Qed.
Lemma incr_sum k l : k < length l -> list_sum (incr k l) = S (list_sum l).
Proof.
  revert k. induction l as [|x l IH]; intros [|k] H; cbn [List.length] in H; try lia; cbn [incr]; change (list_sum (?a :: ?b)) with (a + list_sum b); [lia|]. rewrite IH by lia. lia.
Qed.
Lemma priority_inj a b : priority a = priority b -> a = b.
Proof. destruct a as [[] []], b as [[] []]; cbn; intros; try reflexivity; lia. Qed.
Definition in_range (t : itype) (i : idx) : Prop := t = SpinOrbital -> lbeta (fst i) = false.
Lemma priority_range t i : in_range t i -> priority (fst i) < n_spaces t.
Proof. intros H. unfold in_range in H. destruct i as [[b s] n]. cbn in *. unfold priority. cbn. destruct t, b, s; cbn; try lia; exfalso; specialize (H eq_refl); discriminate. Qed.
Definition label_dec (x y : label) : {x = y} + {x <> y}.
Proof. repeat decide equality. Defined.
Definition with_label (s : label) (l : list idx) : nat := length (filter (fun i => if label_dec (fst i) s then true else false) l).
Lemma count_spaces_ok t l counts : (forall i, In i l -> in_range t i) -> length counts = n_spaces t ->
  exists r, count_spaces (n_spaces t) l counts = Ok r /\ length r = n_spaces t /\ list_sum r = list_sum counts + length l /\
    forall s, nth (priority s) r 0 = nth (priority s) counts 0 + with_label s l.
Proof.
  revert counts. induction l as [|i l IH]; intros counts H L; cbn [count_spaces].
  - exists counts. cbn. repeat split; auto; intros; lia.
  - pose proof (priority_range t i (H i (or_introl eq_refl))) as R. apply Nat.ltb_lt in R. rewrite R. apply Nat.ltb_lt in R.
    destruct (IH (incr (priority (fst i)) counts)) as (r & E & Lr & Sr & Nr); [intros j J; apply H; right; exact J|rewrite incr_length; exact L|].
    exists r. split; [exact E|]. split; [exact Lr|]. split; [rewrite Sr, incr_sum by lia; cbn; lia|]. intros s. rewrite Nr, incr_nth by lia. unfold with_label. cbn [filter].
    destruct (label_dec (fst i) s) as [<-|D]; [rewrite Nat.eqb_refl; cbn [List.length]; lia|]. destruct (Nat.eqb_spec (priority s) (priority (fst i))) as [Q|Q]; [exfalso; apply D; symmetry; apply priority_inj, Q|lia].
Qed.
Lemma nth_repeat_0 n j : nth j (repeat 0 n) 0 = 0.
Proof. revert j. induction n as [|n IH]; intros [|j]; cbn; auto. Qed.
Lemma sum_repeat_0 n : list_sum (repeat 0 n) = 0.
Proof. induction n; cbn; auto. Qed.

(** a well-formed object: the constructor of its indices accepts them *)
Definition accepted (t : sided) : Prop := forall i, In i (s_upper t ++ s_lower t) -> in_range (s_type t) i.
(** The first part of C56 is false: two tensors of the same type that cannot be counted, and indeed none can: the attribute that
    is read does not exist. *)
Theorem C56_construction_refuted :
  exists t1 t2, accepted t1 /\ accepted t2 /\ s_type t1 = s_type t2 /\ s_upper t1 <> [] /\ space_counter t1 t2 = Raise AttributeError.
Proof.
  exists (Sided SpinOrbital [(Lab false Sp, 0)] [(Lab false Sh, 0)]), (Sided SpinOrbital [(Lab false Sh, 0)] [(Lab false Sp, 0)]).
  split; [|split; [|split; [reflexivity|split; [discriminate|reflexivity]]]]; intros i Hi; cbn in Hi; intuition (subst; intros ?; reflexivity).
Qed.
Print Assumptions C56_construction_refuted.
Theorem C56_never_constructed : forall t1 t2, space_counter t1 t2 = Raise AttributeError.
Proof. intros t1 t2. reflexivity. Qed.
Print Assumptions C56_never_constructed.

(** the indices of the first list that are in the second *)
Definition shared (a b : list idx) : list idx := filter (fun i => if in_dec idx_eq_dec i b then true else false) a.
Lemma common_shared a b : common a b = shared a b.
Proof.
  unfold common, shared. induction a as [|i a IH]; [reflexivity|]. cbn [filter]. rewrite IH. destruct (in_dec idx_eq_dec i b) as [H|H]; [rewrite (proj2 (mem_idx_in i b) H)|rewrite (proj2 (mem_idx_notin i b) H)]; reflexivity.
Qed.

(** With the name the attribute has now the counter would do what it says: objects of the same class of indices are counted;
    the entry of a space is the number of indices of this space that the upper indices of the first share with the lower ones
    of the second, and the other way round. *)
Theorem C56_counts :
  forall t1 t2, accepted t1 -> accepted t2 ->
  (s_type t1 <> s_type t2 -> space_counter_reading "indices_type" t1 t2 = Raise ValueError) /\
  (s_type t1 = s_type t2 -> exists c, space_counter_reading "indices_type" t1 t2 = Ok c /\
    (forall s, nth (priority s) (c_upper c) 0 = with_label s (shared (s_upper t1) (s_lower t2))) /\
    (forall s, nth (priority s) (c_lower c) 0 = with_label s (shared (s_lower t1) (s_upper t2))) /\
    c_nupper c = length (shared (s_upper t1) (s_lower t2)) /\ c_nlower c = length (shared (s_lower t1) (s_upper t2)) /\
    length (c_upper c) = n_spaces (s_type t1) /\ length (c_lower c) = n_spaces (s_type t1)).
Proof.
  intros t1 t2 H1 H2. split.
  - intros D. unfold space_counter_reading. cbn [get_attribute pybind]. change (existsb (String.eqb "indices_type") attributes) with true. cbn match. cbn [pybind]. destruct (s_type t1), (s_type t2); try reflexivity; contradiction.
  - intros E. assert (R : space_counter_reading "indices_type" t1 t2 = count_common t1 t2).
    { unfold space_counter_reading, get_attribute. change (existsb (String.eqb "indices_type") attributes) with true. cbn match. cbn [pybind]. rewrite <- E. destruct (s_type t1); reflexivity. }
    rewrite R. unfold count_common. rewrite !common_shared.
    destruct (count_spaces_ok (s_type t1) (shared (s_upper t1) (s_lower t2)) (repeat 0 (n_spaces (s_type t1)))) as (u & Eu & Lu & Su & Nu); [|apply repeat_length|].
    { intros i Hi. apply filter_In in Hi as [Hi _]. apply H1, in_or_app. auto. }
    destruct (count_spaces_ok (s_type t1) (shared (s_lower t1) (s_upper t2)) (repeat 0 (n_spaces (s_type t1)))) as (l & El & Ll & Sl & Nl); [|apply repeat_length|].
    { intros i Hi. apply filter_In in Hi as [Hi _]. apply H1, in_or_app. auto. }
    rewrite Eu. cbn [pybind]. rewrite El. cbn [pybind]. eexists. split; [reflexivity|]. cbn [c_upper c_lower c_nupper c_nlower]. rewrite Su, Sl, sum_repeat_0.
    repeat split; auto; intros s; [rewrite Nu|rewrite Nl]; rewrite nth_repeat_0; reflexivity.
Qed.
Print Assumptions C56_counts.

(** Counters as they are built: the totals are the sums. *)
Definition totals_ok (c : counter) : Prop := c_nupper c = list_sum (c_upper c) /\ c_nlower c = list_sum (c_lower c).
Lemma counts_lawful : lawful counts_ord.
Proof. apply pair_lawful; apply list_lawful, nat_lawful. Qed.
Lemma counts_ext : extensional counts_ord.
Proof. apply pair_ext; apply list_ext, nat_ext. Qed.
Lemma sized_lawful : lawful sized_ord.
Proof. apply pair_lawful; [apply nat_lawful|apply counts_lawful]. Qed.
Lemma sized_eq a b : totals_ok a -> totals_ok b -> peq sized_ord (c_size a, counts a) (c_size b, counts b) = peq counts_ord (counts a) (counts b).
Proof.
  intros (A1 & A2) (B1 & B2). unfold sized_ord at 1. cbn [peq pair_ord fst snd]. destruct (peq counts_ord (counts a) (counts b)) eqn:E; [|apply andb_false_r]. apply counts_ext in E. unfold counts in E. injection E as E1 E2.
  unfold c_size. rewrite A1, A2, B1, B2, E1, E2. cbn. rewrite Nat.eqb_refl. reflexivity.
Qed.
(** The comparison methods of counters over the same spaces never fail and form a total order; == is equality of the counts,
    and < looks at the number of shared indices first. Counters over different spaces cannot be compared. *)
Theorem C56_order :
  forall a b c, totals_ok a -> totals_ok b -> totals_ok c -> length (c_upper a) = length (c_upper b) -> length (c_upper b) = length (c_upper c) ->
  (exists lt eq gt, counter_lt a b = Ok lt /\ counter_eq a b = Ok eq /\ counter_gt a b = Ok gt /\ counter_ne a b = Ok (negb eq) /\
     counter_le a b = Ok (lt || eq) /\ counter_ge a b = Ok (gt || eq) /\ counter_lt b a = Ok gt /\
     (eq = true <-> c_upper a = c_upper b /\ c_lower a = c_lower b) /\
     ((lt = true /\ eq = false /\ gt = false) \/ (lt = false /\ eq = true /\ gt = false) \/ (lt = false /\ eq = false /\ gt = true))) /\
  (counter_lt a b = Ok true -> counter_lt b c = Ok true -> counter_lt a c = Ok true) /\
  (list_sum (c_upper a ++ c_lower a) < list_sum (c_upper b ++ c_lower b) -> counter_lt a b = Ok true).
Proof.
  intros a b c Ha Hb Hc Lab Lbc. assert (C : forall X (r : X) x y, length (c_upper x) = length (c_upper y) -> checked x y r = Ok r) by (intros X r x y E; unfold checked; rewrite E, Nat.eqb_refl; reflexivity).
  pose proof sized_lawful as SL. split; [|split].
  - exists (plt sized_ord (c_size a, counts a) (c_size b, counts b)), (peq counts_ord (counts a) (counts b)), (pgt sized_ord (c_size a, counts a) (c_size b, counts b)).
    unfold counter_lt, counter_eq, counter_gt, counter_ne, counter_le, counter_ge. rewrite !C by congruence. rewrite (lw_le _ SL), (lw_ge _ SL), (sized_eq a b Ha Hb), (lw_gt _ SL). repeat (split; [reflexivity|]).
    split.
    + rewrite (counts_ext (counts a) (counts b)). unfold counts. split; [intros E; injection E; auto|intros [-> ->]; reflexivity].
    + pose proof (lw_tri _ SL (c_size a, counts a) (c_size b, counts b)) as T. rewrite (sized_eq a b Ha Hb), (lw_gt _ SL) in T. exact T.
  - unfold counter_lt. rewrite !C by congruence. intros H1 H2. injection H1 as H1. injection H2 as H2. rewrite (lw_lt_tran _ SL _ _ _ H1 H2). reflexivity.
  - intros H. unfold counter_lt. rewrite C by congruence. f_equal. destruct Ha as [A1 A2], Hb as [B1 B2]. rewrite !list_sum_app in H. unfold sized_ord, pair_ord, pair_op. cbn [plt fst snd peq nat_ord]. unfold c_size. rewrite A1, A2, B1, B2.
    destruct (Nat.eqb_spec (list_sum (c_upper a) + list_sum (c_lower a)) (list_sum (c_upper b) + list_sum (c_lower b))); [lia|]. apply Nat.ltb_lt. exact H.
Qed.
Print Assumptions C56_order.
Theorem C56_order_lengths :
  forall a b, length (c_upper a) <> length (c_upper b) -> counter_lt a b = Raise ValueError /\ counter_eq a b = Raise ValueError.
Proof. intros a b D. unfold counter_lt, counter_eq, checked. destruct (Nat.eqb_spec (length (c_upper a)) (length (c_upper b))); [contradiction|]. auto. Qed.
Print Assumptions C56_order_lengths.

(** counting the other way round is the transposed counter *)
Theorem C56_transpose :
  forall t1 t2 c c', accepted t1 -> accepted t2 -> NoDup (s_upper t1) -> NoDup (s_lower t1) -> NoDup (s_upper t2) -> NoDup (s_lower t2) ->
  space_counter_reading "indices_type" t1 t2 = Ok c -> space_counter_reading "indices_type" t2 t1 = Ok c' -> c' = transpose c.
Proof.
  intros t1 t2 c c' H1 H2 N1 N2 N3 N4 E E'.
  assert (ET : s_type t1 = s_type t2).
  { destruct (C56_counts t1 t2 H1 H2) as [F _]. destruct (s_type t1) eqn:E1, (s_type t2) eqn:E2; try reflexivity; exfalso; rewrite F in E by congruence; discriminate. }
  destruct (C56_counts t1 t2 H1 H2) as [_ F]. destruct (F ET) as (c0 & E0 & U & L & NU & NL & LU & LL). rewrite E in E0. injection E0 as <-.
  destruct (C56_counts t2 t1 H2 H1) as [_ F']. destruct (F' (eq_sym ET)) as (c0 & E0 & U' & L' & NU' & NL' & LU' & LL'). rewrite E' in E0. injection E0 as <-.
  assert (P : forall x y : list idx, NoDup x -> NoDup y -> Permutation (shared x y) (shared y x)).
  { intros x y Nx Ny. apply NoDup_Permutation; [apply NoDup_filter, Nx|apply NoDup_filter, Ny|]. intros i. unfold shared. rewrite !filter_In. destruct (in_dec idx_eq_dec i x), (in_dec idx_eq_dec i y); intuition discriminate. }
  assert (W : forall s x y, Permutation x y -> with_label s x = with_label s y).
  { intros s x y Q. unfold with_label. apply Permutation_length. induction Q; cbn; try constructor; repeat match goal with |- context [if ?b then _ else _] => destruct b end; try constructor; auto; try (eapply perm_trans; eassumption); try reflexivity; cbn; repeat match goal with |- context [if ?b then _ else _] => destruct b end; try constructor; try reflexivity; auto. }
  assert (X : forall x y, length x = n_spaces (s_type t1) -> length y = n_spaces (s_type t1) -> (forall s, in_range (s_type t1) (s, 0) -> nth (priority s) x 0 = nth (priority s) y 0) -> x = y).
  { intros x y Lx Ly Q. apply (nth_ext x y 0 0); [congruence|]. intros j J. rewrite Lx in J.
    assert (B : exists s, priority s = j /\ in_range (s_type t1) (s, 0)).
    { destruct (s_type t1) eqn:Et; cbn in J; do 12 (destruct j as [|j]; [first [exists (Lab false Sg); split; [reflexivity|intros ?; reflexivity]|exists (Lab false Sp); split; [reflexivity|intros ?; reflexivity]|exists (Lab false Sh); split; [reflexivity|intros ?; reflexivity]|exists (Lab false Sv); split; [reflexivity|intros ?; reflexivity]|exists (Lab false Sc); split; [reflexivity|intros ?; reflexivity]|exists (Lab false Sa); split; [reflexivity|intros ?; reflexivity]|exists (Lab true Sg); split; [reflexivity|intros ?; discriminate]|exists (Lab true Sp); split; [reflexivity|intros ?; discriminate]|exists (Lab true Sh); split; [reflexivity|intros ?; discriminate]|exists (Lab true Sv); split; [reflexivity|intros ?; discriminate]|exists (Lab true Sc); split; [reflexivity|intros ?; discriminate]|exists (Lab true Sa); split; [reflexivity|intros ?; discriminate]|exfalso; lia]|]); exfalso; lia. }
    destruct B as (s & <- & Rs). apply Q. exact Rs. }
  unfold transpose. destruct c as [u l nu nl], c' as [u' l' nu' nl']. cbn [c_upper c_lower c_nupper c_nlower] in *. f_equal.
  - apply X; [congruence|congruence|]. intros s _. rewrite U', L. apply W, P; assumption.
  - apply X; [congruence|congruence|]. intros s _. rewrite L', U. apply W, P; assumption.
  - rewrite NU', NL. apply Permutation_length, P; assumption.
  - rewrite NL', NU. apply Permutation_length, P; assumption.
Qed.
Print Assumptions C56_transpose.
Example C56_example :
  let x s n : idx := (Lab false s, n) in
  let t1 := Sided SpinOrbital [x Sp 0; x Sg 1] [x Sh 0; x Sc 1] in let t2 := Sided SpinOrbital [x Sh 0; x Sa 1] [x Sp 0; x Sg 1] in
  accepted t1 /\ accepted t2 /\ space_counter_reading "indices_type" t1 t2 = Ok (Counter [1; 1; 0; 0; 0; 0] [0; 0; 1; 0; 0; 0] 2 1).
Proof. cbv zeta. split; [|split; [|reflexivity]]; intros i Hi; cbn in Hi; intuition (subst; intros ?; reflexivity). Qed.
