(** The function of save_direct_t3. *)
From Coq Require Import Ascii String ZArith QArith Qcanon Lia Bool Ring_theory Ring.
From Verif Require Import PyBase SortProofs SpaceModel IndexModel IndexProofs IndicesModel IterProofs IndicesProofs ElemModel MacroModel TermModel ValueSpec ValueProofs TermSpec SumProofs TermProofs SymmetryModel CombineModel CombineProofs PermuteModel PermuteProofs OpenProofs RenameProofs TextProofs
  AmbitModel AmbitSpec AmbitText AmbitPerm AmbitValue AmbitDriver AmbitMain FileModel FileProofs PrintModel PrintSpec PrintProofs FillProofs.
Local Close Scope Q_scope.
Local Close Scope Qc_scope.
Local Open Scope nat_scope.
Local Notation length := List.length.

(** ** No backslashes *)
Definition plain (s : list ascii) : Prop := ~ In backslash s.
Lemma plain_app a b : plain a -> plain b -> plain (a ++ b).
Proof. unfold plain. rewrite in_app_iff. tauto. Qed.
Lemma plain_cons a b : a <> backslash -> plain b -> plain (a :: b).
Proof. unfold plain. cbn. intuition congruence. Qed.
Lemma plain_concat l : Forall plain l -> plain (concat l).
Proof. induction 1; [intros []|]. cbn [concat]. apply plain_app; assumption. Qed.
Lemma str_plain (s : string) : forallb (fun a => negb (Ascii.eqb a backslash)) (str s) = true -> plain (str s).
Proof. intros H Q. rewrite forallb_forall in H. apply H in Q. rewrite Ascii.eqb_refl in Q. discriminate. Qed.
Ltac plain_str := apply str_plain; vm_compute; reflexivity.
Ltac pp := repeat match goal with |- plain (_ ++ _) => apply plain_app end.
Lemma decimal_plain n : plain (decimal n).
Proof. intros H. apply decimal_digits in H. vm_compute in H. discriminate. Qed.
Lemma join_plain (sep : text) l : plain sep -> Forall plain l -> plain (join sep l).
Proof. intros Hs. destruct l as [|a l]; intros F; [intros []|]. rewrite join_cons. inversion F; subst. apply plain_app; [assumption|]. rewrite flat_map_concat_map. apply plain_concat, Forall_map. revert H2. apply Forall_impl. intros x Hx. apply plain_app; assumption. Qed.
Lemma indices_plain l : plain (indices_str l).
Proof.
  apply join_plain; [vm_compute; intuition discriminate|]. apply Forall_forall. intros s Hs. apply in_map_iff in Hs. destruct Hs as (i & <- & _). rewrite index_name_chars. apply plain_cons; [|apply decimal_plain]. destruct (fst i) as [[] []]; vm_compute; discriminate.
Qed.
Lemma array_plain name n m : plain name -> plain (array_name name n m).
Proof. intros H. unfold array_name. destruct (n =? m); pp; auto using decimal_plain; plain_str. Qed.
Lemma access_plain a : plain (a_array a) -> plain (access_text a).
Proof.
  intros H. unfold access_text. apply plain_app; [exact H|].
  assert (G : plain (str "[""" ++ indices_str (a_first a) ++ str "," ++ indices_str (a_second a) ++ str """]")) by (pp; auto using indices_plain; plain_str).
  destruct (a_first a), (a_second a); try exact G. intros [].
Qed.
Lemma z_plain z : plain (z_text z).
Proof. unfold z_text. destruct (z <? 0)%Z; [apply plain_cons; [vm_compute; discriminate|]|]; apply decimal_plain. Qed.
Lemma number_plain c : plain (number_text c).
Proof. unfold number_text. destruct (Pos.eqb _ 1); pp; auto using z_plain; plain_str. Qed.
Definition name_plain (x : tensor) : Prop := plain (list_ascii_of_string (tname x)).
Lemma target_plain n : plain (target_name n).
Proof. unfold target_name. pp; [plain_str|apply decimal_plain]. Qed.
Lemma term_stmts_plain n t last l : codable n t -> Forall name_plain (ttensors t) -> term_stmts last t = Ok l -> Forall (fun s => plain (stmt_text s)) l.
Proof.
  intros C N E. destruct (term_stmts_ok n t last C) as (perms & _ & E' & _). rewrite E in E'. assert (EL := f_equal (fun r => match r with Ok x => x | Raise _ => l end) E'). cbv beta iota in EL. clear E'. rewrite EL. clear EL E.
  assert (FP : plain (join (str " * ") (map access_text (factors t)))).
  { apply join_plain; [plain_str|]. apply Forall_map. unfold factors. apply Forall_map. revert N. apply Forall_impl. intros x Hx. apply access_plain. apply array_plain. exact Hx. }
  assert (G : forall name, plain name -> plain (stmt_text (SContract (on_op name (tsq t)) (entry_coeff t (n_perm t)) (factors t)))).
  { intros name Hn. cbn [stmt_text]. generalize (entry_coeff t (n_perm t)). intros c. pp; try plain_str; [apply access_plain, Hn|apply number_plain|exact FP]. }
  assert (TP : plain temp_name) by (unfold temp_name; plain_str).
  destruct (n_perm t =? 1); [constructor; [apply G, target_plain|constructor]|]. constructor; [apply G, TP|]. destruct last; [|constructor]. apply Forall_map. apply Forall_forall. intros [[s a] b] _. cbn [stmt_text]. pp; try plain_str; [apply access_plain, target_plain|destruct (s =? 1)%Z; plain_str|apply access_plain, TP].
Qed.
Lemma lines_plain l : Forall (fun s => plain (stmt_text s)) l -> plain (lines l).
Proof. intros F. unfold lines. rewrite flat_map_concat_map. apply plain_concat, Forall_map. revert F. apply Forall_impl. intros s Hs. apply plain_cons; [vm_compute; discriminate|]. apply plain_app; [plain_str|exact Hs]. Qed.
Definition good_terms (ts : list term) : Prop := Forall (fun t => (exists n, codable n t) /\ Forall name_ok (ttensors t) /\ Forall name_plain (ttensors t)) ts.
Lemma group_plain b p ts g : good_terms ts -> group_stmts b p false ts = Ok g -> Forall (fun s => plain (stmt_text s)) g.
Proof.
  intros F E. unfold group_stmts in E. match type of E with pybind (pymap ?f ?l) _ = _ => destruct (pymap f l) as [ls|] eqn:El; [|discriminate] end. cbn [pybind] in E. injection E as <-. apply Forall_app. split.
  - destruct ts; [constructor|]. unfold start_stmts. destruct p; repeat constructor. cbn [stmt_text]. plain_str.
  - apply Forall_concat. apply pymap_forall2 in El. apply Forall_forall. intros l Hl. destruct (forall2_in_r _ _ _ _ El Hl) as ([i t] & Ht & Et). cbn [fst snd] in Et. apply AmbitText.enumerate_in in Ht. assert (It : In t ts) by apply Ht. destruct (proj1 (Forall_forall _ _) F t It) as ((n & C) & _ & NP). apply (term_stmts_plain n t _ l C NP Et).
Qed.
Lemma groups_false b b' row : groups_stmts b row false = groups_stmts b' row false.
Proof. induction row as [|[p ts] row IH]; [reflexivity|]. cbn [groups_stmts andb]. rewrite IH. unfold group_stmts, start_stmts. destruct p; reflexivity. Qed.
Lemma groups_plain b row : forall gs, Forall (fun e => good_terms (snd e)) row -> groups_stmts b row false = Ok gs -> plain (concat (map (fun g => lines g ++ [nl]) gs)).
Proof.
  induction row as [|[p ts] row IH]; intros gs F E; [injection E as <-; intros []|]. inversion F; subst. cbn [groups_stmts andb] in E. destruct (group_stmts b p false ts) as [g|] eqn:Eg; [|discriminate]. cbn [pybind] in E. destruct (groups_stmts b row false) as [gs'|] eqn:Er; [|discriminate]. cbn [pybind] in E. injection E as <-.
  cbn [map concat]. apply plain_app; [apply plain_app; [apply lines_plain, (group_plain b p ts g); assumption|intros [Q|[]]; vm_compute in Q; discriminate]|apply IH; [assumption|reflexivity]].
Qed.
Lemma term_stmts_clean n t last l : codable n t -> Forall name_ok (ttensors t) -> term_stmts last t = Ok l -> Forall stmt_clean l.
Proof. intros C N E. destruct (ambit_total n (str "C") (negb last) false true t C) as [s Es]. destruct (term_text last t s N Es) as (l' & tl & E' & _ & H & _). rewrite E in E'. assert (EL : l = l') by congruence. rewrite EL. exact H. Qed.
Lemma group_clean b p ts g : good_terms ts -> group_stmts b p false ts = Ok g -> Forall stmt_clean g.
Proof.
  intros F E. unfold group_stmts in E. match type of E with pybind (pymap ?f ?l) _ = _ => destruct (pymap f l) as [ls|] eqn:El; [|discriminate] end. cbn [pybind] in E. injection E as <-. apply Forall_app. split.
  - destruct ts; [constructor|]. unfold start_stmts. destruct p; [constructor|]. exact (start_clean [] (str "P") false (fun H => H)).
  - apply Forall_concat. apply pymap_forall2 in El. apply Forall_forall. intros l Hl. destruct (forall2_in_r _ _ _ _ El Hl) as ([i t] & Ht & Et). cbn [fst snd] in Et. apply AmbitText.enumerate_in in Ht. assert (It : In t ts) by apply Ht. destruct (proj1 (Forall_forall _ _) F t It) as ((n & C) & NO & _). apply (term_stmts_clean n t _ l C NO Et).
Qed.
Lemma groups_lines b row : forall gs, Forall (fun e => good_terms (snd e)) row -> groups_stmts b row false = Ok gs -> code_lines (concat (map (fun g => lines g ++ [nl]) gs)) = map stmt_text (concat gs).
Proof.
  induction row as [|[p ts] row IH]; intros gs F E; [injection E as <-; reflexivity|]. inversion F; subst. cbn [groups_stmts andb] in E. destruct (group_stmts b p false ts) as [g|] eqn:Eg; [|discriminate]. cbn [pybind] in E. destruct (groups_stmts b row false) as [gs'|] eqn:Er; [|discriminate]. cbn [pybind] in E. injection E as <-.
  cbn [map concat]. rewrite <- app_assoc. cbn [app]. rewrite code_app, (IH gs') by (assumption || reflexivity). rewrite map_app. f_equal. pose proof (code_lines_lines g (group_clean b p ts g H1 Eg) []) as X. exact X.
Qed.
Definition square (t : term) : Prop := Forall (fun x => length (tupper x) = length (tlower x)) (ttensors t).
Lemma names_total t : square t -> exists l, tensor_names t = Ok l.
Proof. intros F. apply pymap_total. intros x Hx. rewrite (proj2 (Nat.eqb_eq _ _) (proj1 (Forall_forall _ _) F x Hx)). eexists. reflexivity. Qed.
Lemma perms_code_total b row : forall i, Forall (fun e => good_terms (snd e) /\ Forall square (snd e)) row -> exists r, perms_code b row i = Ok r.
Proof.
  induction row as [|[p ts] row IH]; intros i F; [eexists; reflexivity|]. inversion F as [|? ? [G Q] F']; subst. cbn [snd] in G, Q. cbn [perms_code].
  destruct (pymap_total tensor_names ts) as [ns En]; [intros t Ht; apply names_total, (proj1 (Forall_forall _ _) Q t Ht)|]. rewrite En. cbn [pybind].
  assert (X : exists o, terms_code b p ts i = Ok o).
  { unfold terms_code. match goal with |- context [pymap ?f ?l] => destruct (pymap_total f l) as [ls El] end; [|rewrite El; eexists; reflexivity]. intros [k t] Hk. apply AmbitText.enumerate_in in Hk. assert (It : In t ts) by apply Hk. destruct (proj1 (Forall_forall _ _) G t It) as ((n & C) & _). cbn [fst snd]. unfold term_code. destruct (ambit_total n (str "C") (negb (last_index ts k)) false true t C) as [s Es]. rewrite Es. eexists. reflexivity. }
  destruct X as [o Eo]. rewrite Eo. cbn [pybind]. destruct (IH (i && match p, ts with [], _ => true | _, [] => true | _, _ => false end) F') as [[[o' n'] f'] Er]. rewrite Er. eexists. reflexivity.
Qed.
Lemma filter_none {X} (p : X -> bool) l : (forall x, In x l -> p x = false) -> filter p l = [].
Proof. induction l as [|x l IH]; intros H; [reflexivity|]. cbn [filter]. rewrite (H x (or_introl eq_refl)). apply IH. intros y Hy. apply H. right. exact Hy. Qed.
Lemma filter_all {X} (p : X -> bool) l : (forall x, In x l -> p x = true) -> filter p l = l.
Proof. induction l as [|x l IH]; intros H; [reflexivity|]. cbn [filter]. rewrite (H x (or_introl eq_refl)). f_equal. apply IH. intros y Hy. apply H. right. exact Hy. Qed.
Lemma row_filter (b : text) (row : inner) (cat : list (text * inner)) : NoDup (map fst cat) -> (forall s r t, In (s, r) cat -> In t (row_terms (s, r)) -> space_str t = s) -> In (b, row) cat ->
  filter (fun t => text_eqb (space_str t) b) (concat (map row_terms cat)) = row_terms (b, row).
Proof.
  intros N K H. induction cat as [|[s r] cat IH]; [destruct H|]. cbn [map concat]. rewrite filter_app. cbn [map fst] in N. inversion N as [|? ? Ns N']; subst. destruct H as [[= -> ->]|H].
  - rewrite filter_all by (intros t Ht; apply text_eqb_eq; apply (K b row t); [left; reflexivity|exact Ht]). rewrite filter_none; [apply app_nil_r|]. intros t Ht. destruct (text_eqb (space_str t) b) eqn:E; [|reflexivity]. exfalso. apply text_eqb_eq in E. apply in_concat in Ht. destruct Ht as (l & Hl & Ht). apply in_map_iff in Hl. destruct Hl as ([s' r'] & <- & Hin). apply Ns. pose proof (K s' r' t (or_intror Hin) Ht) as Q. apply in_map_iff. exists (s', r'). split; [cbn; congruence|exact Hin].
  - rewrite filter_none; [cbn [app]; apply IH; [exact N'|intros s' r' t Hin; apply K; right; exact Hin|exact H]|]. intros t Ht. destruct (text_eqb (space_str t) b) eqn:E; [|reflexivity]. exfalso. apply text_eqb_eq in E. pose proof (K s r t (or_introl eq_refl) Ht) as Q. apply Ns. apply in_map_iff. exists (b, row). split; [cbn; congruence|exact H].
Qed.
