(** The template of save_direct_t3 is filled as intended. *)
From Coq Require Import Ascii String Lia.
From Verif Require Import PyBase SortProofs SpaceModel IndexModel IndicesModel ElemModel MacroModel TermModel SymmetryModel CombineModel PermuteModel AmbitModel FileModel FileProofs PrintModel PrintSpec.
Local Notation length := List.length.

Fixpoint occursb (k s : list ascii) : bool :=
  match after k s with Some _ => true | None => match s with [] => false | _ :: s' => occursb k s' end end.
Lemma occursb_ok k s : occursb k s = false -> ~ occurs k s.
Proof.
  induction s as [|c s IH]; cbn [occursb]; intros E (a & b & Q).
  - destruct (after k []) eqn:X; [discriminate|]. apply (after_none _ _ X b). destruct a; [exact Q|discriminate].
  - destruct (after k (c :: s)) eqn:X; [discriminate|]. destruct a as [|c' a]; [apply (after_none _ _ X b); exact Q|]. injection Q as -> Q. apply (IH E). exists a, b. exact Q.
Qed.
Ltac absent := apply occursb_ok; vm_compute; reflexivity.
Lemma occurs_tail k c s : ~ occurs k (c :: s) -> ~ occurs k s.
Proof. intros H (a & b & Q). apply H. exists (c :: a), b. cbn. congruence. Qed.
Lemma sub_none k v s : k <> [] -> ~ occurs k s -> sub_literal k v s = s.
Proof.
  intros K. induction s as [|c s IH]; intros H; [reflexivity|]. rewrite sub_nomatch; [|exact K|intros r E; apply H; exists [], r; exact E]. f_equal. apply IH. exact (occurs_tail _ _ _ H).
Qed.
(** c is not in the key *)
Lemma sub_skip k v x c y : k <> [] -> ~ In c k -> ~ occurs k x -> sub_literal k v (x ++ c :: y) = x ++ c :: sub_literal k v y.
Proof.
  intros K NC. induction x as [|a x IH]; intros H; cbn [app].
  - rewrite sub_nomatch; [reflexivity|exact K|]. intros r E. destruct k as [|b k]; [congruence|]. cbn [app] in E. injection E as -> _. apply NC. left. reflexivity.
  - rewrite sub_nomatch; [f_equal; apply IH; exact (occurs_tail _ _ _ H)|exact K|]. intros r E. change (a :: x ++ c :: y) with ((a :: x) ++ c :: y) in E. clear IH.
    assert (G : forall k x, x ++ c :: y = k ++ r -> ~ In c k -> exists z, x = k ++ z).
    { clear. induction k as [|b k IH]; intros x E N; [exists x; reflexivity|]. destruct x as [|a x]; cbn [app] in E; injection E as -> E; [exfalso; apply N; left; reflexivity|]. destruct (IH x E) as [z ->]; [intros Q; apply N; right; exact Q|]. exists z. reflexivity. }
    destruct (G k (a :: x) E NC) as [z Ez]. apply H. exists [], z. exact Ez.
Qed.
Lemma sub_char k v c y : k <> [] -> ~ In c k -> sub_literal k v (c :: y) = c :: sub_literal k v y.
Proof. intros K N. apply (sub_skip k v [] c y K N). intros (a & b & Q). destruct a; [|discriminate]. destruct k; [congruence|discriminate]. Qed.
Lemma occurs_snoc k d k' x c : k = k' ++ [d] -> d <> c -> occurs k (x ++ [c]) -> occurs k x.
Proof.
  intros -> D (a & b & Q).
  destruct b as [|e0 b0].
  - exfalso. rewrite app_nil_r, app_assoc in Q. apply app_inj_tail in Q as [_ Q]. congruence.
  - destruct (@exists_last _ (e0 :: b0)) as (b' & e & Eb); [discriminate|]. rewrite Eb in Q. rewrite !app_assoc in Q. apply app_inj_tail in Q as [Q _]. exists a, b'. rewrite !app_assoc. exact Q.
Qed.

(** ** The template *)
Definition t3_m1 : list ascii := [nl; nl] ++ str "using namespace psi;" ++ [nl; nl] ++ str "namespace forte {" ++ [nl; nl] ++ str "void ".
Definition t3_d1 : list ascii := str ") {" ++ [nl] ++
  str "    BlockedTensor C3 = ambit::BlockedTensor::build(ambit::CoreTensor, ""T3 new"", {""cccvvv""});" ++ [nl] ++
  str "    BlockedTensor temp = ambit::BlockedTensor::build(ambit::CoreTensor, ""temp"", {""cccvvv""});" ++ [nl; nl] ++ str "   ".
Lemma template_split : direct_t3_template = str "HEADERS" ++ t3_m1 ++ str "NAMESPACE" ++ ":"%char :: ":"%char :: str "FUNC_NAME" ++ str "_direct_t3(" ++ str "FUNC_VARIABLES" ++ t3_d1 ++ " "%char :: str "CPP_EXPRESSIONS" ++ t3_end.
Proof. vm_compute. reflexivity. Qed.
Lemma start_split h ns fn vars : t3_start h ns fn vars = h ++ t3_m1 ++ ns ++ ":"%char :: ":"%char :: fn ++ "_"%char :: "d"%char :: str "irect_t3(" ++ vars ++ t3_d1 ++ [" "%char].
Proof. unfold t3_start, t3_m1, t3_d1. rewrite <- !app_assoc. reflexivity. Qed.

Definition variables (l : list (list ascii)) : list ascii := join (str ", ") (map (fun i => str "BlockedTensor& " ++ i) l).
Lemma sub_variables v l y : Forall (fun x => ~ occurs (str "CPP_EXPRESSIONS") x) l ->
  sub_literal (str "CPP_EXPRESSIONS") v (variables l ++ ")"%char :: y) = variables l ++ ")"%char :: sub_literal (str "CPP_EXPRESSIONS") v y.
Proof.
  assert (NB : ~ In "C"%char (str "BlockedTensor& ")) by (vm_compute; intuition discriminate).
  assert (G : forall x c y, ~ occurs (str "CPP_EXPRESSIONS") x -> ~ In c (str "CPP_EXPRESSIONS") -> sub_literal (str "CPP_EXPRESSIONS") v ((str "BlockedTensor& " ++ x) ++ c :: y) = (str "BlockedTensor& " ++ x) ++ c :: sub_literal (str "CPP_EXPRESSIONS") v y).
  { intros x c z H1 H2. rewrite <- !app_assoc. change (str "CPP_EXPRESSIONS") with ("C"%char :: str "PP_EXPRESSIONS") at 1. rewrite sub_pass by exact NB. f_equal. apply sub_skip; [discriminate|exact H2|exact H1]. }
  unfold variables. induction l as [|x [|x' l] IH]; intros F.
  - cbn [map join app]. apply (sub_skip (str "CPP_EXPRESSIONS") v [] ")"%char y); [discriminate|vm_compute; intuition discriminate|absent].
  - inversion F; subst. cbn [map join]. apply G; [assumption|vm_compute; intuition discriminate].
  - inversion F; subst. change (join (str ", ") (map (fun i => str "BlockedTensor& " ++ i) (x :: x' :: l))) with ((str "BlockedTensor& " ++ x) ++ ","%char :: " "%char :: join (str ", ") (map (fun i => str "BlockedTensor& " ++ i) (x' :: l))).
    rewrite <- app_assoc. change ((","%char :: " "%char :: join (str ", ") (map (fun i => str "BlockedTensor& " ++ i) (x' :: l))) ++ ")"%char :: y) with (","%char :: " "%char :: (join (str ", ") (map (fun i => str "BlockedTensor& " ++ i) (x' :: l)) ++ ")"%char :: y)).
    rewrite G by (assumption || (vm_compute; intuition discriminate)). rewrite (sub_char (str "CPP_EXPRESSIONS") v " "%char) by (discriminate || (vm_compute; intuition discriminate)). rewrite (IH H2), <- !app_assoc. reflexivity.
Qed.
Lemma lower_upper a : In a (str "HNFC") -> forall b, lower_ascii b <> a.
Proof. intros H b E. vm_compute in H. destruct b as [[] [] [] [] [] [] [] []]; vm_compute in E; subst a; intuition discriminate. Qed.
Lemma lower_backslash b : lower_ascii b = backslash -> b = backslash.
Proof. destruct b as [[] [] [] [] [] [] [] []]; vm_compute; try discriminate; reflexivity. Qed.

Definition t3_header (namespace : list ascii) : list ascii := map lower_ascii (str "#include ""mrdsrg-so/" ++ namespace ++ str ".h""").
Lemma header_no a ns : In a (str "HNFC") -> ~ In a (t3_header ns).
Proof. intros H Q. unfold t3_header in Q. apply in_map_iff in Q. destruct Q as (b & E & _). exact (lower_upper a H b E). Qed.
Lemma header_backslash ns : ~ In backslash ns -> ~ In backslash (t3_header ns).
Proof.
  intros H Q. unfold t3_header in Q. apply in_map_iff in Q. destruct Q as (b & E & Hb). apply lower_backslash in E. subst b. rewrite !in_app_iff in Hb. destruct Hb as [Hb|[Hb|Hb]]; [vm_compute in Hb; intuition discriminate|exact (H Hb)|vm_compute in Hb; intuition discriminate].
Qed.
Theorem t3_filled ns fn l cpp : ~ In backslash ns -> ~ In backslash fn -> Forall (fun x => ~ In backslash x) l -> ~ In backslash cpp ->
  ~ occurs (str "FUNC_NAME") ns -> ~ occurs (str "FUNC_VARIABLES") ns -> ~ occurs (str "CPP_EXPRESSIONS") ns ->
  ~ occurs (str "FUNC_VARIABLES") fn -> ~ occurs (str "CPP_EXPRESSIONS") fn -> Forall (fun x => ~ occurs (str "CPP_EXPRESSIONS") x) l ->
  multi_gsub [(str "HEADERS", t3_header ns); (str "NAMESPACE", ns); (str "FUNC_NAME", fn); (str "FUNC_VARIABLES", variables l); (str "CPP_EXPRESSIONS", cpp)] direct_t3_template =
  Ok (t3_start (t3_header ns) ns fn (variables l) ++ cpp ++ t3_end).
Proof.
  intros Bn Bf Bl Bc N1 N2 N3 F1 F2 L.
  assert (Bv : ~ In backslash (variables l)).
  { unfold variables. intros Q. clear - Bl Q. revert Q. induction l as [|x [|x' l] IH]; [intros []| |]; inversion Bl; subst.
    - cbn [map join]. rewrite in_app_iff. intros [Q|Q]; [vm_compute in Q; intuition discriminate|contradiction].
    - change (join (str ", ") (map (fun i => str "BlockedTensor& " ++ i) (x :: x' :: l))) with ((str "BlockedTensor& " ++ x) ++ str ", " ++ join (str ", ") (map (fun i => str "BlockedTensor& " ++ i) (x' :: l))). rewrite !in_app_iff. intros [[Q|Q]|[Q|Q]]; [vm_compute in Q; intuition discriminate|contradiction|vm_compute in Q; intuition discriminate|exact (IH H2 Q)]. }
  set (h := t3_header ns). assert (Hh : forall a, In a (str "HNFC") -> ~ In a h) by (intros a; apply header_no).
  assert (M : forall a, In a (str "HNFC") -> ~ In a t3_m1) by (intros a H Q; vm_compute in H, Q; intuition congruence).
  assert (I : forall a, In a (str "HNFC") -> ~ In a (str "irect_t3(")) by (intros a H Q; vm_compute in H, Q; intuition congruence).
  assert (C1 : In "C"%char (str "HNFC")) by (vm_compute; auto 6). assert (C2 : In "N"%char (str "HNFC")) by (vm_compute; auto 6). assert (C3 : In "F"%char (str "HNFC")) by (vm_compute; auto 6).
  cbn [multi_gsub]. replace (literal_key (str "HEADERS")) with true by reflexivity. replace (literal_key (str "NAMESPACE")) with true by reflexivity. replace (literal_key (str "FUNC_NAME")) with true by reflexivity. replace (literal_key (str "FUNC_VARIABLES")) with true by reflexivity. replace (literal_key (str "CPP_EXPRESSIONS")) with true by reflexivity.
  rewrite (expand_plain h) by (apply header_backslash; exact Bn). cbn [pybind]. rewrite (expand_plain ns), (expand_plain fn), (expand_plain (variables l)), (expand_plain cpp) by assumption. cbn [pybind]. f_equal.
  rewrite template_split, start_split.
  rewrite sub_match by discriminate. rewrite (sub_none (str "HEADERS")) by (try discriminate; absent).
  change (str "NAMESPACE") with ("N"%char :: str "AMESPACE") at 1. rewrite (sub_pass "N"%char) by (apply Hh; exact C2). rewrite (sub_pass "N"%char) by (apply M; exact C2).
  change ("N"%char :: str "AMESPACE") with (str "NAMESPACE"). rewrite sub_match by discriminate. rewrite (sub_none (str "NAMESPACE")) by (try discriminate; absent).
  change (str "FUNC_NAME") with ("F"%char :: str "UNC_NAME") at 1. rewrite (sub_pass "F"%char) by (apply Hh; exact C3). rewrite (sub_pass "F"%char) by (apply M; exact C3). change ("F"%char :: str "UNC_NAME") with (str "FUNC_NAME").
  rewrite (sub_skip (str "FUNC_NAME") fn ns ":"%char) by (try discriminate; try exact N1; vm_compute; intuition discriminate). rewrite (sub_char (str "FUNC_NAME") fn ":"%char) by (discriminate || (vm_compute; intuition discriminate)). rewrite sub_match by discriminate. rewrite (sub_none (str "FUNC_NAME")) by (try discriminate; absent).
  change (str "_direct_t3(") with ("_"%char :: "d"%char :: str "irect_t3(") at 1. cbn [app].
  assert (V1 : forall k v y, k = str "FUNC_VARIABLES" \/ k = str "CPP_EXPRESSIONS" -> sub_literal k v (h ++ t3_m1 ++ ns ++ ":"%char :: ":"%char :: fn ++ "_"%char :: "d"%char :: str "irect_t3(" ++ y) = h ++ t3_m1 ++ ns ++ ":"%char :: ":"%char :: fn ++ "_"%char :: "d"%char :: str "irect_t3(" ++ sub_literal k v y).
  { intros k v y HK. assert (X : exists a k', k = a :: k' /\ In a (str "HNFC") /\ ~ In ":"%char k /\ ~ In "d"%char k /\ (exists k0, k = k0 ++ ["S"%char]) /\ ~ occurs k ns /\ ~ occurs k fn).
    { destruct HK as [-> | ->]; [exists "F"%char, (str "UNC_VARIABLES")|exists "C"%char, (str "PP_EXPRESSIONS")]; (split; [reflexivity|]; split; [assumption|]; split; [vm_compute; intuition discriminate|]; split; [vm_compute; intuition discriminate|]; split; [|split; assumption]); [exists (str "FUNC_VARIABLE")|exists (str "CPP_EXPRESSION")]; reflexivity. }
    destruct X as (a & k' & Ek & Ha & K1 & K2 & (k0 & K3) & K4 & K5). assert (KN : k <> []) by (rewrite Ek; discriminate).
    rewrite Ek. rewrite (sub_pass a) by (apply Hh; exact Ha). rewrite (sub_pass a) by (apply M; exact Ha). rewrite <- Ek. rewrite (sub_skip k v ns ":"%char) by assumption. do 3 f_equal. f_equal.
    rewrite (sub_char k v ":"%char) by assumption. f_equal.
    change (fn ++ "_"%char :: "d"%char :: str "irect_t3(" ++ y) with (fn ++ ["_"%char] ++ "d"%char :: str "irect_t3(" ++ y). rewrite app_assoc. rewrite (sub_skip k v (fn ++ ["_"%char]) "d"%char); [|assumption|assumption|intros Q; apply K5; revert Q; apply (occurs_snoc k "S"%char k0 fn "_"%char K3); discriminate].
    rewrite <- app_assoc. rewrite Ek. rewrite (sub_pass a k' v (str "irect_t3(")) by (apply I, Ha). reflexivity. }
  rewrite V1 by auto. rewrite sub_match by discriminate. rewrite (sub_none (str "FUNC_VARIABLES")) by (try discriminate; absent).
  rewrite V1 by auto. change (t3_d1) with (")"%char :: tl t3_d1) at 1. cbn [app]. rewrite sub_variables by exact L.
  assert (T : sub_literal (str "CPP_EXPRESSIONS") cpp (tl t3_d1 ++ " "%char :: str "CPP_EXPRESSIONS" ++ t3_end) = tl t3_d1 ++ " "%char :: cpp ++ t3_end).
  { rewrite sub_skip by (try discriminate; try absent; vm_compute; intuition discriminate). rewrite sub_match by discriminate. rewrite sub_none by (try discriminate; absent). reflexivity. }
  rewrite T. change (t3_d1 ++ [" "%char]) with (")"%char :: (tl t3_d1 ++ [" "%char])). rewrite <- !app_assoc. cbn [app]. rewrite <- !app_assoc. cbn [app]. rewrite <- !app_assoc. cbn [app]. repeat (rewrite <- !app_assoc; cbn [app]). reflexivity.
Qed.
