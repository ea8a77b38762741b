(** The text of a term determines its labels. *)
From Coq Require Import Ascii String ZArith QArith Qcanon.
From Verif Require Import PyBase SpaceModel IndexModel IndexProofs IndicesModel ElemModel MacroModel TermModel CombineModel CombineSpec.
Local Close Scope Q_scope.
Local Close Scope Qc_scope.
Local Open Scope nat_scope.
Local Notation length := List.length.

Lemma split_at {A} (c : A) a a' r r' : ~ In c a -> ~ In c a' -> a ++ c :: r = a' ++ c :: r' -> a = a' /\ r = r'.
Proof.
  revert a'. induction a as [|x a IH]; intros [|y a'] N N' E; cbn in *.
  - injection E as ->. auto.
  - injection E as -> _. exfalso. apply N'. auto.
  - injection E as -> _. exfalso. apply N. auto.
  - injection E as -> E. destruct (IH a') as [-> ->]; auto.
Qed.

Lemma decimal_digits n c : In c (decimal n) -> is_digit c = true.
Proof.
  unfold decimal. generalize (S n) as f. intros f. revert n. induction f as [|f IH]; intros n H; [destruct H|]. cbn [decimal_fuel] in H.
  assert (D : forall d, d < 10 -> is_digit (digit_char d) = true).
  { intros d Hd. do 10 (destruct d as [|d]; [reflexivity|]). lia. }
  destruct (Nat.ltb_spec n 10) as [L|L].
  - destruct H as [<-|[]]. apply D, L.
  - apply in_app_or in H as [H|[<-|[]]]; [apply IH in H; exact H|]. apply D, Nat.mod_upper_bound. lia.
Qed.
Lemma not_in_decimal c n : is_digit c = false -> ~ In c (decimal n).
Proof. intros H Q. apply decimal_digits in Q. congruence. Qed.
Lemma label_char_ne l : label_char l <> sp /\ label_char l <> "^"%char /\ label_char l <> "}"%char.
Proof. destruct l as [[] []]; cbn; repeat split; discriminate. Qed.

Lemma idx_text_prefix i j r s : idx_text i ++ r = idx_text j ++ s -> i = j /\ r = s.
Proof.
  unfold idx_text. destruct i as [l n], j as [m k]. cbn [fst snd app]. intros E. injection E as E1 E2. rewrite <- !app_assoc in E2. cbn [app] in E2.
  apply split_at in E2 as [E2 ->]; [|apply not_in_decimal; reflexivity..]. apply label_char_inj in E1 as ->. apply decimal_inj in E2 as ->. auto.
Qed.
Lemma idx_text_head i : exists s, idx_text i = label_char (fst i) :: s.
Proof. eexists. reflexivity. Qed.

(** the body of an index list, with its closing brace *)
Lemma join_prefix l m r s :
  join [sp] (map idx_text l) ++ sp :: "}"%char :: r = join [sp] (map idx_text m) ++ sp :: "}"%char :: s -> l = m /\ r = s.
Proof.
  assert (H0 : forall j m' x y, sp :: x = join [sp] (map idx_text (j :: m')) ++ y -> False).
  { intros j m' x y E. destruct m' as [|k m']; cbn in E; injection E as E _; symmetry in E; exact (proj1 (label_char_ne _) E). }
  revert m. induction l as [|i l IH]; intros [|j m] E.
  - cbn in E. injection E as ->. auto.
  - exfalso. apply (H0 j m ("}"%char :: r) (sp :: "}"%char :: s)). exact E.
  - exfalso. apply (H0 i l ("}"%char :: s) (sp :: "}"%char :: r)). symmetry. exact E.
  - assert (C : forall k l' x, join [sp] (map idx_text (k :: l')) ++ sp :: "}"%char :: x = idx_text k ++ sp :: match l' with [] => "}"%char :: x | _ => join [sp] (map idx_text l') ++ sp :: "}"%char :: x end).
    { intros k [|k' l'] x; [reflexivity|]. cbn [map join]. rewrite <- app_assoc. cbn [app]. reflexivity. }
    rewrite !C in E. apply idx_text_prefix in E as [-> E]. injection E as E. destruct l as [|i' l], m as [|j' m].
    + injection E as ->. auto.
    + exfalso. destruct m as [|k m]; cbn in E; injection E as E _; symmetry in E; exact (proj2 (proj2 (label_char_ne _)) E).
    + exfalso. destruct l as [|k l]; cbn in E; injection E as E _; exact (proj2 (proj2 (label_char_ne _)) E).
    + apply IH in E as [E ->]. rewrite E. auto.
Qed.
Lemma indices_text_prefix l m r s : indices_text l ++ r = indices_text m ++ s -> l = m /\ r = s.
Proof. unfold indices_text. cbn [app]. intros E. injection E as E. rewrite <- !app_assoc in E. cbn [app] in E. apply join_prefix in E. exact E. Qed.
Lemma pair_text_prefix u l u' l' r s : pair_text u l ++ r = pair_text u' l' ++ s -> u = u' /\ l = l' /\ r = s.
Proof.
  unfold pair_text. intros E0. pose proof (f_equal (@tl ascii) E0) as E. cbn [app tl] in E. rewrite <- !app_assoc in E. apply indices_text_prefix in E as [-> E1]. pose proof (f_equal (@tl ascii) E1) as E. cbn [app tl] in E. apply indices_text_prefix in E as [-> ->]. auto.
Qed.

Lemma list_sum_cons a l : list_sum (a :: l) = a + list_sum l.
Proof. reflexivity. Qed.
(** number of ^ *)
Definition carets (s : text) : nat := count_occ ascii_dec s "^"%char.
Lemma carets_app a b : carets (a ++ b) = carets a + carets b.
Proof. unfold carets. apply count_occ_app. Qed.
Lemma carets_none a : ~ In "^"%char a -> carets a = 0.
Proof. intros H. apply count_occ_not_In. exact H. Qed.
Lemma carets_cons c s : c <> "^"%char -> carets (c :: s) = carets s.
Proof. intros H. unfold carets. cbn [count_occ]. destruct (ascii_dec c "^"%char); [contradiction|reflexivity]. Qed.
Lemma idx_text_carets i : carets (idx_text i) = 0.
Proof.
  apply carets_none. unfold idx_text. cbn. intros [E|[E|[E|E]]]; try discriminate; [exact (proj1 (proj2 (label_char_ne _)) E)|].
  apply in_app_or in E as [E|[E|[]]]; [|discriminate]. revert E. apply not_in_decimal. reflexivity.
Qed.
Lemma join_carets l : carets (join [sp] l) = list_sum (map carets l).
Proof.
  induction l as [|x l IH]; [reflexivity|]. destruct l as [|y l]; [cbn; rewrite Nat.add_0_r; reflexivity|].
  change (join [sp] (x :: y :: l)) with (x ++ sp :: join [sp] (y :: l)). rewrite carets_app, carets_cons by discriminate. rewrite IH. reflexivity.
Qed.
Lemma indices_text_carets l : carets (indices_text l) = 0.
Proof.
  unfold indices_text. rewrite !carets_cons by discriminate. rewrite carets_app, join_carets. change (carets [sp; "}"%char]) with 0. rewrite Nat.add_0_r. induction l as [|i l IH]; [reflexivity|]. cbn [map]. rewrite list_sum_cons, idx_text_carets. exact IH.
Qed.
Lemma pair_text_carets u l : carets (pair_text u l) = 1.
Proof.
  unfold pair_text, carets. cbn [count_occ]. destruct (ascii_dec "^" "^") as [_|N]; [|contradiction]. fold (carets (indices_text u ++ "_"%char :: indices_text l)). rewrite carets_app, carets_cons by discriminate. rewrite !indices_text_carets. reflexivity.
Qed.

Lemma tensor_text_carets x : plain_name x -> carets (tensor_text x) = 1.
Proof. intros H. unfold tensor_text. rewrite carets_app, pair_text_carets, carets_none by exact H. reflexivity. Qed.
Lemma tensors_text_carets xs : Forall plain_name xs -> carets (join [sp] (map tensor_text xs)) = length xs.
Proof.
  intros H. rewrite join_carets, map_map. induction H as [|x xs Hx H IH]; [reflexivity|]. cbn [map]. rewrite list_sum_cons, tensor_text_carets by exact Hx. cbn. f_equal. exact IH.
Qed.

Lemma tensor_text_prefix x y r s : plain_name x -> plain_name y -> tensor_text x ++ r = tensor_text y ++ s -> tensor_labels x = tensor_labels y /\ r = s.
Proof.
  unfold plain_name, tensor_text, tensor_labels. intros Hx Hy E. rewrite <- !app_assoc in E.
  assert (P : forall u l z, exists w, pair_text u l ++ z = "^"%char :: w) by (intros; eexists; reflexivity).
  destruct (P (tupper x) (tlower x) r) as [w Ew], (P (tupper y) (tlower y) s) as [w' Ew']. pose proof E as E0. rewrite Ew, Ew' in E. apply split_at in E as [E1 E2]; [|assumption..].
  rewrite E1 in E0. apply app_inv_head in E0. apply pair_text_prefix in E0 as (-> & -> & ->). split; [|reflexivity]. f_equal. f_equal. rewrite <- (string_of_list_ascii_of_string (tname x)), E1. apply string_of_list_ascii_of_string.
Qed.
Lemma tensors_text_prefix xs ys r s : Forall plain_name xs -> Forall plain_name ys -> length xs = length ys ->
  join [sp] (map tensor_text xs) ++ sp :: r = join [sp] (map tensor_text ys) ++ sp :: s -> map tensor_labels xs = map tensor_labels ys /\ r = s.
Proof.
  revert ys. induction xs as [|x xs IH]; intros [|y ys] Hx Hy L E; cbn in L; try lia.
  - cbn in E. injection E as ->. auto.
  - inversion Hx as [|? ? Hx1 Hx2]; inversion Hy as [|? ? Hy1 Hy2]; subst.
    assert (C : forall x xs r, join [sp] (map tensor_text (x :: xs)) ++ sp :: r = tensor_text x ++ sp :: match xs with [] => r | _ => join [sp] (map tensor_text xs) ++ sp :: r end).
    { intros z [|z' zs] q; [reflexivity|]. cbn [map join]. rewrite <- app_assoc. reflexivity. }
    rewrite !C in E. apply tensor_text_prefix in E as [E1 E]; [|assumption..]. injection E as E. cbn [map]. rewrite E1. destruct xs as [|x' xs], ys as [|y' ys]; cbn in L; try lia; [auto|].
    apply IH in E as [E ->]; [|assumption|assumption|cbn; lia]. rewrite E. auto.
Qed.

Lemma hash_labels t t' : plain t -> plain t' -> (hash_term t = hash_term t' <-> labels t = labels t').
Proof.
  intros H H'. split.
  - unfold hash_term. intros E.
    assert (L : length (ttensors t) = length (ttensors t')).
    { pose proof (f_equal carets E) as C. rewrite !carets_app, !tensors_text_carets in C by assumption. unfold op_text in C. rewrite !carets_cons, !pair_text_carets in C by discriminate. lia. }
    apply tensors_text_prefix in E as [E1 E2]; [|assumption..]. unfold labels. rewrite E1. f_equal. unfold op_text in E2. pose proof (f_equal (@tl ascii) E2) as E3. cbn [tl] in E3.
    assert (Q : pair_text (cre (tsq t)) (ann (tsq t)) ++ [] = pair_text (cre (tsq t')) (ann (tsq t')) ++ []) by (rewrite E3; reflexivity).
    apply pair_text_prefix in Q as (-> & -> & _). reflexivity.
  - unfold labels. intros E. injection E as E1 E2 E3. unfold hash_term, op_text. rewrite E2, E3. f_equal. f_equal. clear - E1.
    revert E1. generalize (ttensors t') as ys. induction (ttensors t) as [|x xs IH]; intros [|y ys] E; cbn in E; try discriminate; [reflexivity|]. injection E as Ea Eb Ec E2. cbn [map]. rewrite (IH _ E2). f_equal. unfold tensor_text. rewrite Ea, Eb, Ec. reflexivity.
Qed.
