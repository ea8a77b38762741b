(** Proofs about Index.py and the string level of Indices.py. *)
From Verif Require Import PyBase OrderSpec OrderProofs SpaceModel SpaceProofs IndexModel.
From Coq Require Import Ascii String.

Arguments digit_char : simpl never.
Arguments is_digit : simpl never.
Arguments decimal : simpl never.

(** ** decimal numerals *)
Lemma digit_char_val d : d < 10 -> nat_of_ascii (digit_char d) - 48 = d.
Proof. intros H. do 10 (destruct d as [|d]; [reflexivity|]). lia. Qed.

Lemma digit_char_digit d : d < 10 -> is_digit (digit_char d) = true.
Proof. intros H. do 10 (destruct d as [|d]; [reflexivity|]). lia. Qed.

Lemma decimal_fuel_digits fuel n : forallb is_digit (decimal_fuel fuel n) = true.
Proof.
  revert n; induction fuel as [|f IH]; intros n; cbn [decimal_fuel]; [reflexivity|].
  destruct (Nat.ltb_spec n 10).
  - cbn [forallb]. rewrite digit_char_digit by lia. reflexivity.
  - rewrite forallb_app, IH. cbn [forallb].
    rewrite digit_char_digit by (apply Nat.mod_upper_bound; lia). reflexivity.
Qed.

Lemma decimal_nonempty n : decimal n <> [].
Proof.
  unfold decimal; cbn [decimal_fuel]. destruct (n <? 10); [discriminate|].
  intros H. apply app_eq_nil in H. destruct H; discriminate.
Qed.

Lemma decimal_isdigit n : isdigit (decimal n) = true.
Proof.
  unfold isdigit. pose proof (decimal_nonempty n). destruct (decimal n) eqn:E; [congruence|].
  rewrite <- E. apply decimal_fuel_digits.
Qed.

Lemma int_of_snoc s c : int_of (s ++ [c]) = 10 * int_of s + (nat_of_ascii c - 48).
Proof. unfold int_of. rewrite fold_left_app. reflexivity. Qed.

Lemma decimal_fuel_val fuel n : n < fuel -> int_of (decimal_fuel fuel n) = n.
Proof.
  revert n; induction fuel as [|f IH]; intros n H; [lia|]. cbn [decimal_fuel].
  destruct (Nat.ltb_spec n 10) as [Hn|Hn].
  - unfold int_of; cbn [fold_left]. rewrite digit_char_val by lia. lia.
  - rewrite int_of_snoc, IH.
    + rewrite digit_char_val by (apply Nat.mod_upper_bound; lia).
      pose proof (Nat.div_mod n 10). lia.
    + assert (n / 10 < n) by (apply Nat.div_lt; lia). lia.
Qed.

Lemma int_of_decimal n : int_of (decimal n) = n.
Proof. apply decimal_fuel_val; lia. Qed.

Lemma decimal_inj n m : decimal n = decimal m -> n = m.
Proof. intros H. rewrite <- (int_of_decimal n), <- (int_of_decimal m), H. reflexivity. Qed.

(** ** make_index *)
Lemma index_name_chars l n : list_ascii_of_string (index_name l n) = label_char l :: decimal n.
Proof. unfold index_name. apply list_ascii_of_string_of_list_ascii. Qed.

Lemma label_char_inj a b : label_char a = label_char b -> a = b.
Proof.
  intros H. pose proof (char_label_char a) as Ha. rewrite H, char_label_char in Ha. congruence.
Qed.

Lemma index_name_inj l n l' n' : index_name l n = index_name l' n' -> l = l' /\ n = n'.
Proof.
  intros H. apply (f_equal list_ascii_of_string) in H. rewrite !index_name_chars in H.
  injection H as H1 H2. split; [apply label_char_inj|apply decimal_inj]; assumption.
Qed.

Lemma make_index_name l n : make_index (index_name l n) = Ok (PyIndex (index_name l n) l n).
Proof.
  unfold make_index. rewrite index_name_chars, char_label_char, decimal_isdigit, int_of_decimal.
  reflexivity.
Qed.

(** Accepted names: one of the twelve letters, then a non-empty digit string. *)
Definition valid_name (name : string) (l : label) (ds : list ascii) : Prop :=
  list_ascii_of_string name = label_char l :: ds /\ ds <> [] /\ Forall (fun c => is_digit c = true) ds.

Lemma isdigit_spec ds : isdigit ds = true <-> ds <> [] /\ Forall (fun c => is_digit c = true) ds.
Proof.
  unfold isdigit. destruct ds as [|c ds]; [split; [discriminate|intros [H _]; congruence]|].
  rewrite forallb_forall, Forall_forall. split; [intros H; split; [discriminate|auto] | tauto].
Qed.

Lemma make_index_ok name i :
  make_index name = Ok i <->
  exists ds, valid_name name (ispace i) ds /\ iname i = name /\ inumber i = int_of ds.
Proof.
  unfold make_index, valid_name.
  destruct (list_ascii_of_string name) as [|s n] eqn:E.
  - split; [discriminate|]. intros [ds [[H _] _]]; discriminate.
  - destruct (char_label s) as [l|] eqn:F.
    + destruct (isdigit n) eqn:G.
      * split.
        -- intros H; injection H as <-. simpl. exists n. apply char_label_some in F. subst s.
           apply isdigit_spec in G. tauto.
        -- intros [ds [[H _] [H1 H2]]]. injection H as H0 ->. subst s.
           rewrite char_label_char in F. injection F as <-. destruct i; simpl in *; subst. reflexivity.
      * split; [discriminate|]. intros [ds [[H [H3 H4]] _]]. injection H as H0 ->.
        assert (isdigit ds = true) by (apply isdigit_spec; tauto). congruence.
    + split; [discriminate|]. intros [ds [[H _] _]]. injection H as H0 _. subst s.
      rewrite char_label_char in F; discriminate.
Qed.

Lemma make_index_raise name e :
  make_index name = Raise e <->
  (name = EmptyString /\ e = IndexError) \/
  (name <> EmptyString /\ e = ValueError /\ ~ exists l ds, valid_name name l ds).
Proof.
  unfold make_index, valid_name.
  destruct name as [|s0 n0]; simpl.
  - split; [intros H; injection H as <-; auto|]. intros [[_ ->]|[H _]]; [reflexivity|congruence].
  - set (n := list_ascii_of_string n0).
    destruct (char_label s0) as [l|] eqn:F.
    + destruct (isdigit n) eqn:G.
      * split; [discriminate|]. intros [[H _]|[_ [_ H]]]; [discriminate|]. exfalso. apply H.
        exists l, n. apply char_label_some in F. apply isdigit_spec in G. subst s0; tauto.
      * split.
        -- intros H; injection H as <-. right. split; [discriminate|]. split; [reflexivity|].
           intros [l' [ds [H1 H2]]]. injection H1 as H1 E. subst ds.
           assert (isdigit n = true) by (apply isdigit_spec; tauto). congruence.
        -- intros [[H _]|[_ [-> _]]]; [discriminate|reflexivity].
    + split.
      * intros H; injection H as <-. right. split; [discriminate|]. split; [reflexivity|].
        intros [l' [ds [H1 H2]]]. injection H1 as H1 E. subst s0. rewrite char_label_char in F; discriminate.
      * intros [[H _]|[_ [-> _]]]; [discriminate|reflexivity].
Qed.

(** ** order *)
Lemma index_key_lawful :
  lawful (key_ord (fun i => (priority (ispace i), inumber i)) (pair_ord nat_ord nat_ord)).
Proof. apply key_lawful, pair_lawful; apply nat_lawful. Qed.

Lemma index_eq_key a b :
  peq index_ord a b = peq (key_ord (fun i => (priority (ispace i), inumber i)) (pair_ord nat_ord nat_ord)) a b.
Proof.
  simpl. f_equal. apply eq_true_iff_eq. rewrite label_ext, Nat.eqb_eq.
  split; [congruence|apply priority_inj].
Qed.

Lemma index_lawful : lawful index_ord.
Proof.
  pose proof index_key_lawful as L.
  set (o := key_ord _ _) in *.
  constructor; intros; rewrite ?index_eq_key in *.
  - apply (lw_refl _ L).
  - apply (lw_sym _ L); assumption.
  - eapply (lw_tran _ L); eassumption.
  - apply (lw_tri _ L).
  - eapply (lw_lt_tran _ L); eassumption.
  - apply (lw_gt _ L).
  - apply (lw_le _ L).
  - apply (lw_ge _ L).
Qed.

Lemma index_lt_spec a b :
  plt index_ord a b = true <->
  priority (ispace a) < priority (ispace b) \/
  (ispace a = ispace b /\ inumber a < inumber b).
Proof.
  simpl. unfold pair_op; simpl.
  destruct (Nat.eqb_spec (priority (ispace a)) (priority (ispace b))) as [E|E].
  - rewrite Nat.ltb_lt. apply priority_inj in E. split; [auto|]. intros [H|[_ H]]; [rewrite E in H; lia|exact H].
  - rewrite Nat.ltb_lt. split; [auto|]. intros [H|[H _]]; [exact H|congruence].
Qed.

(** ** hash *)
Definition canonical (i : pyindex) : Prop := iname i = index_name (ispace i) (inumber i).

Lemma canonical_hash h a b :
  canonical a -> canonical b -> peq index_ord a b = true -> index_hash h a = index_hash h b.
Proof.
  unfold canonical, index_hash. intros Ha Hb H. simpl in H.
  rewrite andb_true_iff, label_ext, Nat.eqb_eq in H. destruct H as [H1 H2].
  rewrite Ha, Hb, H1, H2. reflexivity.
Qed.

(** ** spin flips *)
Lemma to_upper_digit c : is_digit c = true -> to_upper c = c.
Proof.
  unfold is_digit, to_upper, is_lower. rewrite andb_true_iff, !Nat.leb_le. intros [H1 H2].
  destruct (Nat.leb_spec 97 (nat_of_ascii c)); [lia|]. reflexivity.
Qed.
Lemma to_lower_digit c : is_digit c = true -> to_lower c = c.
Proof.
  unfold is_digit, to_lower, is_upper. rewrite andb_true_iff, !Nat.leb_le. intros [H1 H2].
  destruct (Nat.leb_spec 65 (nat_of_ascii c)); [lia|]. reflexivity.
Qed.
Lemma to_upper_label l : to_upper (label_char l) = label_char (Lab true (lsp l)).
Proof. destruct l as [[] []]; reflexivity. Qed.
Lemma to_lower_label l : to_lower (label_char l) = label_char (Lab false (lsp l)).
Proof. destruct l as [[] []]; reflexivity. Qed.

Lemma map_id_on {A} (f : A -> A) (P : A -> Prop) l :
  (forall x, P x -> f x = x) -> Forall P l -> map f l = l.
Proof. intros H F. induction F; simpl; [reflexivity|]. rewrite H, IHF by assumption. reflexivity. Qed.

Lemma flip_ok f b name i :
  (forall c, is_digit c = true -> f c = c) ->
  (forall l, f (label_char l) = label_char (Lab b (lsp l))) ->
  make_index name = Ok i ->
  exists j, make_index (str_map f name) = Ok j /\
            iname j = str_map f name /\ ispace j = Lab b (lsp (ispace i)) /\ inumber j = inumber i.
Proof.
  intros Hd Hl H. apply make_index_ok in H. destruct H as [ds [[E [Hne HF]] [Hn Hnum]]].
  exists (PyIndex (str_map f name) (Lab b (lsp (ispace i))) (inumber i)).
  split; [|auto]. apply make_index_ok. exists ds. simpl. split; [|auto].
  unfold valid_name, str_map. rewrite list_ascii_of_string_of_list_ascii, E. simpl.
  rewrite Hl. rewrite (map_id_on f _ ds Hd HF). auto.
Qed.

Lemma to_beta_ok name i :
  make_index name = Ok i ->
  exists j, to_beta i = Ok j /\ ispace j = Lab true (lsp (ispace i)) /\ inumber j = inumber i /\
            is_beta j = true.
Proof.
  intros H. pose proof H as H0. apply make_index_ok in H0. destruct H0 as [ds [_ [Hn _]]].
  destruct (flip_ok to_upper true name i to_upper_digit to_upper_label H) as [j [H1 [H2 [H3 H4]]]].
  exists j. unfold to_beta. rewrite Hn. repeat split; auto.
  unfold is_beta. rewrite is_upper_label, H3. reflexivity.
Qed.

Lemma to_alpha_ok name i :
  make_index name = Ok i ->
  exists j, to_alpha i = Ok j /\ ispace j = Lab false (lsp (ispace i)) /\ inumber j = inumber i /\
            is_beta j = false.
Proof.
  intros H. pose proof H as H0. apply make_index_ok in H0. destruct H0 as [ds [_ [Hn _]]].
  destruct (flip_ok to_lower false name i to_lower_digit to_lower_label H) as [j [H1 [H2 [H3 H4]]]].
  exists j. unfold to_alpha. rewrite Hn. repeat split; auto.
  unfold is_beta. rewrite is_upper_label, H3. reflexivity.
Qed.

Lemma str_map_map f g s : str_map f (str_map g s) = str_map (fun c => f (g c)) s.
Proof. unfold str_map. rewrite list_ascii_of_string_of_list_ascii, map_map. reflexivity. Qed.

Lemma flips_name name i b :
  make_index name = Ok i -> is_beta i = b ->
  str_map (if b then to_upper else to_lower) (str_map (if b then to_lower else to_upper) name) = name.
Proof.
  intros H Hb. apply make_index_ok in H. destruct H as [ds [[E [Hne HF]] [Hn Hnum]]].
  rewrite str_map_map. unfold str_map. rewrite E. cbn [map].
  unfold is_beta in Hb. rewrite is_upper_label in Hb.
  rewrite (map_id_on _ (fun c => is_digit c = true) ds).
  - destruct b.
    + rewrite to_lower_label, to_upper_label. cbn [lsp].
      replace (Lab true (lsp (ispace i))) with (ispace i) by (destruct (ispace i); simpl in *; congruence).
      rewrite <- E. apply string_of_list_ascii_of_string.
    + rewrite to_upper_label, to_lower_label. cbn [lsp].
      replace (Lab false (lsp (ispace i))) with (ispace i) by (destruct (ispace i); simpl in *; congruence).
      rewrite <- E. apply string_of_list_ascii_of_string.
  - intros c Hc. destruct b.
    + rewrite (to_lower_digit c Hc). apply to_upper_digit, Hc.
    + rewrite (to_upper_digit c Hc). apply to_lower_digit, Hc.
  - exact HF.
Qed.

Lemma iname_ok name i : make_index name = Ok i -> iname i = name.
Proof. intros H. apply make_index_ok in H. destruct H as [ds [_ [H _]]]. exact H. Qed.

Lemma alpha_beta_roundtrip name i :
  make_index name = Ok i -> is_beta i = false ->
  pybind (to_beta i) to_alpha = Ok i.
Proof.
  intros H Hb. pose proof (iname_ok _ _ H) as Hn.
  destruct (to_beta_ok name i H) as [j [Hj _]]. rewrite Hj. simpl.
  unfold to_beta in Hj. pose proof (iname_ok _ _ Hj) as Hjn.
  unfold to_alpha. rewrite Hjn, Hn. rewrite (flips_name name i false H Hb). exact H.
Qed.

Lemma beta_alpha_roundtrip name i :
  make_index name = Ok i -> is_beta i = true ->
  pybind (to_alpha i) to_beta = Ok i.
Proof.
  intros H Hb. pose proof (iname_ok _ _ H) as Hn.
  destruct (to_alpha_ok name i H) as [j [Hj _]]. rewrite Hj. simpl.
  unfold to_alpha in Hj. pose proof (iname_ok _ _ Hj) as Hjn.
  unfold to_beta. rewrite Hjn, Hn. rewrite (flips_name name i true H Hb). exact H.
Qed.

Lemma to_upper_idem c : to_upper (to_upper c) = to_upper c.
Proof.
  destruct c as [b0 b1 b2 b3 b4 b5 b6 b7].
  destruct b0, b1, b2, b3, b4, b5, b6, b7; reflexivity.
Qed.
Lemma to_lower_idem c : to_lower (to_lower c) = to_lower c.
Proof.
  destruct c as [b0 b1 b2 b3 b4 b5 b6 b7].
  destruct b0, b1, b2, b3, b4, b5, b6, b7; reflexivity.
Qed.
Lemma str_map_ext f g s : (forall c, f c = g c) -> str_map f s = str_map g s.
Proof. intros H. unfold str_map. f_equal. apply map_ext, H. Qed.

Lemma to_beta_idem i j : to_beta i = Ok j -> to_beta j = Ok j.
Proof.
  unfold to_beta. intros H. rewrite (iname_ok _ _ H), str_map_map.
  rewrite (str_map_ext _ to_upper) by apply to_upper_idem. exact H.
Qed.
Lemma to_alpha_idem i j : to_alpha i = Ok j -> to_alpha j = Ok j.
Proof.
  unfold to_alpha. intros H. rewrite (iname_ok _ _ H), str_map_map.
  rewrite (str_map_ext _ to_lower) by apply to_lower_idem. exact H.
Qed.

(** ** Indices constructor *)
Lemma pymap_ok {A B} (f : A -> pyres B) l ys :
  pymap f l = Ok ys <-> Forall2 (fun x y => f x = Ok y) l ys.
Proof.
  revert ys; induction l as [|x l IH]; intros ys; simpl.
  - split; [intros H; injection H as <-; constructor|]. inversion 1; reflexivity.
  - destruct (f x) as [y|e] eqn:E; simpl.
    + destruct (pymap f l) as [zs|e] eqn:F; simpl.
      * split; [intros H; injection H as <-; constructor; auto; apply IH; reflexivity|].
        inversion 1; subst. assert (Ok zs = Ok l') by (apply IH; assumption). congruence.
      * split; [discriminate|]. inversion 1; subst. apply IH in H4. discriminate.
    + split; [discriminate|]. inversion 1; subst. congruence.
Qed.

Lemma entry_ok s i : entry s = Ok i <-> make_index s = Ok i.
Proof. unfold entry. destruct (make_index s) as [j|[]]; split; congruence. Qed.

Lemma set_of_length_le h l acc : List.length (set_of h l acc) <= List.length acc + List.length l.
Proof.
  revert acc; induction l as [|x l IH]; intros acc; simpl; [lia|].
  destruct (existsb _ acc).
  - specialize (IH acc). lia.
  - specialize (IH (acc ++ [x])). rewrite app_length in IH; simpl in IH. lia.
Qed.

(** The constructor's test succeeds iff no two entries collide. *)
Lemma set_of_full h l acc :
  List.length (set_of h l acc) = List.length acc + List.length l <->
  (forall x y, In x l -> In y acc -> same_entry h x y = false) /\
  ForallOrdPairs (fun a b => same_entry h b a = false) l.
Proof.
  revert acc; induction l as [|x l IH]; intros acc; simpl.
  - split; [intros _; split; [tauto|constructor]|lia].
  - destruct (existsb (same_entry h x) acc) eqn:E.
    + split.
      * intros H. pose proof (set_of_length_le h l acc). lia.
      * intros [H _]. apply existsb_exists in E. destruct E as [y [Hy E]].
        rewrite (H x y) in E; auto. discriminate.
    + specialize (IH (acc ++ [x])). rewrite app_length in IH; simpl in IH.
      replace (List.length acc + S (List.length l)) with (List.length acc + 1 + List.length l) by lia.
      rewrite IH. assert (E' : forall y, In y acc -> same_entry h x y = false).
      { intros y Hy. destruct (same_entry h x y) eqn:F; [|reflexivity].
        assert (existsb (same_entry h x) acc = true) by (apply existsb_exists; eauto). congruence. }
      split.
      * intros [H1 H2]. split.
        -- intros a y [<-|Ha] Hy; [auto|]. apply H1; [exact Ha|apply in_or_app; auto].
        -- constructor; [|exact H2]. apply Forall_forall. intros a Ha. apply H1; [exact Ha|].
           apply in_or_app; right; left; reflexivity.
      * intros [H1 H2]. inversion H2; subst. split; [|assumption].
        intros a y Ha Hy. apply in_app_or in Hy. destruct Hy as [Hy|[<-|[]]]; [auto|].
        rewrite Forall_forall in H3. auto.
Qed.

Lemma make_indices_ok h names is :
  make_indices h names = Ok is <->
  Forall2 (fun s i => make_index s = Ok i) names is /\
  ForallOrdPairs (fun a b => same_entry h b a = false) is.
Proof.
  unfold make_indices. destruct (pymap entry names) as [js|e] eqn:E; simpl.
  - assert (F : Forall2 (fun s i => make_index s = Ok i) names js).
    { apply pymap_ok in E. clear -E. induction E; constructor; auto. apply entry_ok; assumption. }
    pose proof (set_of_full h js []) as S. simpl in S.
    destruct (Nat.eqb_spec (List.length (set_of h js [])) (List.length js)) as [G|G].
    + apply S in G. split.
      * intros H; injection H as <-; tauto.
      * intros [H _]. f_equal. clear -F H. revert is H. induction F; intros is' H'; inversion H'; subst; auto.
        f_equal; [congruence|auto].
    + split; [discriminate|]. intros [H1 H2]. exfalso. apply G, S. split; [tauto|].
      assert (js = is).
      { clear -F H1. revert is H1. induction F; intros is' H'; inversion H'; subst; auto.
        f_equal; [congruence|auto]. }
      subst; assumption.
  - split; [discriminate|]. intros [H _]. assert (pymap entry names = Ok is).
    { apply pymap_ok. clear -H. induction H; constructor; auto. apply entry_ok; assumption. }
    congruence.
Qed.

(** For canonical names "collide" is "denote the same index". *)
Definition denote (i : pyindex) : idx := (ispace i, inumber i).

Lemma same_entry_canonical h a b :
  canonical a -> canonical b -> (same_entry h a b = true <-> denote a = denote b).
Proof.
  intros Ha Hb. unfold same_entry, denote. rewrite andb_true_iff. split.
  - intros [_ H]. simpl in H. rewrite andb_true_iff, label_ext, Nat.eqb_eq in H. destruct H; congruence.
  - intros H. assert (E : peq index_ord a b = true).
    { simpl. rewrite andb_true_iff, label_ext, Nat.eqb_eq. injection H; auto. }
    split; [|exact E]. apply Nat.eqb_eq. apply canonical_hash; assumption.
Qed.

Lemma make_indices_canonical h (ixs : list idx) :
  let names := map (fun i => index_name (fst i) (snd i)) ixs in
  let objs := map (fun i => PyIndex (index_name (fst i) (snd i)) (fst i) (snd i)) ixs in
  (NoDup ixs -> make_indices h names = Ok objs) /\
  (~ NoDup ixs -> make_indices h names = Raise ValueError).
Proof.
  intros names objs.
  assert (F : Forall2 (fun s i => make_index s = Ok i) names objs).
  { subst names objs. clear. induction ixs as [|[l n] ixs IH]; simpl; constructor; auto.
    apply make_index_name. }
  assert (S : ForallOrdPairs (fun a b => same_entry h b a = false) objs <-> NoDup ixs).
  { subst objs. clear F names. induction ixs as [|[l n] ixs IH]; simpl.
    - split; constructor.
    - split.
      + inversion 1; subst. constructor; [|apply IH; assumption].
        intros Hin. rewrite Forall_forall in H2.
        specialize (H2 (PyIndex (index_name l n) l n)).
        rewrite in_map_iff in H2. specialize (H2 (ex_intro _ (l, n) (conj eq_refl Hin))).
        apply not_true_iff_false in H2. apply H2, same_entry_canonical; reflexivity.
      + inversion 1; subst. constructor; [|apply IH; assumption].
        apply Forall_forall. intros b Hb. rewrite in_map_iff in Hb. destruct Hb as [[l' n'] [<- Hb]].
        apply not_true_iff_false. intros E.
        apply (same_entry_canonical h) in E; [|reflexivity|reflexivity].
        unfold denote in E; simpl in E. injection E as -> ->. contradiction. }
  split; intros H.
  - apply make_indices_ok. split; [exact F|apply S, H].
  - unfold make_indices. destruct (pymap entry names) as [js|e] eqn:E; simpl.
    + destruct (_ =? _) eqn:G; [|reflexivity]. exfalso. apply H, S.
      assert (K : make_indices h names = Ok js).
      { unfold make_indices. rewrite E. simpl. rewrite G. reflexivity. }
      apply make_indices_ok in K. destruct K as [K1 K2].
      assert (js = objs).
      { clear -F K1. revert js K1. induction F; intros is' H'; inversion H'; subst; auto.
        f_equal; [congruence|auto]. }
      subst; assumption.
    + exfalso. assert (pymap entry names = Ok objs).
      { apply pymap_ok. clear -F. induction F; constructor; auto. apply entry_ok; assumption. }
      congruence.
Qed.

Lemma make_indices_distinct_names h names is :
  make_indices h names = Ok is -> NoDup names.
Proof.
  intros H. apply make_indices_ok in H. destruct H as [F P].
  induction F as [|s i names is Hi F IH]; [constructor|].
  inversion P; subst. constructor; [|apply IH; assumption].
  intros Hin.
  assert (exists j, In j is /\ make_index s = Ok j) as [j [Hj Hs]].
  { clear -F Hin. induction F; [destruct Hin|]. destruct Hin as [->|Hin].
    - exists y; simpl; auto.
    - destruct (IHF Hin) as [j [? ?]]; exists j; simpl; auto. }
  rewrite Forall_forall in H1. specialize (H1 j Hj).
  assert (i = j) by congruence. subst j.
  unfold same_entry in H1. rewrite Nat.eqb_refl, (lw_refl _ index_lawful) in H1. discriminate.
Qed.

(** ** iteration *)
Lemma nth_error_drop {A} (l : list A) n x : nth_error l n = Some x -> skipn n l = x :: skipn (S n) l.
Proof.
  revert n; induction l as [|a l IH]; intros [|n]; simpl; try discriminate.
  - intros H; injection H as ->; reflexivity.
  - intros H. rewrite (IH n H). reflexivity.
Qed.

Lemma for_loop_transparent {A S} (f : A -> S -> S) fuel l cursor s :
  List.length l - cursor < fuel -> cursor <= List.length l ->
  for_loop fuel l (fun x c s => (c, f x s)) cursor s =
  Some (List.length l, fold_left (fun s x => f x s) (skipn cursor l) s).
Proof.
  revert cursor s; induction fuel as [|fuel IH]; intros cursor s Hf Hc; [lia|].
  cbn [for_loop]. destruct (Nat.ltb_spec cursor (List.length l)) as [H|H].
  - destruct (nth_error l cursor) as [x|] eqn:E.
    + rewrite IH by lia. rewrite (nth_error_drop _ _ _ E). reflexivity.
    + apply nth_error_None in E. lia.
  - replace cursor with (List.length l) by lia. rewrite skipn_all. reflexivity.
Qed.

Lemma fold_snoc {A B} (g : A -> B) l acc : fold_left (fun s x => s ++ [g x]) l acc = acc ++ map g l.
Proof.
  revert acc; induction l as [|x l IH]; intros acc; simpl; [rewrite app_nil_r; reflexivity|].
  rewrite IH, <- app_assoc. reflexivity.
Qed.

Lemma visit_all_ok {A} fuel (l : list A) : List.length l < fuel -> visit_all fuel l = Some l.
Proof.
  intros H. unfold visit_all, for_in.
  rewrite (for_loop_transparent (fun x acc => acc ++ [x])) by lia.
  simpl. rewrite (fold_snoc (fun x => x)), map_id. reflexivity.
Qed.

Lemma visit_pairs_nested {A} fuel (x : A) (l : list A) :
  List.length (x :: l) < fuel ->
  visit_pairs fuel (x :: l) = Some (map (pair x) (x :: l)).
Proof.
  intros H. unfold visit_pairs, for_in at 1.
  destruct fuel as [|fuel]; [lia|].
  remember (x :: l) as l0 eqn:El.
  cbn [for_loop].
  destruct (Nat.ltb_spec 0 (List.length l0)) as [_|G]; [|subst; simpl in G; lia].
  assert (nth_error l0 0 = Some x) as -> by (subst; reflexivity).
  unfold for_in.
  rewrite (for_loop_transparent (fun y acc => acc ++ [(x, y)])) by lia.
  simpl skipn. rewrite (fold_snoc (pair x)).
  destruct fuel as [|fuel]; [subst; simpl in H; lia|].
  cbn [for_loop]. rewrite Nat.ltb_irrefl. reflexivity.
Qed.

(** ** printed lists of indices parse back *)
Definition plain (c : ascii) : Prop := c <> ","%char /\ is_space c = false.

Lemma split_comma_plain s cur : Forall plain s -> split_comma s cur = [cur ++ s].
Proof.
  intros H; revert cur; induction H as [|c s [Hc _] _ IH]; intros cur; simpl; [rewrite app_nil_r; reflexivity|].
  destruct (Ascii.eqb_spec c ","%char); [contradiction|]. rewrite IH, <- app_assoc. reflexivity.
Qed.

Lemma split_comma_app s rest cur :
  Forall (fun c => c <> ","%char) s ->
  split_comma (s ++ ","%char :: rest) cur = (cur ++ s) :: split_comma rest [].
Proof.
  intros H; revert cur; induction H as [|c s Hc _ IH]; intros cur; simpl; [rewrite app_nil_r; reflexivity|].
  destruct (Ascii.eqb_spec c ","%char); [contradiction|]. rewrite IH, <- app_assoc. reflexivity.
Qed.

Lemma lstrip_plain s : s <> [] -> Forall plain s -> lstrip s = s.
Proof.
  intros Hne H. destruct H as [|c s [_ Hc] _]; [congruence|]. simpl. rewrite Hc. reflexivity.
Qed.

Lemma strip_plain s : Forall plain s -> strip s = s.
Proof.
  intros H. unfold strip. destruct s as [|c s]; [reflexivity|].
  rewrite (lstrip_plain (c :: s)) by (discriminate || assumption).
  rewrite lstrip_plain.
  - apply rev_involutive.
  - intros E. apply (f_equal (@rev ascii)) in E. rewrite rev_involutive in E. discriminate.
  - apply Forall_rev, H.
Qed.

Lemma strip_pad pad s : Forall (fun c => is_space c = true) pad -> Forall plain s -> strip (pad ++ s) = s.
Proof.
  intros Hp Hs. rewrite <- (strip_plain s Hs) at 2. unfold strip. do 3 f_equal.
  induction Hp as [|c pad Hc _ IH]; simpl; [reflexivity|]. rewrite Hc. exact IH.
Qed.

Lemma split_join pad l :
  Forall (fun c => is_space c = true /\ c <> ","%char) pad ->
  Forall (fun s => Forall plain s) l -> l <> [] ->
  exists x l', split_comma (join (","%char :: pad) l) [] = x :: map (app pad) l' /\ l = x :: l'.
Proof.
  intros Hp Hl Hne.
  assert (G : forall pre, Forall (fun c => c <> ","%char) pre ->
    split_comma (pre ++ join (","%char :: pad) l) [] = (pre ++ hd [] l) :: map (app pad) (tl l)).
  { clear Hne. induction Hl as [|s l Hs Hl IH]; intros pre Hpre.
    - simpl. rewrite app_nil_r. clear -Hpre.
      assert (X : forall cur, split_comma pre cur = [cur ++ pre]).
      { induction Hpre as [|c s Hc _ IH]; intros cur; simpl; [rewrite app_nil_r; reflexivity|].
        destruct (Ascii.eqb_spec c ","%char); [contradiction|]. rewrite IH, <- app_assoc. reflexivity. }
      apply X.
    - assert (Hps : Forall (fun c => c <> ","%char) (pre ++ s)).
      { apply Forall_app; split; [exact Hpre|]. eapply Forall_impl; [|exact Hs]. intros c [H _]; exact H. }
      destruct l as [|s2 l].
      + cbn [join hd tl map]. clear -Hps.
        assert (X : forall cur, split_comma (pre ++ s) cur = [cur ++ pre ++ s]).
        { induction Hps as [|c t Hc _ IH]; intros cur; simpl; [rewrite app_nil_r; reflexivity|].
          destruct (Ascii.eqb_spec c ","%char); [contradiction|]. rewrite IH, <- app_assoc. reflexivity. }
        apply X.
      + cbn [join hd tl map]. cbn [join] in IH.
        rewrite app_assoc. rewrite <- app_comm_cons, split_comma_app by exact Hps. cbn [app].
        f_equal. rewrite IH; [reflexivity|]. eapply Forall_impl; [|exact Hp]. intros c [_ H]; exact H. }
  specialize (G [] (Forall_nil _)). cbn [app] in G.
  destruct l as [|x l']; [congruence|]. exists x, l'. split; [exact G|reflexivity].
Qed.

Lemma label_char_plain l : plain (label_char l).
Proof. destruct l as [[] []]; split; (discriminate || reflexivity). Qed.

Lemma digit_plain c : is_digit c = true -> plain c.
Proof.
  unfold is_digit, plain, is_space. rewrite andb_true_iff, !Nat.leb_le. intros [H1 H2]. split.
  - intros ->. vm_compute in H1. lia.
  - rewrite orb_false_iff, !andb_false_iff, !Nat.leb_gt. lia.
Qed.

Lemma valid_plain name i : make_index name = Ok i -> Forall plain (list_ascii_of_string (iname i)).
Proof.
  intros H. rewrite (iname_ok _ _ H). apply make_index_ok in H.
  destruct H as [ds [[E [_ HF]] _]]. rewrite E. constructor; [apply label_char_plain|].
  eapply Forall_impl; [|exact HF]. apply digit_plain.
Qed.

Lemma join_nil_iff sep l : Forall (fun s : list ascii => s <> []) l -> join sep l = [] -> l = [].
Proof.
  intros H E. destruct H as [|x l Hx H]; [reflexivity|]. exfalso. apply Hx.
  destruct l; simpl in E; [exact E|]. apply app_eq_nil in E. tauto.
Qed.

Lemma names_of_join pad names is :
  Forall (fun c => is_space c = true /\ c <> ","%char) pad ->
  Forall2 (fun s i => make_index s = Ok i) names is ->
  names_of_string (string_of_list_ascii
     (join (","%char :: pad) (map (fun i => list_ascii_of_string (iname i)) is))) = names.
Proof.
  intros Hp F. unfold names_of_string. rewrite list_ascii_of_string_of_list_ascii.
  assert (En : map (fun i => list_ascii_of_string (iname i)) is = map list_ascii_of_string names).
  { clear -F. induction F as [|s i names is H F IH]; simpl; [reflexivity|].
    rewrite IH, (iname_ok _ _ H). reflexivity. }
  assert (Hpl : Forall (fun s => Forall plain s) (map (fun i => list_ascii_of_string (iname i)) is)).
  { clear -F. induction F as [|s i names is H F IH]; simpl; constructor; auto. eapply valid_plain; eauto. }
  assert (Hne : Forall (fun s : list ascii => s <> []) (map (fun i => list_ascii_of_string (iname i)) is)).
  { clear -F. induction F as [|s i names is H F IH]; simpl; constructor; auto.
    rewrite (iname_ok _ _ H). apply make_index_ok in H. destruct H as [ds [[E _] _]]. rewrite E. discriminate. }
  set (L := map (fun i => list_ascii_of_string (iname i)) is) in *. clearbody L.
  destruct (join (","%char :: pad) L) as [|c cs] eqn:EJ.
  - apply join_nil_iff in EJ; [|exact Hne]. rewrite EJ in En. destruct names; [reflexivity|discriminate].
  - rewrite <- EJ.
    assert (L <> []) by (intros ->; discriminate).
    destruct (split_join pad L Hp Hpl H) as [x [l' [S EL]]].
    transitivity (map string_of_list_ascii L).
    + rewrite S, EL. cbn [map]. rewrite EL in Hpl. pose proof (Forall_inv Hpl) as Hx. pose proof (Forall_inv_tail Hpl) as Hl'.
      f_equal; [rewrite (strip_plain x Hx); reflexivity|].
      rewrite map_map. apply map_ext_in. intros a Ha. f_equal. apply strip_pad.
      * eapply Forall_impl; [|exact Hp]. intros c0 [G _]; exact G.
      * rewrite Forall_forall in Hl'. auto.
    + rewrite En, map_map. rewrite (map_ext _ (fun x => x)) by apply string_of_list_ascii_of_string.
      apply map_id.
Qed.

Lemma repr_roundtrip h names is :
  make_indices h names = Ok is ->
  names_of_string (repr_indices is) = names /\ names_of_string (ambit_indices is) = names.
Proof.
  intros H. apply make_indices_ok in H. destruct H as [F _]. split.
  - apply (names_of_join [" "%char] names is); [|exact F]. repeat constructor. discriminate.
  - apply (names_of_join [] names is); [constructor|exact F].
Qed.

Lemma make_indices_so_ok h names is :
  make_indices_so h names = Ok is <->
  make_indices h names = Ok is /\ forall i, In i is -> lbeta (ispace i) = false.
Proof.
  unfold make_indices_so. destruct (make_indices h names) as [js|e]; simpl.
  - destruct (existsb is_beta js) eqn:E.
    + split; [discriminate|]. intros [H1 H2]. injection H1 as ->.
      apply existsb_exists in E. destruct E as [i [Hi E]].
      unfold is_beta in E. rewrite is_upper_label, (H2 i Hi) in E. discriminate.
    + split; [|intros [H _]; exact H]. intros H; injection H as <-. split; [reflexivity|].
      intros i Hi. rewrite <- is_upper_label. fold (is_beta i).
      destruct (is_beta i) eqn:F; [|reflexivity].
      assert (existsb is_beta js = true) by (apply existsb_exists; eauto). congruence.
  - split; [discriminate|]. intros [H _]; discriminate.
Qed.
