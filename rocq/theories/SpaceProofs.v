(** Proofs about mo_space.py and downgrade_indices. *)
From Verif Require Import PyBase OrderSpec OrderProofs SpaceModel.
From Coq Require Import Ascii String ZArith Morphisms.

Lemma label_ext (a b : label) : label_eqb a b = true <-> a = b.
Proof. destruct a as [[] []], b as [[] []]; vm_compute; split; congruence. Qed.

Lemma mo_space_complete (l : label) : In l mo_space.
Proof. destruct l as [[] []]; vm_compute; tauto. Qed.

Lemma forall_labels (P : label -> bool) : forallb P mo_space = true -> forall l, P l = true.
Proof. intros H l. rewrite forallb_forall in H. apply H, mo_space_complete. Qed.

Lemma char_label_char l : char_label (label_char l) = Some l.
Proof. destruct l as [[] []]; reflexivity. Qed.

Lemma char_label_some c l : char_label c = Some l -> label_char l = c.
Proof.
  unfold char_label. intros H. apply find_some in H. destruct H as [_ H].
  apply Ascii.eqb_eq in H. exact H.
Qed.

Lemma priority_inj a b : priority a = priority b -> a = b.
Proof. destruct a as [[] []], b as [[] []]; vm_compute; congruence. Qed.

Lemma forallb_perm {A} (f : A -> bool) l l' : Permutation l l' -> forallb f l = forallb f l'.
Proof.
  induction 1; simpl; try congruence.
  destruct (f x), (f y); reflexivity.
Qed.

Lemma existsb_perm {A} (f : A -> bool) l l' : Permutation l l' -> existsb f l = existsb f l'.
Proof.
  induction 1; simpl; try congruence.
  destruct (f x), (f y); reflexivity.
Qed.

Lemma is_upper_label l : is_upper (label_char l) = lbeta l.
Proof. destruct l as [[] []]; reflexivity. Qed.

Lemma find_space_label_relation l s :
  Permutation s (map label_char (relation l)) -> find_space_label s = Ok (Some (label_char l)).
Proof.
  intros HP. unfold find_space_label.
  rewrite (forallb_perm _ _ _ HP), (existsb_perm _ _ _ HP), (existsb_perm (Ascii.eqb "V"%char) _ _ HP),
    (existsb_perm (Ascii.eqb "c"%char) _ _ HP), (existsb_perm (Ascii.eqb "C"%char) _ _ HP),
    (Permutation_length HP).
  assert (Hall : forallb (fun c => match char_label c with Some _ => true | None => false end)
                   (map label_char (relation l)) = true) by (destruct l as [[] []]; reflexivity).
  rewrite Hall.
  destruct s as [|c0 s].
  - apply Permutation_nil in HP. destruct l as [[] []]; discriminate HP.
  - assert (Hin : In c0 (map label_char (relation l))).
    { eapply Permutation_in; [exact HP|left; reflexivity]. }
    rewrite in_map_iff in Hin. destruct Hin as [l0 [E Hin]]. subst c0.
    rewrite is_upper_label.
    assert (Hb : lbeta l0 = lbeta l).
    { unfold relation in Hin. rewrite in_map_iff in Hin. destruct Hin as [x [<- _]]. reflexivity. }
    rewrite Hb. clear Hall.
    destruct l as [b sp]. simpl in Hb. destruct sp; simpl in *.
    + destruct b; reflexivity.
    + destruct b; reflexivity.
    + destruct b; reflexivity.
    + destruct Hin as [<-|[]]; reflexivity.
    + destruct Hin as [<-|[]]; reflexivity.
    + destruct Hin as [<-|[]]; reflexivity.
Qed.

Lemma inter_in x a b : In x (inter_label a b) <-> In x a /\ In x b.
Proof.
  unfold inter_label, mem_label. rewrite filter_In, existsb_exists. split.
  - intros [H [y [Hy E]]]. apply label_ext in E. subst; auto.
  - intros [H G]; split; auto. exists x; split; auto. apply label_ext; reflexivity.
Qed.

(** Every non-empty intersection of two known spaces is a known space. *)
Lemma intersections_known l1 l2 :
  inter_label (relation l1) (relation l2) <> [] ->
  exists l, relation l = inter_label (relation l1) (relation l2).
Proof.
  intros H.
  destruct l1 as [[] []], l2 as [[] []]; vm_compute in H; try (exfalso; apply H; reflexivity);
    vm_compute;
    first [ exists (Lab true Sg); reflexivity | exists (Lab true Sp); reflexivity
          | exists (Lab true Sh); reflexivity | exists (Lab true Sv); reflexivity
          | exists (Lab true Sc); reflexivity | exists (Lab true Sa); reflexivity
          | exists (Lab false Sg); reflexivity | exists (Lab false Sp); reflexivity
          | exists (Lab false Sh); reflexivity | exists (Lab false Sv); reflexivity
          | exists (Lab false Sc); reflexivity | exists (Lab false Sa); reflexivity ].
Qed.

Lemma find_space_label_raises s e :
  find_space_label s = Raise e <->
  e = ValueError /\ (s = [] \/ exists c, In c s /\ char_label c = None).
Proof.
  unfold find_space_label.
  destruct (forallb _ s) eqn:E.
  - rewrite forallb_forall in E. destruct s as [|c s].
    + split; [intros H; injection H; auto | intros [-> _]; reflexivity].
    + split.
      * destruct (_ =? 1); [discriminate|]. destruct (_ =? 2); [|discriminate].
        destruct (_ || _); [discriminate|]. destruct (_ || _); discriminate.
      * intros [_ [H|[c' [Hin Hc]]]]; [discriminate|]. apply E in Hin. rewrite Hc in Hin. discriminate.
  - split.
    + intros H; injection H as <-; split; auto. right.
      assert (X : exists c, In c s /\
         (match char_label c with Some _ => true | None => false end) = false).
      { clear -E. induction s as [|a s IH]; simpl in E; [discriminate|].
        destruct (char_label a) eqn:F; simpl in E.
        - destruct (IH E) as [c [? ?]]; exists c; simpl; auto.
        - exists a. rewrite F. simpl; auto. }
      destruct X as [c [Hc X]]. exists c; split; auto. destruct (char_label c); [discriminate|auto].
    + intros [-> _]; reflexivity.
Qed.

(** ** MOSpaceCounter *)
Lemma Z_lawful : lawful Z_ord.
Proof.
  constructor; simpl; intros.
  - apply Z.eqb_refl.
  - rewrite Z.eqb_eq in *; lia.
  - rewrite Z.eqb_eq in *; lia.
  - rewrite Z.gtb_ltb. destruct (Z.ltb_spec a b), (Z.eqb_spec a b), (Z.ltb_spec b a); try lia; tauto.
  - rewrite Z.ltb_lt in *; lia.
  - apply Z.gtb_ltb.
  - destruct (Z.ltb_spec a b), (Z.eqb_spec a b), (Z.leb_spec a b); simpl; try lia; reflexivity.
  - rewrite Z.gtb_ltb, Z.geb_leb.
    destruct (Z.ltb_spec b a), (Z.eqb_spec a b), (Z.leb_spec b a); simpl; try lia; reflexivity.
Qed.

Lemma Z_ext : extensional Z_ord.
Proof. intros a b; apply Z.eqb_eq. Qed.

Lemma counter_key_lawful : lawful counter_key_ord.
Proof. apply key_lawful, pair_lawful; [apply Z_lawful|apply list_lawful, Z_lawful]. Qed.

(** Sum over the entries of an input dictionary whose lower-cased key satisfies [p]. *)
Definition key_total (p : ascii -> bool) (d : list (ascii * Z)) : Z :=
  fold_right Z.add 0%Z (map snd (filter (fun kv => p (to_lower (fst kv))) d)).

Arguments to_lower : simpl never.
Lemma parse_counter_total d nv nc na :
  forallb (fun kv => existsb (Ascii.eqb (to_lower (fst kv))) (map space_char so_space)) d = true ->
  parse_counter d nv nc na =
    (nv + key_total (fun c => Ascii.eqb c "v" || Ascii.eqb c "g" || Ascii.eqb c "p")%char%bool d,
     nc + key_total (fun c => Ascii.eqb c "c" || Ascii.eqb c "h")%char%bool d,
     na + key_total (fun c => Ascii.eqb c "a")%char%bool d)%Z.
Proof.
  revert nv nc na. induction d as [|[k n] d IH]; intros nv nc na H; simpl.
  - unfold key_total; simpl. rewrite !Z.add_0_r. reflexivity.
  - simpl in H. apply andb_true_iff in H. destruct H as [H0 H].
    unfold key_total in *; simpl.
    remember (to_lower k) as c eqn:Hc; clear Hc.
    rewrite !orb_true_iff, !Ascii.eqb_eq in H0.
    destruct H0 as [-> | [-> | [-> | [-> | [-> | [-> | H0]]]]]]; try discriminate; simpl;
      rewrite IH by exact H; simpl; f_equal; [f_equal|..]; try lia; try (f_equal; lia).
Qed.

(** Dictionaries with distinct keys are equal iff all lookups agree. *)
Section Dict.
  Context {K V : Type} (eqk : K -> K -> bool) (eqv : V -> V -> bool).
  Context (eqk_ok : forall a b, eqk a b = true <-> a = b).
  Context (eqv_ok : forall a b, eqv a b = true <-> a = b).

  Lemma eqk_refl k : eqk k k = true. Proof. apply eqk_ok; reflexivity. Qed.

  Lemma dict_get_none (k : K) (d : list (K * V)) : dict_get eqk k d = None <-> ~ In k (map fst d).
  Proof.
    induction d as [|[k' v] d IH]; simpl; [tauto|].
    destruct (eqk k k') eqn:E.
    - apply eqk_ok in E. split; [discriminate|]. intros H; exfalso; apply H; auto.
    - rewrite IH. assert (k' <> k) by (intros ->; rewrite eqk_refl in E; discriminate). tauto.
  Qed.

  Lemma dict_get_in (k : K) (v : V) (d : list (K * V)) :
    NoDup (map fst d) -> (dict_get eqk k d = Some v <-> In (k, v) d).
  Proof.
    induction d as [|[k' v'] d IH]; simpl; intros ND; [split; [discriminate|tauto]|].
    inversion ND; subst. destruct (eqk k k') eqn:E.
    - apply eqk_ok in E; subst k'. split.
      + intros H; injection H as ->; auto.
      + intros [H|H]; [congruence|]. exfalso. apply H1. apply (in_map fst) in H. exact H.
    - rewrite IH by assumption. split; [auto|]. intros [H|H]; [|exact H].
      injection H as -> ->. rewrite eqk_refl in E. discriminate.
  Qed.

  Lemma dict_eq_spec (d1 d2 : list (K * V)) :
    NoDup (map fst d1) -> NoDup (map fst d2) ->
    (dict_eq eqk eqv d1 d2 = true <-> forall k, dict_get eqk k d1 = dict_get eqk k d2).
  Proof.
    intros N1 N2. unfold dict_eq. rewrite andb_true_iff, Nat.eqb_eq, forallb_forall. split.
    - intros [HL HF] k.
      assert (Hsub : forall k v, dict_get eqk k d1 = Some v -> dict_get eqk k d2 = Some v).
      { intros k0 v H. apply dict_get_in in H; auto. specialize (HF _ H). simpl in HF.
        destruct (dict_get eqk k0 d2) as [v2|]; [|discriminate]. apply eqv_ok in HF; subst; reflexivity. }
      destruct (dict_get eqk k d1) as [v|] eqn:E; [symmetry; apply Hsub; exact E|].
      destruct (dict_get eqk k d2) as [v|] eqn:F; [|reflexivity]. exfalso.
      assert (Hi : incl (map fst d1) (map fst d2)).
      { intros x Hx. destruct (dict_get eqk x d1) as [w|] eqn:G.
        - apply Hsub in G. apply dict_get_in in G; auto. apply (in_map fst) in G; exact G.
        - apply dict_get_none in G; contradiction. }
      assert (Hi2 : incl (map fst d2) (map fst d1)).
      { apply NoDup_length_incl; auto. rewrite !map_length; lia. }
      apply dict_get_none in E. apply E, Hi2.
      apply dict_get_in in F; auto. apply (in_map fst) in F; exact F.
    - intros H. split.
      + apply Nat.le_antisymm; rewrite <- (map_length fst d1), <- (map_length fst d2);
          apply NoDup_incl_length; auto; intros x Hx.
        * destruct (dict_get eqk x d1) as [w|] eqn:G; [|apply dict_get_none in G; contradiction].
          rewrite H in G. apply dict_get_in in G; auto. apply (in_map fst) in G; exact G.
        * destruct (dict_get eqk x d2) as [w|] eqn:G; [|apply dict_get_none in G; contradiction].
          rewrite <- H in G. apply dict_get_in in G; auto. apply (in_map fst) in G; exact G.
      + intros [k v] Hkv. simpl. rewrite <- H.
        apply dict_get_in in Hkv; auto. rewrite Hkv. apply eqv_ok; reflexivity.
  Qed.
End Dict.

Definition elementary_key (c : ascii) : bool :=
  (Ascii.eqb c "c" || Ascii.eqb c "a" || Ascii.eqb c "v")%char%bool.

(** An input dictionary as produced by counting elementary alpha indices:
    distinct keys among 'c','a','v', no zero counts. *)
Definition elementary_counts (d : list (ascii * Z)) : Prop :=
  NoDup (map fst d) /\ forall k n, In (k, n) d -> elementary_key k = true /\ n <> 0%Z.

Lemma elementary_lower c : elementary_key c = true -> to_lower c = c.
Proof.
  unfold elementary_key. rewrite !orb_true_iff, !Ascii.eqb_eq. intros [[->| ->]| ->]; reflexivity.
Qed.

Lemma dict_set_fresh {K V} (eqk : K -> K -> bool) (Hk : forall a b, eqk a b = true <-> a = b)
  (k : K) (v : V) d : ~ In k (map fst d) -> dict_set eqk k v d = d ++ [(k, v)].
Proof.
  induction d as [|[k' v'] d IH]; simpl; intros H; [reflexivity|].
  destruct (eqk k k') eqn:E.
  - apply Hk in E; subst. exfalso; apply H; auto.
  - f_equal. apply IH. tauto.
Qed.

Lemma raw_elementary d :
  elementary_counts d ->
  forall acc, NoDup (map fst (acc ++ d)) ->
  fold_left (fun acc kv => dict_set Ascii.eqb (to_lower (fst kv)) (snd kv) acc) d acc = acc ++ d.
Proof.
  intros [_ Hel]. induction d as [|[k n] d IH]; simpl; intros acc ND; [rewrite app_nil_r; reflexivity|].
  rewrite elementary_lower by (apply (Hel k n); left; reflexivity).
  rewrite dict_set_fresh.
  - rewrite IH.
    + rewrite <- app_assoc; reflexivity.
    + intros k' n' Hin. apply Hel. right; exact Hin.
    + rewrite <- app_assoc; exact ND.
  - apply Ascii.eqb_eq.
  - rewrite map_app in ND. apply NoDup_remove_2 in ND. intros H; apply ND, in_or_app; auto.
Qed.

Lemma elementary_total d x :
  elementary_counts d -> elementary_key x = true ->
  key_total (fun c => Ascii.eqb c x) d =
  match dict_get Ascii.eqb x d with Some n => n | None => 0%Z end.
Proof.
  intros [ND Hel] Hx. unfold key_total.
  induction d as [|[k n] d IH]; simpl; [reflexivity|].
  rewrite elementary_lower by (apply (Hel k n); left; reflexivity).
  inversion ND; subst.
  destruct (Ascii.eqb_spec x k) as [->|Hne].
  - rewrite Ascii.eqb_refl. simpl.
    assert (G : dict_get Ascii.eqb k d = None) by (apply dict_get_none; [apply Ascii.eqb_eq|assumption]).
    rewrite IH, G; [lia|assumption|]. intros; eapply Hel; right; eassumption.
  - destruct (Ascii.eqb_spec k x); [congruence|]. apply IH; [assumption|].
    intros; eapply Hel; right; eassumption.
Qed.

Lemma key_total_ext p q d :
  (forall k n, In (k, n) d -> p (to_lower k) = q (to_lower k)) -> key_total p d = key_total q d.
Proof.
  intros H. unfold key_total. do 2 f_equal. apply filter_ext_in. intros [k n] Hin. apply (H k n Hin).
Qed.

Lemma elementary_counter d :
  elementary_counts d ->
  make_counter d =
  let get x := match dict_get Ascii.eqb x d with Some n => n | None => 0%Z end in
  Ok (Counter d [get "v"; get "c"; get "a"]%char (get "v" + get "c" + get "a")%char%Z).
Proof.
  intros Hel. unfold make_counter.
  assert (Hv : forallb (fun kv => existsb (Ascii.eqb (to_lower (fst kv))) (map space_char so_space)) d = true).
  { apply forallb_forall. intros [k n] Hin. destruct Hel as [_ Hel].
    destruct (Hel k n Hin) as [Hk _]. simpl fst. rewrite elementary_lower by exact Hk.
    unfold elementary_key in Hk. rewrite !orb_true_iff, !Ascii.eqb_eq in Hk.
    destruct Hk as [[->| ->]| ->]; reflexivity. }
  rewrite Hv, parse_counter_total by exact Hv.
  rewrite !Z.add_0_l.
  rewrite (raw_elementary d Hel []) by (destruct Hel; assumption).
  assert (E : forall k n, In (k, n) d -> k = "c"%char \/ k = "a"%char \/ k = "v"%char).
  { intros k n Hin. destruct Hel as [_ Hel]. destruct (Hel k n Hin) as [Hk _].
    unfold elementary_key in Hk. rewrite !orb_true_iff, !Ascii.eqb_eq in Hk. tauto. }
  rewrite (key_total_ext (fun c => Ascii.eqb c "v" || Ascii.eqb c "g" || Ascii.eqb c "p")%char%bool
             (fun c => Ascii.eqb c "v")%char) by
    (intros k n Hin; destruct (E k n Hin) as [->|[->| ->]]; reflexivity).
  rewrite (key_total_ext (fun c => Ascii.eqb c "c" || Ascii.eqb c "h")%char%bool
             (fun c => Ascii.eqb c "c")%char) by
    (intros k n Hin; destruct (E k n Hin) as [->|[->| ->]]; reflexivity).
  rewrite !elementary_total by (exact Hel || reflexivity).
  reflexivity.
Qed.

Lemma counter_eq_elementary d1 d2 c1 c2 :
  elementary_counts d1 -> elementary_counts d2 ->
  make_counter d1 = Ok c1 -> make_counter d2 = Ok c2 ->
  peq counter_ord c1 c2 = peq counter_key_ord c1 c2.
Proof.
  intros H1 H2 E1 E2. rewrite elementary_counter in E1, E2 by assumption.
  injection E1 as <-. injection E2 as <-.
  apply eq_true_iff_eq. cbn [peq counter_ord counter_key_ord key_ord raw].
  rewrite (ext_iff (pair_ext Z_ord (list_ord Z_ord) Z_ext (list_ext _ Z_ext))).
  destruct H1 as [N1 El1], H2 as [N2 El2].
  rewrite (dict_eq_spec Ascii.eqb Z.eqb Ascii.eqb_eq Z.eqb_eq) by assumption.
  unfold counter_key; simpl. split.
  - intros H. rewrite !H. reflexivity.
  - intros H k. injection H as _ Hv Hc Ha.
    assert (G : forall x, match dict_get Ascii.eqb x d1 with Some n => n | None => 0%Z end =
                     match dict_get Ascii.eqb x d2 with Some n => n | None => 0%Z end ->
                     dict_get Ascii.eqb x d1 = dict_get Ascii.eqb x d2).
    { intros x Hx.
      destruct (dict_get Ascii.eqb x d1) as [n1|] eqn:G1, (dict_get Ascii.eqb x d2) as [n2|] eqn:G2;
        try congruence.
      - subst. apply (dict_get_in Ascii.eqb Ascii.eqb_eq) in G1; [|assumption].
        apply El1 in G1. destruct G1; congruence.
      - subst. apply (dict_get_in Ascii.eqb Ascii.eqb_eq) in G2; [|assumption].
        apply El2 in G2. destruct G2; congruence. }
    destruct (dict_get Ascii.eqb k d1) as [n1|] eqn:G1.
    + pose proof G1 as I1. apply (dict_get_in Ascii.eqb Ascii.eqb_eq) in I1; [|assumption].
      apply El1 in I1. destruct I1 as [I1 _]. rewrite <- G1.
      unfold elementary_key in I1. rewrite !orb_true_iff, !Ascii.eqb_eq in I1.
      destruct I1 as [[->| ->]| ->]; apply G; assumption.
    + destruct (dict_get Ascii.eqb k d2) as [n2|] eqn:G2; [|reflexivity].
      pose proof G2 as I2. apply (dict_get_in Ascii.eqb Ascii.eqb_eq) in I2; [|assumption].
      apply El2 in I2. destruct I2 as [I2 _]. rewrite <- G1, <- G2.
      unfold elementary_key in I2. rewrite !orb_true_iff, !Ascii.eqb_eq in I2.
      destruct I2 as [[->| ->]| ->]; apply G; assumption.
Qed.

(** ** downgrade_indices *)
Definition downgrade_spec (zero : space) (u l : idx) (r : option label) : Prop :=
  match r with
  | None => forall x, In x (relation (fst u)) -> In x (relation (fst l)) -> lsp x = zero
  | Some w => forall x, In x (relation w) <->
                 In x (relation (fst u)) /\ In x (relation (fst l)) /\ lsp x <> zero
  end.

Lemma mem_label_in x s : mem_label x s = true <-> In x s.
Proof.
  unfold mem_label. rewrite existsb_exists. split.
  - intros [y [Hy E]]. apply label_ext in E. subst; auto.
  - intros H. exists x; split; auto. apply label_ext; reflexivity.
Qed.

Lemma space_eqb_eq a b : space_eqb a b = true <-> a = b.
Proof. destruct a, b; simpl; split; congruence. Qed.

(** Boolean form of the specification, checked over all labels by computation. *)
Definition block_b (u l : label) (extra : label -> bool) (r : option label) : bool :=
  match r with
  | None => forallb (fun x => negb (mem_label x (relation u) && mem_label x (relation l) && extra x)) mo_space
  | Some w => forallb (fun x => Bool.eqb (mem_label x (relation w))
                 (mem_label x (relation u) && mem_label x (relation l) && extra x)) mo_space
  end.

Lemma block_b_spec u l extra r :
  block_b u l extra r = true ->
  match r with
  | None => forall x, In x (relation u) -> In x (relation l) -> extra x = false
  | Some w => forall x, In x (relation w) <-> In x (relation u) /\ In x (relation l) /\ extra x = true
  end.
Proof.
  unfold block_b. destruct r as [w|]; intros H; rewrite forallb_forall in H; intros x;
    specialize (H x (mo_space_complete x)).
  - apply eqb_prop in H. rewrite <- !mem_label_in, H, !andb_true_iff. tauto.
  - rewrite <- !mem_label_in. intros E1 E2. rewrite E1, E2 in H. simpl in H.
    destruct (extra x); [discriminate|reflexivity].
Qed.

Definition same_spin_pairs : list (label * label) :=
  filter (fun p => Bool.eqb (lbeta (fst p)) (lbeta (snd p))) (list_prod mo_space mo_space).

Lemma same_spin_pairs_in u l : lbeta u = lbeta l -> In (u, l) same_spin_pairs.
Proof.
  intros E. unfold same_spin_pairs. apply filter_In. split.
  - apply in_prod; apply mo_space_complete.
  - simpl. rewrite E. apply eqb_reflx.
Qed.

Lemma neq_b s zero : negb (space_eqb s zero) = true <-> s <> zero.
Proof. rewrite negb_true_iff, <- not_true_iff_false, space_eqb_eq. tauto. Qed.

Lemma downgrade_cumulant_ok u l :
  lbeta (fst u) = lbeta (fst l) -> downgrade_spec Sv u l (downgrade_cumulant u l).
Proof.
  destruct u as [u nu], l as [l nl]; cbn [fst]. intros E.
  assert (H : forallb (fun p => block_b (fst p) (snd p) (fun x => negb (space_eqb (lsp x) Sv))
                (downgrade_cumulant (fst p, 0) (snd p, 0))) same_spin_pairs = true) by (vm_compute; reflexivity).
  rewrite forallb_forall in H. specialize (H _ (same_spin_pairs_in u l E)). cbn [fst snd] in H.
  apply block_b_spec in H. unfold downgrade_spec. cbn [fst].
  change (downgrade_cumulant (u, nu) (l, nl)) with (downgrade_cumulant (u, 0) (l, 0)).
  destruct (downgrade_cumulant (u, 0) (l, 0)) as [w|].
  - intros x. rewrite H, neq_b. tauto.
  - intros x H1 H2. apply space_eqb_eq, negb_false_iff. auto.
Qed.

Lemma downgrade_hole_ok u l :
  lbeta (fst u) = lbeta (fst l) -> downgrade_spec Sc u l (downgrade_hole u l).
Proof.
  destruct u as [u nu], l as [l nl]; cbn [fst]. intros E.
  assert (H : forallb (fun p => block_b (fst p) (snd p) (fun x => negb (space_eqb (lsp x) Sc))
                (downgrade_hole (fst p, 0) (snd p, 0))) same_spin_pairs = true) by (vm_compute; reflexivity).
  rewrite forallb_forall in H. specialize (H _ (same_spin_pairs_in u l E)). cbn [fst snd] in H.
  apply block_b_spec in H. unfold downgrade_spec. cbn [fst].
  change (downgrade_hole (u, nu) (l, nl)) with (downgrade_hole (u, 0) (l, 0)).
  destruct (downgrade_hole (u, 0) (l, 0)) as [w|].
  - intros x. rewrite H, neq_b. tauto.
  - intros x H1 H2. apply space_eqb_eq, negb_false_iff. auto.
Qed.

Lemma downgrade_kronecker_ok u l :
  lbeta (fst u) = lbeta (fst l) ->
  match downgrade_kronecker u l with
  | None => forall x, In x (relation (fst u)) -> ~ In x (relation (fst l))
  | Some w => forall x, In x (relation w) <-> In x (relation (fst u)) /\ In x (relation (fst l))
  end.
Proof.
  destruct u as [u nu], l as [l nl]; cbn [fst]. intros E.
  set (dk := fun (b : bool) (u l : label) =>
    let '(high, low) := if (if priority l =? priority u then b else priority l <? priority u)
                        then ((l, 0), (u, 0)) else ((u, 0), (l, 0)) in
    match inter_label (relation (@fst label nat high)) (relation (@fst label nat low)) with
    | [] => None
    | _ => if space_eqb (lsp (fst high)) Sp && space_eqb (lsp (fst low)) Sh
           then Some (Lab (lbeta (fst high)) Sa) else Some (fst low)
    end).
  assert (D : downgrade_kronecker (u, nu) (l, nl) = dk (nl <? nu) u l).
  { unfold downgrade_kronecker, dk, idx_lt; cbn [fst snd].
    destruct (if priority l =? priority u then nl <? nu else priority l <? priority u); reflexivity. }
  rewrite D. clear D. generalize (nl <? nu) as b. intros b.
  assert (H : forallb (fun p => block_b (fst p) (snd p) (fun _ => true)
                (dk b (fst p) (snd p))) same_spin_pairs = true) by (destruct b; vm_compute; reflexivity).
  rewrite forallb_forall in H. specialize (H _ (same_spin_pairs_in u l E)). cbn [fst snd] in H.
  apply block_b_spec in H. destruct (dk b u l) as [w|].
  - intros x. rewrite H. tauto.
  - intros x H1 H2. specialize (H x H1 H2). discriminate.
Qed.

Lemma counter_fields d c :
  make_counter d = Ok c ->
  parsed c = [key_total (fun k => Ascii.eqb k "v" || Ascii.eqb k "g" || Ascii.eqb k "p")%char%bool d;
              key_total (fun k => Ascii.eqb k "c" || Ascii.eqb k "h")%char%bool d;
              key_total (fun k => Ascii.eqb k "a")%char%bool d] /\
  overall c = fold_right Z.add 0%Z (parsed c).
Proof.
  unfold make_counter. destruct (forallb _ d) eqn:E; [|discriminate].
  rewrite parse_counter_total by exact E. intros H; injection H as <-. cbn [parsed overall fold_right].
  rewrite ?Z.add_0_l. split; [reflexivity|lia].
Qed.
