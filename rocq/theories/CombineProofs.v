(** combine_terms: what it returns and what it writes. *)
From Coq Require Import Ascii String ZArith QArith Qcanon Sorting.Sorted.
From Verif Require Import PyBase OrderSpec OrderProofs SpaceModel IndexModel IndicesModel IndicesProofs SpinProofs ElemModel ElemProofs MacroModel MacroSpec SortProofs TermModel TermSpec TermProofs CombineModel CombineSpec TextProofs.
Local Close Scope Q_scope.
Local Close Scope Qc_scope.
Local Open Scope nat_scope.
Local Notation length := List.length.

Lemma text_eqb_eq a b : text_eqb a b = true <-> a = b.
Proof. unfold text_eqb. destruct (list_eq_dec ascii_dec a b); split; congruence. Qed.

(** ** Sums *)
Lemma Qc_sum_acc l c : fold_left Qcplus l c = Qcplus c (Qc_total l).
Proof. revert c. induction l as [|x l IH]; intros c; cbn [fold_left Qc_total fold_right]; [ring|]. rewrite IH. fold (Qc_total l). ring. Qed.
Lemma Qc_sum_total l : Qc_sum l = Qc_total l.
Proof. unfold Qc_sum. rewrite Qc_sum_acc. ring. Qed.
Lemma Qc_total_perm l l' : Permutation l l' -> Qc_total l = Qc_total l'.
Proof. induction 1 as [|x l l' P IH|x y l|l l1 l2 P1 IH1 P2 IH2]; [reflexivity|unfold Qc_total in *; cbn [fold_right]; rewrite IH; reflexivity|unfold Qc_total; cbn [fold_right]; ring|congruence]. Qed.
Lemma Qc_total_app l l' : Qc_total (l ++ l') = Qcplus (Qc_total l) (Qc_total l').
Proof.
  unfold Qc_total. induction l as [|x l IH]; cbn [app fold_right]; [symmetry; apply Qcplus_0_l|]. rewrite IH. ring.
Qed.

(** ** Dictionaries *)
Section Dict.
  Context {V : Type}.
  Lemma tset_in k (v : V) d n w : NoDup (map fst d) -> (In (n, w) (dict_set text_eqb k v d) <-> (n = k /\ w = v) \/ (n <> k /\ In (n, w) d)).
  Proof.
    intros N. induction d as [|[k' v'] d IH]; cbn [dict_set].
    - cbn. split; [intros [E|[]]; injection E as <- <-; auto|intros [[-> ->]|[_ []]]; auto].
    - inversion N as [|? ? N1 N2]; subst. cbn [fst] in N1. destruct (text_eqb k k') eqn:E.
      + apply text_eqb_eq in E as <-. cbn [In]. split.
        * intros [Q|Q]; [injection Q as <- <-; auto|]. right. split; [|auto]. intros ->. apply N1. apply (in_map fst) in Q. exact Q.
        * intros [[-> ->]|[Q1 [Q2|Q2]]]; [auto| |auto]. injection Q2 as <- <-. contradiction.
      + assert (D : k' <> k) by (intros ->; rewrite (proj2 (text_eqb_eq k k) eq_refl) in E; discriminate). cbn [In]. rewrite (IH N2). split.
        * intros [Q|[[-> ->]|[Q1 Q2]]]; [injection Q as <- <-; auto|auto|auto].
        * intros [[-> ->]|[Q1 [Q2|Q2]]]; [auto|auto|auto].
  Qed.
  Lemma tset_nodup k (v : V) d : NoDup (map fst d) -> NoDup (map fst (dict_set text_eqb k v d)).
  Proof.
    intros N. induction d as [|[k' v'] d IH]; cbn [dict_set map]; [repeat constructor; auto|]. inversion N as [|? ? N1 N2]; subst. cbn [fst] in N1.
    destruct (text_eqb k k') eqn:E; cbn [map fst]; [apply text_eqb_eq in E as <-; constructor; assumption|]. constructor; [|apply IH, N2].
    intros Q. apply in_map_iff in Q as ([n w] & <- & Q). cbn [fst] in N1, E. apply (tset_in _ _ _ _ _ N2) in Q as [[-> ->]|[_ Q]]; [rewrite (proj2 (text_eqb_eq k k) eq_refl) in E; discriminate|]. apply N1. apply (in_map fst) in Q. exact Q.
  Qed.
End Dict.

Section Collect.
  Context {X : Type} (name : X -> text) (coeff : X -> Qc).
  Definition gather (l : list X) : list (text * X) * list (text * list Qc) :=
    fold_left (fun dc t => (dict_set text_eqb (name t) t (fst dc), dict_append text_eqb (name t) (coeff t) (snd dc))) l ([], []).
  Definition named (n : text) (l : list X) : list X := filter (fun t => text_eqb n (name t)) l.
  Lemma gather_snoc l t : gather (l ++ [t]) = (dict_set text_eqb (name t) t (fst (gather l)), dict_append text_eqb (name t) (coeff t) (snd (gather l))).
  Proof. unfold gather. rewrite fold_left_app. reflexivity. Qed.
  Lemma gather_spec l :
    NoDup (map fst (fst (gather l))) /\
    (forall n t, In (n, t) (fst (gather l)) <-> name t = n /\ exists l1 l2, l = l1 ++ t :: l2 /\ forall t', In t' l2 -> name t' <> n) /\
    (forall n, dict_list text_eqb n (snd (gather l)) = map coeff (named n l)) /\
    (forall t, In t l -> In (name t) (map fst (fst (gather l)))).
  Proof.
    induction l as [|t l IH] using rev_ind.
    - cbn. split; [constructor|]. split; [|split; [reflexivity|intros ? []]]. intros n t. split; [intros []|]. intros (_ & l1 & l2 & E & _). destruct l1; discriminate.
    - destruct IH as (I1 & I2 & I3 & I4). rewrite gather_snoc. cbn [fst snd]. split; [apply tset_nodup, I1|]. split; [|split].
      + intros n u. rewrite (tset_in _ _ _ _ _ I1), I2. split.
        * intros [[-> ->]|[D (Hn & l1 & l2 & -> & H)]]; [split; [reflexivity|]; exists l, []; split; [reflexivity|intros ? []]|].
          split; [exact Hn|]. exists l1, (l2 ++ [t]). rewrite <- app_assoc. split; [reflexivity|]. intros t' Q. apply in_app_or in Q as [Q|[<-|[]]]; [apply H, Q|congruence].
        * intros (Hn & l1 & l2 & E & H). destruct l2 as [|y l2 _] using rev_ind.
          -- apply app_inj_tail in E as [-> ->]. left. auto.
          -- rewrite app_comm_cons, app_assoc in E. apply app_inj_tail in E as [-> ->]. right. assert (Hy : name y <> n) by (apply H, in_or_app; right; left; reflexivity). split; [congruence|].
             split; [exact Hn|]. exists l1, l2. split; [reflexivity|]. intros t' Q. apply H, in_or_app. auto.
      + intros n. rewrite (dict_list_append text_eqb text_eqb_eq). unfold named. rewrite filter_app, map_app, I3. cbn [filter]. destruct (text_eqb n (name t)); cbn [map]; rewrite ?app_nil_r; reflexivity.
      + intros u Q. apply in_app_or in Q as [Q|[<-|[]]].
        * apply I4 in Q. apply in_map_iff in Q as ([n w] & E & Q). cbn [fst] in E. apply in_map_iff. destruct (list_eq_dec ascii_dec n (name t)) as [D|D].
          -- exists (name t, t). split; [cbn; congruence|]. apply (tset_in _ _ _ _ _ I1). auto.
          -- exists (n, w). split; [exact E|]. apply (tset_in _ _ _ _ _ I1). auto.
        * apply in_map_iff. exists (name t, t). split; [reflexivity|]. apply (tset_in _ _ _ _ _ I1). auto.
  Qed.
End Collect.

(** ** The order of terms *)
Lemma Qc_lawful : lawful Qc_ord.
Proof.
  constructor; unfold Qc_ord; cbn [peq plt ple pgt pge]; intros.
  - destruct (Qc_eq_dec a a); congruence.
  - destruct (Qc_eq_dec a b); [|discriminate]. destruct (Qc_eq_dec b a); congruence.
  - destruct (Qc_eq_dec a b); [|discriminate]. destruct (Qc_eq_dec b c); [|discriminate]. destruct (Qc_eq_dec a c); congruence.
  - destruct (Qclt_le_dec a b) as [H|H], (Qc_eq_dec a b) as [E|E], (Qclt_le_dec b a) as [H'|H']; auto 6.
    + exfalso. subst. apply (Qclt_not_eq _ _ H). reflexivity.
    + exfalso. subst. apply (Qclt_not_eq _ _ H). reflexivity.
    + exfalso. apply (Qclt_not_le _ _ H). apply Qclt_le_weak, H'.
    + exfalso. subst. apply (Qclt_not_eq _ _ H'). reflexivity.
    + exfalso. apply E, Qcle_antisym; assumption.
  - destruct (Qclt_le_dec a b); [|discriminate]. destruct (Qclt_le_dec b c); [|discriminate]. destruct (Qclt_le_dec a c) as [|Q]; [reflexivity|]. exfalso. apply (Qclt_not_le a c); [eapply Qclt_trans; eassumption|exact Q].
  - reflexivity.
  - destruct (Qclt_le_dec b a) as [H|H], (Qclt_le_dec a b) as [H'|H'], (Qc_eq_dec a b) as [E|E]; try reflexivity; exfalso.
    + apply (Qclt_not_le _ _ H). apply Qclt_le_weak, H'.
    + apply (Qclt_not_le _ _ H). apply Qclt_le_weak, H'.
    + subst. apply (Qclt_not_eq _ _ H). reflexivity.
    + apply E, Qcle_antisym; assumption.
  - destruct (Qclt_le_dec a b) as [H|H], (Qclt_le_dec b a) as [H'|H'], (Qc_eq_dec a b) as [E|E]; try reflexivity; exfalso.
    + apply (Qclt_not_le _ _ H). apply Qclt_le_weak, H'.
    + apply (Qclt_not_le _ _ H). apply Qclt_le_weak, H'.
    + subst. apply (Qclt_not_eq _ _ H). reflexivity.
    + apply E, Qcle_antisym; assumption.
Qed.
Lemma Qc_ext : extensional Qc_ord.
Proof. intros a b. cbn. destruct (Qc_eq_dec a b); split; congruence. Qed.

Lemma op_lawful : lawful op_ord.
Proof. apply key_lawful, pair_indices_lawful. Qed.
Lemma op_ext : extensional op_ord.
Proof. apply key_ext; [|apply pair_indices_ext]. intros [c a] [c' a']. cbn. congruence. Qed.

(** the comparison only looks at the view *)
Definition view_key (v : itype * list tensor * op * Qc) : op * (nat * (list tensor * (Qc * Qc))) :=
  let '(_, xs, o, c) := v in (o, (length xs, (xs, (Qc_abs c, c)))).
Definition key_order := pair_ord op_ord (pair_ord nat_ord (pair_ord (list_ord tensor_ord) (pair_ord Qc_ord Qc_ord))).
Definition view_ord : pyord (itype * list tensor * op * Qc) := key_ord view_key key_order.
Lemma key_order_lawful : lawful key_order.
Proof. apply pair_lawful; [apply op_lawful|]. apply pair_lawful; [apply nat_lawful|]. apply pair_lawful; [apply list_lawful, tensor_ord_lawful|]. apply pair_lawful; apply Qc_lawful. Qed.
Lemma view_lawful : lawful view_ord.
Proof. apply key_lawful, key_order_lawful. Qed.
Lemma term_lawful : lawful term_ord.
Proof. apply key_lawful, key_order_lawful. Qed.
Lemma term_view_le a b : ple term_ord a b = ple view_ord (view a) (view b).
Proof. reflexivity. Qed.
Definition view_labels (v : itype * list tensor * op * Qc) := let '(_, xs, o, _) := v in (map tensor_labels xs, (cre o, ann o)).
Lemma view_labels_ok t : view_labels (view t) = labels t.
Proof. reflexivity. Qed.
Lemma list_eq_labels xs ys : list_eq tensor_ord xs ys = true -> map tensor_labels xs = map tensor_labels ys.
Proof.
  revert ys. induction xs as [|x xs IH]; intros [|y ys] H; cbn [list_eq] in H; try discriminate; [reflexivity|]. apply andb_true_iff in H as [H1 H2]. cbn [map]. rewrite (IH _ H2). f_equal.
  change (peq tensor_key_ord (tkey x) (tkey y) = true) in H1. apply tensor_key_ext in H1. unfold tkey in H1. injection H1 as E1 E2 E3 E4. unfold tensor_labels. congruence.
Qed.
Lemma view_eq_labels v w : peq view_ord v w = true -> view_labels v = view_labels w.
Proof.
  destruct v as [[[t xs] o] c], w as [[[t' xs'] o'] c']. unfold view_ord, key_order. cbn [peq key_ord pair_ord view_key fst snd]. rewrite !andb_true_iff. intros (H1 & _ & H2 & _). unfold view_labels.
  apply op_ext in H1 as ->. apply list_eq_labels in H2 as ->. reflexivity.
Qed.

(** sorted lists with the same elements are the same if the order separates the elements *)
Lemma sorted_same {A} (o : pyord A) (L : lawful o) l l' : le_sorted o l -> le_sorted o l' -> Permutation l l' ->
  (forall a b, In a l -> In b l -> peq o a b = true -> a = b) -> l = l'.
Proof.
  revert l'. induction l as [|x l IH]; intros l' S S' P E; [apply Permutation_nil in P; auto|].
  destruct l' as [|y l']; [apply Permutation_sym, Permutation_nil in P; discriminate|].
  apply StronglySorted_inv in S as [S F]. apply StronglySorted_inv in S' as [S' F']. rewrite Forall_forall in F, F'.
  assert (x = y).
  { assert (Hy : In y (x :: l)) by (apply (Permutation_in _ (Permutation_sym P)); left; reflexivity). assert (Hx : In x (y :: l')) by (apply (Permutation_in _ P); left; reflexivity).
    destruct Hy as [Hy|Hy]; [exact Hy|]. destruct Hx as [Hx|Hx]; [auto|]. apply E; [left; reflexivity|right; exact Hy|]. specialize (F y Hy). specialize (F' x Hx).
    rewrite (ple_iff o L) in F, F'. destruct (lw_tri o L x y) as [[X1 [X2 X3]]|[[X1 [X2 X3]]|[X1 [X2 X3]]]]; [congruence|exact X2|rewrite (lw_gt o L) in X3; congruence]. }
  subst y. f_equal. apply IH; [assumption|assumption|eapply Permutation_cons_inv; exact P|]. intros a b Ha Hb. apply E; right; assumption.
Qed.

(** ** What combine_terms returns *)
Notation kappa := (list (string * list idx * list idx) * (list idx * list idx))%type (only parsing).
Definition with_labels (k : kappa) (l : list term) : list term := filter (fun t' => if labels_dec (labels t') k then true else false) l.
Definition tot (k : kappa) (l : list term) : Qc := Qc_total (map tcoeff (with_labels k l)).
Lemma total_tot t l : total t l = tot (labels t) l.
Proof. reflexivity. Qed.
Lemma tot_app k l l' : tot k (l ++ l') = Qcplus (tot k l) (tot k l').
Proof. unfold tot, with_labels. rewrite filter_app, map_app. apply Qc_total_app. Qed.
Lemma tot_perm k l l' : Permutation l l' -> tot k l = tot k l'.
Proof.
  intros P. unfold tot, with_labels. apply Qc_total_perm, Permutation_map. induction P as [|x l l' P IH|x y l|]; cbn [filter]; [constructor| | |etransitivity; eassumption].
  - destruct (labels_dec (labels x) k); [constructor|]; exact IH.
  - destruct (labels_dec (labels x) k), (labels_dec (labels y) k); repeat constructor; reflexivity.
Qed.
Lemma tot_none k l : (forall t, In t l -> labels t <> k) -> tot k l = Q2Qc 0.
Proof.
  intros H. unfold tot, with_labels. replace (filter _ l) with (@nil term); [reflexivity|]. symmetry. induction l as [|x l IH]; [reflexivity|]. cbn [filter]. destruct (labels_dec (labels x) k) as [E|E]; [exfalso; apply (H x); [left; reflexivity|exact E]|]. apply IH. intros t Q. apply H. right. exact Q.
Qed.
Lemma tot_one k l t : NoDup (map labels l) -> In t l -> labels t = k -> tot k l = tcoeff t.
Proof.
  intros N H E. apply in_split in H as (l1 & l2 & ->). rewrite map_app in N. cbn [map] in N. apply NoDup_remove_2 in N.
  rewrite tot_app. change (t :: l2) with ([t] ++ l2). rewrite tot_app. rewrite (tot_none k l1), (tot_none k l2).
  - unfold tot, with_labels. cbn [filter]. destruct (labels_dec (labels t) k); [|contradiction]. unfold Qc_total. cbn [map fold_right]. ring.
  - intros u Hu Q. apply N. apply in_or_app. right. apply in_map_iff. exists u. split; [congruence|exact Hu].
  - intros u Hu Q. apply N. apply in_or_app. left. apply in_map_iff. exists u. split; [congruence|exact Hu].
Qed.

Lemma is_void_coeff_iff c : is_void_coeff c = true <-> Qclt (Qc_abs c) tiny.
Proof. unfold is_void_coeff. destruct (Qclt_le_dec (Qc_abs c) tiny) as [H|H]; split; auto; [discriminate|]. intros Q. exfalso. exact (Qclt_not_le _ _ Q H). Qed.
Lemma is_void_coeff_false c : is_void_coeff c = false <-> Qcle tiny (Qc_abs c).
Proof. unfold is_void_coeff. destruct (Qclt_le_dec (Qc_abs c) tiny) as [H|H]; split; auto; [discriminate|]. intros Q. exfalso. exact (Qclt_not_le _ _ H Q). Qed.

(** what is kept before sorting *)
Definition kept (l : list term) : list term :=
  let '(items, coeffs) := collect_values l in
  filter (fun t => negb (is_void t)) (map (fun it => set_coeff (snd it) (Qc_sum (dict_list text_eqb (fst it) coeffs))) items).
Lemma combine_kept l : combine_terms l = sorted_terms (kept l).
Proof. unfold combine_terms, kept. destruct (collect_values l). reflexivity. Qed.
Lemma collect_gather l : collect_values l = gather hash_term tcoeff l.
Proof. reflexivity. Qed.

Section Kept.
  Context (l : list term) (PL : Forall plain l).
  Lemma named_with t : In t l -> named hash_term (hash_term t) l = with_labels (labels t) l.
  Proof.
    intros Ht. rewrite Forall_forall in PL. unfold named, with_labels. apply filter_ext_in. intros u Hu.
    destruct (labels_dec (labels u) (labels t)) as [E|E].
    - apply text_eqb_eq. apply hash_labels; auto.
    - destruct (text_eqb (hash_term t) (hash_term u)) eqn:Q; [|reflexivity]. exfalso. apply E. apply text_eqb_eq in Q. symmetry. apply hash_labels; auto.
  Qed.
  Lemma kept_in t : In t (kept l) <-> exists l1 t0 l2, l = l1 ++ t0 :: l2 /\ (forall t', In t' l2 -> labels t' <> labels t0) /\ t = set_coeff t0 (tot (labels t0) l) /\ is_void_coeff (tot (labels t0) l) = false.
  Proof.
    unfold kept. rewrite collect_gather. destruct (gather hash_term tcoeff l) as [items coeffs] eqn:G. destruct (gather_spec hash_term tcoeff l) as (I1 & I2 & I3 & I4). rewrite G in *. cbn [fst snd] in *.
    rewrite filter_In, in_map_iff. pose proof (proj1 (Forall_forall _ _) PL) as PL'. split.
    - intros [([n t0] & E & Q) V]. cbn [fst snd] in E. apply I2 in Q as (Hn & l1 & l2 & El & H). subst n. assert (Ht : In t0 l) by (rewrite El; apply in_elt).
      assert (Es : Qc_sum (dict_list text_eqb (hash_term t0) coeffs) = tot (labels t0) l) by (rewrite Qc_sum_total, I3, named_with by exact Ht; reflexivity). rewrite Es in E.
      exists l1, t0, l2. split; [exact El|]. split; [|split; [auto|]].
      + intros t' H' Q. apply (H t' H'). apply hash_labels; [apply PL'; rewrite El; apply in_or_app; right; right; exact H'|apply PL', Ht|exact Q].
      + rewrite <- E in V. unfold is_void in V. cbn [tcoeff set_coeff] in V. destruct (is_void_coeff _); [discriminate|reflexivity].
    - intros (l1 & t0 & l2 & El & H & -> & V). assert (Ht : In t0 l) by (rewrite El; apply in_elt). split.
      + exists (hash_term t0, t0). cbn [fst snd]. split; [rewrite Qc_sum_total, I3, named_with by exact Ht; reflexivity|]. apply I2. split; [reflexivity|]. exists l1, l2. split; [exact El|]. intros t' H' Q. apply (H t' H').
        apply hash_labels; [apply PL'; rewrite El; apply in_or_app; right; right; exact H'|apply PL', Ht|exact Q].
      + unfold is_void. cbn [tcoeff set_coeff]. rewrite V. reflexivity.
  Qed.
  Lemma kept_nodup : NoDup (map labels (kept l)).
  Proof.
    unfold kept. rewrite collect_gather. destruct (gather hash_term tcoeff l) as [items coeffs] eqn:G. destruct (gather_spec hash_term tcoeff l) as (I1 & I2 & _ & _). rewrite G in *. cbn [fst snd] in *.
    assert (N : NoDup (map labels (map (fun it => set_coeff (snd it) (Qc_sum (dict_list text_eqb (fst it) coeffs))) items))).
    { rewrite map_map. pose proof (proj1 (Forall_forall _ _) PL) as PL'. clear G.
      assert (S : forall n t, In (n, t) items -> In t l /\ hash_term t = n) by (intros n t Q; apply I2 in Q as (E & l1 & l2 & -> & _); split; [apply in_elt|exact E]).
      clear I2. induction items as [|[n t] items IH]; cbn [map]; [constructor|]. inversion I1 as [|? ? N1 N2]; subst. constructor.
      - intros Q. apply in_map_iff in Q as ([n' t'] & E & Q). cbn [fst snd] in *. change (labels t' = labels t) in E. apply N1. destruct (S n t) as [S1 S2]; [left; reflexivity|]. destruct (S n' t') as [S3 S4]; [right; exact Q|].
        apply in_map_iff. exists (n', t'). split; [|exact Q]. cbn. rewrite <- S2, <- S4. apply hash_labels; auto.
      - apply IH; [exact N2|]. intros; apply S; right; assumption. }
    clear I1 I2 G. induction items as [|it items IH]; cbn [map filter]; [constructor|]. cbn [map] in N. inversion N as [|? ? N1 N2]; subst. destruct (negb _); cbn [map]; [|apply IH, N2]. constructor; [|apply IH, N2].
    intros Q. apply N1. apply in_map_iff in Q as (u & E & Q). apply filter_In in Q as [Q _]. apply in_map_iff. exists u. auto.
  Qed.
End Kept.

(** ** The statements about combine_terms *)
Record combined (l out : list term) : Prop := {
  cb_sorted : le_sorted term_ord out;
  cb_distinct : NoDup (map labels out);
  cb_source : forall t, In t out -> exists l1 t0 l2, l = l1 ++ t0 :: l2 /\ (forall t', In t' l2 -> labels t' <> labels t0) /\
                t = set_coeff t0 (total t0 l) /\ Qcle tiny (Qc_abs (total t0 l));
  cb_complete : forall t0, In t0 l -> Qcle tiny (Qc_abs (total t0 l)) -> exists t, In t out /\ labels t = labels t0 /\ tcoeff t = total t0 l }.
Lemma last_like l t0 : In t0 l -> exists l1 t1 l2, l = l1 ++ t1 :: l2 /\ labels t1 = labels t0 /\ forall t', In t' l2 -> labels t' <> labels t1.
Proof.
  induction l as [|x l IH] using rev_ind; [intros []|]. intros H. destruct (labels_dec (labels x) (labels t0)) as [E|E].
  - exists l, x, []. split; [reflexivity|]. split; [exact E|]. intros ? [].
  - apply in_app_or in H as [H|[<-|[]]]; [|contradiction]. destruct (IH H) as (l1 & t1 & l2 & -> & E1 & F). exists l1, t1, (l2 ++ [x]). rewrite <- app_assoc. split; [reflexivity|]. split; [exact E1|].
    intros t' Q. apply in_app_or in Q as [Q|[<-|[]]]; [apply F, Q|congruence].
Qed.
Lemma combine_combined l out : Forall plain l -> combine_terms l = Ok out -> combined l out.
Proof.
  intros PL H. rewrite combine_kept in H. unfold sorted_terms in H. destruct (same_types (kept l)); [|discriminate]. injection H as <-.
  assert (P : Permutation (sort_by (plt term_ord) (kept l)) (kept l)) by apply sort_by_perm. constructor.
  - apply sort_by_sorted, term_lawful.
  - apply (Permutation_NoDup (Permutation_sym (Permutation_map labels P))). apply kept_nodup, PL.
  - intros t Q. apply (Permutation_in _ P) in Q. apply (kept_in l PL) in Q as (l1 & t0 & l2 & E & F & -> & V). exists l1, t0, l2. apply is_void_coeff_false in V. auto.
  - intros t0 Q V. destruct (last_like l t0 Q) as (l1 & t1 & l2 & E & E1 & F). rewrite total_tot in *. exists (set_coeff t1 (tot (labels t1) l)). split; [|split; [exact E1|cbn; rewrite E1; reflexivity]].
    apply (Permutation_in _ (Permutation_sym P)). apply (kept_in l PL). exists l1, t1, l2. split; [exact E|]. split; [exact F|]. split; [reflexivity|]. apply is_void_coeff_false. rewrite E1. exact V.
Qed.

(** no error if there is one class of indices *)
Lemma same_types_iff l : same_types l = true <-> forall t t', In t l -> In t' l -> ttype t = ttype t'.
Proof.
  assert (I : forall a b, itype_eqb a b = true <-> a = b) by (intros [] []; cbn; split; congruence).
  destruct l as [|x l]; cbn [same_types]; [split; [intros _ ? ? []|reflexivity]|]. rewrite forallb_forall. split.
  - intros H t t' [<-|Q] [<-|Q']; [reflexivity|apply I, H, Q'|symmetry; apply I, H, Q|]. transitivity (ttype x); [symmetry|]; apply I, H; assumption.
  - intros H t' Q. apply I, H; [left; reflexivity|right; exact Q].
Qed.
Lemma combine_succeeds l : Forall plain l -> (forall t t', In t l -> In t' l -> ttype t = ttype t') -> exists out, combine_terms l = Ok out.
Proof.
  intros PL H. rewrite combine_kept. unfold sorted_terms. replace (same_types (kept l)) with true; [eauto|]. symmetry. apply same_types_iff. intros t t' Q Q'.
  apply (kept_in l PL) in Q as (l1 & t0 & l2 & E & _ & -> & _). apply (kept_in l PL) in Q' as (l1' & t0' & l2' & E' & _ & -> & _). cbn [ttype set_coeff]. apply H; [rewrite E|rewrite E']; apply in_elt.
Qed.
Lemma combine_raises l e : combine_terms l = Raise e -> e = TypeError.
Proof. rewrite combine_kept. unfold sorted_terms. destruct (same_types _); [discriminate|]. congruence. Qed.

(** the same sums give the same result *)
Lemma uniform_body l t t' : uniform l -> In t l -> In t' l -> labels t = labels t' -> body t = body t'.
Proof.
  intros (U1 & U2 & U3) H H' E. unfold labels in E. injection E as E1 E2 E3. unfold body. rewrite (U1 t t' H H'). assert (Eo : tsq t = tsq t') by (destruct (tsq t), (tsq t'); cbn in *; congruence). rewrite Eo.
  f_equal. f_equal. assert (F : forall x, In x (ttensors t) -> In x (ttensors t)) by auto. assert (F' : forall x, In x (ttensors t') -> In x (ttensors t')) by auto.
  revert E1 F F'. generalize (ttensors t) at 1 2 4 as xs. generalize (ttensors t') at 1 2 4 as ys. intros ys xs. revert ys. induction xs as [|x xs IH]; intros [|y ys] E F F'; try discriminate; [reflexivity|]. cbn [map] in E. injection E as Ea Eb Ec E.
  f_equal; [|apply IH; [exact E| |]; intros; [apply F|apply F']; right; assumption].
  assert (Hx : In x (ttensors t)) by (apply F; left; reflexivity). assert (Hy : In y (ttensors t')) by (apply F'; left; reflexivity).
  destruct (U2 t t' x y H H' Hx Hy Ea) as [C1 C2]. pose proof (U3 t x H Hx) as T1. pose proof (U3 t' y H' Hy) as T2. rewrite (U1 t t' H H') in T1. destruct x, y; cbn in *; congruence.
Qed.
Definition same_sums (l l' : list term) : Prop := forall k : kappa, tot k l = tot k l'.
Lemma combine_same l l' out out' : Forall plain (l ++ l') -> uniform (l ++ l') -> same_sums l l' -> combine_terms l = Ok out -> combine_terms l' = Ok out' -> map view out = map view out'.
Proof.
  assert (G : forall l l' out out', Forall plain (l ++ l') -> uniform (l ++ l') -> same_sums l l' -> combined l out -> combined l' out' -> incl (map view out) (map view out')).
  { clear. intros l l' out out' PL U SS C C' v Q. apply in_map_iff in Q as (t & <- & Q). destruct (cb_source _ _ C t Q) as (l1 & t0 & l2 & E & _ & -> & V). rewrite total_tot, (SS (labels t0)) in *.
    assert (E0 : exists t1, In t1 l' /\ labels t1 = labels t0).
    { destruct (in_dec labels_dec (labels t0) (map labels l')) as [I|I]; [apply in_map_iff in I as (t1 & I1 & I2); eauto|]. exfalso. rewrite tot_none in V; [|intros u Hu Eu; apply I; rewrite <- Eu; apply in_map, Hu]. vm_compute in V. apply V. reflexivity. }
    destruct E0 as (t1 & H1 & E1). destruct (cb_complete _ _ C' t1 H1) as (t2 & H2 & E2 & V2); [rewrite total_tot, E1; exact V|]. rewrite total_tot, E1 in V2.
    apply in_map_iff. exists t2. split; [|exact H2]. destruct (cb_source _ _ C' t2 H2) as (m1 & t3 & m2 & E3 & _ & -> & _). change (labels t3 = labels t1) in E2. cbn [tcoeff set_coeff] in V2.
    assert (B : body t3 = body t0) by (apply (uniform_body (l ++ l')); [exact U|apply in_or_app; right; rewrite E3; apply in_elt|apply in_or_app; left; rewrite E; apply in_elt|congruence]).
    unfold view. cbn [set_coeff ttype ttensors tsq tcoeff]. unfold body in B. injection B as -> -> ->. rewrite V2. reflexivity. }
  intros PL U SS H H'. assert (PL2 : Forall plain (l' ++ l)) by (apply Forall_app; apply Forall_app in PL; tauto).
  assert (U2 : uniform (l' ++ l)).
  { destruct U as (U1 & U2 & U3). assert (Q : forall t, In t (l' ++ l) -> In t (l ++ l')) by (intros t; rewrite !in_app_iff; tauto). split; [|split]; intros; eauto. }
  pose proof (combine_combined l out (proj1 (proj1 (Forall_app _ _ _) PL)) H) as C. pose proof (combine_combined l' out' (proj2 (proj1 (Forall_app _ _ _) PL)) H') as C'.
  assert (N : forall out : list term, NoDup (map labels out) -> NoDup (map view out)).
  { intros o N. apply (NoDup_map_inv view_labels). rewrite map_map. exact N. }
  assert (P : Permutation (map view out) (map view out')).
  { apply NoDup_Permutation; [apply N, (cb_distinct _ _ C)|apply N, (cb_distinct _ _ C')|]. intros v. split; intros Q; [apply (G l l' out out' PL U SS C C'), Q|].
    apply (G l' l out' out); [exact PL2|exact U2|intros k; symmetry; apply SS|exact C'|exact C|exact Q]. }
  assert (S : forall o, le_sorted term_ord o -> le_sorted view_ord (map view o)).
  { intros o Q. induction Q as [|t o Q IH F]; cbn [map]; constructor; [exact IH|]. apply Forall_forall. intros v Hv. apply in_map_iff in Hv as (u & <- & Hu). rewrite <- term_view_le. rewrite Forall_forall in F. apply F, Hu. }
  apply (sorted_same view_ord view_lawful); [apply S, (cb_sorted _ _ C)|apply S, (cb_sorted _ _ C')|exact P|].
  intros a b Ha Hb Q. apply view_eq_labels in Q. apply in_map_iff in Ha as (t & <- & Ha). apply in_map_iff in Hb as (u & <- & Hb). rewrite !view_labels_ok in Q. f_equal.
  pose proof (cb_distinct _ _ C) as D. clear - D Ha Hb Q. induction out as [|x out IH]; [destruct Ha|]. cbn [map] in D. inversion D as [|? ? D1 D2]; subst. destruct Ha as [->|Ha], Hb as [->|Hb]; [reflexivity| | |apply IH; assumption]; exfalso; apply D1.
  - rewrite Q. apply in_map, Hb.
  - rewrite <- Q. apply in_map, Ha.
Qed.
Lemma combine_perm l l' out : Forall plain l -> uniform l -> Permutation l l' -> combine_terms l = Ok out ->
  exists out', combine_terms l' = Ok out' /\ map view out' = map view out.
Proof.
  intros PL U P H. assert (I : forall t, In t l' -> In t l) by (intros t; apply Permutation_in, Permutation_sym, P).
  assert (PL' : Forall plain l') by (apply Forall_forall; rewrite Forall_forall in PL; auto).
  destruct (combine_succeeds l' PL') as [out' H']; [intros; apply (proj1 U); auto|]. exists out'. split; [exact H'|]. symmetry. apply (combine_same l l'); auto.
  - apply Forall_app. auto.
  - destruct U as (U1 & U2 & U3). assert (Q : forall t, In t (l ++ l') -> In t l) by (intros t; rewrite in_app_iff; intros []; auto). split; [|split]; intros; eauto.
  - intros k. apply tot_perm, P.
Qed.
