(** combine_terms: sums, values, repetition and the objects it writes to. *)
From Coq Require Import Ascii String ZArith QArith Qcanon Sorting.Sorted.
From Verif Require Import PyBase OrderSpec OrderProofs SpaceModel IndexModel IndicesModel IndicesProofs SpinProofs ElemModel ElemProofs MacroModel MacroSpec SortProofs TermModel ValueSpec ValueProofs TermSpec TermProofs CombineModel CombineSpec TextProofs CombineProofs.
Local Close Scope Q_scope.
Local Close Scope Qc_scope.
Local Open Scope nat_scope.
Local Notation length := List.length.

(** ** Sums are kept *)
Definition no_tiny_sums (l : list term) : Prop := forall t, In t l -> total t l = Q2Qc 0 \/ Qcle tiny (Qc_abs (total t l)).
Lemma tiny_positive : ~ Qcle tiny (Qc_abs (Q2Qc 0)).
Proof. intros H. vm_compute in H. apply H. reflexivity. Qed.
Lemma combined_sums l out : combined l out -> no_tiny_sums l -> same_sums l out.
Proof.
  intros C H k. destruct (in_dec labels_dec k (map labels out)) as [I|I].
  - apply in_map_iff in I as (t & E & I). destruct (cb_source _ _ C t I) as (l1 & t0 & l2 & El & _ & Et & _). rewrite (tot_one k out t (cb_distinct _ _ C) I E). rewrite Et. cbn [tcoeff set_coeff]. rewrite total_tot. rewrite <- E, Et. reflexivity.
  - rewrite (tot_none k out) by (intros t Ht E; apply I; rewrite <- E; apply in_map, Ht). destruct (in_dec labels_dec k (map labels l)) as [J|J].
    + apply in_map_iff in J as (t0 & E & J). destruct (H t0 J) as [Z|Z]; [rewrite total_tot, E in Z; exact Z|]. exfalso. destruct (cb_complete _ _ C t0 J Z) as (t & Ht & Et & _). apply I. rewrite <- E, <- Et. apply in_map, Ht.
    + apply tot_none. intros t Ht E. apply J. rewrite <- E. apply in_map, Ht.
Qed.
(** out consists of terms of l with other coefficients *)
Definition from_list (l out : list term) : Prop := forall t, In t out -> exists t0 c, In t0 l /\ t = set_coeff t0 c.
Lemma combined_from l out : combined l out -> from_list l out.
Proof. intros C t H. destruct (cb_source _ _ C t H) as (l1 & t0 & l2 & E & _ & -> & _). exists t0, (total t0 l). split; [rewrite E; apply in_elt|reflexivity]. Qed.
Lemma from_uniform l out : from_list l out -> uniform l -> uniform (l ++ out).
Proof.
  intros F (U1 & U2 & U3). assert (G : forall t, In t (l ++ out) -> exists t0, In t0 l /\ ttype t = ttype t0 /\ ttensors t = ttensors t0).
  { intros t H. apply in_app_or in H as [H|H]; [eauto|]. destruct (F t H) as (t0 & c & H0 & ->). eauto. }
  split; [|split].
  - intros t t' H H'. destruct (G t H) as (u & Hu & E & _), (G t' H') as (u' & Hu' & E' & _). rewrite E, E'. auto.
  - intros t t' x x' H H'. destruct (G t H) as (u & Hu & _ & E), (G t' H') as (u' & Hu' & _ & E'). rewrite E, E'. intros; apply (U2 u u'); auto.
  - intros t x H. destruct (G t H) as (u & Hu & E1 & E2). rewrite E1, E2. intros; apply (U3 u); auto.
Qed.
Lemma from_plain l out : from_list l out -> Forall plain l -> Forall plain out.
Proof. intros F PL. apply Forall_forall. intros t H. destruct (F t H) as (t0 & c & H0 & ->). rewrite Forall_forall in PL. exact (PL t0 H0). Qed.

(** ** Values *)
Section Values.
  Context (A : qalg) (S : system) (v : tvaluation A).
  Add Ring alg_ring9 : (q_ring A).
  Lemma inj_0 : inj (Q2Qc 0) = @q0 A.
  Proof. apply (zin_0 A). Qed.
  Definition weight (f : kappa -> A) (l : list term) : A := asum (map (fun t => (inj (tcoeff t) * f (labels t))%alg) l).
  Lemma weight_sums f K l : NoDup K -> (forall t, In t l -> In (labels t) K) -> weight f l = asum (map (fun k => (inj (tot k l) * f k)%alg) K).
  Proof.
    intros N H. induction l as [|t l IH].
    - unfold weight. cbn [map]. assert (E : asum (map (fun k => (inj (tot k []) * f k)%alg) K) = asum (map (fun _ => @q0 A) K)).
      { apply asum_map_ext. intros k _. unfold tot. cbn. rewrite inj_0. ring. }
      rewrite E. clear. unfold asum. cbn [map fold_right]. induction K as [|k K IH]; cbn [map fold_right]; [reflexivity|]. rewrite <- IH. ring.
    - unfold weight in *. cbn [map]. change (asum (?a :: ?b)) with (a + asum b)%alg. rewrite IH by (intros; apply H; right; assumption). clear IH.
      assert (Hk : In (labels t) K) by (apply H; left; reflexivity). apply in_split in Hk as (K1 & K2 & ->). pose proof (NoDup_remove_2 _ _ _ N) as N2.
      assert (E : forall k, k <> labels t -> tot k (t :: l) = tot k l).
      { intros k D. change (t :: l) with ([t] ++ l). rewrite tot_app, (tot_none k [t]); [ring|]. intros u [<-|[]]. congruence. }
      assert (E2 : tot (labels t) (t :: l) = Qcplus (tcoeff t) (tot (labels t) l)).
      { unfold tot, with_labels. cbn [filter]. destruct (labels_dec (labels t) (labels t)); [reflexivity|contradiction]. }
      rewrite !map_app, !asum_app. cbn [map]. change (@asum A (?a :: ?b)) with (a + asum b)%alg.
      rewrite (asum_map_ext A (fun k => (inj (tot k (t :: l)) * f k)%alg) (fun k => (inj (tot k l) * f k)%alg) K1) by (intros k Hk; rewrite E; [reflexivity|]; intros ->; apply N2, in_or_app; auto).
      rewrite (asum_map_ext A (fun k => (inj (tot k (t :: l)) * f k)%alg) (fun k => (inj (tot k l) * f k)%alg) K2) by (intros k Hk; rewrite E; [reflexivity|]; intros ->; apply N2, in_or_app; auto).
      rewrite E2, inj_add. ring.
  Qed.
  Lemma weight_same f l l' : same_sums l l' -> weight f l = weight f l'.
  Proof.
    intros SS. set (K := nodup labels_dec (map labels (l ++ l'))). assert (N : NoDup K) by apply NoDup_nodup.
    rewrite (weight_sums f K l), (weight_sums f K l'); [apply asum_map_ext; intros k _; rewrite (SS k); reflexivity|exact N| |exact N|].
    - intros t H. apply nodup_In. apply in_map, in_or_app. auto.
    - intros t H. apply nodup_In. apply in_map, in_or_app. auto.
  Qed.
  (** the value of a term with coefficient 1, found by its labels *)
  Definition content_of (l : list term) (k : kappa) : A :=
    match find (fun t => if labels_dec (labels t) k then true else false) l with
    | Some t => content_value S v (Q2Qc 1) (ttensors t) (tsq t) | None => q0 end.
  Lemma term_value_content l t : uniform l -> In t l -> term_value S v t = (inj (tcoeff t) * content_of l (labels t))%alg.
  Proof.
    intros U H. unfold content_of. destruct (find _ l) as [u|] eqn:E.
    - apply find_some in E as [Hu E]. destruct (labels_dec (labels u) (labels t)) as [L|]; [|discriminate]. apply (uniform_body l u t U Hu H) in L. unfold body in L. injection L as _ E1 E2.
      rewrite E1, E2. unfold term_value, content_value. rewrite inj_one. ring.
    - exfalso. apply (find_none _ _ E) in H. destruct (labels_dec (labels t) (labels t)); [discriminate|contradiction].
  Qed.
  Lemma values_same l l' : uniform (l ++ l') -> same_sums l l' -> asum (map (term_value S v) l) = asum (map (term_value S v) l').
  Proof.
    intros U SS. pose proof (weight_same (content_of (l ++ l')) l l' SS) as W. unfold weight in W.
    rewrite (asum_map_ext A (term_value S v) (fun t => (inj (tcoeff t) * content_of (l ++ l') (labels t))%alg) l) by (intros t H; apply term_value_content; [exact U|apply in_or_app; auto]).
    rewrite (asum_map_ext A (term_value S v) (fun t => (inj (tcoeff t) * content_of (l ++ l') (labels t))%alg) l') by (intros t H; apply term_value_content; [exact U|apply in_or_app; auto]).
    exact W.
  Qed.
  Lemma combine_value l out : Forall plain l -> uniform l -> no_tiny_sums l -> combine_terms l = Ok out -> asum (map (term_value S v) out) = asum (map (term_value S v) l).
  Proof.
    intros PL U H E. pose proof (combine_combined l out PL E) as C. symmetry. apply values_same; [apply from_uniform; [apply combined_from, C|exact U]|apply combined_sums; assumption].
  Qed.
End Values.

(** ** A combined list is combined *)
Lemma sort_sorted_id {A} (o : pyord A) (L : lawful o) l : le_sorted o l -> sort_by (plt o) l = l.
Proof.
  induction 1 as [|x l S IH F]; [reflexivity|]. change (sort_by (plt o) (x :: l)) with (insert_by (plt o) x (sort_by (plt o) l)). rewrite IH. destruct l as [|y l]; [reflexivity|]. cbn [insert_by].
  apply Forall_inv in F. apply (ple_iff o L) in F. rewrite F. reflexivity.
Qed.
Lemma gather_nodup {X} (name : X -> text) coeff l : NoDup (map name l) -> fst (gather name coeff l) = map (fun t => (name t, t)) l.
Proof.
  induction l as [|t l IH] using rev_ind; [reflexivity|]. intros N. rewrite gather_snoc. cbn [fst]. rewrite map_app in N. cbn [map] in N.
  assert (N1 : NoDup (map name l)) by (apply NoDup_remove_1 in N; rewrite app_nil_r in N; exact N). assert (N2 : ~ In (name t) (map name l)) by (apply NoDup_remove_2 in N; rewrite app_nil_r in N; exact N).
  rewrite (IH N1), (dict_set_new text_eqb text_eqb_eq); [rewrite map_app; reflexivity|]. rewrite map_map. exact N2.
Qed.
Lemma set_coeff_same t : set_coeff t (tcoeff t) = t.
Proof. destruct t. reflexivity. Qed.
Lemma combine_again l out : Forall plain l -> combine_terms l = Ok out -> combine_terms out = Ok out.
Proof.
  intros PL E. pose proof (combine_combined l out PL E) as C. assert (PO : Forall plain out) by (apply (from_plain l); [apply combined_from, C|exact PL]).
  assert (K : kept out = out).
  { unfold kept. rewrite collect_gather. destruct (gather_spec hash_term tcoeff out) as (_ & _ & I3 & _).
    assert (N : NoDup (map hash_term out)).
    { pose proof (cb_distinct _ _ C) as D. clear - D PO. induction out as [|t out IH]; cbn [map] in *; [constructor|]. inversion D as [|? ? D1 D2]; subst. inversion PO as [|? ? P1 P2]; subst. constructor; [|apply IH; assumption].
      intros Q. apply in_map_iff in Q as (u & Q & Hu). apply D1. apply in_map_iff. exists u. split; [|exact Hu]. rewrite Forall_forall in P2. apply hash_labels; auto. }
    pose proof (gather_nodup hash_term tcoeff out N) as G. destruct (gather hash_term tcoeff out) as [items coeffs]. cbn [fst snd] in *. subst items. rewrite map_map. cbn [fst snd].
    assert (M : map (fun t => set_coeff t (Qc_sum (dict_list text_eqb (hash_term t) coeffs))) out = out).
    { transitivity (map (fun t : term => t) out); [|apply map_id]. apply map_ext_in. intros t Ht. rewrite Qc_sum_total, I3, (named_with out PO t Ht). change (Qc_total (map tcoeff (with_labels (labels t) out))) with (tot (labels t) out).
      rewrite (tot_one (labels t) out t (cb_distinct _ _ C) Ht eq_refl). apply set_coeff_same. }
    rewrite M. assert (F : forall t, In t out -> negb (is_void t) = true).
    { intros t Ht. destruct (cb_source _ _ C t Ht) as (l1 & t0 & l2 & _ & _ & -> & V). unfold is_void. cbn [tcoeff set_coeff]. apply is_void_coeff_false in V. rewrite V. reflexivity. }
    clear - F. induction out as [|t out IH]; [reflexivity|]. cbn [filter]. rewrite F by (left; reflexivity). f_equal. apply IH. intros; apply F; right; assumption. }
  rewrite combine_kept, K. rewrite combine_kept in E. unfold sorted_terms in *. destruct (same_types (kept l)) eqn:T; [|discriminate]. assert (E0 : sort_by (plt term_ord) (kept l) = out) by congruence.
  replace (same_types out) with true; [rewrite (sort_sorted_id term_ord term_lawful); [reflexivity|apply (cb_sorted _ _ C)]|]. symmetry. apply same_types_iff. rewrite same_types_iff in T.
  intros t t' H H'. apply T; apply (Permutation_in _ (sort_by_perm (plt term_ord) (kept l))); rewrite E0; assumption.
Qed.

(** ** The objects *)
Lemma map_sort_by {X Y} (f : X -> Y) (lt : Y -> Y -> bool) l : map f (sort_by (fun a b => lt (f a) (f b)) l) = sort_by lt (map f l).
Proof.
  unfold sort_by. induction l as [|x l IH]; [reflexivity|]. cbn [fold_right map]. rewrite <- IH. generalize (fold_right (insert_by (fun a b => lt (f a) (f b))) [] l) as m. induction m as [|y m IHm]; [reflexivity|]. cbn [insert_by map].
  destruct (lt (f y) (f x)); cbn [map]; [rewrite IHm|]; reflexivity.
Qed.
Section Heap.
  Context (h : heap).
  Definition hname (r : ref) : text := hash_term (h r).
  Definition hcoeff (r : ref) : Qc := tcoeff (h r).
  Lemma collect_heap l : collect h l = gather hname hcoeff l.
  Proof. reflexivity. Qed.
  Lemma gather_map l : gather hash_term tcoeff (map h l) = (map (fun nr => (fst nr, h (snd nr))) (fst (gather hname hcoeff l)), snd (gather hname hcoeff l)).
  Proof.
    induction l as [|r l IH] using rev_ind; [reflexivity|]. rewrite map_app. cbn [map]. rewrite !gather_snoc, IH. cbn [fst snd]. f_equal. generalize (fst (gather hname hcoeff l)) as d. unfold hname.
    induction d as [|[k v] d IHd]; [reflexivity|]. cbn [map dict_set fst snd]. destruct (text_eqb (hash_term (h r)) k); [reflexivity|]. cbn [map fst snd]. rewrite IHd. reflexivity.
  Qed.
  Lemma write_spec coeffs items h0 : NoDup (map snd items) -> (forall n r, In (n, r) items -> h0 r = h r) ->
    let '(h', out) := write_coeffs h0 coeffs items in
    (forall n r, In (n, r) items -> h' r = set_coeff (h r) (Qc_sum (dict_list text_eqb n coeffs))) /\
    (forall r, ~ In r (map snd items) -> h' r = h0 r) /\
    out = map snd (filter (fun nr => negb (is_void (set_coeff (h (snd nr)) (Qc_sum (dict_list text_eqb (fst nr) coeffs))))) items).
  Proof.
    revert h0. induction items as [|[n r] items IH]; intros h0 N H; cbn [write_coeffs].
    - split; [intros ? ? []|]. split; [reflexivity|reflexivity].
    - cbn [map snd] in N. inversion N as [|? ? N1 N2]; subst. set (t := set_coeff (h0 r) (Qc_sum (dict_list text_eqb n coeffs))).
      assert (Et : t = set_coeff (h r) (Qc_sum (dict_list text_eqb n coeffs))) by (unfold t; rewrite (H n r); [reflexivity|left; reflexivity]).
      specialize (IH (heap_set h0 r t) N2). destruct (write_coeffs (heap_set h0 r t) coeffs items) as [h' out]. destruct IH as (I1 & I2 & I3).
      { intros n' r' Q. unfold heap_set. destruct (Nat.eqb_spec r' r) as [->|D]; [exfalso; apply N1; apply (in_map snd) in Q; exact Q|]. apply (H n'). right. exact Q. }
      split; [|split].
      + intros n' r' [Q|Q]; [injection Q as <- <-|apply I1, Q]. rewrite I2 by exact N1. unfold heap_set. rewrite Nat.eqb_refl. exact Et.
      + intros r' Q. cbn [map snd] in Q. rewrite I2 by (intros Q'; apply Q; right; exact Q'). unfold heap_set. destruct (Nat.eqb_spec r' r) as [->|D]; [exfalso; apply Q; left; reflexivity|reflexivity].
      + cbn [filter fst snd]. rewrite <- Et, I3. destruct (is_void t); reflexivity.
  Qed.
  Lemma items_refs l : NoDup (map snd (fst (gather hname hcoeff l))).
  Proof.
    destruct (gather_spec hname hcoeff l) as (I1 & I2 & _ & _). assert (H : forall n r, In (n, r) (fst (gather hname hcoeff l)) -> hname r = n) by (intros n r Q; apply I2 in Q; tauto).
    revert I1 H. generalize (fst (gather hname hcoeff l)) as d. clear. induction d as [|[n r] d IH]; intros N H; cbn [map snd]; [constructor|]. cbn [map fst] in N. inversion N as [|? ? N1 N2]; subst. constructor; [|apply IH; [exact N2|intros; apply H; right; assumption]].
    intros Q. apply in_map_iff in Q as ([n' r'] & E & Q). cbn [snd] in E. subst r'. apply N1. apply in_map_iff. exists (n', r). split; [|exact Q]. cbn. rewrite <- (H n' r) by (right; exact Q). apply H. left. reflexivity.
  Qed.
  Lemma heap_ok l : match combine_terms_heap h l with
    | Ok (h', out) => combine_terms (map h l) = Ok (map h' out) /\
        (forall r, ~ In r l -> h' r = h r) /\
        (forall r, h' r = h r \/ (In r l /\ h' r = set_coeff (h r) (Qc_total (map hcoeff (named hname (hname r) l))))) /\
        (forall l1 r l2, l = l1 ++ r :: l2 -> (forall r', In r' l2 -> hname r' <> hname r) -> h' r = set_coeff (h r) (Qc_total (map hcoeff (named hname (hname r) l)))) /\
        (forall r r', In r' l -> h' r <> h r -> hname r' = hname r -> exists l1 l2, l = l1 ++ r :: l2 /\ (forall r', In r' l2 -> hname r' <> hname r)) /\ incl out l
    | Raise e => combine_terms (map h l) = Raise e end.
  Proof.
    unfold combine_terms_heap. destruct l as [|r0 l0]; [cbn; repeat split; auto; try (intros; congruence); intros ? ? ? E; destruct l1; discriminate|]. set (l := r0 :: l0). clearbody l. clear r0 l0.
    rewrite collect_heap. destruct (gather_spec hname hcoeff l) as (I1 & I2 & I3 & I4). pose proof (items_refs l) as N. pose proof (gather_map l) as G.
    destruct (gather hname hcoeff l) as [items coeffs]. cbn [fst snd] in *. pose proof (write_spec coeffs items h N (fun _ _ _ => eq_refl)) as W. destruct (write_coeffs h coeffs items) as [h' out]. destruct W as (W1 & W2 & W3).
    assert (K : kept (map h l) = map h' out).
    { unfold kept. rewrite collect_gather, G, map_map. cbn [fst snd]. rewrite W3, map_map. clear - W1. induction items as [|[n r] items IH]; [reflexivity|]. specialize (IH (fun n' r' Q => W1 n' r' (or_intror Q))). cbn [map filter fst snd].
      destruct (negb _); cbn [map snd]; [rewrite IH, (W1 n r (or_introl eq_refl)); reflexivity|exact IH]. }
    rewrite !combine_kept, K. unfold sorted_terms. destruct (same_types (map h' out)); [|reflexivity].
    assert (M : forall r, In r (map snd items) <-> exists l1 l2, l = l1 ++ r :: l2 /\ (forall r', In r' l2 -> hname r' <> hname r)).
    { intros r. split.
      - intros Q. apply in_map_iff in Q as ([n r'] & E & Q). cbn [snd] in E. subst r'. apply I2 in Q as (E & l1 & l2 & El & F). rewrite <- E in F. eauto.
      - intros (l1 & l2 & El & F). apply in_map_iff. exists (hname r, r). split; [reflexivity|]. apply I2. split; [reflexivity|]. eauto. }
    assert (V : forall r, In r (map snd items) -> h' r = set_coeff (h r) (Qc_total (map hcoeff (named hname (hname r) l)))).
    { intros r Q. apply in_map_iff in Q as ([n r'] & E & Q). cbn [snd] in E. subst r'. rewrite (W1 n r Q), Qc_sum_total, I3. apply I2 in Q as (<- & _). reflexivity. }
    split; [rewrite map_sort_by; reflexivity|]. split; [|split; [|split; [|split]]].
    - intros r Q. apply W2. intros Q'. apply Q. apply M in Q' as (l1 & l2 & -> & _). apply in_elt.
    - intros r. destruct (in_dec Nat.eq_dec r (map snd items)) as [Q|Q]; [right|left; apply W2, Q]. split; [|apply V, Q]. apply M in Q as (l1 & l2 & -> & _). apply in_elt.
    - intros l1 r l2 E F. apply V, M. eauto.
    - intros r r' Hr' D E. destruct (in_dec Nat.eq_dec r (map snd items)) as [Q|Q]; [apply M, Q|]. exfalso. apply D, W2, Q.
    - intros r Q. apply (Permutation_in _ (sort_by_perm _ _)) in Q. rewrite W3 in Q. apply in_map_iff in Q as (nr & E & Q). apply filter_In in Q as [Q _]. assert (Q' : In r (map snd items)) by (apply in_map_iff; eauto). apply M in Q' as (l1 & l2 & -> & _). apply in_elt.
  Qed.
End Heap.
