(** C78: equality of terms, its negation, the order and the hash. *)
From Coq Require Import Ascii String ZArith QArith Qcanon Lia Bool.
From Verif Require Import PyBase OrderSpec OrderProofs SpaceModel IndexModel IndexProofs IndicesModel IndicesProofs SpinProofs ElemModel MacroModel TermModel TermProofs CombineModel CombineSpec CombineProofs LatexModel LatexSpec LatexProofs PropLatex.
Local Close Scope Q_scope.
Local Close Scope Qc_scope.
Local Open Scope nat_scope.
Local Notation length := List.length.

(** what a user reads off a term: the operator and, per tensor, the order of the name, the name and the indices *)
Definition same_tensor (x y : tensor) : Prop := tpriority x = tpriority y /\ tname x = tname y /\ tupper x = tupper y /\ tlower x = tlower y.
Definition same_body (t t' : term) : Prop := tsq t = tsq t' /\ Forall2 same_tensor (ttensors t) (ttensors t').
(** relative difference up to 10^-9 or absolute difference up to 10^-15 *)
Definition close (a b : Qc) : Prop :=
  (Qcle (Qc_abs (Qcminus a b)) (Qcmult (Q2Qc (1 # 1000000000)) (Qc_abs a)) \/ Qcle (Qc_abs (Qcminus a b)) (Qcmult (Q2Qc (1 # 1000000000)) (Qc_abs b)) \/
   Qcle (Qc_abs (Qcminus a b)) (Q2Qc (1 # 1000000000000000))).

Lemma le_max x a b : Qcle x (Qc_max a b) <-> Qcle x a \/ Qcle x b.
Proof.
  unfold Qc_max. destruct (Qclt_le_dec a b) as [H|H]; split; intros Q; auto.
  - destruct Q as [Q|Q]; [|exact Q]. eapply Qcle_trans; [exact Q|]. apply Qclt_le_weak, H.
  - destruct Q as [Q|Q]; [exact Q|]. eapply Qcle_trans; [exact Q|exact H].
Qed.
Lemma rel_max a b : Qcmult rel_tol (Qc_max a b) = Qc_max (Qcmult rel_tol a) (Qcmult rel_tol b).
Proof.
  assert (P : Qclt (Q2Qc 0) rel_tol) by reflexivity. unfold Qc_max. destruct (Qclt_le_dec a b) as [H|H], (Qclt_le_dec (Qcmult rel_tol a) (Qcmult rel_tol b)) as [K|K]; try reflexivity.
  - exfalso. apply (Qcle_not_lt _ _ K). rewrite (Qcmult_comm rel_tol a), (Qcmult_comm rel_tol b). apply Qcmult_lt_compat_r; assumption.
  - exfalso. apply (Qclt_not_le _ _ K). rewrite (Qcmult_comm rel_tol a), (Qcmult_comm rel_tol b). apply Qcmult_le_compat_r; [exact H|apply Qclt_le_weak, P].
Qed.
Lemma isclose_close a b : isclose a b = true <-> close a b.
Proof.
  unfold isclose, close. rewrite rel_max. fold rel_tol abs_tol. match goal with |- context [Qclt_le_dec ?m ?d] => destruct (Qclt_le_dec m d) as [H|H] end.
  - split; [discriminate|]. intros Q. exfalso. apply (Qclt_not_le _ _ H). apply le_max. rewrite le_max. tauto.
  - split; [|reflexivity]. intros _. apply le_max in H. rewrite le_max in H. tauto.
Qed.
Lemma abs_minus a b : Qc_abs (Qcminus a b) = Qc_abs (Qcminus b a).
Proof.
  unfold Qc_abs. replace (Qcminus b a) with (Qcopp (Qcminus a b)) by ring. set (d := Qcminus a b). destruct (Qclt_le_dec d (Q2Qc 0)) as [H|H], (Qclt_le_dec (Qcopp d) (Q2Qc 0)) as [K|K].
  - exfalso. apply (Qclt_not_le _ _ H). apply Qclt_le_weak in K. apply Qcopp_le_compat in K. rewrite Qcopp_involutive in K. exact K.
  - reflexivity.
  - ring.
  - apply Qcopp_le_compat in K. rewrite Qcopp_involutive in K. assert (E : d = Q2Qc 0) by (apply Qcle_antisym; [exact K|exact H]). rewrite E. reflexivity.
Qed.
Lemma close_sym a b : close a b -> close b a.
Proof. unfold close. rewrite (abs_minus b a). tauto. Qed.
Lemma close_refl a : close a a.
Proof. right. right. replace (Qcminus a a) with (Q2Qc 0) by (unfold Qcminus; rewrite Qcplus_opp_r; reflexivity). vm_compute. discriminate. Qed.

Lemma tensors_same l l' : peq (list_ord tensor_ord) l l' = true <-> Forall2 same_tensor l l'.
Proof.
  revert l'. induction l as [|x l IH]; intros [|y l']; (split; [intros H|intros H]); try discriminate; try (inversion H; fail); try constructor.
  - cbn [peq list_ord list_eq] in H. apply andb_true_iff in H as [H1 _]. change (peq tensor_key_ord (tkey x) (tkey y) = true) in H1. apply tensor_key_ext in H1. unfold tkey in H1. injection H1 as E1 E2 E3 E4. repeat split; assumption.
  - cbn [peq list_ord list_eq] in H. apply andb_true_iff in H as [_ H2]. apply IH, H2.
  - inversion H as [|? ? ? ? (E1 & E2 & E3 & E4) H2]; subst. cbn [peq list_ord list_eq]. apply andb_true_iff. split; [|apply IH, H2]. change (peq tensor_key_ord (tkey x) (tkey y) = true). unfold tkey. rewrite E1, E2, E3, E4. apply (lw_refl _ tensor_key_lawful).
Qed.
Lemma weak_same t t' : ttype t = ttype t' -> exists b, weak_eq t t' = Ok b /\ (b = true <-> same_body t t').
Proof.
  intros T. unfold weak_eq. rewrite T, (proj2 (itype_eqb_eq _ _) eq_refl). eexists. split; [reflexivity|]. rewrite andb_true_iff, tensors_same. unfold same_body.
  split; intros [H1 H2]; (split; [|exact H2]); [apply op_ext, H1|rewrite H1; apply (lw_refl _ op_lawful)].
Qed.

(** == between terms of the same index type: close coefficients, the same operator, and the same tensors in the same order. != is the
    negation of ==. Terms of different types are unequal if the coefficients differ, and cannot be compared otherwise. *)
Theorem C78_equal : forall t t',
  (ttype t = ttype t' -> (term_eq t t' = Ok true <-> close (tcoeff t) (tcoeff t') /\ same_body t t') /\ (term_eq t t' = Ok false <-> ~ (close (tcoeff t) (tcoeff t') /\ same_body t t')) /\
                         (almost_equal t t' = Ok true <-> same_body t t') /\ (almost_equal t t' = Ok false <-> ~ same_body t t')) /\
  (ttype t <> ttype t' -> (close (tcoeff t) (tcoeff t') -> term_eq t t' = Raise TypeError) /\ (~ close (tcoeff t) (tcoeff t') -> term_eq t t' = Ok false) /\ almost_equal t t' = Raise TypeError) /\
  term_ne t t' = pybind (term_eq t t') (fun b => Ok (negb b)).
Proof.
  intros t t'. split; [|split].
  - intros T. destruct (weak_same t t' T) as (b & W & B). unfold term_eq, almost_equal. rewrite W. pose proof (isclose_close (tcoeff t) (tcoeff t')) as C. destruct (isclose (tcoeff t) (tcoeff t')).
    + assert (C' : close (tcoeff t) (tcoeff t')) by tauto. destruct b; [assert (SB : same_body t t') by tauto|assert (SB : ~ same_body t t') by (intros Q; apply B in Q; discriminate)]; clear B C; revert C' SB; generalize (close (tcoeff t) (tcoeff t')) (same_body t t'); intros P1 P2 C' SB; repeat split; intros; first [assumption|discriminate|congruence|tauto|exfalso; tauto].
    + assert (C' : ~ close (tcoeff t) (tcoeff t')) by (intros Q; apply C in Q; discriminate). destruct b; [assert (SB : same_body t t') by tauto|assert (SB : ~ same_body t t') by (intros Q; apply B in Q; discriminate)]; clear B C; revert C' SB; generalize (close (tcoeff t) (tcoeff t')) (same_body t t'); intros P1 P2 C' SB; repeat split; intros; first [assumption|discriminate|congruence|tauto|exfalso; tauto].
  - intros T. assert (W : weak_eq t t' = Raise TypeError) by (unfold weak_eq; destruct (itype_eqb (ttype t) (ttype t')) eqn:Q; [apply itype_eqb_eq in Q; contradiction|reflexivity]).
    unfold term_eq, almost_equal. rewrite W. pose proof (isclose_close (tcoeff t) (tcoeff t')) as C. destruct (isclose (tcoeff t) (tcoeff t')); repeat split; intros; try reflexivity; exfalso; [apply H; tauto|]. assert (false = true) by tauto. discriminate.
  - unfold term_ne, term_eq. destruct (isclose (tcoeff t) (tcoeff t')); reflexivity.
Qed.
Print Assumptions C78_equal.

(** == is reflexive and symmetric. *)
Theorem C78_reflexive_symmetric : forall t t', term_eq t t = Ok true /\ term_eq t t' = term_eq t' t.
Proof.
  intros t t'. assert (SB : forall u w, same_body u w -> same_body w u).
  { intros u w [H1 H2]. split; [congruence|]. clear H1. induction H2 as [|x y l l' (E1 & E2 & E3 & E4) _ IH]; constructor; [repeat split; congruence|exact IH]. }
  split.
  - destruct (C78_equal t t) as [H _]. apply (H eq_refl). split; [apply close_refl|]. split; [reflexivity|]. induction (ttensors t); constructor; [repeat split|assumption].
  - assert (I : isclose (tcoeff t) (tcoeff t') = isclose (tcoeff t') (tcoeff t)) by (apply eq_iff_eq_true; rewrite !isclose_close; split; apply close_sym). unfold term_eq. rewrite I. destruct (isclose (tcoeff t') (tcoeff t)); [|reflexivity].
    destruct (itype_eqb (ttype t) (ttype t')) eqn:Q.
    + apply itype_eqb_eq in Q. destruct (weak_same t t' Q) as (b & -> & B). destruct (weak_same t' t (eq_sym Q)) as (b' & -> & B'). f_equal. apply eq_iff_eq_true. rewrite B, B'. split; apply SB.
    + unfold weak_eq. rewrite Q. destruct (itype_eqb (ttype t') (ttype t)) eqn:Q'; [|reflexivity]. apply itype_eqb_eq in Q'. rewrite Q', (proj2 (itype_eqb_eq _ _) eq_refl) in Q. discriminate.
Qed.
Print Assumptions C78_reflexive_symmetric.

(** Terms that are not equal are in exactly one order; terms with equal coefficients and the same body are equal, in neither order, and have the same text, hence the same hash. *)
Theorem C78_order_hash : forall t t', ttype t = ttype t' ->
  (term_eq t t' = Ok false -> (plt term_ord t t' = true /\ plt term_ord t' t = false) \/ (plt term_ord t t' = false /\ plt term_ord t' t = true)) /\
  (tcoeff t = tcoeff t' -> same_body t t' -> term_eq t t' = Ok true /\ plt term_ord t t' = false /\ plt term_ord t' t = false /\ term_repr t = term_repr t').
Proof.
  intros t t' T. destruct (C78_equal t t') as [H _]. destruct (H T) as (H1 & H2 & _ & _). pose proof (lw_tri _ term_lawful t t') as TRI. rewrite (lw_gt _ term_lawful) in TRI. split.
  - intros F. destruct TRI as [(A & _ & B)|[(_ & Q & _)|(A & _ & B)]]; [left; auto| |right; auto]. exfalso. apply H2 in F. apply F. change (peq op_ord (tsq t) (tsq t') && (peq nat_ord (length (ttensors t)) (length (ttensors t')) && (peq (list_ord tensor_ord) (ttensors t) (ttensors t') && (peq Qc_ord (Qc_abs (tcoeff t)) (Qc_abs (tcoeff t')) && peq Qc_ord (tcoeff t) (tcoeff t')))) = true) in Q.
    rewrite !andb_true_iff in Q. destruct Q as (Q1 & _ & Q3 & _ & Q5). split; [|split; [apply op_ext, Q1|apply tensors_same, Q3]].
    cbn [Qc_ord peq] in Q5. destruct (Qc_eq_dec (tcoeff t) (tcoeff t')) as [-> |]; [apply close_refl|discriminate].
  - intros EC SB. assert (E : term_eq t t' = Ok true) by (apply H1; split; [rewrite EC; apply close_refl|exact SB]). split; [exact E|].
    assert (Q : peq term_ord t t' = true).
    { destruct SB as [S1 S2]. change (peq op_ord (tsq t) (tsq t') && (peq nat_ord (length (ttensors t)) (length (ttensors t')) && (peq (list_ord tensor_ord) (ttensors t) (ttensors t') && (peq Qc_ord (Qc_abs (tcoeff t)) (Qc_abs (tcoeff t')) && peq Qc_ord (tcoeff t) (tcoeff t')))) = true).
      rewrite S1, EC, !andb_true_iff. split; [|split; [|split; [|split]]].
      - apply (lw_refl _ op_lawful).
      - cbn. apply Nat.eqb_eq. clear -S2; induction S2; cbn [List.length]; congruence.
      - apply tensors_same, S2.
      - cbn. destruct (Qc_eq_dec (Qc_abs (tcoeff t')) (Qc_abs (tcoeff t'))); congruence.
      - cbn. destruct (Qc_eq_dec (tcoeff t') (tcoeff t')); congruence. }
    destruct TRI as [(_ & B & _)|[(A & _ & B)|(_ & B & _)]]; [congruence| |congruence]. repeat split; try assumption.
    unfold term_repr, term_latex. rewrite EC. destruct SB as [S1 S2]. rewrite S1. replace (map tensor_text (ttensors t)) with (map tensor_text (ttensors t')); [reflexivity|].
    clear -S2. induction S2 as [|x y l l' (E1 & E2 & E3 & E4) _ IH]; [reflexivity|]. cbn [map]. rewrite IH. f_equal. unfold tensor_text. rewrite E2, E3, E4. reflexivity.
Qed.
Print Assumptions C78_order_hash.

(** Since == has a tolerance, it is not transitive, equal terms can be in the order <, and equal terms can have different texts, so that
    hash(t) != hash(t') although t == t': sets and dictionaries of terms may hold equal terms twice. *)
Theorem C78_hash_refuted : exists t xs o c c' tm tm' s s',
  make_term t xs o c = Ok tm /\ make_term t xs o c' = Ok tm' /\ term_eq tm tm' = Ok true /\ plt term_ord tm tm' = true /\ term_repr tm = Ok s /\ term_repr tm' = Ok s' /\ s <> s'.
Proof.
  exists SpinOrbital, [Ten THamiltonian SpinOrbital "H" 0 [(Lab false Sg, 1)] [(Lab false Sg, 0)]], (Op [(Lab false Sg, 0)] [(Lab false Sg, 1)]), (Q2Qc 2), (Q2Qc (2000000001 # 1000000000)).
  destruct (make_term SpinOrbital [Ten THamiltonian SpinOrbital "H" 0 [(Lab false Sg, 1)] [(Lab false Sg, 0)]] (Op [(Lab false Sg, 0)] [(Lab false Sg, 1)]) (Q2Qc 2)) as [tm|] eqn:E; [|vm_compute in E; discriminate].
  destruct (make_term SpinOrbital [Ten THamiltonian SpinOrbital "H" 0 [(Lab false Sg, 1)] [(Lab false Sg, 0)]] (Op [(Lab false Sg, 0)] [(Lab false Sg, 1)]) (Q2Qc (2000000001 # 1000000000))) as [tm'|] eqn:E'; [|vm_compute in E'; discriminate].
  destruct (latex_total false false false false tm) as [s R]. destruct (latex_total false false false false tm') as [s' R']. exists tm, tm', s, s'. do 2 (split; [reflexivity|]). pose proof E as Q. pose proof E' as Q'. vm_compute in Q, Q'. injection Q as Q. injection Q' as Q'.
  split; [subst tm tm'; vm_compute; reflexivity|]. split; [subst tm tm'; vm_compute; reflexivity|]. split; [exact R|]. split; [exact R'|]. intros ES. rewrite ES in R. rewrite <- R' in R. fold (term_repr tm) (term_repr tm') in R. clear ES R'.
  assert (PL : forall u, ttensors u = [Ten THamiltonian SpinOrbital "H" 0 [(Lab false Sg, 1)] [(Lab false Sg, 0)]] -> plain u) by (intros u EU; unfold plain; rewrite EU; constructor; [unfold plain_name; cbn; intuition discriminate|constructor]).
  apply C77_text_identifies in R as [_ R].
  - subst tm tm'. cbn [tcoeff] in R. discriminate R.
  - apply PL. subst tm. reflexivity.
  - apply PL. subst tm'. reflexivity.
  - subst tm. cbn [tcoeff this Qden]. lia.
  - subst tm'. cbn [tcoeff this Qden]. lia.
Qed.
Print Assumptions C78_hash_refuted.
Theorem C78_transitive_refuted : exists t1 t2 t3 xs o c1 c2 c3,
  make_term SpinOrbital xs o c1 = Ok t1 /\ make_term SpinOrbital xs o c2 = Ok t2 /\ make_term SpinOrbital xs o c3 = Ok t3 /\
  term_eq t1 t2 = Ok true /\ term_eq t2 t3 = Ok true /\ term_eq t1 t3 = Ok false.
Proof.
  do 3 eexists. exists [Ten THamiltonian SpinOrbital "H" 0 [(Lab false Sg, 1)] [(Lab false Sg, 0)]], (Op [(Lab false Sg, 0)] [(Lab false Sg, 1)]), (Q2Qc 2), (Q2Qc (2000000001 # 1000000000)), (Q2Qc (2000000003 # 1000000000)).
  do 3 (split; [vm_compute; reflexivity|]). do 2 (split; [vm_compute; reflexivity|]). vm_compute. reflexivity.
Qed.
Print Assumptions C78_transitive_refuted.

(** 1/3 and the double nearest to it: equal terms, ordered both ways with a third one, and not comparable with a spin-integrated term. *)
Example C78_example :
  let xs t := [Ten THamiltonian t "H" 0 [(Lab false Sg, 1)] [(Lab false Sg, 0)]] in let o := Op [(Lab false Sg, 0)] [(Lab false Sg, 1)] in
  exists a b c d, make_term SpinOrbital (xs SpinOrbital) o (Q2Qc (1 # 3)) = Ok a /\ make_term SpinOrbital (xs SpinOrbital) o (Q2Qc (6004799503160661 # 18014398509481984)) = Ok b /\
    make_term SpinOrbital (xs SpinOrbital) o (Q2Qc (1 # 2)) = Ok c /\ make_term SpinIntegrated (xs SpinIntegrated) o (Q2Qc (1 # 3)) = Ok d /\
    term_eq a b = Ok true /\ term_ne a b = Ok false /\ term_eq a c = Ok false /\ almost_equal a c = Ok true /\ plt term_ord a c = true /\ plt term_ord c a = false /\
    term_eq a d = Raise TypeError /\ term_eq c d = Ok false.
Proof. do 4 eexists. do 4 (split; [vm_compute; reflexivity|]). vm_compute. repeat split. Qed.
