(** Proofs for C35: the batches, the workers and their order do not matter. *)
From Coq Require Import Ascii String ZArith QArith Qcanon Sorting.Sorted Lia.
From Verif Require Import PyBase OrderSpec OrderProofs SpaceModel IndexModel IndicesModel IterProofs IndicesProofs ElemModel MacroModel WickModel TermModel ValueSpec ValueProofs TermSpec TermProofs RenameProofs
  SymmetryModel CombineModel CombineSpec TextProofs CombineProofs CombineValue PropSimplify.
Local Close Scope Q_scope.
Local Close Scope Qc_scope.
Local Open Scope nat_scope.
Local Notation length := List.length.

(** ** Multiples of a number that is zero or not tiny *)
Definition multiple (c q : Qc) : Prop := exists z : Z, q = Qcmult (Qc_of_Z z) c.
Lemma Qc_of_Z_add a b : Qc_of_Z (a + b) = Qcplus (Qc_of_Z a) (Qc_of_Z b).
Proof. apply Qc_is_canon. unfold Qc_of_Z, Qcplus, Qcmult. cbn [this Q2Qc]. rewrite !Qred_correct. unfold Qeq. cbn. ring. Qed.
Lemma Qc_of_Z_mul a b : Qc_of_Z (a * b) = Qcmult (Qc_of_Z a) (Qc_of_Z b).
Proof. apply Qc_is_canon. unfold Qc_of_Z, Qcplus, Qcmult. cbn [this Q2Qc]. rewrite !Qred_correct. unfold Qeq. cbn. ring. Qed.
Lemma multiple_add c p q : multiple c p -> multiple c q -> multiple c (Qcplus p q).
Proof. intros [a ->] [b ->]. exists (a + b)%Z. rewrite Qc_of_Z_add. ring. Qed.
Lemma multiple_0 c : multiple c (Q2Qc 0).
Proof. exists 0%Z. change (Qc_of_Z 0) with (Q2Qc 0). ring. Qed.
Lemma multiple_scale c z q : multiple c q -> multiple c (Qcmult (Qc_of_Z z) q).
Proof. intros [a ->]. exists (z * a)%Z. rewrite Qc_of_Z_mul. ring. Qed.
Lemma multiple_total c l : Forall (multiple c) l -> multiple c (Qc_total l).
Proof. induction 1 as [|q l H _ IH]; [apply multiple_0|]. unfold Qc_total in *. cbn [fold_right]. apply multiple_add; assumption. Qed.
Lemma Qc_of_Z_1 a : (1 <= a)%Z -> Qcle (Q2Qc 1) (Qc_of_Z a).
Proof. intros H. unfold Qcle, Qc_of_Z. cbn [this Q2Qc]. rewrite ?Qred_correct. unfold Qle. cbn. lia. Qed.
Lemma Qc_opp_pos q : Qcle q (Q2Qc 0) -> Qcle (Q2Qc 0) (Qcopp q).
Proof. intros H. apply Qcopp_le_compat in H. replace (Qcopp (Q2Qc 0)) with (Q2Qc 0) in H by (apply Qc_is_canon; reflexivity). exact H. Qed.
Lemma Qc_abs_cases q : Qcle (Q2Qc 0) (Qc_abs q) /\ (Qc_abs q = q \/ Qc_abs q = Qcopp q).
Proof. unfold Qc_abs. destruct (Qclt_le_dec q (Q2Qc 0)) as [L|L]; [|auto]. split; [|auto]. apply Qc_opp_pos, Qclt_le_weak, L. Qed.
Lemma Qc_abs_ge q : Qcle q (Qc_abs q) /\ Qcle (Qcopp q) (Qc_abs q).
Proof.
  unfold Qc_abs. destruct (Qclt_le_dec q (Q2Qc 0)) as [L|L].
  - apply Qclt_le_weak in L. split; [|apply Qcle_refl]. apply (Qcle_trans _ (Q2Qc 0)); [exact L|]. apply Qc_opp_pos, L.
  - split; [apply Qcle_refl|]. apply (Qcle_trans _ (Q2Qc 0)); [|exact L]. apply Qcopp_le_compat in L. replace (Qcopp (Q2Qc 0)) with (Q2Qc 0) in L by (apply Qc_is_canon; reflexivity). exact L.
Qed.
Lemma Qc_of_Z_opp' z : Qc_of_Z (- z) = Qcopp (Qc_of_Z z).
Proof. apply Qc_is_canon. unfold Qc_of_Z, Qcopp. cbn [this Q2Qc]. rewrite !Qred_correct. reflexivity. Qed.
Lemma Qc_abs_multiple z c : z <> 0%Z -> Qcle (Qc_abs c) (Qc_abs (Qcmult (Qc_of_Z z) c)).
Proof.
  intros Hz. destruct (Qc_abs_cases c) as [P Q]. set (a := Z.abs z).
  assert (G : Qcle (Qc_abs c) (Qcmult (Qc_of_Z a) (Qc_abs c))).
  { replace (Qc_abs c) with (Qcmult (Q2Qc 1) (Qc_abs c)) at 1 by (apply Qcmult_1_l). apply Qcmult_le_compat_r; [|exact P]. apply Qc_of_Z_1. unfold a. lia. }
  apply (Qcle_trans _ _ _ G). destruct (Qc_abs_ge (Qcmult (Qc_of_Z z) c)) as [G1 G2].
  assert (E : Qcmult (Qc_of_Z a) (Qc_abs c) = Qcmult (Qc_of_Z z) c \/ Qcmult (Qc_of_Z a) (Qc_abs c) = Qcopp (Qcmult (Qc_of_Z z) c)).
  { assert (Ea : Qc_of_Z a = Qc_of_Z z \/ Qc_of_Z a = Qcopp (Qc_of_Z z)).
    { unfold a. destruct (Z.abs_eq_or_opp z) as [-> | ->]; [left; reflexivity|right; apply Qc_of_Z_opp']. }
    destruct Ea as [-> | ->], Q as [-> | ->]; [left|right|right|left]; ring. }
  destruct E as [-> | ->]; assumption.
Qed.
Lemma multiple_not_tiny c q : (c = Q2Qc 0 \/ Qcle tiny (Qc_abs c)) -> multiple c q -> q = Q2Qc 0 \/ Qcle tiny (Qc_abs q).
Proof.
  intros H [z ->]. destruct (Z.eq_dec z 0) as [->|Hz]; [left; change (Qc_of_Z 0) with (Q2Qc 0); ring|]. destruct H as [->|H]; [left; ring|]. right. apply (Qcle_trans _ _ _ H), Qc_abs_multiple, Hz.
Qed.

(** ** What canonicalization does to the kinds of the tensors *)
Definition tkind (x : tensor) : tclass * itype * string * Z := (tcls x, titype x, tname x, tpriority x).
Lemma downgrade_loop_kinds core xs : forall st ys st', downgrade_loop core xs st = Ok (ys, st') -> forall y, In y ys -> tcls y = TKronecker \/ In y xs.
Proof.
  induction xs as [|x xs IH]; intros st ys st' H y I; cbn [downgrade_loop] in H; [injection H as <- _; destruct I|].
  destruct (downgrade_step core x st) as [[y0 st1]|] eqn:E1; [|discriminate]. cbn [pybind snd fst] in H. destruct (downgrade_loop core xs st1) as [[ys' st2]|] eqn:E2; [|discriminate]. cbn [pybind snd fst] in H. injection H as <- <-.
  destruct I as [<-|I].
  - unfold downgrade_step in E1. destruct (tcls x) eqn:Ec; try (injection E1 as <- _; right; left; reflexivity). destruct (length (tupper x) =? 1); [|injection E1 as <- _; right; left; reflexivity].
    destruct (tupper x) as [|u [|? ?]]; try discriminate. destruct (tlower x) as [|l [|? ?]]; try discriminate. destruct (downgrade_cumulant u l) as [s|]; [|discriminate]. destruct (_ && _).
    + destruct (check_tensor _) as [k|] eqn:Ek; [|discriminate]. apply check_tensor_ok in Ek as ->. injection E1 as <- _. left. reflexivity.
    + injection E1 as <- _. right. left. reflexivity.
  - destruct (IH _ _ _ E2 y I) as [K|K]; [left|right; right]; exact K.
Qed.
Lemma delta_loop_kinds xs : forall st ys st', delta_loop xs st = Ok (ys, st') -> forall y, In y ys -> In y xs /\ tcls y <> TKronecker.
Proof.
  induction xs as [|x xs IH]; intros st ys st' H y I; cbn [delta_loop] in H; [injection H as <- _; destruct I|].
  destruct (tclass_eqb (tcls x) TKronecker) eqn:Ex.
  - destruct (delta_step x st) as [st1|] eqn:E1; [|discriminate]. cbn [pybind] in H. destruct (IH _ _ _ H y I). split; [right|]; assumption.
  - destruct (delta_loop xs st) as [[ys' st2]|] eqn:E2; [|discriminate]. cbn [pybind fst snd] in H. injection H as <- <-. destruct I as [<-|I]; [split; [left; reflexivity|intros K; rewrite K in Ex; discriminate]|]. destruct (IH _ _ _ E2 y I). split; [right|]; assumption.
Qed.
Lemma from_indices_kind x u l y : from_indices x u l = Ok y -> tkind y = tkind x.
Proof. intros H. unfold from_indices in H. apply check_tensor_ok in H as ->. reflexivity. Qed.
Lemma replace_tensor_kind r x y : replace_tensor r x = Ok y -> tkind y = tkind x.
Proof.
  unfold replace_tensor. intros H. repeat (match type of H with pybind ?a _ = _ => destruct a as [?|] eqn:?E; cbn [pybind] in H; [|discriminate] end). exact (from_indices_kind _ _ _ _ H).
Qed.
Lemma simplify_kinds core ra t t' : simplify core ra t = Ok t' -> forall y, In y (ttensors t') -> exists x, In x (ttensors t) /\ tkind y = tkind x.
Proof.
  intros H y I. unfold simplify in H.
  destruct (downgrade_loop core _ _) as [[xs1 [[rcu next1] rd1]]|] eqn:E1; [|discriminate]. cbn [pybind] in H.
  destruct (delta_loop xs1 _) as [[xs2 [[rde next2] rd2]]|] eqn:E2; [|discriminate]. cbn [pybind] in H.
  destruct (diagonal_loop _ _ _ _ _) as [[r next3]|]; [|discriminate]. cbn [pybind] in H.
  destruct (replace_op_indices _ _ _) as [o|]; [|discriminate]. cbn [pybind] in H.
  destruct (if ra then _ else _) as [active|]; [|discriminate]. cbn [pybind] in H. destruct active; [injection H as <-; destruct I|].
  destruct (replace_tensors_indices xs2 r) as [xs3|] eqn:E3; [|discriminate]. cbn [pybind] in H.
  destruct (pymap _ (tdiag t)) as [d|]; [|discriminate]. cbn [pybind] in H. injection H as <-. cbn [ttensors] in I.
  unfold replace_tensors_indices in E3. destruct xs2 as [|x0 xs2']; [discriminate|]. set (xs2 := x0 :: xs2') in *. clearbody xs2.
  apply pymap_forall2 in E3. assert (G : exists x, In x xs2 /\ replace_tensor r x = Ok y).
  { clear - E3 I. induction E3 as [|x z l m Hxz _ IH]; [destruct I|]. destruct I as [<-|I]; [exists x; split; [left; reflexivity|exact Hxz]|]. destruct (IH I) as (x' & I' & E'). exists x'. split; [right|]; assumption. }
  destruct G as (x & Ix & Ex). destruct (delta_loop_kinds _ _ _ _ E2 x Ix) as [Ix1 NK]. destruct (downgrade_loop_kinds _ _ _ _ _ E1 x Ix1) as [K|K]; [contradiction|]. exists x. split; [exact K|]. exact (replace_tensor_kind _ _ _ Ex).
Qed.
Lemma read_tensors_kinds dummy xs : forall gc ys, read_tensors dummy xs gc = Ok ys -> forall y, In y ys -> exists x, In x xs /\ tkind y = tkind x.
Proof.
  induction xs as [|x xs IH]; intros gc ys H y I; cbn [read_tensors] in H; [injection H as <-; destruct I|].
  repeat (match type of H with pybind ?a _ = _ => destruct a as [?|] eqn:?E; cbn [pybind] in H; [|discriminate] end). injection H as <-. destruct I as [<-|I]; [exists x; split; [left; reflexivity|]; eapply from_indices_kind; eassumption|].
  match goal with E : read_tensors _ _ _ = Ok _ |- _ => destruct (IH _ _ E y I) as (x' & I' & E') end. exists x'. split; [right|]; assumption.
Qed.
Lemma canonicalize_kinds sympy core ra h t tm : canonicalize_sympy sympy core ra h t = Ok tm ->
  ttype tm = ttype t /\ (forall y, In y (ttensors tm) -> exists x, In x (ttensors t) /\ tkind y = tkind x) /\ (forall c, multiple c (tcoeff t) -> multiple c (tcoeff tm)).
Proof.
  intros H. unfold canonicalize_sympy in H. destruct (simplify core ra t) as [t'|] eqn:E; [|discriminate]. cbn [pybind] in H. destruct (simplify_type _ _ _ _ E) as [T C]. pose proof (simplify_kinds _ _ _ _ E) as K.
  destruct (is_void t').
  { injection H as <-. cbn. split; [exact T|]. split; [intros y []|]. intros c _. apply multiple_0. }
  cbv zeta in H. repeat (match type of H with pybind ?a _ = _ => destruct a as [?|] eqn:?E; cbn [pybind] in H; [|discriminate] | match ?a with Some _ => _ | None => _ end = _ => destruct a; [|discriminate] end).
  destruct (make_term_fields _ _ _ _ _ H) as (F1 & F2 & _ & _ & F5 & _). split; [congruence|]. split.
  - intros y I. apply (Permutation_in _ F2) in I. match goal with E : read_tensors _ _ _ = Ok _ |- _ => destruct (read_tensors_kinds _ _ _ _ E y I) as (x & Ix & Ex) end. destruct (K x Ix) as (x' & Ix' & Ex'). exists x'. split; [exact Ix'|congruence].
  - intros c M. rewrite F5. apply multiple_scale. destruct C as [-> | ->]; [exact M|apply multiple_0].
Qed.

(** ** Terms built from known kinds of tensors *)
Definition clean (tensors : list tensor) (t : term) : Prop :=
  ttype t = SpinOrbital /\ forall y, In y (ttensors t) -> titype y = SpinOrbital /\ exists x, In x (tensors ++ driver_tensors) /\ tname y = tname x /\ tcls y = tcls x /\ tpriority y = tpriority x.
Lemma clean_incl tensors tensors' t : incl tensors tensors' -> clean tensors t -> clean tensors' t.
Proof. intros I [H1 H2]. split; [exact H1|]. intros y Y. destruct (H2 y Y) as (T & x & X & E). split; [exact T|]. exists x. split; [|exact E]. apply in_app_or in X as [X|X]; apply in_or_app; auto. Qed.
Lemma clean_plain tensors l : consistent_names tensors -> Forall (clean tensors) l -> Forall plain l.
Proof.
  intros [P _]. apply Forall_impl. intros t [_ H]. apply Forall_forall. intros y I. destruct (H y I) as (_ & x & Ix & E & _). unfold plain_name. rewrite E. apply in_app_or in Ix as [Ix|Ix]; [rewrite Forall_forall in P; exact (P x Ix)|].
  cbn [driver_tensors In] in Ix. intros Q. destruct Ix as [<-|[<-|[<-|[]]]]; cbn in Q; intuition discriminate.
Qed.
Lemma clean_uniform tensors l : consistent_names tensors -> Forall (clean tensors) l -> uniform l.
Proof.
  intros [_ CN] G. rewrite Forall_forall in G. split; [|split].
  - intros t t' I I'. destruct (G t I) as (-> & _), (G t' I') as (-> & _). reflexivity.
  - intros t t' x x' I I' X X' E. destruct (G t I) as (_ & K), (G t' I') as (_ & K'). destruct (K x X) as (_ & y & Y & E1 & E2 & E3), (K' x' X') as (_ & y' & Y' & E1' & E2' & E3'). rewrite E2, E3, E2', E3'. apply CN; [assumption..|congruence].
  - intros t x I X. destruct (G t I) as (-> & K). apply K, X.
Qed.

(** ** The loop over the batches *)
Section Loop.
  Context (w : world) (UN : unordered w) (tensors : list tensor) (CN : consistent_names tensors) (coeff : Qc) (HC : coeff = Q2Qc 0 \/ Qcle tiny (Qc_abs coeff)) (hermitian : bool).
  Definition good (t : term) : Prop := clean tensors t /\ multiple coeff (tcoeff t).
  Lemma canonicalize_good e t : canonicalize_contraction w tensors coeff hermitian e = Ok t -> good t.
  Proof.
    destruct e as [[sign ds] o]. unfold canonicalize_contraction. destruct (make_term _ _ _ _) as [t0|] eqn:M; [|discriminate]. cbn [pybind]. intros H.
    destruct (make_term_inv _ _ _ _ _ M) as (FT & _). destruct (make_term_fields _ _ _ _ _ M) as (F1 & F2 & _ & _ & F5 & _). destruct (canonicalize_kinds _ _ _ _ _ _ H) as (K1 & K2 & K3). split; [split; [congruence|]|].
    - intros y I. destruct (K2 y I) as (x & Ix & Ex). apply (Permutation_in _ F2) in Ix. unfold tkind in Ex. assert (titype y = titype x /\ tname y = tname x /\ tcls y = tcls x /\ tpriority y = tpriority x) as (E1 & E2 & E3 & E4) by (repeat split; congruence).
      split; [rewrite E1; rewrite Forall_forall in FT; apply FT, Ix|]. apply in_app_or in Ix as [Ix|Ix]; [exists x; split; [apply in_or_app; left; exact Ix|auto]|].
      apply in_map_iff in Ix as (d & <- & _). unfold tensor_of in *. destruct (kind d).
      + exists (Ten TCumulant SpinOrbital "L" 2%Z [] []). split; [apply in_or_app; right; left; reflexivity|auto].
      + exists (Ten THole SpinOrbital "C" 2%Z [] []). split; [apply in_or_app; right; right; left; reflexivity|auto].
      + exists (Ten TKronecker SpinOrbital "K" (-1)%Z [] []). split; [apply in_or_app; right; right; right; left; reflexivity|auto].
    - apply K3. rewrite F5. apply multiple_scale. exists 1%Z. change (Qc_of_Z 1) with (Q2Qc 1). ring.
  Qed.
  Lemma goods_clean l : Forall good l -> Forall (clean tensors) l.
  Proof. apply Forall_impl. intros t [H _]. exact H. Qed.
  Lemma good_uniform l : Forall good l -> uniform l.
  Proof. intros G. apply (clean_uniform tensors); [exact CN|apply goods_clean, G]. Qed.
  Lemma goods_plain l : Forall good l -> Forall plain l.
  Proof. intros G. apply (clean_plain tensors); [exact CN|apply goods_clean, G]. Qed.
  Lemma good_combine l : Forall good l -> exists out, combine_terms l = Ok out /\ Forall good out /\ same_sums out l.
  Proof.
    intros G. destruct (combine_succeeds l (goods_plain l G)) as [out E]; [apply (good_uniform l G)|]. pose proof (combine_combined l out (goods_plain l G) E) as C. exists out. split; [exact E|].
    assert (M : forall k, multiple coeff (tot k l)).
    { intros k. unfold tot. apply multiple_total. apply Forall_forall. intros q Q. apply in_map_iff in Q as (t & <- & Q). apply filter_In in Q as [Q _]. rewrite Forall_forall in G. apply (G t Q). }
    split.
    - apply Forall_forall. intros t I. destruct (cb_source _ _ C t I) as (l1 & t0 & l2 & El & _ & -> & _). rewrite Forall_forall in G. destruct (G t0) as (G1 & _); [rewrite El; apply in_elt|]. split; [exact G1|]. cbn [tcoeff set_coeff]. rewrite total_tot. apply M.
    - intros k. symmetry. apply (combined_sums l out C). intros t _. rewrite total_tot. apply (multiple_not_tiny coeff); [exact HC|apply M].
  Qed.
  Local Notation can := (canonicalize_contraction w tensors coeff hermitian).
  Lemma pymap_good es rs : pymap can es = Ok rs -> Forall good rs.
  Proof. intros H. apply pymap_forall2 in H. induction H as [|e t l m E _ IH]; constructor; [exact (canonicalize_good e t E)|exact IH]. Qed.
  Lemma same_sums_app a a' b b' : same_sums a a' -> same_sums b b' -> same_sums (a ++ b) (a' ++ b').
  Proof. intros H H' k. rewrite !tot_app, H, H'. reflexivity. Qed.
  Lemma same_sums_trans a b c : same_sums a b -> same_sums b c -> same_sums a c.
  Proof. intros H H' k. rewrite H. apply H'. Qed.
  Lemma batch_ok k n es rs simp : pymap can es = Ok rs -> exists out, canonicalize_contractions_batch w k n es tensors coeff simp hermitian = Ok out /\ Forall good out /\ same_sums out rs.
  Proof.
    intros H. pose proof (pymap_good es rs H) as G. unfold canonicalize_contractions_batch. destruct es as [|e es']; [injection H as <-; exists []; split; [reflexivity|split; [constructor|intros kk; reflexivity]]|]. rewrite H. cbn [pybind].
    set (temp := if n =? 1 then rs else w_sched w k rs). assert (P : Permutation temp rs) by (unfold temp; destruct (n =? 1); [reflexivity|apply UN]). clearbody temp.
    assert (GT : Forall good temp) by (apply Forall_forall; intros t I; rewrite Forall_forall in G; apply G; exact (Permutation_in _ P I)).
    assert (ST : same_sums temp rs) by (intros kk; apply tot_perm, P).
    destruct simp; [|exists temp; auto]. destruct (good_combine temp GT) as (out & E & GO & SO). exists out. split; [exact E|]. split; [exact GO|]. exact (same_sums_trans _ _ _ SO ST).
  Qed.
  Lemma batch_fails k n es simp out : canonicalize_contractions_batch w k n es tensors coeff simp hermitian = Ok out -> exists rs, pymap can es = Ok rs.
  Proof. unfold canonicalize_contractions_batch. destruct es as [|e es']; [exists []; reflexivity|]. destruct (pymap can (e :: es')) as [rs|]; [eauto|discriminate]. Qed.
  Lemma pymap_app es es' rs rs' : pymap can es = Ok rs -> pymap can es' = Ok rs' -> pymap can (es ++ es') = Ok (rs ++ rs').
  Proof.
    revert rs. induction es as [|e es IH]; intros rs H H'; cbn [pymap app] in *; [injection H as <-; exact H'|]. destruct (can e) as [t|]; [|discriminate]. cbn [pybind] in *. destruct (pymap can es) as [ts|]; [|discriminate]. cbn [pybind] in H. injection H as <-. rewrite (IH ts eq_refl H'). reflexivity.
  Qed.
  Lemma pymap_app_inv es es' rs : pymap can (es ++ es') = Ok rs -> exists r1 r2, pymap can es = Ok r1 /\ pymap can es' = Ok r2 /\ rs = r1 ++ r2.
  Proof.
    revert rs. induction es as [|e es IH]; intros rs H; cbn [pymap app] in *; [exists [], rs; auto|]. destruct (can e) as [t|]; [|discriminate]. cbn [pybind] in *. destruct (pymap can (es ++ es')) as [ts|]; [|discriminate]. cbn [pybind] in H. injection H as <-. destruct (IH ts eq_refl) as (r1 & r2 & -> & E & ->). exists (t :: r1), r2. auto.
  Qed.
  Lemma loop_ok n size batches : forall k count es out rs, Forall good out -> pymap can (es ++ concat batches) = Ok rs ->
    exists fin, batch_loop w k n size tensors coeff hermitian batches count es out = Ok fin /\ Forall good fin /\ same_sums fin (out ++ rs).
  Proof.
    induction batches as [|b batches IH]; intros k count es out rs GO H; cbn [batch_loop concat] in *.
    - rewrite app_nil_r in H. destruct (batch_ok k n es rs false H) as (r & E & G & SS). rewrite E. cbn [pybind]. exists (out ++ r). split; [reflexivity|]. split; [apply Forall_app; auto|]. apply same_sums_app; [intros kk; reflexivity|exact SS].
    - rewrite app_assoc in H. cbv zeta. destruct (_ <? size); [apply IH; assumption|]. apply pymap_app_inv in H as (r1 & r2 & H1 & H2 & ->). destruct (batch_ok k n _ r1 true H1) as (r & E & G & SS). rewrite E. cbn [pybind].
      destruct (IH (S k) 0 [] (out ++ r) r2) as (fin & EF & GF & SF); [apply Forall_app; auto|exact H2|]. exists fin. split; [exact EF|]. split; [exact GF|]. apply (same_sums_trans _ _ _ SF). rewrite app_assoc. apply same_sums_app; [|intros kk; reflexivity]. apply same_sums_app; [intros kk; reflexivity|exact SS].
  Qed.
  Lemma loop_fails n size batches : forall k count es out fin, batch_loop w k n size tensors coeff hermitian batches count es out = Ok fin -> exists rs, pymap can (es ++ concat batches) = Ok rs.
  Proof.
    induction batches as [|b batches IH]; intros k count es out fin H; cbn [batch_loop concat] in *.
    - rewrite app_nil_r. destruct (canonicalize_contractions_batch _ _ _ _ _ _ _ _) as [r|] eqn:E; [|discriminate]. exact (batch_fails _ _ _ _ _ E).
    - rewrite app_assoc. cbv zeta in H. destruct (_ <? size); [exact (IH _ _ _ _ _ H)|]. destruct (canonicalize_contractions_batch _ _ _ _ _ _ _ _) as [r|] eqn:E; [|discriminate]. cbn [pybind] in H. destruct (batch_fails _ _ _ _ _ E) as [r1 E1]. destruct (IH _ _ _ _ _ H) as [r2 E2]. exists (r1 ++ r2). apply pymap_app; assumption.
  Qed.
End Loop.

Lemma can_same w w' tensors coeff h e : same_but_scheduling w w' -> canonicalize_contraction w tensors coeff h e = canonicalize_contraction w' tensors coeff h e.
Proof. intros (E & _). destruct e as [[s ds] o]. unfold canonicalize_contraction. rewrite E. reflexivity. Qed.
Lemma pymap_same {X Y} (f g : X -> pyres Y) l : (forall x, f x = g x) -> pymap f l = pymap g l.
Proof. intros H. induction l as [|x l IH]; [reflexivity|]. cbn [pymap]. rewrite H, IH. reflexivity. Qed.
Lemma schedule_ok w w' terms max_cu max_o min_o sc fc eh n n' h out :
  same_but_scheduling w w' -> unordered w -> unordered w' -> consistent_names (flat_map ttensors terms) ->
  (let c := fold_left (fun c t => Qcmult c (tcoeff t)) terms sc in c = Q2Qc 0 \/ Qcle tiny (Qc_abs c)) ->
  contract_terms w terms max_cu max_o min_o sc fc eh n h = Ok out ->
  exists out', contract_terms w' terms max_cu max_o min_o sc fc eh n' h = Ok out' /\ map view out' = map view out.
Proof.
  intros SW U U' CN HC H. unfold contract_terms in *. destruct terms as [|t0 terms]; [discriminate|]. set (ts := t0 :: terms) in *. clearbody ts. cbv zeta in *.
  destruct (filter (fun t => negb (op_is_empty (tsq t))) ts) as [|t1 [|t2 tc]]; [eauto|eauto|]. destruct (forallb _ (t1 :: t2 :: tc)); [|discriminate]. pose proof SW as (S1 & S2 & S3 & S4). rewrite <- S2, <- S3, <- S4.
  destruct (compute_operator_contractions _ _ _ _ _ _ _ _ _) as [batches|]; [|discriminate]. cbn [pybind] in *.
  destruct (batch_loop w _ _ _ _ _ _ _ _ _ _) as [fin|] eqn:E; [|discriminate]. cbn [pybind] in H.
  destruct (loop_fails _ _ _ _ _ _ _ _ _ _ _ _ E) as [rs R]. cbn [app] in R.
  destruct (loop_ok w U _ CN _ HC h (Nat.min n (w_cpus w)) (batch_size_of (Nat.min n (w_cpus w))) batches 0 0 [] [] rs) as (fin1 & E1 & G1 & SS1); [constructor|exact R|]. rewrite E in E1. injection E1 as <-.
  rewrite (pymap_same _ (canonicalize_contraction w' (flat_map ttensors ts) (fold_left (fun c t => Qcmult c (tcoeff t)) ts sc) h)) in R by (intros e; apply can_same, SW).
  destruct (loop_ok w' U' _ CN _ HC h (Nat.min n' (w_cpus w')) (batch_size_of (Nat.min n' (w_cpus w'))) batches 0 0 [] [] rs) as (fin' & E' & G' & SS'); [constructor|exact R|]. rewrite E'. cbn [pybind].
  assert (GA : Forall (good (flat_map ttensors ts) (fold_left (fun c t => Qcmult c (tcoeff t)) ts sc)) (fin' ++ fin)) by (apply Forall_app; auto).
  destruct (good_combine _ CN _ HC fin' G') as (out' & EO & _). exists out'. split; [exact EO|].
  apply (combine_same fin' fin); [eapply goods_plain; eassumption|eapply good_uniform; eassumption| |exact EO|exact H].
  intros k. rewrite SS', SS1. reflexivity.
Qed.

(** ** Commutators *)
Lemma combined_clean tensors l out : combined l out -> Forall (clean tensors) l -> Forall (clean tensors) out.
Proof. intros C G. apply Forall_forall. intros t I. destruct (cb_source _ _ C t I) as (l1 & t0 & l2 & El & _ & -> & _). rewrite Forall_forall in G. apply (G t0). rewrite El. apply in_elt. Qed.
Lemma view_clean tensors l l' : map view l = map view l' -> Forall (clean tensors) l -> Forall (clean tensors) l'.
Proof.
  revert l'. induction l as [|t l IH]; intros [|t' l'] E G; try discriminate; [constructor|]. cbn [map] in E. inversion G as [|? ? G1 G2]; subst. assert (E1 : view t = view t') by congruence. assert (E2 : map view l = map view l') by congruence.
  constructor; [|apply IH; assumption]. unfold view in E1. unfold clean in *. assert (ttype t = ttype t') as <- by congruence. assert (ttensors t = ttensors t') as <- by congruence. exact G1.
Qed.
Lemma view_sums l l' : map view l = map view l' -> same_sums l l'.
Proof.
  revert l'. induction l as [|t l IH]; intros [|t' l'] E; try discriminate; [intros k; reflexivity|]. cbn [map] in E. assert (E1 : view t = view t') by congruence. assert (E2 : map view l = map view l') by congruence.
  unfold view in E1. intros k. specialize (IH l' E2 k). unfold tot, with_labels in *. cbn [filter]. assert (L : labels t = labels t') by (unfold labels; congruence). assert (Q : tcoeff t = tcoeff t') by congruence. rewrite <- L. destruct (labels_dec (labels t) k); [|exact IH]. unfold Qc_total in *. cbn [map fold_right]. rewrite IH, Q. reflexivity.
Qed.
Lemma combine_views tensors l l' out : consistent_names tensors -> Forall (clean tensors) l -> map view l = map view l' -> combine_terms l = Ok out ->
  exists out', combine_terms l' = Ok out' /\ map view out = map view out' /\ Forall (clean tensors) out.
Proof.
  intros CN G E H. pose proof (view_clean _ _ _ E G) as G'. destruct (combine_succeeds l' (clean_plain _ _ CN G')) as [out' H']; [apply (clean_uniform _ _ CN G')|]. exists out'. split; [exact H'|]. assert (GA : Forall (clean tensors) (l ++ l')) by (apply Forall_app; auto). split.
  - apply (combine_same l l'); [apply (clean_plain _ _ CN GA)|apply (clean_uniform _ _ CN GA)|apply view_sums, E|exact H|exact H'].
  - apply (combined_clean _ l); [apply combine_combined; [apply (clean_plain _ _ CN G)|exact H]|exact G].
Qed.
Lemma make_clean xs o c t : make_term SpinOrbital xs o c = Ok t -> clean xs t.
Proof.
  intros M. destruct (make_term_inv _ _ _ _ _ M) as (FT & _). destruct (make_term_fields _ _ _ _ _ M) as (F1 & F2 & _). split; [exact F1|]. intros y I. apply (Permutation_in _ F2) in I. rewrite Forall_forall in FT. split; [apply FT, I|]. exists y. split; [apply in_or_app; left; exact I|auto].
Qed.
Lemma contract_clean w terms max_cu max_o min_o sc fc eh n h out : unordered w -> consistent_names (flat_map ttensors terms) ->
  (let c := fold_left (fun c t => Qcmult c (tcoeff t)) terms sc in c = Q2Qc 0 \/ Qcle tiny (Qc_abs c)) -> (forall t, In t terms -> ttype t = SpinOrbital) ->
  contract_terms w terms max_cu max_o min_o sc fc eh n h = Ok out -> Forall (clean (flat_map ttensors terms)) out.
Proof.
  intros U CN HC HT H. unfold contract_terms in H. destruct terms as [|t0 terms]; [discriminate|]. pose proof (HT t0 (or_introl eq_refl)) as H0. set (ts := t0 :: terms) in *. clearbody ts. cbv zeta in *.
  destruct (filter (fun t => negb (op_is_empty (tsq t))) ts) as [|t1 [|t2 tc]] eqn:F.
  - rewrite H0 in H. destruct (make_term _ _ _ _) as [t|] eqn:M; [|discriminate]. cbn [pybind] in H. injection H as <-. constructor; [|constructor]. exact (make_clean _ _ _ _ M).
  - rewrite (HT t1) in H; [|assert (I : In t1 [t1]) by (left; reflexivity); rewrite <- F in I; apply filter_In in I; apply I]. destruct (make_term _ _ _ _) as [t|] eqn:M; [|discriminate]. cbn [pybind] in H. injection H as <-. constructor; [|constructor]. exact (make_clean _ _ _ _ M).
  - destruct (forallb _ (t1 :: t2 :: tc)); [|discriminate]. destruct (compute_operator_contractions _ _ _ _ _ _ _ _ _) as [batches|]; [|discriminate]. cbn [pybind] in *. destruct (batch_loop w _ _ _ _ _ _ _ _ _ _) as [fin|] eqn:E; [|discriminate]. cbn [pybind] in H.
    destruct (loop_fails _ _ _ _ _ _ _ _ _ _ _ _ E) as [rs R]. cbn [app] in R.
    destruct (loop_ok w U _ CN _ HC h (Nat.min n (w_cpus w)) (batch_size_of (Nat.min n (w_cpus w))) batches 0 0 [] [] rs) as (fin1 & E1 & G1 & SS1); [constructor|exact R|]. rewrite E in E1. injection E1 as <-. apply (goods_clean _ _) in G1.
    apply (combined_clean _ fin); [apply combine_combined; [apply (clean_plain _ _ CN G1)|exact H]|exact G1].
Qed.
Definition same_worlds (w w' : world) : Prop := same_but_scheduling w w' /\ unordered w /\ unordered w'.
Lemma consistent_incl xs ys : incl xs ys -> consistent_names ys -> consistent_names xs.
Proof.
  intros I [P C]. split; [apply Forall_forall; intros x X; rewrite Forall_forall in P; apply P, I, X|]. intros x y X Y. apply C; [apply in_app_or in X as [X|X]|apply in_app_or in Y as [Y|Y]]; apply in_or_app; auto.
Qed.
Lemma commutator_ok w1 w2 w1' w2' a b max_cu max_o min_o sc fc eh n n' h out :
  same_worlds w1 w1' -> same_worlds w2 w2' -> consistent_names (ttensors a ++ ttensors b) -> ttype a = SpinOrbital -> ttype b = SpinOrbital ->
  (let c := Qcmult sc (Qcmult (tcoeff a) (tcoeff b)) in c = Q2Qc 0 \/ Qcle tiny (Qc_abs c)) ->
  single_commutator w1 w2 a b max_cu max_o min_o sc fc eh n h = Ok out ->
  exists out', single_commutator w1' w2' a b max_cu max_o min_o sc fc eh n' h = Ok out' /\ map view out = map view out' /\ Forall (clean (ttensors a ++ ttensors b)) out.
Proof.
  intros (S1 & U1 & U1') (S2 & U2 & U2') CN Ta Tb HC H. unfold single_commutator in *. destruct (fc && _); [injection H as <-; exists []; auto|].
  assert (C1 : consistent_names (flat_map ttensors [a; b])) by (cbn [flat_map]; rewrite app_nil_r; exact CN).
  assert (C2 : consistent_names (flat_map ttensors [b; a])) by (cbn [flat_map]; rewrite app_nil_r; apply (consistent_incl _ (ttensors a ++ ttensors b)); [intros x; rewrite !in_app_iff; tauto|exact CN]).
  assert (H1 : let c := fold_left (fun c t => Qcmult c (tcoeff t)) [a; b] sc in c = Q2Qc 0 \/ Qcle tiny (Qc_abs c)).
  { cbn [fold_left]. replace (Qcmult (Qcmult sc (tcoeff a)) (tcoeff b)) with (Qcmult sc (Qcmult (tcoeff a) (tcoeff b))) by ring. exact HC. }
  assert (H2 : let c := fold_left (fun c t => Qcmult c (tcoeff t)) [b; a] (Qcopp sc) in c = Q2Qc 0 \/ Qcle tiny (Qc_abs c)).
  { cbn [fold_left]. apply (multiple_not_tiny (Qcmult sc (Qcmult (tcoeff a) (tcoeff b)))); [exact HC|]. exists (-1)%Z. change (-1)%Z with (- (1))%Z. rewrite (Qc_of_Z_opp' 1). change (Qc_of_Z 1) with (Q2Qc 1). ring. }
  assert (HT : forall t, In t [a; b] -> ttype t = SpinOrbital) by (intros t [<-|[<-|[]]]; assumption).
  assert (HT' : forall t, In t [b; a] -> ttype t = SpinOrbital) by (intros t [<-|[<-|[]]]; assumption).
  destruct (contract_terms w1 _ _ _ _ _ _ _ _ _) as [oa|] eqn:Ea; [|discriminate]. cbn [pybind] in H. destruct (contract_terms w2 _ _ _ _ _ _ _ _ _) as [ob|] eqn:Eb; [|discriminate]. cbn [pybind] in H.
  destruct (schedule_ok w1 w1' _ _ _ _ _ _ _ _ n' _ _ S1 U1 U1' C1 H1 Ea) as (oa' & Ea' & Va). destruct (schedule_ok w2 w2' _ _ _ _ _ _ _ _ n' _ _ S2 U2 U2' C2 H2 Eb) as (ob' & Eb' & Vb). rewrite Ea', Eb'. cbn [pybind].
  pose proof (contract_clean _ _ _ _ _ _ _ _ _ _ _ U1 C1 H1 HT Ea) as Ga. pose proof (contract_clean _ _ _ _ _ _ _ _ _ _ _ U2 C2 H2 HT' Eb) as Gb.
  apply (combine_views (ttensors a ++ ttensors b) (oa ++ ob)); [exact CN| |rewrite !map_app, Va, Vb; reflexivity|exact H].
  apply Forall_app. split; (eapply Forall_impl; [|eassumption]); intros t; apply clean_incl; cbn [flat_map]; rewrite app_nil_r; intros x; rewrite !in_app_iff; tauto.
Qed.
Lemma pymap_views (f f' : term -> pyres (list term)) tensors l : (forall t, In t l -> forall out, f t = Ok out -> exists out', f' t = Ok out' /\ map view out = map view out' /\ Forall (clean tensors) out) ->
  forall r, pymap f l = Ok r -> exists r', pymap f' l = Ok r' /\ map view (concat r) = map view (concat r') /\ Forall (clean tensors) (concat r).
Proof.
  induction l as [|t l IH]; intros H r E; cbn [pymap] in *; [injection E as <-; exists []; split; [reflexivity|split; [reflexivity|constructor]]|].
  destruct (f t) as [o|] eqn:Et; [|discriminate]. cbn [pybind] in E. destruct (pymap f l) as [os|]; [|discriminate]. cbn [pybind] in E. injection E as <-.
  destruct (H t (or_introl eq_refl) o Et) as (o' & -> & V & G). destruct (IH (fun t' I => H t' (or_intror I)) os eq_refl) as (os' & -> & VS & GS). exists (o' :: os'). split; [reflexivity|]. cbn [concat]. rewrite !map_app, V, VS. split; [reflexivity|]. apply Forall_app. auto.
Qed.
Lemma linear_ok (sc sc' : term -> term -> pyres (list term)) tensors ls rs out : consistent_names tensors ->
  (forall a b, In a ls -> In b rs -> forall o, sc a b = Ok o -> exists o', sc' a b = Ok o' /\ map view o = map view o' /\ Forall (clean tensors) o) ->
  linear_commutator sc ls rs = Ok out -> exists out', linear_commutator sc' ls rs = Ok out' /\ map view out = map view out' /\ Forall (clean tensors) out.
Proof.
  intros CN H E. unfold linear_commutator in *. match type of E with pybind ?a _ = _ => destruct a as [lls|] eqn:El; [|discriminate] end. cbn [pybind] in E.
  destruct (pymap_views (fun left => pybind (pymap (fun right => sc left right) rs) (fun ls => Ok (concat ls))) (fun left => pybind (pymap (fun right => sc' left right) rs) (fun ls => Ok (concat ls))) tensors ls) with (2 := El) as (lls' & -> & V & G).
  - intros a Ia o Eo. destruct (pymap (fun right => sc a right) rs) as [os|] eqn:Eos; [|discriminate]. cbn [pybind] in Eo. injection Eo as <-. destruct (pymap_views (fun right => sc a right) (fun right => sc' a right) tensors rs (fun b Ib => H a b Ia Ib) os Eos) as (os' & -> & VS & GS). exists (concat os'). auto.
  - cbn [pybind]. apply (combine_views tensors (concat lls)); assumption.
Qed.
