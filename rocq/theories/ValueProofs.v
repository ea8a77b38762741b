(** Values of contraction results. *)
From Verif Require Import PyBase OrderSpec OrderProofs ParitySpec ParityProofs SpaceModel IndicesModel IterProofs ElemModel ElemSpec CumulantProofs CompatSpec
  WickModel WickSpec WickProofs DriverProofs ConnectedProofs ValueSpec.
From Coq Require Import ZArith QArith Qcanon Ring_theory Ring.
Local Close Scope Q_scope.
Local Close Scope Qc_scope.
Local Open Scope nat_scope.

Lemma pairs_perm {B} (R : B -> B -> Prop) s s' : (forall a b, R a b -> R b a) -> Permutation s s' -> ForallOrdPairs R s -> ForallOrdPairs R s'.
Proof.
  intros Hs. induction 1 as [|x l l' P IH|x y l|l m n P IH Q IH']; intros F.
  - exact F.
  - inversion F as [|? ? H1 H2]; subst. constructor; [rewrite <- P; exact H1|apply IH, H2].
  - inversion F as [|? ? H1 H2]; subst. inversion H2 as [|? ? H3 H4]; subst. inversion H1; subst. constructor; [constructor; [apply Hs; assumption|assumption]|constructor; assumption].
  - apply IH', IH, F.
Qed.

Section Algebra.
  Context (A : qalg).
  Add Ring alg_ring : (q_ring A).

  Lemma zin_1 : zin 1 = @q1 A.
  Proof. apply (inj_one A). Qed.
  Lemma zin_mul x y : @zin A (x * y) = (zin x * zin y)%alg.
  Proof. unfold zin. rewrite <- (inj_mul A). f_equal. apply Qc_is_canon. cbn -[Qred]. rewrite !Qred_correct. rewrite inject_Z_mult. reflexivity. Qed.
  Lemma zin_add x y : @zin A (x + y) = (zin x + zin y)%alg.
  Proof. unfold zin. rewrite <- (inj_add A). f_equal. apply Qc_is_canon. cbn -[Qred]. rewrite !Qred_correct. rewrite inject_Z_plus. reflexivity. Qed.
  Lemma zin_0 : zin 0 = @q0 A.
  Proof.
    pose proof (zin_add 0 0) as H. change (0 + 0)%Z with 0%Z in H. transitivity (@zin A 0 + zin 0 - zin 0)%alg; [ring|]. rewrite <- H. ring.
  Qed.
  Lemma zin_opp x : @zin A (- x) = (- zin x)%alg.
  Proof.
    pose proof (zin_add x (- x)) as H. rewrite Z.add_opp_diag_r, zin_0 in H. transitivity (@zin A x + zin (- x) - zin x)%alg; [ring|]. rewrite <- H. ring.
  Qed.

  Lemma asum_app l m : @asum A (l ++ m) = (asum l + asum m)%alg.
  Proof. unfold asum. induction l as [|x l IH]; cbn [app fold_right]; [ring|rewrite IH; ring]. Qed.
  Lemma aprod_app l m : @aprod A (l ++ m) = (aprod l * aprod m)%alg.
  Proof. unfold aprod. induction l as [|x l IH]; cbn [app fold_right]; [ring|rewrite IH; ring]. Qed.
  Lemma asum_perm l m : Permutation l m -> @asum A l = asum m.
  Proof. unfold asum. induction 1 as [|x l m P IH|x y l|l m n P IH Q IH']; cbn [fold_right]; [reflexivity|rewrite IH; ring|ring|congruence]. Qed.
  Lemma aprod_perm l m : Permutation l m -> @aprod A l = aprod m.
  Proof. unfold aprod. induction 1 as [|x l m P IH|x y l|l m n P IH Q IH']; cbn [fold_right]; [reflexivity|rewrite IH; ring|ring|congruence]. Qed.
  Lemma asum_concat l : @asum A (concat l) = asum (map asum l).
  Proof. induction l as [|x l IH]; cbn [concat map]; [reflexivity|]. rewrite asum_app, IH. reflexivity. Qed.
  Lemma asum_map_mul {B} (c : A) (f : B -> A) l : asum (map (fun x => (c * f x)%alg) l) = (c * asum (map f l))%alg.
  Proof. induction l as [|x l IH]; cbn [map]; unfold asum in *; cbn [fold_right]; [ring|]. rewrite IH. ring. Qed.
  Lemma asum_map_ext {B} (f g : B -> A) l : (forall x, In x l -> f x = g x) -> asum (map f l) = asum (map g l).
  Proof. intros H. f_equal. apply map_ext_in, H. Qed.

  (** ** expansion of the holes *)
  Definition den_shape (d : density) : Prop := kind d = KHole -> exists u l, d = Den KHole [u] [l].

  Lemma filter_app_sgn {B} (p : B -> bool) (l m : list B) : sgn (length (filter p (l ++ m))) = (sgn (length (filter p l)) * sgn (length (filter p m)))%Z.
  Proof. rewrite filter_app, app_length, sgn_add. reflexivity. Qed.

  Lemma product_value (v : valuation A) ds : holes_ok v -> Forall (fun d => exists u l, d = Den KHole [u] [l]) ds ->
    asum (map (fun e => (zin (sgn (length (filter is_cumulant e))) * aprod (map (vden v) e))%alg) (iproduct (map expand_hole_density ds))) = aprod (map (vden v) ds).
  Proof.
    intros Hv. induction 1 as [|d ds [u [l ->]] F IH].
    - unfold asum, aprod. cbn. rewrite zin_1. ring.
    - cbn [map iproduct]. set (ip := iproduct (map expand_hole_density ds)) in *. unfold expand_hole_density. cbn [dupper dlower virtual_head].
      assert (G : forall x rest, asum (map (fun e => (zin (sgn (length (filter is_cumulant e))) * aprod (map (vden v) e))%alg) (map (cons x) rest)) =
        (zin (sgn (length (filter is_cumulant [x]))) * vden v x * asum (map (fun e => (zin (sgn (length (filter is_cumulant e))) * aprod (map (vden v) e))%alg) rest))%alg).
      { intros x rest. rewrite map_map, <- asum_map_mul. apply asum_map_ext. intros e _. change (x :: e) with ([x] ++ e) at 1. rewrite filter_app_sgn, zin_mul.
        unfold aprod. cbn [map fold_right]. ring. }
      transitivity (vden v (Den KHole [u] [l]) * aprod (map (vden v) ds))%alg; [|reflexivity]. rewrite <- IH, (Hv u l).
      destruct (_ || _)%bool; cbn [flat_map]; rewrite ?app_nil_r, ?map_app, ?asum_app, ?G; cbn [filter is_cumulant kind length].
      + change (sgn 0) with 1%Z. rewrite zin_1. ring.
      + change (sgn 0) with 1%Z. change (sgn 1) with (Z.opp 1). rewrite zin_opp, zin_1. ring.
  Qed.

  Lemma expand_value (v : valuation A) ds : holes_ok v -> Forall den_shape ds ->
    asum (map (fun sd => (zin (fst sd) * aprod (map (vden v) (snd sd)))%alg) (expand_hole_densities ds)) = aprod (map (vden v) ds).
  Proof.
    intros Hv F. unfold expand_hole_densities. set (good := filter (fun d => negb (is_hole d)) ds). set (bad := filter is_hole ds).
    assert (P : Permutation ds (good ++ bad)).
    { unfold good, bad. clear. induction ds as [|d ds IH]; cbn [filter]; [constructor|]. destruct (is_hole d); cbn [negb app]; [apply Permutation_cons_app, IH|constructor; exact IH]. }
    assert (Hb : Forall (fun d => exists u l, d = Den KHole [u] [l]) bad).
    { apply Forall_forall. intros d Hd. apply filter_In in Hd as [H1 H2]. rewrite Forall_forall in F. apply F; [exact H1|]. unfold is_hole in H2. destruct (kind d); congruence. }
    destruct (map expand_hole_density bad) as [|x xs] eqn:E.
    - unfold asum. cbn [map fold_right fst snd]. rewrite zin_1. ring.
    - rewrite <- E. rewrite map_map. cbn [fst snd]. rewrite (aprod_perm _ _ (Permutation_map (vden v) P)), map_app, aprod_app, <- (product_value v bad Hv Hb), <- asum_map_mul.
      apply asum_map_ext. intros e _. rewrite map_app, aprod_app. ring.
  Qed.

  (** ** value of a set of contractions *)
  Definition con_value (v : valuation A) (e : econ) : A := vden v (density_of e).
  Definition set_value (ops : list op) (v : valuation A) (s : list econ) (x : A) : Prop :=
    exists sign sq, wick_term ops s sign sq /\ x = (zin sign * aprod (map (con_value v) s) * vop v sq)%alg.

  Lemma set_value_perm ops v s s' x : Forall (from_ops ops) s -> Permutation s s' -> set_value ops v s x -> set_value ops v s' x.
  Proof.
    intros F P (sign & sq & W & ->). exists sign, sq. split; [eapply wick_term_perm; eassumption|].
    rewrite (aprod_perm _ _ (Permutation_map (con_value v) P)). reflexivity.
  Qed.
  Lemma set_value_unique ops v s x y : distinct_legs ops -> set_value ops v s x -> set_value ops v s y -> x = y.
  Proof. intros D (a & b & W & ->) (a' & b' & W' & ->). destruct (wick_term_unique ops s a b a' b' D W W') as [-> ->]. reflexivity. Qed.

  Lemma entries_value ops v expand s b : holes_ok v -> Forall (from_ops ops) s -> entries_of ops expand s b -> set_value ops v s (asum (map (entry_value v) b)).
  Proof.
    intros Hv F (cons & sign & sq & P & W & ->). eapply (set_value_perm ops v cons); [|exact P|].
    { apply Forall_forall. intros e He. rewrite Forall_forall in F. apply F, (Permutation_in _ P), He. }
    exists sign, sq. split; [exact W|].
    assert (G : forall l, asum (map (entry_value v) (map (fun sd : Z * list density => ((sign * fst sd)%Z, snd sd, sq)) l)) =
       (zin sign * vop v sq * asum (map (fun sd => (zin (fst sd) * aprod (map (vden v) (snd sd)))%alg) l))%alg).
    { intros l. rewrite map_map, <- asum_map_mul. apply asum_map_ext. intros sd _. unfold entry_value. cbn [fst snd]. rewrite zin_mul. ring. }
    rewrite G. assert (E : map (con_value v) cons = map (vden v) (map density_of cons)) by (rewrite map_map; reflexivity). rewrite E. destruct expand.
    - rewrite (expand_value v _ Hv); [ring|]. apply Forall_forall. intros d Hd. apply in_map_iff in Hd as [e [<- He]]. intros Hk. unfold density_of in *. cbn [kind] in Hk.
      rewrite Forall_forall in F. apply (Permutation_in _ P) in He. pose proof (F e He) as Fe. destruct e as [h u l]; cbn in *. destruct h; [|discriminate].
      pose proof (fo_hole _ _ Fe eq_refl) as L. pose proof (fo_len _ _ Fe) as L'. cbn in L, L'. destruct u as [|u [|? ?]]; try discriminate. destruct l as [|l [|? ?]]; try discriminate. eauto.
    - unfold asum. cbn [map fold_right fst snd]. rewrite zin_1. ring.
  Qed.

  (** ** families of sets *)
  Lemma once_unique {B} (P : list B -> Prop) ys zs : lists_each_set_once P ys -> lists_each_set_once P zs ->
    exists ws, Permutation ys ws /\ Forall2 (@Permutation B) ws zs.
  Proof.
    intros (H1 & H2 & H3) (G1 & G2 & G3).
    assert (Hin : forall z, In z zs -> exists y, In y ys /\ Permutation y z) by (intros z Hz; destruct (G1 z Hz) as [N Q]; apply H2; assumption).
    assert (Gin : forall y, In y ys -> exists z, In z zs /\ Permutation y z).
    { intros y Hy. destruct (H1 y Hy) as [N Q]. destruct (G2 y N Q) as [z [Hz Pz]]. exists z. split; [exact Hz|symmetry; exact Pz]. }
    apply once_pairs in H3. apply once_pairs in G3. clear H1 H2 G1 G2. revert ys H3 Hin Gin. induction G3 as [|z zs F O IH]; intros ys H3 Hin Gin.
    - destruct ys as [|y ys]; [exists []; split; constructor|]. destruct (Gin y (or_introl eq_refl)) as [z [[] _]].
    - destruct (Hin z (or_introl eq_refl)) as [y [Hy Py]]. apply in_split in Hy as [l1 [l2 ->]].
      assert (O' : ForallOrdPairs (fun a b => ~ Permutation a b) (y :: l1 ++ l2)).
      { apply (pairs_perm (fun a b => ~ Permutation a b)) with (s := l1 ++ y :: l2); [intros a b Q Q'; apply Q, Permutation_sym, Q'|symmetry; apply Permutation_middle|exact H3]. }
      inversion O' as [|? ? Fy Oy]; subst. rewrite Forall_forall in F, Fy.
      destruct (IH (l1 ++ l2)) as [ws [P1 P2]].
      + exact Oy.
      + intros z' Hz'. destruct (Hin z' (or_intror Hz')) as [y' [Hy' Py']]. exists y'. split; [|exact Py']. apply in_app_iff in Hy' as [Hy'|[<-|Hy']]; [apply in_app_iff; auto| |apply in_app_iff; auto].
        exfalso. apply (F z' Hz'). rewrite <- Py. exact Py'.
      + intros y' Hy'. assert (Hy2 : In y' (l1 ++ y :: l2)) by (apply in_app_iff in Hy' as [|]; apply in_app_iff; cbn; auto).
        destruct (Gin y' Hy2) as [z' [[<-|Hz'] Pz']]; [|eauto]. exfalso. apply (Fy y' Hy'). rewrite Py. symmetry. exact Pz'.
      + exists (y :: ws). split; [|constructor; assumption]. rewrite <- P1. symmetry. apply Permutation_middle.
  Qed.

  Definition family_value ops v (sets : list (list econ)) (x : A) : Prop := exists xs, Forall2 (set_value ops v) sets xs /\ x = asum xs.

  Lemma family_perm ops v sets sets' x : Permutation sets sets' -> family_value ops v sets x -> family_value ops v sets' x.
  Proof.
    intros P (xs & F & ->). assert (G : exists ys, Permutation xs ys /\ Forall2 (set_value ops v) sets' ys).
    { clear - P F. revert xs F. induction P as [|s l l' P IH|s t l|l m n P IH Q IH']; intros xs F.
      - exists xs. auto.
      - inversion F as [|? x ? xs' H F' E1 E2]; subst. destruct (IH xs' F') as [ys [G1 G2]]. exists (x :: ys). split; constructor; assumption.
      - inversion F as [|? x ? xs' H F' E1 E2]; subst. inversion F' as [|? y ? ys' H' F'' E1 E2]; subst. exists (y :: x :: ys'). split; [constructor|repeat constructor; assumption].
      - destruct (IH xs F) as [ys [G1 G2]]. destruct (IH' ys G2) as [zs [G3 G4]]. exists zs. split; [eapply Permutation_trans; eassumption|exact G4]. }
    destruct G as [ys [P' F']]. exists ys. split; [exact F'|apply asum_perm, P'].
  Qed.
  Lemma family_each ops v sets sets' x : Forall2 (@Permutation econ) sets sets' -> Forall (Forall (from_ops ops)) sets -> family_value ops v sets x -> family_value ops v sets' x.
  Proof.
    intros P Fr (xs & F & ->). exists xs. split; [|reflexivity]. revert xs F Fr. induction P as [|s t l m H P IH]; intros xs F Fr; inversion F as [|? x ? xs' H' F' E1 E2]; subst; constructor.
    - inversion Fr; subst. eapply set_value_perm; eassumption.
    - apply IH; [exact F'|]. inversion Fr; assumption.
  Qed.
  Lemma family_unique ops v sets x y : distinct_legs ops -> family_value ops v sets x -> family_value ops v sets y -> x = y.
  Proof.
    intros D (xs & F & ->) (ys & G & ->). f_equal. revert ys G. induction F as [|s x l xs H F IH]; intros ys G; inversion G as [|? y ? ys' H' G' E1 E2]; subst; [reflexivity|].
    f_equal; [eapply set_value_unique; eassumption|apply IH, G'].
  Qed.
  Lemma family_once ops v (P : list econ -> Prop) sets sets' x y : distinct_legs ops -> (forall s, P s -> Forall (from_ops ops) s) ->
    lists_each_set_once P sets -> lists_each_set_once P sets' -> family_value ops v sets x -> family_value ops v sets' y -> x = y.
  Proof.
    intros D Fr O O' V V'. destruct (once_unique P sets sets' O O') as [ws [P1 P2]]. eapply family_unique; [exact D| |exact V'].
    eapply family_each; [exact P2| |eapply family_perm; eassumption]. apply Forall_forall. intros s Hs. apply (Permutation_in _ (Permutation_sym P1)) in Hs.
    destruct O as (O1 & _). apply Fr, (O1 s Hs).
  Qed.
  Lemma family_app ops v s t x y : family_value ops v s x -> family_value ops v t y -> family_value ops v (s ++ t) (x + y)%alg.
  Proof. intros (xs & F & ->) (ys & G & ->). exists (xs ++ ys). split; [apply Forall2_app; assumption|symmetry; apply asum_app]. Qed.

  Lemma wick_sum_family ops v expand (P : list econ -> Prop) r : holes_ok v -> (forall s, P s -> Forall (from_ops ops) s) -> wick_sum ops expand P r ->
    exists sets, lists_each_set_once P sets /\ family_value ops v sets (result_value v r).
  Proof.
    intros Hv Fr (sets & blocks & O & F & E). exists sets. split; [exact O|]. exists (map (fun b => asum (map (entry_value v) b)) blocks). split.
    - assert (Fs : forall s, In s sets -> Forall (from_ops ops) s) by (intros s Hs; destruct O as (O1 & _); apply Fr, (O1 s Hs)). clear O E.
      induction F as [|s b sets blocks H F IH]; cbn [map]; constructor; [eapply entries_value; [exact Hv| |exact H]|apply IH; intros t Ht]; apply Fs; [left; reflexivity|right; exact Ht].
    - unfold result_value. rewrite E, concat_map, asum_concat, map_map. reflexivity.
  Qed.
  Lemma wick_sum_value ops (v : valuation A) expand expand' (P : list econ -> Prop) r r' : holes_ok v -> distinct_legs ops -> (forall s, P s -> Forall (from_ops ops) s) ->
    wick_sum ops expand P r -> wick_sum ops expand' P r' -> result_value v r = result_value v r'.
  Proof.
    intros Hv D Fr W W'. destruct (wick_sum_family ops v expand P r Hv Fr W) as (s & O & V). destruct (wick_sum_family ops v expand' P r' Hv Fr W') as (s' & O' & V').
    exact (family_once ops v P s s' _ _ D Fr O O' V V').
  Qed.
End Algebra.

Lemma wick_set_from ops K lo hi s : Forall op_alpha ops -> distinct_legs ops -> wick_set ops K lo hi s -> Forall (from_ops ops) s.
Proof.
  intros Hal D [F _ _]. eapply Forall_impl; [|exact F]. intros e He. apply (allowed_items ops K e Hal) in He as [key Hk].
  eapply items_from_ops; [exact Hal| |exact Hk]. apply distinct_not_repeated, distinct_active_of, D.
Qed.
