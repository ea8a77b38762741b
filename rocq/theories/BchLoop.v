(** The loop over the nested commutators. *)
From Coq Require Import Ascii String ZArith QArith Qcanon Lia.
From Verif Require Import PyBase IterProofs SpaceModel IndexModel IndicesModel IndicesProofs ElemModel MacroModel WickModel TermModel TermSpec TermProofs CombineModel CombineSpec CombineProofs CombineValue ScheduleProofs RenameProofs BchModel BchSpec BchProofs LoopSpec.
Local Close Scope Q_scope.
Local Close Scope Qc_scope.
Local Open Scope nat_scope.
Local Notation length := List.length.

Section Meaning.
  Context (A : ncalg) (m : interpretation A).
  Lemma meaning_app l l' : meaning m (l ++ l') = nadd (meaning m l) (meaning m l').
  Proof. unfold meaning. rewrite map_app. apply nsum_app. Qed.
  Lemma meaning_concat ls : meaning m (concat ls) = nsum (map (meaning m) ls).
  Proof. induction ls as [|l ls IH]; [reflexivity|]. cbn [concat map]. rewrite meaning_app, IH. reflexivity. Qed.
  Definition of_label (k : list (string * list idx * list idx) * (list idx * list idx)) : A := m (fst k) (snd k).
  (** label by label *)
  Lemma meaning_sums K l : NoDup K -> (forall t, In t l -> In (labels t) K) -> meaning m l = nsum (map (fun k => nscal (tot k l) (of_label k)) K).
  Proof.
    intros N. induction l as [|t l IH]; intros H.
    - unfold meaning. cbn [map]. rewrite nsum_nil. symmetry. induction K as [|k K IHK]; [reflexivity|]. cbn [map]. rewrite nsum_cons, IHK; [|inversion N; assumption|intros t []]. change (tot k []) with (Q2Qc 0). rewrite nscal_0. apply nadd_0.
    - unfold meaning in *. cbn [map]. rewrite nsum_cons, IH by (intros t' Ht; apply H; right; exact Ht).
      assert (E : forall k, tot k (t :: l) = Qcplus (if labels_dec (labels t) k then tcoeff t else Q2Qc 0) (tot k l)).
      { intros k. unfold tot, with_labels. cbn [filter]. destruct (labels_dec (labels t) k); [reflexivity|]. ring. }
      rewrite (nsum_ext A (fun k => nscal (tot k (t :: l)) (of_label k)) (fun k => nadd (nscal (if labels_dec (labels t) k then tcoeff t else Q2Qc 0) (of_label k)) (nscal (tot k l) (of_label k)))) by (intros k _; rewrite E; apply nscal_add).
      rewrite nsum_map_add. f_equal. pose proof (H t (or_introl eq_refl)) as I. clear IH H E. unfold term_meaning. change (m (fst (labels t)) (snd (labels t))) with (of_label (labels t)). set (kt := labels t) in *. clearbody kt.
      induction K as [|k K IHK]; [destruct I|]. cbn [map]. rewrite nsum_cons. inversion N as [|? ? N1 N2]; subst. destruct (labels_dec kt k) as [<-|Q].
      + rewrite (nsum_ext A _ (fun _ => n0)); [|intros k' Hk; destruct (labels_dec kt k') as [<-|]; [contradiction|apply nscal_0]].
        assert (Z : forall (K' : list (list (string * list idx * list idx) * (list idx * list idx))), nsum (map (fun _ => @n0 A) K') = n0) by (induction K' as [|? K' IH']; [reflexivity|cbn [map]; rewrite nsum_cons, IH'; apply nadd_0]). rewrite Z. symmetry. apply nadd_0r.
      + rewrite nscal_0, nadd_0. apply IHK; [exact N2|]. destruct I as [I|I]; [congruence|exact I].
  Qed.
  Lemma meaning_same l l' : same_sums l l' -> meaning m l = meaning m l'.
  Proof.
    intros SS. set (K := nodup labels_dec (map labels (l ++ l'))). assert (N : NoDup K) by apply NoDup_nodup.
    rewrite (meaning_sums K l N), (meaning_sums K l' N); [apply nsum_ext; intros k _; rewrite (SS k); reflexivity| |]; intros t H; apply nodup_In, in_map, in_or_app; auto.
  Qed.
  Lemma bracket_sums (f g : list term) : nsum (map (fun l => nsum (map (fun r => bracket (term_meaning m l) (term_meaning m r)) g)) f) = bracket (meaning m f) (meaning m g).
  Proof.
    unfold bracket. rewrite (nsum_ext A _ (fun l => nadd (nmul (term_meaning m l) (meaning m g)) (nopp (nmul (meaning m g) (term_meaning m l))))).
    - rewrite nsum_map_add. rewrite nsum_mull. f_equal. change (meaning m f) with (nsum (map (term_meaning m) f)). rewrite nopp_scal, <- nsum_mulr, <- nsum_scal. apply nsum_ext. intros l _. apply nopp_scal.
    - intros l _. rewrite nsum_map_add, nsum_mulr. f_equal. change (meaning m g) with (nsum (map (term_meaning m) g)). rewrite nopp_scal. rewrite <- nsum_mull, <- nsum_scal. apply nsum_ext. intros r _. apply nopp_scal.
  Qed.
  Lemma nested_scal n c (a b : A) : nested n (nscal c a) b = nscal c (nested n a b).
  Proof.
    induction n as [|n IH]; [reflexivity|]. cbn [nested]. rewrite IH. unfold bracket. rewrite nscal_mull, nscal_mulr, nscal_addr. f_equal. rewrite !nopp_scal, <- !nscal_mul. f_equal. ring.
  Qed.
  Lemma bracket_scal c (a b : A) : bracket (nscal c a) b = nscal c (bracket a b).
  Proof. exact (nested_scal 1 c a b). Qed.
End Meaning.

Lemma inv_fact_0 : inv_fact 0 = Q2Qc 1.
Proof. apply Qc_is_canon. reflexivity. Qed.
Lemma Qc_of_Z_nonzero z : z <> 0%Z -> Qc_of_Z z <> Q2Qc 0.
Proof. intros H E. apply (f_equal this) in E. apply H. assert (Q : (this (Qc_of_Z z) == 0)%Q) by (rewrite E; reflexivity). unfold Qc_of_Z in Q. cbn [this Q2Qc] in Q. rewrite Qred_correct in Q. unfold Qeq in Q. cbn in Q. lia. Qed.
Lemma inv_fact_S n : Qcmult (inv_nat (S n)) (inv_fact n) = inv_fact (S n).
Proof.
  unfold inv_nat, inv_fact. change (fact (S n)) with (S n * fact n)%nat; rewrite Nat2Z.inj_mul, Qc_of_Z_mul. pose proof (Qc_of_Z_nonzero (Z.of_nat (S n)) ltac:(lia)) as H1. pose proof (lt_O_fact n) as L. pose proof (Qc_of_Z_nonzero (Z.of_nat (fact n)) ltac:(lia)) as H2.
  field. split; assumption.
Qed.

(** results of every call of a list comprehension *)
Lemma pymap_results {X Y} (f : X -> pyres Y) l r : pymap f l = Ok r -> Forall2 (fun x y => f x = Ok y) l r.
Proof. apply pymap_forall2. Qed.
Lemma positions_in {X} (l : list X) k x : In (k, x) (positions l) -> In x l.
Proof. unfold positions. apply in_combine_r. Qed.
Lemma positions_snd {X} (l : list X) : map snd (positions l) = l.
Proof. unfold positions. assert (H : forall n, map snd (combine (seq n (length l)) l) = l); [|apply H]. induction l as [|x l IH]; intros n; [reflexivity|]. cbn. rewrite IH. reflexivity. Qed.

Section Loop.
  Context (A : ncalg) (m : interpretation A) (good : nat -> term -> Prop).
  Definition level_ok (i : nat) (l : list term) : Prop := Forall (good i) l.
  Context (copy : term -> pyres term) (sc : nat -> nat -> nat -> term -> term -> pyres (list term)).
  Lemma sum_pairs i f (lp rs : list term) lls :
    (forall a b l r out, In l lp -> In r rs -> sc i a b l r = Ok out -> Forall (good i) out /\ meaning m out = nscal f (bracket (term_meaning m l) (term_meaning m r))) ->
    pymap (fun al => pybind (pymap (fun br => sc i (fst al) (fst br) (snd al) (snd br)) (positions rs)) (fun ls => Ok (concat ls))) (positions lp) = Ok lls ->
    Forall (good i) (concat lls) /\ meaning m (concat lls) = nscal f (bracket (meaning m lp) (meaning m rs)).
  Proof.
    intros H E. apply pymap_results in E. rewrite <- (bracket_sums A m lp rs), <- nsum_scal.
    rewrite <- (positions_snd lp) at 1. rewrite map_map. rewrite meaning_concat.
    assert (HP : forall al, In al (positions lp) -> In (snd al) lp) by (intros [k x]; apply positions_in). revert E HP. generalize (positions lp) as ps. clear -H. intros ps E.
    induction E as [|[a l] out ps lls E1 E IH]; intros HP; [split; [constructor|reflexivity]|]. cbn [fst snd] in E1. destruct (pymap _ (positions rs)) as [outs|] eqn:Eo; [|discriminate]. cbn [pybind] in E1. injection E1 as <-.
    destruct IH as [IH1 IH2]; [intros al Hal; apply HP; right; exact Hal|]. cbn [concat map]. rewrite !nsum_cons, IH2. assert (G : Forall (good i) (concat outs) /\ meaning m (concat outs) = nscal f (nsum (map (fun r => bracket (term_meaning m l) (term_meaning m r)) rs))).
    { apply pymap_results in Eo. rewrite <- nsum_scal. rewrite <- (positions_snd rs) at 1. rewrite map_map, meaning_concat. assert (HR : forall br, In br (positions rs) -> In (snd br) rs) by (intros [k x]; apply positions_in). assert (L : In l lp) by (apply (HP (a, l)); left; reflexivity).
      revert Eo HR. generalize (positions rs) as qs. intros qs Eo. induction Eo as [|[b r] o qs outs E2 Eo IHo]; intros HR; [split; [constructor|reflexivity]|]. cbn [fst snd] in E2. destruct IHo as [I1 I2]; [intros br Hbr; apply HR; right; exact Hbr|].
      destruct (H a b l r o L (HR (b, r) (or_introl eq_refl)) E2) as [Q1 Q2]. cbn [concat map]. split; [apply Forall_app; auto|]. rewrite !nsum_cons, I2, Q2. reflexivity. }
    destruct G as [G1 G2]. split; [apply Forall_app; auto|]. rewrite G2. reflexivity.
  Qed.

  Lemma pymap_copy i l l' : (forall t t', good i t -> copy t = Ok t' -> good i t' /\ term_meaning m t' = term_meaning m t) -> Forall (good i) l -> pymap copy l = Ok l' ->
    Forall (good i) l' /\ meaning m l' = meaning m l.
  Proof.
    intros HC G E. apply pymap_results in E. induction E as [|t t' l l' E1 E IH]; [split; [constructor|reflexivity]|]. inversion G as [|? ? G1 G2]; subst. destruct (HC t t' G1 E1) as [Q1 Q2]. destruct (IH G2) as [I1 I2]. split; [constructor; assumption|].
    unfold meaning in *. cbn [map]. rewrite !nsum_cons, Q2, I2. reflexivity.
  Qed.

  Theorem loop_meaning (T : A) rights : forall i0 lp outs x,
    (forall i ts out, i0 <= i < i0 + length rights -> Forall (good i) ts -> combine_terms ts = Ok out -> Forall (good i) out /\ same_sums out ts) ->
    (forall i t t', good i t -> copy t = Ok t' -> good i t' /\ term_meaning m t' = term_meaning m t) ->
    (forall k rs a b l r out, nth_error rights k = Some rs -> In r rs -> good (i0 + k - 1) l -> sc (i0 + k) a b l r = Ok out ->
       Forall (good (i0 + k)) out /\ meaning m out = nscal (inv_nat (i0 + k)) (bracket (term_meaning m l) (term_meaning m r))) ->
    Forall (fun rs => meaning m rs = T) rights ->
    1 <= i0 -> level_ok (i0 - 1) lp -> meaning m lp = nscal (inv_fact (i0 - 1)) (nested (i0 - 1) x T) ->
    commutator_loop copy sc i0 lp rights = Ok outs ->
    length outs = length rights /\
    forall k l, nth_error outs k = Some l -> level_ok (i0 + k) l /\ meaning m l = nscal (inv_fact (i0 + k)) (nested (i0 + k) x T).
  Proof.
    induction rights as [|rs rights IH]; intros i0 lp outs x HU HCp HS HT H1 GL ML E.
    - cbn in E. injection E as <-. split; [reflexivity|]. intros [|k] l Hk; discriminate.
    - cbn [commutator_loop] in E. destruct (pymap _ (positions lp)) as [lls|] eqn:E1; [|discriminate]. cbn [pybind] in E. destruct (pymap copy (concat lls)) as [terms|] eqn:E2; [|discriminate]. cbn [pybind] in E.
      destruct (combine_terms terms) as [out|] eqn:E3; [|discriminate]. cbn [pybind] in E. destruct (pymap copy out) as [lp'|] eqn:E4; [|discriminate]. cbn [pybind] in E.
      destruct (commutator_loop copy sc (S i0) lp' rights) as [outs'|] eqn:E5; [|discriminate]. cbn [pybind] in E. injection E as <-.
      inversion HT as [|? ? T1 T2]; subst.
      destruct (sum_pairs i0 (inv_nat i0) lp rs lls) as [G1 M1]; [|exact E1|].
      { intros a b l r o Hl Hr Eo. pose proof (HS 0 rs a b l r o eq_refl Hr) as Q. rewrite !Nat.add_0_r in Q. unfold level_ok in GL. rewrite Forall_forall in GL. exact (Q (GL l Hl) Eo). }
      destruct (pymap_copy i0 _ _ (HCp i0) G1 E2) as [G2 M2].
      destruct (HU i0 terms out ltac:(cbn [length]; lia) G2 E3) as [G3 S3].
      destruct (pymap_copy i0 _ _ (HCp i0) G3 E4) as [G4 M4].
      assert (MO : meaning m out = nscal (inv_fact i0) (nested i0 x (meaning m rs))).
      { rewrite (meaning_same A m out terms S3), M2, M1, ML, bracket_scal. rewrite <- nscal_mul. clear -H1. destruct i0 as [|j]; [lia|]. cbn [Nat.sub]. rewrite Nat.sub_0_r, inv_fact_S. reflexivity. }
      destruct (IH (S i0) lp' outs' x) as [L K]; [..|exact E5|].
      + intros i ts o Hi. apply HU. cbn [length]. lia.
      + exact HCp.
      + intros k rs' a b l r o Hk Hr Gl Eo. replace (S i0 + k) with (i0 + S k) in * by lia. exact (HS (S k) rs' a b l r o Hk Hr Gl Eo).
      + exact T2.
      + lia.
      + cbn [Nat.sub]. rewrite Nat.sub_0_r. exact G4.
      + cbn [Nat.sub]. rewrite Nat.sub_0_r. rewrite M4. exact MO.
      + split; [cbn [length]; rewrite L; reflexivity|]. intros [|k] l Hk; cbn [nth_error] in Hk.
        * injection Hk as <-. rewrite Nat.add_0_r. split; [exact G3|exact MO].
        * replace (i0 + S k) with (S i0 + k) by lia. apply K, Hk.
  Qed.
End Loop.
