(** canonicalize_sympy: the value of the answer. *)
From Coq Require Import Ascii String ZArith QArith Qcanon Sorting.Sorted Ring_theory Ring.
From Verif Require Import PyBase OrderSpec OrderProofs SortProofs ParitySpec ParityProofs SpaceModel IndicesModel IterProofs IndicesProofs SpaceProofs ElemModel MacroModel TermModel ValueSpec ValueProofs TermSpec SumProofs TermProofs RenameProofs
  SimplifyProofs CanonProofs SymmetryModel SymmetrySpec SymmetryProofs SympyProofs.
Local Close Scope Q_scope.
Local Close Scope Qc_scope.
Local Open Scope nat_scope.
Local Notation length := List.length.

Definition classes_by_name (xs : list tensor) : Prop := forall x y, In x xs -> In y xs -> tname x = tname y -> tcls x = tcls y.

Lemma compose_map f N l : Forall (fun x => x < N + 2) l -> compose (map f (seq 0 (N + 2))) l = map f l.
Proof.
  intros H. unfold compose. apply map_ext_in. intros x Hx. rewrite Forall_forall in H. specialize (H x Hx). rewrite (nth_indep _ 0 (f 0)) by (rewrite map_length, seq_length; exact H). rewrite map_nth, seq_nth by exact H. reflexivity.
Qed.
Lemma half_even k : 2 * k / 2 = k.
Proof. rewrite Nat.mul_comm. apply Nat.div_mul. lia. Qed.
Lemma half_odd k : (2 * k + 1) / 2 = k.
Proof. rewrite Nat.mul_comm. rewrite Nat.div_add_l by lia. change (1 / 2) with 0. lia. Qed.
Lemma halves x : x = 2 * (x / 2) \/ x = 2 * (x / 2) + 1.
Proof. pose proof (Nat.div_mod x 2 ltac:(lia)). pose proof (Nat.mod_upper_bound x 2 ltac:(lia)). lia. Qed.
Lemma split3 {B} (l : list B) n1 n2 : n1 + n2 <= length l -> exists a b d, l = a ++ b ++ d /\ length a = n1 /\ length b = n2.
Proof.
  intros H. exists (firstn n1 l), (firstn n2 (skipn n1 l)), (skipn n2 (skipn n1 l)). rewrite !firstn_skipn. split; [reflexivity|]. split; [apply firstn_length_le; lia|]. apply firstn_length_le. rewrite skipn_length. lia.
Qed.

Ltac eqb_cases := match goal with |- context [if ?a =? ?b then _ else _] => destruct (Nat.eqb_spec a b) as [?Ex|?Ex] end.

Section Forms.
  Context (A : qalg) (S : system) (v : tvaluation A) (c : Qc) (ty : itype) (herm : bool) (xs : list tensor) (o : op) (dummy : list idx) (d0 : idx).
  Context (oruns runs : list (list (list nat) * nat)) (N : nat).
  Add Ring alg_ring7 : (q_ring A).
  Context (HA : itype_antisymmetric ty = true -> antisymmetric v) (HP : itype_antisymmetric ty = false -> pair_symmetric v) (HH : herm = true -> hermitian_values v).
  Context (HC : classes_by_name xs) (HB : length (cre o) = length (ann o)).
  Context (HO : oruns = [] \/ exists gens, op_generating_set ty o = Ok gens /\ oruns = [(gens, 1)]) (HO0 : oruns = [] -> oslots o = 0).
  Context (HR : runs_ok ty herm xs runs) (HN : N = oslots o + slots xs) (HD : N = 2 * length dummy) (ND : NoDup dummy).
  Let h (x : nat) : idx := nth (x / 2) dummy d0.
  Notation val := (val A S v c xs o h).

  Definition state (ro0 rt0 gc : list nat) : Prop :=
    exists ro rt s, gc = (ro ++ rt) ++ sign_tail N s /\ (s = 1%Z \/ s = (-1)%Z) /\ length ro = oslots o /\ length rt = slots xs /\ Forall (fun x => x < N) (ro ++ rt) /\ val ro0 rt0 = (zin s * val ro rt)%alg.

  Lemma slot_state ro0 rt0 g s : state ro0 rt0 g -> In s (slot_symmetries N 0 (oruns ++ runs)) -> state ro0 rt0 (compose g s).
  Proof.
    intros (ro & rt & z & -> & Hz & Lo & Lt & F & V) Hs.
    assert (Q : (exists gens p, op_generating_set ty o = Ok gens /\ In p gens /\ s = embed N 0 p) \/ In s (slot_symmetries N (oslots o) runs)).
    { destruct HO as [->|(gens & Eg & ->)].
      - right. rewrite HO0 by reflexivity. exact Hs.
      - cbn [app slot_symmetries] in Hs. destruct (op_symmetry A v ty o gens Eg HB HA) as [Ng HG]. assert (Lg : length (hd [] gens) - 2 = oslots o).
        { destruct gens as [|p gens]; [congruence|]. destruct (HG p (or_introl eq_refl)) as [L _]. cbn [hd]. rewrite L. unfold oslots. lia. }
        rewrite Lg in Hs. cbn [seq flat_map map app Nat.sub] in Hs. apply in_app_or in Hs as [Hs|Hs].
        + left. apply in_app_or in Hs as [Hs|[]]. apply in_map_iff in Hs as (p & <- & Hp). exists gens, p. auto.
        + right. replace (0 + 1 * oslots o) with (oslots o) in Hs by lia. exact Hs. }
    clear Hs. destruct Q as [(gens & p & Eg & Hp & ->)|Hs].
    - destruct (op_symmetry A v ty o gens Eg HB HA) as [_ HG]. specialize (HG p Hp). assert (Lo' : length ro = length (ann o) + length (cre o)) by exact Lo. rewrite <- Lo' in HG. destruct HG as (Lp & Pp & HG).
      exists (act p ro), rt, (z * psign (length ro) p)%Z. split; [|split; [|split; [|split; [|split]]]].
      + apply (embed_step N [] ro rt p z); [cbn [app]; rewrite app_length; lia|exact Lp|exact Pp|exact Hz].
      + destruct Hz as [->| ->], (psign_pm (length ro) p) as [->| ->]; auto.
      + rewrite act_length by exact Lp. exact Lo.
      + exact Lt.
      + rewrite (act_perm p ro Pp). exact F.
      + rewrite V. rewrite (val_op_step A S v c xs o h ro rt p Lo Lt); [rewrite (zin_mul A); ring|]. repeat (split; [assumption|]). exact HG.
    - apply (slot_cases ty herm xs runs) in Hs; [|exact HR]. destruct Hs as [(xs1 & x & xs2 & n & gens & p & E & L1 & L2 & Eg & Hp & ->)|(xs1 & x & y & xs2 & E & En & L1 & L2 & ->)].
      + destruct (tensor_symmetry A v ty (tcls x) (tname x) n herm gens Eg HA HP HH) as [_ HG]. specialize (HG p Hp). rewrite E, slots_app, slots_cons in Lt. assert (Ls : tslots x = n + n) by (unfold tslots; lia).
        destruct (split3 rt (slots xs1) (n + n)) as (a & b & d & -> & La & Lb); [lia|]. rewrite !app_length in Lt. rewrite <- Lb in HG. pose proof HG as (Lp & Pp & _).
        exists ro, (a ++ act p b ++ d), (z * psign (length b) p)%Z. split; [|split; [|split; [|split; [|split]]]].
        * assert (Q := embed_step N (ro ++ a) b d p z). assert (EL : length (ro ++ a) = oslots o + slots xs1) by (rewrite app_length; lia). rewrite EL in Q. rewrite <- !app_assoc in Q. rewrite <- !app_assoc. apply Q; [rewrite !app_length; rewrite E, slots_app, slots_cons in HN; lia|exact Lp|exact Pp|exact Hz].
        * destruct Hz as [->| ->], (psign_pm (length b) p) as [->| ->]; auto.
        * exact Lo.
        * rewrite !app_length, act_length by exact Lp. rewrite E, slots_app, slots_cons. lia.
        * rewrite (act_perm p b Pp). exact F.
        * rewrite V. rewrite (val_tensor_step A S v c xs o h ro a b d p xs1 x xs2 E); [rewrite (zin_mul A); ring|lia|lia|lia|]. rewrite L1. exact HG.
      + rewrite E, slots_app, !slots_cons in Lt. assert (Ly : tslots y = tslots x) by (unfold tslots; lia).
        destruct (split3 rt (slots xs1) (tslots x)) as (a & b1 & r & -> & La & Lb1); [lia|]. rewrite !app_length in Lt. destruct (split3 r (tslots x) 0) as (b2 & e & d & -> & Lb2 & Le); [lia|]. destruct e; [|discriminate]. cbn [app] in *. rewrite app_length in Lt.
        exists ro, (a ++ b2 ++ b1 ++ d), z. split; [|split; [|split; [|split; [|split]]]].
        * assert (Q := exchange_step N (ro ++ a) b1 b2 d (sign_tail N z)). assert (EL : length (ro ++ a) = oslots o + slots xs1) by (rewrite app_length; lia). rewrite EL, Lb1 in Q. rewrite <- !app_assoc in Q. rewrite <- !app_assoc. apply Q; [rewrite !app_length; rewrite E, slots_app, !slots_cons in HN; lia|lia|].
          destruct (sign_tail_two N z) as (? & ? & ->). reflexivity.
        * exact Hz.
        * exact Lo.
        * rewrite !app_length. rewrite E, slots_app, !slots_cons. lia.
        * rewrite !Forall_app in *. tauto.
        * rewrite V. rewrite (val_exchange_step A S v c xs o h ro a b1 b2 d xs1 x y xs2 E); try lia; [reflexivity| |exact En]. apply HC; [rewrite E; apply in_or_app; right; right; left; reflexivity|rewrite E; apply in_or_app; right; left; reflexivity|exact En].
  Qed.

  Lemma relabel_state ro0 rt0 g f tau : state ro0 rt0 g -> (forall x, x < N -> f x < N) -> f N = N -> f (N + 1) = N + 1 ->
    (forall x, x < N -> h (f x) = tau (h x)) -> (forall i, In i dummy -> fst (tau i) = fst i) -> (forall i j, In i dummy -> In j dummy -> tau i = tau j -> i = j) ->
    state ro0 rt0 (compose (map f (seq 0 (N + 2))) g).
  Proof.
    intros (ro & rt & z & -> & Hz & Lo & Lt & F & V) H1 H2 H3 H4 H5 H6. exists (map f ro), (map f rt), z.
    assert (HT : Forall (fun x => x < N + 2) (sign_tail N z)) by (unfold sign_tail; destruct (z =? 1)%Z; repeat (constructor; [lia|]); constructor).
    assert (HI : forall i, In i (map h (ro ++ rt)) -> In i dummy). { intros i Hi. apply in_map_iff in Hi as (x & <- & Hx). rewrite Forall_forall in F. specialize (F x Hx). apply nth_In. apply Nat.div_lt_upper_bound; lia. }
    split; [|split; [exact Hz|split; [rewrite map_length; exact Lo|split; [rewrite map_length; exact Lt|split]]]].
    - rewrite compose_map; [|apply Forall_app; split; [eapply Forall_impl; [|exact F]; cbn; intros; lia|exact HT]]. rewrite map_app, map_app. f_equal. unfold sign_tail. destruct (z =? 1)%Z; cbn [map]; rewrite H2, H3; reflexivity.
    - rewrite <- map_app. rewrite Forall_forall in *. intros x Hx. apply in_map_iff in Hx as (y & <- & Hy). apply H1, F, Hy.
    - rewrite V. f_equal. symmetry. assert (HM : forall l, incl l (ro ++ rt) -> map h (map f l) = map tau (map h l)).
      { intros l Hl. rewrite !map_map. apply map_ext_in. intros x Hx. apply H4. rewrite Forall_forall in F. apply F, Hl, Hx. }
      apply (val_rename A S v c xs o h ro rt (map f ro) (map f rt) tau); [apply HM, incl_appl, incl_refl|apply HM, incl_appr, incl_refl|exact Lt| |].
      + intros i Hi. apply H5, HI, Hi.
      + intros i j Hi Hj. apply H6; apply HI; assumption.
  Qed.
  Lemma dummy_state ro0 rt0 g d : state ro0 rt0 g -> In d (dummy_symmetries N (dummy_ranges dummy)) -> state ro0 rt0 (compose d g).
  Proof.
    intros Hg Hd. unfold dummy_symmetries in Hd. apply in_flat_map in Hd as (r & Hr & Hd). apply (dummy_ranges_spec dummy r d0) in Hr as (a & b & -> & Hab & Hb & HF). cbn [fst snd] in Hd. rewrite !half_even in Hd.
    assert (HK : forall k, In k (seq a (b - a)) -> a <= k < b /\ k < length dummy) by (intros k Hk; apply in_seq in Hk; lia).
    apply in_app_or in Hd as [Hd|Hd].
    - apply in_map_iff in Hd as (k & <- & Hk). apply HK in Hk as [_ Hk]. unfold relabel2. apply relabel_state with (tau := fun i => i); try assumption; try reflexivity; try (intros; assumption).
      + intros x Hx. repeat eqb_cases; lia.
      + repeat (eqb_cases; [lia|]). reflexivity.
      + repeat (eqb_cases; [lia|]). reflexivity.
      + intros x Hx. unfold h. f_equal. repeat (eqb_cases; [subst x; rewrite ?half_even, ?half_odd; reflexivity|]). reflexivity.
    - apply in_map_iff in Hd as ([k l] & <- & Hkl). apply in_prod_iff in Hkl as [Hk Hl]. cbn [fst snd]. apply HK in Hk as [Rk Hk]. apply HK in Hl as [Rl Hl].
      set (dk := nth k dummy d0). set (dl := nth l dummy d0). assert (Ef : fst dk = fst dl) by (apply HF; assumption). unfold relabel2.
      apply relabel_state with (tau := fun i => if idx_eqb i dk then dl else if idx_eqb i dl then dk else i); try assumption.
      + intros x Hx. repeat eqb_cases; lia.
      + repeat (eqb_cases; [lia|]). reflexivity.
      + repeat (eqb_cases; [lia|]). reflexivity.
      + intros x Hx. assert (Hx2 : x / 2 < length dummy) by (apply Nat.div_lt_upper_bound; lia). pose proof (halves x) as Hh.
        assert (EQ : forall m, m < length dummy -> idx_eqb (h x) (nth m dummy d0) = (x / 2 =? m)).
        { intros m Hm. destruct (Nat.eqb_spec (x / 2) m) as [Em|Em]; [apply idx_eqb_eq; unfold h; rewrite Em; reflexivity|]. destruct (idx_eqb (h x) (nth m dummy d0)) eqn:Ei; [|reflexivity]. apply idx_eqb_eq in Ei.
          exfalso. apply Em. apply (proj1 (NoDup_nth dummy d0) ND); assumption. }
        unfold dk at 1, dl at 2. rewrite !EQ by assumption. destruct (Nat.eqb_spec (x / 2) k) as [Ek|Ek]; [|destruct (Nat.eqb_spec (x / 2) l) as [El|El]].
        * assert (Q : forall y, y / 2 = l -> h y = dl) by (intros y Hy; unfold h; rewrite Hy; reflexivity). apply Q. repeat (eqb_cases; [rewrite ?half_even, ?half_odd; lia|]). lia.
        * assert (Q : forall y, y / 2 = k -> h y = dk) by (intros y Hy; unfold h; rewrite Hy; reflexivity). apply Q. repeat (eqb_cases; [rewrite ?half_even, ?half_odd; lia|]). lia.
        * repeat (eqb_cases; [lia|]). reflexivity.
      + intros i _. destruct (idx_eqb i dk) eqn:E1; [apply idx_eqb_eq in E1 as ->; symmetry; exact Ef|]. destruct (idx_eqb i dl) eqn:E2; [apply idx_eqb_eq in E2 as ->; exact Ef|reflexivity].
      + intros i j _ _. assert (R : forall z, idx_eqb z z = true) by (intros z; apply idx_eqb_eq; reflexivity).
        destruct (idx_eqb i dk) eqn:E1, (idx_eqb j dk) eqn:E2; try (apply idx_eqb_eq in E1); try (apply idx_eqb_eq in E2); try congruence;
        destruct (idx_eqb i dl) eqn:E3, (idx_eqb j dl) eqn:E4; try (apply idx_eqb_eq in E3); try (apply idx_eqb_eq in E4); subst; rewrite ?R in *; try congruence; intros Q; subst; rewrite ?R in *; congruence.
  Qed.

  Lemma form_state ro0 rt0 gc : length ro0 = oslots o -> length rt0 = slots xs -> Forall (fun x => x < N) (ro0 ++ rt0) ->
    equivalent_form (slot_symmetries N 0 (oruns ++ runs)) (dummy_symmetries N (dummy_ranges dummy)) ((ro0 ++ rt0) ++ [N; N + 1]) gc -> state ro0 rt0 gc.
  Proof.
    intros Lo Lt F. induction 1 as [|g s _ IH Hs|g d _ IH Hd].
    - exists ro0, rt0, 1%Z. split; [reflexivity|]. split; [auto|]. repeat (split; [assumption|]). rewrite (zin_1 A). ring.
    - apply slot_state; assumption.
    - apply dummy_state; assumption.
  Qed.
End Forms.

(** ** The labels of the slots *)
Lemma enumerate_get (dummy : list idx) k start i : NoDup dummy -> nth_error dummy k = Some i ->
  dict_get idx_eqb i (map (fun iv => (snd iv, 2 * fst iv)) (enumerate start dummy)) = Some (2 * (start + k)).
Proof.
  revert k start. induction dummy as [|x dummy IH]; intros k start ND H; [destruct k; discriminate|]. inversion ND as [|? ? N1 N2]; subst. cbn [enumerate map dict_get fst snd]. destruct k as [|k]; cbn in H.
  - injection H as ->. rewrite (proj2 (idx_eqb_eq i i) eq_refl). f_equal. lia.
  - destruct (idx_eqb i x) eqn:E; [apply idx_eqb_eq in E as ->; exfalso; apply N1; eapply nth_error_In; exact H|]. rewrite (IH k (S start) N2 H). f_equal. lia.
Qed.
Lemma slot_labels_ok m dummy d0 : NoDup dummy -> forall l tracker (used : idx -> nat) g,
  (forall k i, nth_error dummy k = Some i -> dict_get idx_eqb i tracker = Some (2 * k + used i)) ->
  (forall j, In j l -> In j (map fst m) /\ In (rename m j) dummy) -> (forall i, used i + idx_times i (map (rename m) l) <= 2) -> slot_labels m tracker l = Ok g ->
  map (fun x => nth (x / 2) dummy d0) g = map (rename m) l /\ Forall (fun x => x < 2 * length dummy) g.
Proof.
  intros ND. induction l as [|j l IH]; intros tracker used g HT HI HC H; cbn [slot_labels] in H; [injection H as <-; split; [reflexivity|constructor]|].
  destruct (HI j (or_introl eq_refl)) as [Hj Hd]. unfold dict_item at 1 in H. destruct (dict_get idx_eqb j m) as [z|] eqn:Ez; [|discriminate]. cbn [pybind] in H. assert (Er : rename m j = z) by (unfold rename; rewrite Ez; reflexivity). rewrite Er in Hd.
  apply In_nth_error in Hd as [k Hk]. unfold dict_item in H at 1. rewrite (HT k z Hk) in H. cbn [pybind] in H. destruct (slot_labels m _ l) as [g'|] eqn:Eg; [|discriminate]. cbn [pybind] in H. injection H as <-.
  assert (Uz : used z + 1 <= 2) by (specialize (HC z); cbn [map] in HC; unfold idx_times in HC; rewrite Er, count_occ_cons_eq in HC by reflexivity; lia).
  assert (Ek : (2 * k + used z) / 2 = k) by (destruct (used z) as [|[|u]]; [rewrite Nat.add_0_r; apply half_even|apply half_odd|lia]).
  assert (Lk : k < length dummy) by (apply nth_error_Some; congruence).
  destruct (IH (dict_set idx_eqb z (S (2 * k + used z)) tracker) (fun i => if idx_eqb i z then S (used i) else used i) g') as [I1 I2]; [| | |exact Eg|].
  - intros k' i Hi. rewrite dget_set. destruct (idx_eqb i z) eqn:E; [|apply HT, Hi]. apply idx_eqb_eq in E as ->. assert (k' = k) by (apply (proj1 (NoDup_nth_error dummy) ND); [apply nth_error_Some; congruence|congruence]). subst k'. f_equal. lia.
  - intros j' Hj'. apply HI. right. exact Hj'.
  - intros i. specialize (HC i). cbn [map] in HC. unfold idx_times in *. rewrite Er in HC. destruct (idx_eqb i z) eqn:E; [apply idx_eqb_eq in E as ->; rewrite count_occ_cons_eq in HC by reflexivity; lia|].
    rewrite count_occ_cons_neq in HC; [exact HC|]. intros ->. rewrite (proj2 (idx_eqb_eq i i) eq_refl) in E. discriminate.
  - split.
    + change (nth ((2 * k + used z) / 2) dummy d0 :: map (fun x => nth (x / 2) dummy d0) g' = rename m j :: map (rename m) l). rewrite I1, Er, Ek. f_equal. apply nth_error_nth. exact Hk.
    + constructor; [lia|exact I2].
Qed.

Lemma count_map_inj (f : idx -> idx) l i : (forall j, In j l -> f j = f i -> j = i) -> idx_times (f i) (map f l) = idx_times i l.
Proof.
  unfold idx_times. induction l as [|x l IH]; intros H; [reflexivity|]. cbn [map count_occ]. rewrite IH by (intros j Hj; apply H; right; exact Hj). destruct (idx_eq_dec (f x) (f i)) as [E|E], (idx_eq_dec x i) as [E'|E']; try reflexivity.
  - exfalso. apply E'. apply H; [left; reflexivity|exact E].
  - subst. congruence.
Qed.
Lemma length_twice I (L : list idx) : NoDup I -> (forall i, In i L -> In i I) -> (forall i, In i I -> idx_times i L = 2) -> length L = 2 * length I.
Proof.
  revert L. induction I as [|x I IH]; intros L ND HI HC; [destruct L as [|y L]; [reflexivity|destruct (HI y (or_introl eq_refl))]|]. inversion ND as [|? ? N1 N2]; subst.
  set (L' := filter (fun i => negb (idx_eqb i x)) L). assert (E : length L = idx_times x L + length L').
  { unfold L', idx_times. clear. induction L as [|y L IH]; [reflexivity|]. cbn [count_occ filter length]. destruct (idx_eq_dec y x) as [E|E].
    - subst. rewrite (proj2 (idx_eqb_eq x x) eq_refl). cbn. lia.
    - destruct (idx_eqb y x) eqn:E'; [apply idx_eqb_eq in E'; congruence|]. cbn. lia. }
  rewrite E, (HC x (or_introl eq_refl)), IH with (L := L'); [cbn; lia|exact N2| |].
  - intros i Hi. apply filter_In in Hi as [Hi Q]. rewrite negb_true_iff in Q. destruct (HI i Hi) as [<-|?]; [rewrite (proj2 (idx_eqb_eq x x) eq_refl) in Q; discriminate|assumption].
  - intros i Hi. rewrite <- (HC i (or_intror Hi)). unfold L', idx_times. assert (Hx : i <> x) by (intros ->; contradiction). clear -Hx. induction L as [|y L IH]; [reflexivity|]. cbn [filter count_occ]. destruct (idx_eqb y x) eqn:E; cbn [negb count_occ].
    + apply idx_eqb_eq in E as ->. destruct (idx_eq_dec x i); [congruence|exact IH].
    + rewrite IH. reflexivity.
Qed.

(** every index of a term occurs twice *)
Definition paired (xs : list tensor) (o : op) : Prop := forall i, 0 < total_times i xs o -> total_times i xs o = 2.

Lemma slots_perm xs o : Permutation (op_slots o ++ flat_map tensor_slots xs) (content_indices xs o).
Proof.
  unfold op_slots, content_indices, op_indices. apply Permutation_app; [apply Permutation_app_comm|]. induction xs as [|x xs IH]; [reflexivity|]. cbn [flat_map]. apply Permutation_app; [|exact IH]. unfold tensor_slots, tensor_indices. apply Permutation_app_comm.
Qed.
Lemma idx_times_perm i l m : Permutation l m -> idx_times i l = idx_times i m.
Proof. intros H. unfold idx_times. apply (proj1 (Permutation_count_occ idx_eq_dec l m) H). Qed.

Lemma read_indices_ok t dummy d0 l m : read_indices t dummy l = Ok m -> m = map (fun x => nth (x / 2) dummy d0) l.
Proof.
  unfold read_indices. destruct (pymap _ l) as [r|] eqn:E; [|discriminate]. cbn [pybind]. intros H. apply make_typed_ok in H as [-> _]. revert r E. induction l as [|x l IH]; intros r E; cbn [pymap] in E; [injection E as <-; reflexivity|].
  unfold get_item in E at 1. destruct (nth_error dummy (x / 2)) as [i|] eqn:En; [|discriminate]. cbn [pybind] in E. destruct (pymap _ l) as [r'|]; [|discriminate]. cbn [pybind] in E. injection E as <-. cbn [map]. f_equal; [|apply IH; reflexivity].
  symmetry. apply nth_error_nth, En.
Qed.
Lemma read_tensors_ok dummy d0 xs l ys : read_tensors dummy xs l = Ok ys -> ys = fac xs (map (fun x => nth (x / 2) dummy d0) l).
Proof.
  revert l ys. induction xs as [|x xs IH]; intros l ys H; cbn [read_tensors] in H; [injection H as <-; reflexivity|].
  match type of H with pybind ?a _ = _ => destruct a as [lo|] eqn:E1 end; [|discriminate]. cbn [pybind] in H. match type of H with pybind ?a _ = _ => destruct a as [up|] eqn:E2 end; [|discriminate]. cbn [pybind] in H.
  destruct (from_indices x up lo) as [y|] eqn:E3; [|discriminate]. cbn [pybind] in H. destruct (read_tensors dummy xs _) as [zs|] eqn:E4; [|discriminate]. cbn [pybind] in H. injection H as <-.
  apply (read_indices_ok _ _ d0) in E1, E2. unfold from_indices in E3. apply check_tensor_ok in E3 as ->. apply IH in E4 as ->. cbn [fac]. rewrite <- skipn_map. f_equal. unfold one. rewrite E1, E2. rewrite <- !firstn_map, <- skipn_map. unfold tslots. f_equal.
  - rewrite skipn_firstn_comm. f_equal. lia.
  - rewrite firstn_firstn. f_equal. lia.
Qed.

Section Value.
  Context (A : qalg) (S : system) (v : tvaluation A).
  Add Ring alg_ring8 : (q_ring A).

  Theorem sympy_ok sympy core ra herm t t' tm : admissible sympy -> simplify core ra t = Ok t' -> canonicalize_sympy sympy core ra herm t = Ok tm ->
    (itype_antisymmetric (ttype t') = true -> antisymmetric v) -> (itype_antisymmetric (ttype t') = false -> pair_symmetric v) -> (herm = true -> hermitian_values v) ->
    Forall (fun x => titype x = ttype t') (ttensors t') -> classes_by_name (ttensors t') -> length (cre (tsq t')) = length (ann (tsq t')) -> paired (ttensors t') (tsq t') ->
    (is_void t' = true -> tcoeff t' = Q2Qc 0) ->
    term_value S v tm = term_value S v t' /\ (tcoeff tm = tcoeff t' \/ tcoeff tm = Qcopp (tcoeff t')) /\ ttype tm = ttype t'.
  Proof.
    intros HS Hs H HA HP HH HT HC HB HT2 HV. unfold canonicalize_sympy in H. rewrite Hs in H. cbn [pybind] in H. destruct (is_void t') eqn:Ev.
    { injection H as <-. unfold term_value, content_value, void, void_term. cbn [tcoeff ttensors tsq ttype]. rewrite (HV eq_refl). change (inj (Q2Qc 0)) with (@zin A 0). rewrite (zin_0 A). split; [ring|]. auto. }
    cbv zeta in H. set (m := minimal_indices t') in *. set (dummy := sort_by (plt idx_ord) (map snd m)) in *. set (xs := ttensors t') in *. set (o := tsq t') in *.
    destruct (minimal_indices_spec t') as (next' & N1 & N2 & N3 & N4). fold m xs o in N1, N2, N3, N4. destruct (generates_spec _ _ _ N3) as (N5 & _ & _).
    assert (PD : Permutation dummy (map snd m)) by apply sort_by_perm. assert (ND : NoDup dummy) by (eapply Permutation_NoDup; [symmetry; exact PD|exact N5]).
    assert (HI : forall i, In i (content_indices xs o) -> In i (map fst m) /\ In (rename m i) dummy).
    { intros i Hi. apply N2 in Hi. split; [exact Hi|]. rewrite PD. apply (in_map snd) with (x := (i, rename m i)). apply rename_in, Hi. }
    assert (HJ : forall i j, In i (content_indices xs o) -> In j (content_indices xs o) -> rename m i = rename m j -> i = j) by (intros i j Hi Hj; apply (rename_inj _ _ _ N5); apply N2; assumption).
    set (l := op_slots o ++ flat_map tensor_slots xs) in *. assert (PL : Permutation l (content_indices xs o)) by apply slots_perm.
    assert (LD : length l = 2 * length dummy).
    { rewrite (Permutation_length PL), (Permutation_length PD), map_length, <- (map_length fst m). apply length_twice; [exact N1|intros i; apply N2|]. intros i Hi. apply N2, idx_times_in in Hi. rewrite content_times in *. apply HT2, Hi. }
    match type of H with pybind ?a _ = _ => destruct a as [g0|] eqn:Eg end; [|discriminate]. cbn [pybind] in H.
    set (d0 := (Lab false Sg, 0) : idx). destruct (slot_labels_ok m dummy d0 ND l (map (fun iv => (snd iv, 2 * fst iv)) (enumerate 0 dummy)) (fun _ => 0) g0) as [R1 R2]; [ | | |exact Eg|].
    { intros k i Hk. rewrite (enumerate_get dummy k 0 i ND Hk). f_equal. lia. }
    { intros j Hj. apply HI. rewrite <- PL. exact Hj. }
    { intros i. cbn [Nat.add]. rewrite (idx_times_perm i _ _ (Permutation_map (rename m) PL)). destruct (in_dec idx_eq_dec i (map (rename m) (content_indices xs o))) as [Hi|Hi].
      - apply in_map_iff in Hi as (j & <- & Hj). rewrite count_map_inj; [|intros k Hk; apply HJ; assumption]. rewrite content_times. apply idx_times_in in Hj. rewrite content_times in Hj. rewrite (HT2 j Hj). lia.
      - unfold idx_times. rewrite (proj1 (count_occ_not_In idx_eq_dec _ _) Hi). lia. }
    assert (Lg : length g0 = length l) by (rewrite <- (map_length (fun x => nth (x / 2) dummy d0) g0), R1, map_length; reflexivity).
    assert (Lo : length (op_slots o) = oslots o) by (unfold op_slots; rewrite app_length; reflexivity).
    assert (Lx : length (flat_map tensor_slots xs) = slots xs).
    { clear. induction xs as [|x xs IH]; [reflexivity|]. cbn [flat_map]. rewrite app_length, IH, slots_cons. unfold tensor_slots, tslots. rewrite app_length. reflexivity. }
    assert (Ll : length l = oslots o + slots xs) by (unfold l; rewrite app_length; lia).
    set (ro0 := firstn (oslots o) g0). set (rt0 := skipn (oslots o) g0). assert (Eg0 : g0 = ro0 ++ rt0) by (symmetry; apply firstn_skipn).
    assert (Lro : length ro0 = oslots o) by (unfold ro0; apply firstn_length_le; lia). assert (Lrt : length rt0 = slots xs) by (unfold rt0; rewrite skipn_length; lia).
    set (h := fun x => nth (x / 2) dummy d0) in *.
    assert (Ro : map h ro0 = map (rename m) (op_slots o)) by (unfold ro0; rewrite <- firstn_map, R1, firstn_map; f_equal; unfold l; apply firstn_at; symmetry; exact Lo).
    assert (Rt : map h rt0 = map (rename m) (flat_map tensor_slots xs)) by (unfold rt0; rewrite <- skipn_map, R1, skipn_map; f_equal; unfold l; apply skipn_at; symmetry; exact Lo).
    match type of H with pybind ?a _ = _ => destruct a as [oruns|] eqn:Eo end; [|discriminate]. cbn [pybind] in H. destruct (tensor_groups herm xs) as [runs|] eqn:Er; [|discriminate]. cbn [pybind] in H.
    match type of H with pybind ?a _ = _ => destruct a as [[gc|]|] eqn:Es end; [|discriminate|discriminate]. cbn [pybind] in H.
    destruct (is_array _); [|discriminate]. apply HS in Es. cbv zeta in Es. rewrite app_length in Es. cbn [length] in Es. replace (length g0 + 2 - 2) with (length g0) in Es by lia.
    rewrite Lg, Eg0 in Es. set (N := length l) in *. assert (Loi : length (op_indices o) = oslots o) by (unfold op_indices, oslots; rewrite app_length; lia). rewrite Loi in *.
    apply (form_state A S v (tcoeff t') (ttype t') herm xs o dummy d0 oruns runs N HA HP HH HC HB) in Es; try assumption.
    2: { destruct (oslots o =? 0); [injection Eo as <-; auto|]. destruct (op_generating_set (ttype t') o) as [gens|]; [|discriminate]. cbn [pybind] in Eo. injection Eo as <-. right. exists gens. auto. }
    2: { intros ->. destruct (oslots o =? 0) eqn:E0; [apply Nat.eqb_eq in E0; exact E0|]. destruct (op_generating_set (ttype t') o) as [gens|]; [|discriminate]. cbn [pybind] in Eo. discriminate. }
    2: { apply tensor_groups_ok; assumption. }
    2: { rewrite <- Eg0. rewrite LD. exact R2. }
    destruct Es as (ro & rt & s & Egc & Hsg & Lro' & Lrt' & _ & V).
    match type of H with pybind ?a _ = _ => destruct a as [an|] eqn:Ea end; [|discriminate]. cbn [pybind] in H. match type of H with pybind ?a _ = _ => destruct a as [cr|] eqn:Ec end; [|discriminate]. cbn [pybind] in H.
    match type of H with pybind ?a _ = _ => destruct a as [ys|] eqn:Ey end; [|discriminate]. cbn [pybind] in H.
    apply (read_indices_ok _ _ d0) in Ea, Ec. apply (read_tensors_ok _ d0) in Ey. fold h in Ea, Ec, Ey. rewrite Egc in Ea, Ec, Ey. rewrite <- !app_assoc in Ea, Ec, Ey.
    rewrite firstn_at in Ec by (symmetry; exact Lro'). rewrite skipn_at in Ey by (symmetry; exact Lro').
    assert (La : firstn (length (ann o)) (ro ++ rt ++ sign_tail N s) = firstn (length (ann o)) ro).
    { rewrite firstn_app. replace (length (ann o) - length ro) with 0 by (unfold oslots in Lro'; lia). cbn [firstn]. apply app_nil_r. }
    rewrite La in Ea. assert (Eop : Op cr an = fop o (map h ro)) by (unfold fop; rewrite firstn_map, skipn_map, Ea, Ec; reflexivity).
    assert (Eys : ys = fac xs (map h rt)). { rewrite Ey, map_app. rewrite <- (app_nil_r xs) at 1. rewrite fac_app by (rewrite map_length; exact Lrt'). cbn [fac]. apply app_nil_r. }
    assert (Esign : (if last ((ro0 ++ rt0) ++ [N; N + 1]) 0 =? last gc 0 then 1%Z else (-1)%Z) = s).
    { rewrite Egc. assert (LL : forall (a : list nat) x y, last (a ++ [x; y]) 0 = y) by (intros a x y; change [x; y] with ([x] ++ [y]); rewrite app_assoc; apply last_last). rewrite LL.
      destruct Hsg as [->| ->]; [change (sign_tail N 1) with [N; N + 1]|change (sign_tail N (-1)) with [N + 1; N]]; rewrite LL; [rewrite Nat.eqb_refl; reflexivity|]. destruct (Nat.eqb_spec (N + 1) N); [lia|reflexivity]. }
    rewrite Eg0, app_length, Lro, Lrt, <- Ll in H. fold N in H. rewrite Esign, Eop, Eys in H. clear Esign.
    destruct (make_term_fields _ _ _ _ _ H) as (F1 & F2 & _ & F4 & F5 & _). split; [|split; [|exact F1]].
    - unfold term_value. rewrite F4, F5, (content_value_perm A S v _ _ _ _ F2). fold xs o.
      assert (V0 : content_value S v (tcoeff t') xs o = val A S v (tcoeff t') xs o h ro0 rt0).
      { unfold val. rewrite Ro, Rt, fac_rename, fop_rename, fac_self, fop_self. symmetry. apply content_value_rename_inj; [|exact HJ]. intros i Hi. apply (N4 i). apply rename_in, N2, Hi. }
      rewrite V0. change (fun x : nat => nth (x / 2) dummy d0) with h in V. rewrite V. unfold val. unfold content_value. rewrite inj_mul. change (inj (Qc_of_Z s)) with (@zin A s). ring.
    - rewrite F5. destruct Hsg as [->| ->]; [left|right]; apply Qc_is_canon; unfold Qcmult, Qcopp, Qc_of_Z; cbn [this Q2Qc]; rewrite !Qred_correct; ring.
  Qed.
End Value.

(** ** simplify keeps what is needed *)
Lemma filter_count (P : idx -> bool) L F : NoDup F -> (forall i, In i L -> (P i = true <-> In i F)) -> length (filter P L) = list_sum (map (fun i => idx_times i L) F).
Proof.
  intros NF. induction L as [|x L IH]; intros H.
  - cbn. clear. induction F as [|y F IH]; [reflexivity|]. cbn. exact IH.
  - assert (E : list_sum (map (fun i => idx_times i (x :: L)) F) = list_sum (map (fun i => idx_times i L) F) + if P x then 1 else 0).
    { assert (Hx := H x (or_introl eq_refl)). clear IH H. assert (G : forall F, NoDup F -> list_sum (map (fun i => idx_times i (x :: L)) F) = list_sum (map (fun i => idx_times i L) F) + if in_dec idx_eq_dec x F then 1 else 0).
      { clear. induction 1 as [|y F Hy NF IH]; [reflexivity|]. cbn [map]. change (list_sum (?a :: ?b)) with (a + list_sum b). rewrite IH. unfold idx_times. cbn [count_occ]. destruct (idx_eq_dec x y) as [E|E].
        - subst y. destruct (in_dec idx_eq_dec x F); [contradiction|]. destruct (in_dec idx_eq_dec x (x :: F)) as [_|Q]; [lia|exfalso; apply Q; left; reflexivity].
        - destruct (in_dec idx_eq_dec x F) as [Q|Q], (in_dec idx_eq_dec x (y :: F)) as [Q'|Q']; try lia; exfalso; [apply Q'; right; exact Q|destruct Q' as [Q'|Q']; congruence]. }
      rewrite (G F NF). destruct (in_dec idx_eq_dec x F) as [Q|Q], (P x) eqn:Ep; try reflexivity; exfalso; [apply Hx in Q; congruence|apply Q, Hx; reflexivity]. }
    rewrite E. cbn [filter]. rewrite <- IH by (intros i Hi; apply H; right; exact Hi). destruct (P x); cbn [length]; lia.
Qed.
Lemma count_map_filter (f : idx -> idx) L j : idx_times j (map f L) = length (filter (fun i => idx_eqb (f i) j) L).
Proof.
  unfold idx_times. induction L as [|x L IH]; [reflexivity|]. cbn [map count_occ filter]. destruct (idx_eq_dec (f x) j) as [E|E].
  - rewrite (proj2 (idx_eqb_eq _ _) E). cbn. lia.
  - destruct (idx_eqb (f x) j) eqn:E'; [apply idx_eqb_eq in E'; contradiction|exact IH].
Qed.
Lemma idx_times_flat i (p : tensor -> bool) xs : idx_times i (flat_map tensor_indices xs) = idx_times i (flat_map tensor_indices (filter p xs)) + idx_times i (flat_map tensor_indices (filter (fun x => negb (p x)) xs)).
Proof. induction xs as [|x xs IH]; [reflexivity|]. cbn [flat_map filter]. rewrite idx_times_app, IH. destruct (p x); cbn [negb flat_map]; rewrite idx_times_app; lia. Qed.
Lemma nodup_times i l : NoDup l -> In i l -> idx_times i l = 1.
Proof. intros N H. unfold idx_times. apply NoDup_count_occ'; assumption. Qed.

Lemma deltas_nodup core xs : densities_disjoint xs -> NoDup (flat_map tensor_indices (filter (is_delta core) xs)).
Proof.
  unfold densities_disjoint. assert (E : filter (is_delta core) xs = filter (is_delta core) (filter is_density xs)).
  { rewrite filter_filter. apply filter_ext. intros x. destruct (is_delta core x) eqn:E; [rewrite (is_delta_density core x E); reflexivity|symmetry; apply andb_false_r]. }
  rewrite E. generalize (filter is_density xs). intros l N. apply (NoDup_count_occ idx_eq_dec). intros i. rewrite (NoDup_count_occ idx_eq_dec) in N. specialize (N i).
  fold (idx_times i (flat_map tensor_indices l)) in N. fold (idx_times i (flat_map tensor_indices (filter (is_delta core) l))). rewrite (idx_times_flat i (is_delta core)) in N. lia.
Qed.
Lemma delta_unique core xs x y i : NoDup (flat_map tensor_indices (filter (is_delta core) xs)) -> In x xs -> In y xs -> is_delta core x = true -> is_delta core y = true -> In i (tensor_indices x) -> In i (tensor_indices y) ->
  forall j, In j (tensor_indices x) <-> In j (tensor_indices y).
Proof.
  intros N Hx Hy Dx Dy Ix Iy. assert (Fx : In x (filter (is_delta core) xs)) by (apply filter_In; auto). assert (Fy : In y (filter (is_delta core) xs)) by (apply filter_In; auto). clear Hx Hy Dx Dy.
  revert N Fx Fy. generalize (filter (is_delta core) xs). intros l. induction l as [|z l IH]; intros N Fx Fy; [destruct Fx|]. cbn [flat_map] in N. apply NoDup_app_elim in N as (N1 & N2 & N3).
  destruct Fx as [->|Fx], Fy as [->|Fy]; [tauto| | |apply IH; assumption]; exfalso; apply (N3 i); try assumption; apply in_flat_map; eexists; split; eassumption.
Qed.

Lemma simplify_keeps core ra ty xs o c t t' : make_term ty xs o c = Ok t -> (forall i, ~ diagonal_in i xs o) -> Forall valid_tensor xs -> densities_disjoint xs -> simplify core ra t = Ok t' ->
  ttype t' = ty /\ Forall (fun x => titype x = ty) (ttensors t') /\ paired (ttensors t') (tsq t') /\ (classes_by_name xs -> classes_by_name (ttensors t')) /\
  (length (cre o) = length (ann o) -> length (cre (tsq t')) = length (ann (tsq t'))).
Proof.
  intros M ND HV HD H. destruct (make_term_inv _ _ _ _ _ M) as (FT & CN & _). destruct (make_term_fields _ _ _ _ _ M) as (F1 & F2 & _ & F4 & F5 & F6 & F7 & F8 & F9 & F10).
  assert (Hd : tdiag t = []). { destruct (tdiag t) as [|[i n] d]; [reflexivity|]. exfalso. apply (ND i). apply (F10 i n). left. reflexivity. }
  assert (HI : forall i, In i (content_indices (ttensors t) (tsq t)) <-> In i (tindices t)).
  { intros i. rewrite F7, <- content_times, <- idx_times_in, F4. apply content_perm, F2. }
  assert (HT : forall i, In i (tindices t) -> idx_times i (content_indices (ttensors t) (tsq t)) = 2).
  { intros i Hi. rewrite F4. rewrite (idx_times_perm i _ (content_indices xs o)); [|unfold content_indices; apply Permutation_app_head; rewrite F2; reflexivity]. rewrite content_times. apply F7 in Hi. destruct (CN i Hi) as [_ Q]. apply Q, ND. }
  assert (HV' : Forall valid_tensor (ttensors t)) by (rewrite F2; exact HV).
  assert (HD' : densities_disjoint (ttensors t)).
  { unfold densities_disjoint in *. eapply Permutation_NoDup; [|exact HD]. apply Permutation_flat_map'. symmetry. clear -F2. induction F2 as [|x l l' P IH|x y l|l1 l2 l3 _ IH1 _ IH2]; cbn; [constructor|destruct (is_density x); [apply perm_skip|]; exact IH| |etransitivity; eassumption].
    destruct (is_density x), (is_density y); try reflexivity. apply perm_swap. }
  destruct (simplify_inv core ra t t' H Hd F6 (fun i Hi => proj1 (HI i) Hi)) as (r & rho & SM & Hr & Hk & _ & Q); try assumption.
  { intros [s n] Hi. apply F8. exists (s, n). auto. }
  destruct Q as [[_ ->]| ->].
  { cbn. split; [exact F1|]. split; [constructor|]. split; [intros i Hi; cbn in Hi; lia|]. split; [intros _ x y []|reflexivity]. }
  cbn [ttype ttensors tsq]. split; [exact F1|]. split; [|split; [|split]].
  - rewrite Forall_forall in *. intros x Hx. apply in_map_iff in Hx as (y & <- & Hy). apply filter_In in Hy as [Hy _]. cbn. apply FT. rewrite <- F2. exact Hy.
  - intros j Hj. set (K := filter (fun x => negb (is_delta core x)) (ttensors t)) in *. set (B := filter (is_delta core) (ttensors t)) in *. rewrite <- content_times, content_rename in *.
    set (L := content_indices K (tsq t)) in *. assert (HL : forall i, In i (tindices t) -> idx_times i L + idx_times i (flat_map tensor_indices B) = 2).
    { intros i Hi. rewrite <- (HT i Hi). unfold L, content_indices. rewrite !idx_times_app, (idx_times_flat i (is_delta core) (ttensors t)). fold B K. lia. }
    assert (IL : forall i, In i L -> In i (tindices t)). { intros i Hi. apply HI. unfold L, content_indices in *. apply in_app_or in Hi as [Hi|Hi]; apply in_or_app; [left; exact Hi|right]. apply in_flat_map in Hi as (x & Hx & Hi). apply filter_In in Hx as [Hx _]. apply in_flat_map. eauto. }
    assert (ER : map (rename r) L = map rho L) by (apply map_ext_in; intros i Hi; apply Hr, IL, Hi). rewrite ER in *.
    apply idx_times_in in Hj. apply in_map_iff in Hj as (i & Ej & Hi). pose proof (IL i Hi) as It. assert (NB : NoDup (flat_map tensor_indices B)) by (apply deltas_nodup, HD').
    rewrite count_map_filter. destruct (in_dec idx_eq_dec i (flat_map tensor_indices B)) as [Ib|Ib].
    + apply in_flat_map in Ib as (x & Hx & Ix). unfold B in Hx. apply filter_In in Hx as [Hx Dx]. destruct (sm_delta _ _ _ _ SM x Hx Dx) as (u & l & w & Eu & El & _ & Ew & _).
      assert (Hul : forall k, In k (tensor_indices x) <-> k = u \/ k = l). { intros k. unfold tensor_indices. rewrite Eu, El. cbn. intuition congruence. }
      assert (Nul : u <> l). { intros E. apply (ND u). right. exists x. rewrite Eu, El, E. split; [rewrite <- F2; exact Hx|split; left; reflexivity]. }
      assert (Tu : In u (tindices t) /\ In l (tindices t)). { split; apply HI; unfold content_indices; apply in_or_app; right; apply in_flat_map; exists x; (split; [exact Hx|apply Hul; auto]). }
      rewrite (filter_count _ L [u; l]); [|constructor; [cbn; intuition congruence|repeat constructor; intros []]|].
      * cbn [map]. change (list_sum [?a; ?b]) with (a + (b + 0)). assert (Bu : forall k, In k (tensor_indices x) -> idx_times k (flat_map tensor_indices B) = 1). { intros k Hk'. apply nodup_times; [exact NB|]. apply in_flat_map. exists x. split; [apply filter_In; auto|exact Hk']. }
        pose proof (HL u (proj1 Tu)). pose proof (HL l (proj2 Tu)). rewrite (Bu u) in * by (apply Hul; auto). rewrite (Bu l) in * by (apply Hul; auto). lia.
      * intros k Hk'. cbn. rewrite idx_eqb_eq. split.
        -- intros E. assert (Ek : rho k = rho i) by congruence. destruct (sm_fiber _ _ _ _ SM k i (IL k Hk') It Ek) as [->|(y & Hy & Dy & Iy1 & Iy2)].
           ++ apply Hul in Ix. intuition.
           ++ assert (Q := delta_unique core (ttensors t) x y i NB Hx Hy Dx Dy Ix Iy2 k). apply Q in Iy1. apply Hul in Iy1. intuition.
        -- intros [<-|[<-|[]]]; apply Hul in Ix; destruct Ix; subst i; congruence.
    + rewrite (filter_count _ L [i]); [|repeat constructor; intros []|].
      * cbn [map]. change (list_sum [?a]) with (a + 0). pose proof (HL i It) as Q. assert (Z : idx_times i (flat_map tensor_indices B) = 0) by (apply count_occ_not_In, Ib). lia.
      * intros k Hk'. cbn. rewrite idx_eqb_eq. split; [|intros [<-|[]]; exact Ej]. intros E. assert (Ek : rho k = rho i) by congruence. destruct (sm_fiber _ _ _ _ SM k i (IL k Hk') It Ek) as [->|(y & Hy & Dy & _ & Iy2)]; [auto|].
        exfalso. apply Ib. apply in_flat_map. exists y. split; [apply filter_In; auto|exact Iy2].
  - intros HC x y Hx Hy E. apply in_map_iff in Hx as (a & <- & Ha). apply in_map_iff in Hy as (b & <- & Hb). apply filter_In in Ha as [Ha _]. apply filter_In in Hb as [Hb _]. cbn in *. apply HC; [rewrite <- F2; exact Ha|rewrite <- F2; exact Hb|exact E].
  - intros E. unfold rename_op. cbn. rewrite !map_length, F4. exact E.
Qed.
