(** canonicalize_sympy: what the answer looks like. *)
From Coq Require Import Ascii String ZArith QArith Qcanon Sorting.Sorted.
From Verif Require Import PyBase OrderSpec OrderProofs SortProofs ParitySpec ParityProofs SpaceModel IndicesModel IterProofs IndicesProofs SpaceProofs ElemModel MacroModel TermModel ValueSpec ValueProofs TermSpec SumProofs TermProofs RenameProofs
  SimplifyProofs CanonProofs SymmetryModel SymmetrySpec SymmetryProofs SympyProofs SympyValue.
Local Close Scope Q_scope.
Local Close Scope Qc_scope.
Local Open Scope nat_scope.
Local Notation length := List.length.

(** the same tensor with other indices *)
Record alike (x y : tensor) : Prop := {
  ak_class : tcls y = tcls x; ak_type : titype y = titype x; ak_name : tname y = tname x; ak_priority : tpriority y = tpriority x;
  ak_upper : length (tupper y) = length (tupper x); ak_lower : length (tlower y) = length (tlower x) }.
(** a predicate that is not affected by the moves of SymPy; upper and lower indices are exchanged with the hermitian option only *)
Record movable (herm : bool) (P : op -> list tensor -> Prop) : Prop := {
  mv_op : forall o o' xs, P o xs -> Permutation (cre o') (cre o) -> Permutation (ann o') (ann o) -> P o' xs;
  mv_tensor : forall o l1 x x' l2, P o (l1 ++ x :: l2) -> alike x x' ->
    (Permutation (tupper x') (tupper x) /\ Permutation (tlower x') (tlower x)) \/ (herm = true /\ Permutation (tupper x') (tlower x) /\ Permutation (tlower x') (tupper x)) -> P o (l1 ++ x' :: l2);
  mv_exchange : forall o l1 x y x' y' l2, P o (l1 ++ x :: y :: l2) -> alike x x' -> alike y y' -> tname y = tname x -> length (tlower y) = length (tlower x) -> length (tupper y) = length (tupper x) ->
    tensor_slots x' = tensor_slots y -> tensor_slots y' = tensor_slots x -> P o (l1 ++ x' :: y' :: l2);
  mv_rename : forall o xs (tau : idx -> idx), P o xs -> (forall i, In i (content_indices xs o) -> fst (tau i) = fst i) -> (forall i j, In i (content_indices xs o) -> In j (content_indices xs o) -> tau i = tau j -> i = j) ->
    P (rename_op tau o) (map (rename_tensor tau) xs) }.

Arguments mv_op {herm}.
Arguments mv_tensor {herm}.
Arguments mv_exchange {herm}.
Arguments mv_rename {herm}.

(** generators act within the blocks of slots, or exchange the two blocks *)
Lemma act_sides (f : nat -> idx) n b1 b2 tail b : length b = n + n -> length b1 = n -> length b2 = n ->
  (Permutation b1 (seq 0 n) /\ Permutation b2 (seq n n) -> Permutation (firstn n (map f (act (b1 ++ b2 ++ tail) b))) (firstn n (map f b)) /\ Permutation (skipn n (map f (act (b1 ++ b2 ++ tail) b))) (skipn n (map f b))) /\
  (Permutation b1 (seq n n) /\ Permutation b2 (seq 0 n) -> Permutation (firstn n (map f (act (b1 ++ b2 ++ tail) b))) (skipn n (map f b)) /\ Permutation (skipn n (map f (act (b1 ++ b2 ++ tail) b))) (firstn n (map f b))).
Proof.
  intros L L1 L2. destruct (split_pick b n n L) as [E1 E2]. rewrite app_assoc. unfold act. rewrite firstn_at by (rewrite app_length; lia). rewrite !map_app. rewrite firstn_at, skipn_at by (rewrite !map_length; lia). rewrite firstn_map, skipn_map, E1, E2.
  split; intros [P1 P2]; (split; apply Permutation_map, Permutation_map; assumption).
Qed.
Lemma block_sides (f : nat -> idx) n p b : block_permutation n n p -> length b = n + n -> Permutation (firstn n (map f (act p b))) (firstn n (map f b)) /\ Permutation (skipn n (map f (act p b))) (skipn n (map f b)).
Proof.
  intros (b1 & b2 & P1 & P2 & ->) L. apply act_sides; auto; [apply Permutation_length in P1; rewrite seq_length in P1|apply Permutation_length in P2; rewrite seq_length in P2]; assumption.
Qed.
Lemma tensor_sides (f : nat -> idx) t n h gens p b : base_strong_generating_set t n n h false = Ok gens -> In p gens -> length b = n + n ->
  (Permutation (skipn n (map f (act p b))) (skipn n (map f b)) /\ Permutation (firstn n (map f (act p b))) (firstn n (map f b))) \/
  (h = true /\ Permutation (skipn n (map f (act p b))) (firstn n (map f b)) /\ Permutation (firstn n (map f (act p b))) (skipn n (map f b))).
Proof.
  intros H Hp L. unfold base_strong_generating_set in H. destruct (n + n =? 0) eqn:E0; [discriminate|]. apply Nat.eqb_neq in E0. destruct (itype_antisymmetric t).
  - destruct h.
    + apply (hermitian_gens n gens p H) in Hp as [Hp|(b1 & b2 & P1 & P2 & ->)].
      * left. destruct (block_sides f n p b Hp L). auto.
      * right. pose proof (Permutation_length P1) as L1. pose proof (Permutation_length P2) as L2. rewrite seq_length in L1, L2. destruct (act_sides f n b1 b2 (sign_tail (2 * n) (parity b1 * parity b2)) b L L1 L2) as [_ Q]. destruct Q; auto.
    + left. apply (plain_gens n n gens p) in Hp; [|lia|lia|exact H]. destruct (block_sides f n p b Hp L). auto.
  - apply (sym_gens n h gens p H) in Hp as [(s & P & ->)|(Hh & s & P & ->)];
      (assert (P' : Permutation (map (fun k => k + n) s) (seq n n)) by (rewrite P, map_add_seq; reflexivity)); pose proof (Permutation_length P) as L1; rewrite seq_length in L1; assert (L2 : length (map (fun k => k + n) s) = n) by (rewrite map_length; exact L1).
    + left. destruct (act_sides f n s (map (fun k => k + n) s) [2 * n; 2 * n + 1] b L L1 L2) as [Q _]. destruct Q; auto.
    + right. destruct (act_sides f n (map (fun k => k + n) s) s [2 * n; 2 * n + 1] b L L2 L1) as [_ Q]. destruct Q; auto.
Qed.
Lemma op_sides (f : nat -> idx) t o gens p b : op_generating_set t o = Ok gens -> length (cre o) = length (ann o) -> In p gens -> length b = length (ann o) + length (cre o) ->
  Permutation (skipn (length (ann o)) (map f (act p b))) (skipn (length (ann o)) (map f b)) /\ Permutation (firstn (length (ann o)) (map f (act p b))) (firstn (length (ann o)) (map f b)).
Proof.
  intros H E Hp L. unfold op_generating_set in H. rewrite E in *. set (n := length (ann o)) in *. destruct (itype_antisymmetric t) eqn:Et; unfold base_strong_generating_set in H; rewrite ?Et in H; (destruct (n + n =? 0) eqn:E0; [discriminate|]); apply Nat.eqb_neq in E0.
  - apply (plain_gens n n gens p) in Hp; [|lia|lia|exact H]. destruct (block_sides f n p b Hp L). auto.
  - rewrite Nat.eqb_refl in H. injection H as <-. destruct Hp as [<-|[]]. assert (Q : forall k, k = (n + n) + 2 -> act (seq 0 k) b = b).
    { intros k ->. unfold act. rewrite L. rewrite seq_app, firstn_at by (rewrite seq_length; reflexivity). rewrite <- L. apply map_nth_seq. }
    rewrite Q by lia. split; reflexivity.
Qed.

Definition zero_values : tvaluation Qc_alg := @TVal Qc_alg (fun _ _ _ _ => q0) (fun _ _ => q0).
Lemma zero_antisymmetric : antisymmetric zero_values.
Proof. split; repeat intro; apply Qc_is_canon; reflexivity. Qed.

Lemma one_slots x r : tensor_slots (one x r) = r.
Proof. unfold tensor_slots, one. cbn [tlower tupper]. apply firstn_skipn. Qed.
Lemma one_alike x r r' : length r = length r' -> alike (one x r) (one x r').
Proof. intros L. split; try reflexivity; cbn [one tupper tlower]; [rewrite !skipn_length|rewrite !firstn_length]; lia. Qed.
Lemma slots_indices x : Permutation (tensor_slots x) (tensor_indices x).
Proof. unfold tensor_slots, tensor_indices. apply Permutation_app_comm. Qed.
Lemma fop_slots o r : op_slots (fop o r) = r.
Proof. unfold op_slots, fop. cbn [ann cre]. apply firstn_skipn. Qed.
Lemma op_slots_indices o : Permutation (op_slots o) (op_indices o).
Proof. unfold op_slots, op_indices. apply Permutation_app_comm. Qed.

Section Moves.
  Context (P : op -> list tensor -> Prop) (ty : itype) (herm : bool) (MP : movable herm P) (xs : list tensor) (o : op) (dummy : list idx) (d0 : idx).
  Context (oruns runs : list (list (list nat) * nat)) (N : nat).
  Context (HB : length (cre o) = length (ann o)).
  Context (HO : oruns = [] \/ exists gens, op_generating_set ty o = Ok gens /\ oruns = [(gens, 1)]) (HO0 : oruns = [] -> oslots o = 0).
  Context (HR : runs_ok ty herm xs runs) (HN : N = oslots o + slots xs) (HD : N = 2 * length dummy) (ND : NoDup dummy).
  Let h (x : nat) : idx := nth (x / 2) dummy d0.

  Definition mstate (gc : list nat) : Prop :=
    exists ro rt s, gc = (ro ++ rt) ++ sign_tail N s /\ (s = 1%Z \/ s = (-1)%Z) /\ length ro = oslots o /\ length rt = slots xs /\ Forall (fun x => x < N) (ro ++ rt) /\ P (fop o (map h ro)) (fac xs (map h rt)).

  Lemma slot_mstate g s : mstate g -> In s (slot_symmetries N 0 (oruns ++ runs)) -> mstate (compose g s).
  Proof.
    intros (ro & rt & z & -> & Hz & Lo & Lt & F & V) Hs.
    assert (AS : forall b, itype_antisymmetric ty = b -> antisymmetric zero_values) by (intros; apply zero_antisymmetric).
    assert (PS : itype_antisymmetric ty = false -> pair_symmetric zero_values) by (intros _; repeat intro; reflexivity).
    assert (HS : herm = true -> hermitian_values zero_values) by (intros _; repeat intro; reflexivity).
    assert (Q : (exists gens p, op_generating_set ty o = Ok gens /\ In p gens /\ s = embed N 0 p) \/ In s (slot_symmetries N (oslots o) runs)).
    { destruct HO as [->|(gens & Eg & ->)].
      - right. rewrite HO0 by reflexivity. exact Hs.
      - cbn [app slot_symmetries] in Hs. destruct (op_symmetry Qc_alg zero_values ty o gens Eg HB (AS true)) as [Ng HG]. assert (Lg : length (hd [] gens) - 2 = oslots o).
        { destruct gens as [|p gens]; [congruence|]. destruct (HG p (or_introl eq_refl)) as [L _]. cbn [hd]. rewrite L. unfold oslots. lia. }
        rewrite Lg in Hs. cbn [seq flat_map map app Nat.sub] in Hs. apply in_app_or in Hs as [Hs|Hs].
        + left. apply in_app_or in Hs as [Hs|[]]. apply in_map_iff in Hs as (p & <- & Hp). exists gens, p. auto.
        + right. replace (0 + 1 * oslots o) with (oslots o) in Hs by lia. exact Hs. }
    clear Hs. destruct Q as [(gens & p & Eg & Hp & ->)|Hs].
    - destruct (op_symmetry Qc_alg zero_values ty o gens Eg HB (AS true)) as [_ HG]. specialize (HG p Hp). assert (Lo' : length ro = length (ann o) + length (cre o)) by exact Lo. rewrite <- Lo' in HG. destruct HG as (Lp & Pp & _).
      exists (act p ro), rt, (z * psign (length ro) p)%Z. split; [|split; [|split; [|split; [|split]]]].
      + apply (embed_step N [] ro rt p z); [cbn [app]; rewrite app_length; lia|exact Lp|exact Pp|exact Hz].
      + destruct Hz as [->| ->], (psign_pm (length ro) p) as [->| ->]; auto.
      + rewrite act_length by exact Lp. exact Lo.
      + exact Lt.
      + rewrite (act_perm p ro Pp). exact F.
      + destruct (op_sides h ty o gens p ro Eg HB Hp Lo') as [S1 S2]. apply (mv_op P MP (fop o (map h ro))); [exact V|exact S1|exact S2].
    - apply (slot_cases ty herm xs runs) in Hs; [|exact HR]. destruct Hs as [(xs1 & x & xs2 & n & gens & p & E & L1 & L2 & Eg & Hp & ->)|(xs1 & x & y & xs2 & E & En & L1 & L2 & ->)].
      + destruct (tensor_symmetry Qc_alg zero_values ty (tcls x) (tname x) n herm gens Eg (AS true) PS HS) as [_ HG]. specialize (HG p Hp). rewrite E, slots_app, slots_cons in Lt. assert (Ls : tslots x = n + n) by (unfold tslots; lia).
        destruct (split3 rt (slots xs1) (n + n)) as (a & b & d & -> & La & Lb); [lia|]. rewrite !app_length in Lt. rewrite <- Lb in HG. pose proof HG as (Lp & Pp & _).
        exists ro, (a ++ act p b ++ d), (z * psign (length b) p)%Z. split; [|split; [|split; [|split; [|split]]]].
        * assert (Q := embed_step N (ro ++ a) b d p z). assert (EL : length (ro ++ a) = oslots o + slots xs1) by (rewrite app_length; lia). rewrite EL in Q. rewrite <- !app_assoc in Q. rewrite <- !app_assoc. apply Q; [rewrite !app_length; rewrite E, slots_app, slots_cons in HN; lia|exact Lp|exact Pp|exact Hz].
        * destruct Hz as [->| ->], (psign_pm (length b) p) as [->| ->]; auto.
        * exact Lo.
        * rewrite !app_length, act_length by exact Lp. rewrite E, slots_app, slots_cons. lia.
        * rewrite (act_perm p b Pp). exact F.
        * rewrite E in V |- *. rewrite !map_app in *. rewrite fac_app, fac_one in V |- * by (rewrite map_length, ?act_length by exact Lp; lia).
          apply (mv_tensor P MP _ _ (one x (map h b))); [exact V| |].
          -- apply one_alike. rewrite !map_length, act_length by exact Lp. reflexivity.
          -- unfold one. cbn [tupper tlower]. rewrite L1. apply (tensor_sides h ty n herm gens p b Eg Hp Lb).
      + rewrite E, slots_app, !slots_cons in Lt. assert (Ly : tslots y = tslots x) by (unfold tslots; lia).
        destruct (split3 rt (slots xs1) (tslots x)) as (a & b1 & r & -> & La & Lb1); [lia|]. rewrite !app_length in Lt. destruct (split3 r (tslots x) 0) as (b2 & e & d & -> & Lb2 & Le); [lia|]. destruct e; [|discriminate]. cbn [app] in *. rewrite app_length in Lt.
        exists ro, (a ++ b2 ++ b1 ++ d), z. split; [|split; [|split; [|split; [|split]]]].
        * assert (Q := exchange_step N (ro ++ a) b1 b2 d (sign_tail N z)). assert (EL : length (ro ++ a) = oslots o + slots xs1) by (rewrite app_length; lia). rewrite EL, Lb1 in Q. rewrite <- !app_assoc in Q. rewrite <- !app_assoc. apply Q; [rewrite !app_length; rewrite E, slots_app, !slots_cons in HN; lia|lia|].
          destruct (sign_tail_two N z) as (? & ? & ->). reflexivity.
        * exact Hz.
        * exact Lo.
        * rewrite !app_length. rewrite E, slots_app, !slots_cons. lia.
        * rewrite !Forall_app in *. tauto.
        * rewrite E in V |- *. rewrite !map_app in *. rewrite fac_app in V |- * by (rewrite map_length; lia). rewrite !fac_one in V |- * by (rewrite map_length; lia).
          apply (mv_exchange P MP _ _ (one x (map h b1)) (one y (map h b2))); [exact V|apply one_alike; rewrite !map_length; lia|apply one_alike; rewrite !map_length; lia|exact En| | |rewrite !one_slots; reflexivity|rewrite !one_slots; reflexivity].
          -- cbn [one tlower]. rewrite !firstn_length, !map_length. lia.
          -- cbn [one tupper]. rewrite !skipn_length, !map_length. lia.
  Qed.

  Lemma relabel_mstate g f tau : mstate g -> (forall x, x < N -> f x < N) -> f N = N -> f (N + 1) = N + 1 ->
    (forall x, x < N -> h (f x) = tau (h x)) -> (forall i, In i dummy -> fst (tau i) = fst i) -> (forall i j, In i dummy -> In j dummy -> tau i = tau j -> i = j) ->
    mstate (compose (map f (seq 0 (N + 2))) g).
  Proof.
    intros (ro & rt & z & -> & Hz & Lo & Lt & F & V) H1 H2 H3 H4 H5 H6. exists (map f ro), (map f rt), z.
    assert (HT : Forall (fun x => x < N + 2) (sign_tail N z)) by (unfold sign_tail; destruct (z =? 1)%Z; repeat (constructor; [lia|]); constructor).
    assert (HI : forall i, In i (map h (ro ++ rt)) -> In i dummy). { intros i Hi. apply in_map_iff in Hi as (x & <- & Hx). rewrite Forall_forall in F. specialize (F x Hx). apply nth_In. apply Nat.div_lt_upper_bound; lia. }
    split; [|split; [exact Hz|split; [rewrite map_length; exact Lo|split; [rewrite map_length; exact Lt|split]]]].
    - rewrite compose_map; [|apply Forall_app; split; [eapply Forall_impl; [|exact F]; cbn; intros; lia|exact HT]]. rewrite map_app, map_app. f_equal. unfold sign_tail. destruct (z =? 1)%Z; cbn [map]; rewrite H2, H3; reflexivity.
    - rewrite <- map_app. rewrite Forall_forall in *. intros x Hx. apply in_map_iff in Hx as (y & <- & Hy). apply H1, F, Hy.
    - assert (HM : forall l, incl l (ro ++ rt) -> map h (map f l) = map tau (map h l)).
      { intros l Hl. rewrite !map_map. apply map_ext_in. intros x Hx. apply H4. rewrite Forall_forall in F. apply F, Hl, Hx. }
      rewrite (HM ro) by (apply incl_appl, incl_refl). rewrite (HM rt) by (apply incl_appr, incl_refl). rewrite (fop_rename tau), (fac_rename tau).
      assert (HC : forall i, In i (content_indices (fac xs (map h rt)) (fop o (map h ro))) -> In i dummy).
      { intros i Hi. apply HI. rewrite map_app. eapply Permutation_in; [apply (content_fac xs o (map h ro) (map h rt)); rewrite map_length; exact Lt|exact Hi]. }
      apply (mv_rename P MP); [exact V| |].
      + intros i Hi. apply H5, HC, Hi.
      + intros i j Hi Hj. apply H6; apply HC; assumption.
  Qed.
  Lemma dummy_mstate g d : mstate g -> In d (dummy_symmetries N (dummy_ranges dummy)) -> mstate (compose d g).
  Proof.
    intros Hg Hd. unfold dummy_symmetries in Hd. apply in_flat_map in Hd as (r & Hr & Hd). apply (dummy_ranges_spec dummy r d0) in Hr as (a & b & -> & Hab & Hb & HF). cbn [fst snd] in Hd. rewrite !half_even in Hd.
    assert (HK : forall k, In k (seq a (b - a)) -> a <= k < b /\ k < length dummy) by (intros k Hk; apply in_seq in Hk; lia).
    apply in_app_or in Hd as [Hd|Hd].
    - apply in_map_iff in Hd as (k & <- & Hk). apply HK in Hk as [_ Hk]. unfold relabel2. apply relabel_mstate with (tau := fun i => i); try assumption; try reflexivity; try (intros; assumption).
      + intros x Hx. repeat eqb_cases; lia.
      + repeat (eqb_cases; [lia|]). reflexivity.
      + repeat (eqb_cases; [lia|]). reflexivity.
      + intros x Hx. unfold h. f_equal. repeat (eqb_cases; [subst x; rewrite ?half_even, ?half_odd; reflexivity|]). reflexivity.
    - apply in_map_iff in Hd as ([k l] & <- & Hkl). apply in_prod_iff in Hkl as [Hk Hl]. cbn [fst snd]. apply HK in Hk as [Rk Hk]. apply HK in Hl as [Rl Hl].
      set (dk := nth k dummy d0). set (dl := nth l dummy d0). assert (Ef : fst dk = fst dl) by (apply HF; assumption). unfold relabel2.
      apply relabel_mstate with (tau := fun i => if idx_eqb i dk then dl else if idx_eqb i dl then dk else i); try assumption.
      + intros x Hx. repeat eqb_cases; lia.
      + repeat (eqb_cases; [lia|]). reflexivity.
      + repeat (eqb_cases; [lia|]). reflexivity.
      + intros x Hx. assert (Hx2 : x / 2 < length dummy) by (apply Nat.div_lt_upper_bound; lia). pose proof (halves x) as Hh.
        assert (EQ : forall m, m < length dummy -> idx_eqb (h x) (nth m dummy d0) = (x / 2 =? m)).
        { intros m Hm. destruct (Nat.eqb_spec (x / 2) m) as [Em|Em]; [apply idx_eqb_eq; unfold h; rewrite Em; reflexivity|]. destruct (idx_eqb (h x) (nth m dummy d0)) eqn:Ei; [|reflexivity]. apply idx_eqb_eq in Ei.
          exfalso. apply Em. apply (proj1 (NoDup_nth dummy d0) ND); assumption. }
        unfold dk at 1, dl at 2. rewrite !EQ by assumption. destruct (Nat.eqb_spec (x / 2) k) as [Ek|Ek]; [|destruct (Nat.eqb_spec (x / 2) l) as [El|El]].
        * assert (Q : forall y, y / 2 = l -> h y = dl) by (intros y Hy; unfold h; rewrite Hy; reflexivity). apply Q. repeat (eqb_cases; [rewrite ?half_even, ?half_odd; lia|]). lia.
        * assert (Q : forall y, y / 2 = k -> h y = dk) by (intros y Hy; unfold h; rewrite Hy; reflexivity). apply Q. repeat (eqb_cases; [rewrite ?half_even, ?half_odd; lia|]). lia.
        * repeat (eqb_cases; [lia|]). reflexivity.
      + intros i _. destruct (idx_eqb i dk) eqn:E1; [apply idx_eqb_eq in E1 as ->; symmetry; exact Ef|]. destruct (idx_eqb i dl) eqn:E2; [apply idx_eqb_eq in E2 as ->; exact Ef|reflexivity].
      + intros i j _ _. assert (R : forall z, idx_eqb z z = true) by (intros z; apply idx_eqb_eq; reflexivity).
        destruct (idx_eqb i dk) eqn:E1, (idx_eqb j dk) eqn:E2; try (apply idx_eqb_eq in E1); try (apply idx_eqb_eq in E2); try congruence;
        destruct (idx_eqb i dl) eqn:E3, (idx_eqb j dl) eqn:E4; try (apply idx_eqb_eq in E3); try (apply idx_eqb_eq in E4); subst; rewrite ?R in *; try congruence; intros Q; subst; rewrite ?R in *; congruence.
  Qed.
  Lemma form_mstate ro0 rt0 gc : length ro0 = oslots o -> length rt0 = slots xs -> Forall (fun x => x < N) (ro0 ++ rt0) -> P (fop o (map h ro0)) (fac xs (map h rt0)) ->
    equivalent_form (slot_symmetries N 0 (oruns ++ runs)) (dummy_symmetries N (dummy_ranges dummy)) ((ro0 ++ rt0) ++ [N; N + 1]) gc -> mstate gc.
  Proof.
    intros Lo Lt F V. induction 1 as [|g s _ IH Hs|g d _ IH Hd].
    - exists ro0, rt0, 1%Z. split; [reflexivity|]. split; [auto|]. repeat (split; [assumption|]). exact V.
    - apply slot_mstate; assumption.
    - apply dummy_mstate; assumption.
  Qed.
End Moves.

Lemma read_tensors_valid dummy xs l ys : read_tensors dummy xs l = Ok ys -> Forall valid_tensor ys /\ Forall (fun y => titype y = SpinOrbital -> forall i, In i (tensor_indices y) -> idx_beta i = false) ys.
Proof.
  revert l ys. induction xs as [|x xs IH]; intros l ys H; cbn [read_tensors] in H; [injection H as <-; split; constructor|].
  match type of H with pybind ?a _ = _ => destruct a as [lo|] eqn:E1 end; [|discriminate]. cbn [pybind] in H. match type of H with pybind ?a _ = _ => destruct a as [up|] eqn:E2 end; [|discriminate]. cbn [pybind] in H.
  destruct (from_indices x up lo) as [y|] eqn:E3; [|discriminate]. cbn [pybind] in H. destruct (read_tensors dummy xs _) as [zs|] eqn:E4; [|discriminate]. cbn [pybind] in H. injection H as <-.
  apply IH in E4 as [Q1 Q2]. pose proof E3 as E3'. unfold from_indices in E3. apply check_tensor_ok in E3. split; constructor; try assumption.
  - unfold valid_tensor. subst y. exact E3'.
  - subst y. cbn [titype]. unfold tensor_indices. cbn [tupper tlower]. intros ET i Hi. unfold read_indices in E1, E2. destruct (pymap _ _) as [l1|] in E1; [|discriminate]. destruct (pymap _ _) as [l2|] in E2; [|discriminate]. cbn [pybind] in E1, E2.
    unfold make_typed in E1, E2. rewrite ET in E1, E2. destruct (nodup_idx l1); [|discriminate]. destruct (nodup_idx l2); [|discriminate]. cbn [itype_eqb andb] in E1, E2. destruct (existsb idx_beta l1) eqn:B1; [discriminate|]. destruct (existsb idx_beta l2) eqn:B2; [discriminate|]. injection E1 as <-. injection E2 as <-.
    destruct (idx_beta i) eqn:Eb; [|reflexivity]. apply in_app_or in Hi as [Hi|Hi]; [rewrite <- B2|rewrite <- B1]; symmetry; apply existsb_exists; exists i; auto.
Qed.
Lemma read_indices_alpha dummy l m : read_indices SpinOrbital dummy l = Ok m -> forall i, In i m -> idx_beta i = false.
Proof.
  unfold read_indices. destruct (pymap _ l) as [r|]; [|discriminate]. cbn [pybind]. unfold make_typed. destruct (nodup_idx r); [|discriminate]. cbn [itype_eqb andb]. destruct (existsb idx_beta r) eqn:B; [discriminate|]. intros E. injection E as <-. intros i Hi.
  destruct (idx_beta i) eqn:Eb; [|reflexivity]. rewrite <- B. symmetry. apply existsb_exists. exists i. auto.
Qed.

(** the numbers of consecutively generated indices are below their count *)
Lemma generates_small l next' : generates (fun _ => 0) l next' -> forall i, In i l -> snd i < length l.
Proof.
  intros G [s n] Hi. destruct (generates_spec _ _ _ G) as (N1 & _ & N3). cbn [snd]. assert (I : incl (map (pair s) (seq 0 (S n))) l).
  { intros j Hj. apply in_map_iff in Hj as (k & <- & Hk). apply in_seq in Hk. apply N3. apply N3 in Hi. cbv beta in *. lia. }
  assert (Q : NoDup (map (pair s) (seq 0 (S n)))) by (apply FinFun.Injective_map_NoDup; [intros a b E; congruence|apply seq_NoDup]).
  pose proof (NoDup_incl_length Q I) as L. rewrite map_length, seq_length in L. exact L.
Qed.

Theorem sympy_shape P sympy core ra herm t t' tm : movable herm P -> admissible sympy -> simplify core ra t = Ok t' -> canonicalize_sympy sympy core ra herm t = Ok tm ->
  Forall (fun x => titype x = ttype t') (ttensors t') -> length (cre (tsq t')) = length (ann (tsq t')) -> paired (ttensors t') (tsq t') ->
  P (tsq t') (ttensors t') ->
  (is_void t' = true /\ tm = void t') \/
  exists ys o c dummy, make_term (ttype t') ys o c = Ok tm /\ P o ys /\ Forall valid_tensor ys /\ length (cre o) = length (ann o) /\ (ttype t' = SpinOrbital -> forall i, In i (op_indices o) -> idx_beta i = false) /\
    (forall i, In i (content_indices ys o) -> snd i < length dummy) /\ NoDup dummy /\ (forall i, In i (content_indices ys o) -> In i dummy) /\ length dummy = length (nodup idx_eq_dec (content_indices (ttensors t') (tsq t'))).
Proof.
  intros MP HS Hs H HT HB HT2 HP. unfold canonicalize_sympy in H. rewrite Hs in H. cbn [pybind] in H. destruct (is_void t') eqn:Ev; [left; split; [reflexivity|congruence]|right].
  cbv zeta in H. set (m := minimal_indices t') in *. set (dummy := sort_by (plt idx_ord) (map snd m)) in *. set (xs := ttensors t') in *. set (o := tsq t') in *.
  destruct (minimal_indices_spec t') as (next' & N1 & N2 & N3 & N4). fold m xs o in N1, N2, N3, N4. destruct (generates_spec _ _ _ N3) as (N5 & _ & _).
  assert (PD : Permutation dummy (map snd m)) by apply sort_by_perm. assert (ND : NoDup dummy) by (eapply Permutation_NoDup; [symmetry; exact PD|exact N5]).
  assert (HI : forall i, In i (content_indices xs o) -> In i (map fst m) /\ In (rename m i) dummy).
  { intros i Hi. apply N2 in Hi. split; [exact Hi|]. rewrite PD. apply (in_map snd) with (x := (i, rename m i)). apply rename_in, Hi. }
  assert (HJ : forall i j, In i (content_indices xs o) -> In j (content_indices xs o) -> rename m i = rename m j -> i = j) by (intros i j Hi Hj; apply (rename_inj _ _ _ N5); apply N2; assumption).
  set (l := op_slots o ++ flat_map tensor_slots xs) in *. assert (PL : Permutation l (content_indices xs o)) by apply slots_perm.
  assert (LD : length l = 2 * length dummy).
  { rewrite (Permutation_length PL), (Permutation_length PD), map_length, <- (map_length fst m). apply length_twice; [exact N1|intros i; apply N2|]. intros i Hi. apply N2, idx_times_in in Hi. rewrite content_times in *. apply HT2, Hi. }
  match type of H with pybind ?a _ = _ => destruct a as [g0|] eqn:Eg end; [|discriminate]. cbn [pybind] in H.
  set (d0 := (Lab false Sg, 0) : idx). destruct (slot_labels_ok m dummy d0 ND l (map (fun iv => (snd iv, 2 * fst iv)) (enumerate 0 dummy)) (fun _ => 0) g0) as [R1 R2]; [ | | |exact Eg|].
  { intros k i Hk. rewrite (enumerate_get dummy k 0 i ND Hk). f_equal. lia. }
  { intros j Hj. apply HI. rewrite <- PL. exact Hj. }
  { intros i. cbn [Nat.add]. rewrite (idx_times_perm i _ _ (Permutation_map (rename m) PL)). destruct (in_dec idx_eq_dec i (map (rename m) (content_indices xs o))) as [Hi|Hi].
    - apply in_map_iff in Hi as (j & <- & Hj). rewrite count_map_inj; [|intros k Hk; apply HJ; assumption]. rewrite content_times. apply idx_times_in in Hj. rewrite content_times in Hj. rewrite (HT2 j Hj). lia.
    - unfold idx_times. rewrite (proj1 (count_occ_not_In idx_eq_dec _ _) Hi). lia. }
  assert (Lg : length g0 = length l) by (rewrite <- (map_length (fun x => nth (x / 2) dummy d0) g0), R1, map_length; reflexivity).
  assert (Lo : length (op_slots o) = oslots o) by (unfold op_slots; rewrite app_length; reflexivity).
  assert (Lx : length (flat_map tensor_slots xs) = slots xs).
  { clear. induction xs as [|x xs IH]; [reflexivity|]. cbn [flat_map]. rewrite app_length, IH, slots_cons. unfold tensor_slots, tslots. rewrite app_length. reflexivity. }
  assert (Ll : length l = oslots o + slots xs) by (unfold l; rewrite app_length; lia).
  set (ro0 := firstn (oslots o) g0). set (rt0 := skipn (oslots o) g0). assert (Eg0 : g0 = ro0 ++ rt0) by (symmetry; apply firstn_skipn).
  assert (Lro : length ro0 = oslots o) by (unfold ro0; apply firstn_length_le; lia). assert (Lrt : length rt0 = slots xs) by (unfold rt0; rewrite skipn_length; lia).
  set (h := fun x => nth (x / 2) dummy d0) in *.
  assert (Ro : map h ro0 = map (rename m) (op_slots o)) by (unfold ro0; rewrite <- firstn_map, R1, firstn_map; f_equal; unfold l; apply firstn_at; symmetry; exact Lo).
  assert (Rt : map h rt0 = map (rename m) (flat_map tensor_slots xs)) by (unfold rt0; rewrite <- skipn_map, R1, skipn_map; f_equal; unfold l; apply skipn_at; symmetry; exact Lo).
  match type of H with pybind ?a _ = _ => destruct a as [oruns|] eqn:Eo end; [|discriminate]. cbn [pybind] in H. destruct (tensor_groups herm xs) as [runs|] eqn:Er; [|discriminate]. cbn [pybind] in H.
  match type of H with pybind ?a _ = _ => destruct a as [[gc|]|] eqn:Es end; [|discriminate|discriminate]. cbn [pybind] in H.
  destruct (is_array _); [|discriminate]. apply HS in Es. cbv zeta in Es. rewrite app_length in Es. cbn [length] in Es. replace (length g0 + 2 - 2) with (length g0) in Es by lia.
  rewrite Lg, Eg0 in Es. set (N := length l) in *. assert (Loi : length (op_indices o) = oslots o) by (unfold op_indices, oslots; rewrite app_length; lia). rewrite Loi in *.
  apply (form_mstate P (ttype t') herm MP xs o dummy d0 oruns runs N HB) in Es; try assumption.
  2: { destruct (oslots o =? 0); [injection Eo as <-; auto|]. destruct (op_generating_set (ttype t') o) as [gens|]; [|discriminate]. cbn [pybind] in Eo. injection Eo as <-. right. exists gens. auto. }
  2: { intros ->. destruct (oslots o =? 0) eqn:E0; [apply Nat.eqb_eq in E0; exact E0|]. destruct (op_generating_set (ttype t') o) as [gens|]; [|discriminate]. cbn [pybind] in Eo. discriminate. }
  2: { apply tensor_groups_ok; assumption. }
  2: { rewrite <- Eg0. rewrite LD. exact R2. }
  2: { change (fun x : nat => nth (x / 2) dummy d0) with h. rewrite Ro, Rt, fac_rename, fop_rename, fac_self, fop_self. apply (mv_rename P MP); [exact HP| |exact HJ]. intros i Hi. apply (N4 i). apply rename_in, N2, Hi. }
  destruct Es as (ro & rt & s & Egc & Hsg & Lro' & Lrt' & F & V).
  match type of H with pybind ?a _ = _ => destruct a as [an|] eqn:Ea end; [|discriminate]. cbn [pybind] in H. match type of H with pybind ?a _ = _ => destruct a as [cr|] eqn:Ec end; [|discriminate]. cbn [pybind] in H.
  match type of H with pybind ?a _ = _ => destruct a as [ys|] eqn:Ey end; [|discriminate]. cbn [pybind] in H.
  pose proof (read_tensors_valid _ _ _ _ Ey) as [VY _].
  assert (BO : ttype t' = SpinOrbital -> forall i, In i (op_indices (Op cr an)) -> idx_beta i = false).
  { intros ET i Hi. rewrite ET in Ea, Ec. unfold op_indices in Hi. cbn [cre ann] in Hi. apply in_app_or in Hi as [Hi|Hi]; [eapply read_indices_alpha; [exact Ec|exact Hi]|eapply read_indices_alpha; [exact Ea|exact Hi]]. }
  apply (read_indices_ok _ _ d0) in Ea, Ec. apply (read_tensors_ok _ d0) in Ey. fold h in Ea, Ec, Ey. rewrite Egc in Ea, Ec, Ey. rewrite <- !app_assoc in Ea, Ec, Ey.
  rewrite firstn_at in Ec by (symmetry; exact Lro'). rewrite skipn_at in Ey by (symmetry; exact Lro').
  assert (La : firstn (length (ann o)) (ro ++ rt ++ sign_tail N s) = firstn (length (ann o)) ro).
  { rewrite firstn_app. replace (length (ann o) - length ro) with 0 by (unfold oslots in Lro'; lia). cbn [firstn]. apply app_nil_r. }
  rewrite La in Ea. assert (Eop : Op cr an = fop o (map h ro)) by (unfold fop; rewrite firstn_map, skipn_map, Ea, Ec; reflexivity).
  assert (Eys : ys = fac xs (map h rt)). { rewrite Ey, map_app. rewrite <- (app_nil_r xs) at 1. rewrite fac_app by (rewrite map_length; exact Lrt'). cbn [fac]. apply app_nil_r. }
  assert (HC : forall i, In i (content_indices ys (Op cr an)) -> In i dummy).
  { intros i Hi. rewrite Eop, Eys in Hi. eapply Permutation_in in Hi; [|apply (content_fac xs o (map h ro) (map h rt)); rewrite map_length; exact Lrt']. rewrite <- map_app in Hi. apply in_map_iff in Hi as (x & <- & Hx). rewrite Forall_forall in F. specialize (F x Hx). apply nth_In. apply Nat.div_lt_upper_bound; lia. }
  exists ys, (Op cr an), (Qcmult (Qc_of_Z (if last (g0 ++ [length g0; length g0 + 1]) 0 =? last gc 0 then 1 else -1)) (tcoeff t')), dummy. split; [exact H|]. split; [rewrite Eop, Eys; exact V|]. split; [exact VY|]. split.
  { cbn [cre ann]. rewrite Ea, Ec. rewrite !map_length, firstn_length, skipn_length. unfold oslots in *. lia. }
  split; [exact BO|]. split; [|split; [exact ND|split; [exact HC|]]].
  - intros i Hi. apply HC in Hi. rewrite (Permutation_length PD). apply (generates_small _ _ N3). rewrite <- PD. exact Hi.
  - rewrite (Permutation_length PD), map_length, <- (map_length fst m). apply Permutation_length, NoDup_Permutation; [exact N1|apply NoDup_nodup|]. intros i. rewrite nodup_In. apply N2.
Qed.
