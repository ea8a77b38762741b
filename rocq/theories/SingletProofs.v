(** Singlet adaptation (IndicesPair.py:180-219). *)
From Coq Require Import Ascii String ZArith QArith Qcanon Factorial Sorting.Sorted.
From Verif Require Import PyBase OrderSpec OrderProofs SpaceModel SpaceProofs IndexModel IndexProofs IndicesModel IterProofs ParitySpec ParityProofs IndicesProofs ElemModel ElemProofs MacroModel SortProofs TermModel TermSpec TermProofs RenameProofs DriverProofs SymmetryModel CombineModel PermuteModel PermuteSpec PermuteProofs OpenProofs.
Local Close Scope Q_scope.
Local Close Scope Qc_scope.
Local Open Scope nat_scope.
Local Notation length := List.length.

Lemma alphas_part l : alphas l = spin_part false l.
Proof. apply filter_ext. intros i. destruct (idx_beta i); reflexivity. Qed.
Lemma betas_part l : betas l = spin_part true l.
Proof. apply filter_ext. intros i. destruct (idx_beta i); reflexivity. Qed.
Lemma part_beta b l : Forall (fun i => idx_beta i = b) (spin_part b l).
Proof. apply Forall_forall. intros i H. apply filter_In in H as [_ H]. apply Bool.eqb_prop in H. exact H. Qed.
Lemma map_beta_const b l : Forall (fun i => idx_beta i = b) l -> map idx_beta l = repeat b (length l).
Proof. intros H. induction H as [|x l Hx H IH]; [reflexivity|]. cbn. congruence. Qed.
Lemma part_perm b l m : Permutation l m -> Permutation (spin_part b l) (spin_part b m).
Proof. intros H. unfold spin_part. induction H; cbn [filter]; repeat match goal with |- context [Bool.eqb ?x ?y] => destruct (Bool.eqb x y) end; try constructor; auto; try reflexivity. etransitivity; eassumption. Qed.
Lemma part_all b l : Forall (fun i => idx_beta i = b) l -> spin_part b l = l /\ spin_part (negb b) l = [].
Proof. intros H. unfold spin_part. induction H as [|x l Hx H [IH1 IH2]]; [auto|]. cbn [filter]. rewrite Hx. destruct b; cbn [Bool.eqb negb] in *; split; congruence. Qed.
Lemma part_app b l m : spin_part b (l ++ m) = spin_part b l ++ spin_part b m.
Proof. apply filter_app. Qed.
Lemma parts_perm b l : Permutation (spin_part b l ++ spin_part (negb b) l) l.
Proof. rewrite <- (filter_split (fun i => Bool.eqb (idx_beta i) b) l) at 3. apply Permutation_app_head. unfold spin_part. rewrite (filter_ext (fun i => Bool.eqb (idx_beta i) (negb b)) (fun i => negb (Bool.eqb (idx_beta i) b))); [reflexivity|]. intros i. destruct (idx_beta i), b; reflexivity. Qed.
Lemma beta_after x y : ple idx_ord x y = true -> idx_beta x = true -> idx_beta y = true.
Proof.
  destruct x as [[b1 s1] n1], y as [[b2 s2] n2]. unfold idx_beta. cbn [fst lbeta]. intros H ->. destruct b2; [reflexivity|]. exfalso. revert H. unfold idx_ord. cbn [ple pair_ord idx_key fst snd priority lsp lbeta nat_ord plt peq].
  destruct s1, s2; cbn; discriminate.
Qed.
Lemma sorted_parts l : idx_sorted l -> l = spin_part false l ++ spin_part true l.
Proof.
  intros H. induction H as [|x l H IH F]; [reflexivity|]. unfold spin_part in *. cbn [filter]. destruct (idx_beta x) eqn:E; cbn [Bool.eqb].
  - assert (A : Forall (fun i => idx_beta i = true) l) by (apply Forall_forall; intros y Hy; rewrite Forall_forall in F; apply (beta_after x y (F y Hy) E)). destruct (part_all true l A) as [P1 P2]. unfold spin_part in *. cbn [negb] in P2. rewrite P1, P2. reflexivity.
  - cbn [app]. f_equal. exact IH.
Qed.
Lemma sort_part b l l' : idx_sorted l' -> Permutation l' l -> spin_part b l' = sort_by (plt idx_ord) (spin_part b l).
Proof.
  intros S P. apply (sorted_unique idx_ord idx_lawful idx_ext); [apply filter_sorted, S|apply sort_by_sorted, idx_lawful|]. rewrite (part_perm b _ _ P). symmetry. apply sort_by_perm.
Qed.

(** permutations of positions *)
Lemma get_items (l : list idx) d a : (forall k, In k a -> k < length l) -> pymap (get_item l) a = Ok (map (fun k => nth k l d) a).
Proof. intros H. apply pymap_total. intros k Hk. unfold get_item. rewrite (nth_error_nth' l d (H k Hk)). reflexivity. Qed.
Lemma nth_seq (l : list idx) d : map (fun k => nth k l d) (seq 0 (length l)) = l.
Proof. induction l as [|x l IH]; [reflexivity|]. cbn [length seq map nth]. f_equal. rewrite <- seq_shift, map_map. exact IH. Qed.
Lemma seq_sorted_inv n k : inversions Nat.ltb (seq k n) = 0.
Proof.
  revert k. induction n as [|n IH]; intros k; [reflexivity|]. cbn [seq inversions]. rewrite IH, Nat.add_0_r. rewrite (filter_ext_in _ (fun _ => false)); [rewrite filter_none; reflexivity|]. intros y Hy. apply in_seq in Hy. apply Nat.ltb_ge. lia.
Qed.
Lemma perm_sign n a : Permutation (seq 0 n) a -> reorder_sign (seq 0 n) a (sgn (inversions Nat.ltb a)).
Proof.
  intros P. destruct (reorder_sign_exists _ _ P) as [s Hs]. assert (T : total_on Nat.ltb (seq 0 n)).
  { intros x y _ _ D. destruct (Nat.ltb_spec x y), (Nat.ltb_spec y x); try lia; reflexivity. }
  pose proof (reorder_sign_inversions Nat.ltb (seq 0 n) a s (seq_NoDup n 0) T Hs) as E. rewrite seq_sorted_inv in E. change (sgn 0) with 1%Z in E. rewrite Z.mul_1_l in E. subst s. exact Hs.
Qed.
Lemma nth_perm (l L : list idx) d : Permutation L l <-> exists a, Permutation (seq 0 (length l)) a /\ L = map (fun k => nth k l d) a.
Proof.
  split.
  - intros P. rewrite <- (nth_seq l d) in P at 1. apply Permutation_map_inv in P as (a & -> & Q). exists a. auto.
  - intros (a & Q & ->). transitivity (map (fun k => nth k l d) (seq 0 (length l))); [apply Permutation_map; symmetry; exact Q|rewrite nth_seq; reflexivity].
Qed.
Lemma nth_inj (l : list idx) d a a' : NoDup l -> (forall k, In k a -> k < length l) -> (forall k, In k a' -> k < length l) -> map (fun k => nth k l d) a = map (fun k => nth k l d) a' -> a = a'.
Proof.
  intros N. revert a'. induction a as [|k a IH]; intros [|k' a'] H H' E; try discriminate; [reflexivity|]. cbn [map] in E. injection E as E1 E2. f_equal; [|apply IH; auto; intros j Hj; [apply H|apply H']; right; exact Hj].
  apply (proj1 (NoDup_nth l d) N); [apply H; left; reflexivity|apply H'; left; reflexivity|exact E1].
Qed.

Lemma app_inj_length {A} (a b a' b' : list A) : a ++ b = a' ++ b' -> length a = length a' -> a = a' /\ b = b'.
Proof. revert a'. induction a as [|x a IH]; intros [|y a'] E L; try discriminate; [auto|]. cbn in E. injection E as -> E. apply IH in E as [-> ->]; [auto|]. cbn in L. lia. Qed.
Lemma sgn_mul_self n : (sgn n * sgn n = 1)%Z.
Proof. destruct (sgn_pm n) as [->| ->]; reflexivity. Qed.
Lemma spin_sorted_sign b l l' s : NoDup l -> idx_sorted l' -> reorder_sign l l' s ->
  spin_sorted b l = spin_part b l' ++ spin_part (negb b) l' /\
  reorder_sign l (spin_sorted b l) (s * (if b then sgn (length (spin_part false l) * length (spin_part true l)) else 1)).
Proof.
  intros N S R. assert (P : Permutation l' l) by (symmetry; apply (reorder_sign_perm _ _ _ R)). assert (E : spin_sorted b l = spin_part b l' ++ spin_part (negb b) l') by (unfold spin_sorted; rewrite <- !(sort_part _ l l' S P); reflexivity).
  split; [exact E|]. rewrite E. apply (reorder_sign_trans _ l'); [exact R|]. rewrite (sorted_parts l' S) at 1. destruct b; cbn [negb]; [|apply reorder_sign_refl].
  rewrite <- (Permutation_length (part_perm false _ _ P)), <- (Permutation_length (part_perm true _ _ P)). apply reorder_sign_blocks.
Qed.
Lemma parts_length l : length (spin_part false l) + length (spin_part true l) = length l.
Proof. rewrite <- app_length. apply Permutation_length, (parts_perm false). Qed.
Lemma n_beta_part l : n_beta l = length (spin_part true l).
Proof. unfold n_beta. rewrite <- betas_part. reflexivity. Qed.

Lemma singlet_ok upper lower r amaj : NoDup upper -> NoDup lower -> n_beta upper = n_beta lower -> length upper = length lower -> incl (upper ++ lower) (map fst r) ->
  let U := spin_sorted (first_spin amaj upper) upper in
  exists ls, singlet_adaptation SpinIntegrated upper lower r amaj = Ok (map (fun e => (fst e, map (rename r) U, map (rename r) (snd e))) ls) /\
    NoDup (map snd ls) /\ length ls = fact (length upper - n_beta upper) * fact (n_beta upper) /\
    forall s L, In (s, L) ls <-> Permutation L lower /\ map idx_beta L = map idx_beta U /\ exists su sl, reorder_sign upper U su /\ reorder_sign lower L sl /\ s = (su * sl)%Z.
Proof.
  intros Nu Nl Hb Hl Hr U. rewrite !n_beta_part in Hb. pose proof (parts_length upper) as Lu. pose proof (parts_length lower) as Ll.
  assert (FS : first_spin amaj lower = first_spin amaj upper) by (unfold first_spin; replace (length (spin_part false lower)) with (length (spin_part false upper)) by lia; rewrite Hb; reflexivity).
  set (b := first_spin amaj upper) in *. unfold singlet_adaptation. rewrite !n_beta_part, Hb, Nat.eqb_refl. cbn [negb].
  destruct (canonicalize_spec SpinIntegrated upper eq_refl Nu) as (u & su & Eu & Su & Ru). destruct (canonicalize_spec SpinIntegrated lower eq_refl Nl) as (l & sl & El & Sl & Rl).
  unfold canonicalize_pair. rewrite Eu, El. cbn [pybind fst snd itype_eqb negb].
  assert (Ord : forall x y, Permutation x y -> length (spin_part false y) = length (spin_part false upper) -> length (spin_part true y) = length (spin_part true upper) -> spin_ordered amaj x = (spin_part b x, spin_part (negb b) x)).
  { intros x y P E1 E2. unfold spin_ordered. cbv zeta. rewrite alphas_part, betas_part, (Permutation_length (part_perm false _ _ P)), (Permutation_length (part_perm true _ _ P)), E1, E2. unfold b, first_spin. destruct amaj; cbn [andb negb orb]; rewrite ?orb_false_r; match goal with |- context [if ?c then _ else _] => destruct c end; reflexivity. }
  assert (Pu : Permutation u upper) by (symmetry; apply (reorder_sign_perm _ _ _ Ru)). assert (Pl : Permutation l lower) by (symmetry; apply (reorder_sign_perm _ _ _ Rl)).
  rewrite (Ord u upper Pu eq_refl eq_refl), (Ord l lower Pl) by lia. cbn [fst snd].
  destruct (spin_sorted_sign b upper u su Nu Su Ru) as [EU RU]. destruct (spin_sorted_sign b lower l sl Nl Sl Rl) as [EL RL]. fold U in EU, RU. rewrite <- EU.
  assert (PU : Permutation U upper) by (symmetry; apply (reorder_sign_perm _ _ _ RU)).
  rewrite (replace_total r U) by (intros i Hi; apply Hr, in_or_app; left; apply (Permutation_in _ PU), Hi). cbn [pybind]. rewrite Hl, Nat.eqb_refl. cbn [negb].
  set (I1 := spin_part b l) in *. set (I2 := spin_part (negb b) l) in *. assert (PI : Permutation (I1 ++ I2) l) by apply parts_perm.
  assert (NI : NoDup (I1 ++ I2)) by (apply (Permutation_NoDup (Permutation_sym PI)), (Permutation_NoDup (Permutation_sym Pl)), Nl). apply NoDup_app_inv in NI as (N1 & N2 & _).
  set (d := (Lab false Sc, 0) : idx). set (pick1 := fun a => map (fun k => nth k I1 d) a). set (pick2 := fun a => map (fun k => nth k I2 d) a).
  set (entry := fun ab : list nat * list nat => ((sgn (inversions Nat.ltb (fst ab)) * sgn (inversions Nat.ltb (snd ab)) * (su * sl))%Z, pick1 (fst ab) ++ pick2 (snd ab))).
  set (ps := list_prod (permutations (seq 0 (length I1))) (permutations (seq 0 (length I2)))). set (ls := map entry ps).
  assert (InP : forall a c, In (a, c) ps <-> Permutation (seq 0 (length I1)) a /\ Permutation (seq 0 (length I2)) c) by (intros a c; unfold ps; rewrite in_prod_iff, !in_permutations; tauto).
  assert (Bnd : forall n a, Permutation (seq 0 n) a -> forall k, In k a -> k < n) by (intros n a P k Hk; apply (Permutation_in _ (Permutation_sym P)), in_seq in Hk; lia).
  assert (Keys1 : forall a, Permutation (seq 0 (length I1)) a -> incl (pick1 a) (map fst r)).
  { intros a P i Hi. apply Hr, in_or_app. right. apply (Permutation_in _ Pl), (Permutation_in _ PI), in_or_app. left. assert (Q : Permutation (pick1 a) I1) by (apply (nth_perm I1 (pick1 a) d); exists a; auto). apply (Permutation_in _ Q), Hi. }
  assert (Keys2 : forall a, Permutation (seq 0 (length I2)) a -> incl (pick2 a) (map fst r)).
  { intros a P i Hi. apply Hr, in_or_app. right. apply (Permutation_in _ Pl), (Permutation_in _ PI), in_or_app. right. assert (Q : Permutation (pick2 a) I2) by (apply (nth_perm I2 (pick2 a) d); exists a; auto). apply (Permutation_in _ Q), Hi. }
  exists ls. split; [|split; [|split]].
  - match goal with |- (if _ then _ else pymap ?f _) = _ => set (F := f) end.
    assert (GF : pymap F ps = Ok (map (fun e => (fst e, map (rename r) U, map (rename r) (snd e))) ls)).
    { unfold ls. rewrite map_map. apply pymap_total. intros [a c] H. apply InP in H as [H1 H2]. unfold F, entry. cbn [fst snd]. rewrite (get_items I1 d a (Bnd _ _ H1)), (get_items I2 d c (Bnd _ _ H2)). cbn [pybind]. fold (pick1 a) (pick2 c). rewrite (replace_total r _ (Keys1 a H1)), (replace_total r _ (Keys2 c H2)). cbn [pybind]. rewrite map_app. reflexivity. }
    destruct (Nat.ltb_spec (length lower) 2) as [L2|L2]; [|exact GF]. rewrite (replace_total r l) by (intros i Hi; apply Hr, in_or_app; right; apply (Permutation_in _ Pl), Hi). cbn [pybind].
    rewrite <- (Permutation_length Pl) in L2. unfold ls, ps, entry, pick1, pick2, I1, I2, spin_part. clear - L2. destruct l as [|x [|y l]]; [| |cbn in L2; lia].
    + cbn [filter length seq permutations permutations_fuel list_prod map app fst snd inversions]. change (sgn 0) with 1%Z. rewrite !Z.mul_1_l. reflexivity.
    + cbn [filter]. destruct (idx_beta x), b; cbn [Bool.eqb negb filter length seq permutations permutations_fuel picks flat_map list_prod map app fst snd inversions nth Nat.add]; change (sgn 0) with 1%Z; rewrite !Z.mul_1_l; reflexivity.
  - unfold ls. rewrite map_map. apply NoDup_map_in; [|apply NoDup_list_prod; apply nodup_permutations, seq_NoDup].
    intros [a c] [a' c'] H H' E. apply InP in H as [H1 H2], H' as [H1' H2']. unfold entry in E. cbn [fst snd] in E.
    assert (LL : length (pick1 a) = length (pick1 a')) by (unfold pick1; rewrite !map_length; rewrite <- (Permutation_length H1), <- (Permutation_length H1'); reflexivity).
    apply app_inj_length in E as [E1 E2]; [|exact LL]. f_equal; [apply (nth_inj I1 d _ _ N1 (Bnd _ _ H1) (Bnd _ _ H1') E1)|apply (nth_inj I2 d _ _ N2 (Bnd _ _ H2) (Bnd _ _ H2') E2)].
  - unfold ls, ps. rewrite map_length, prod_length, !permutations_length, !seq_length. unfold I1, I2. rewrite !(Permutation_length (part_perm _ _ _ Pl)). replace (length lower - length (spin_part true lower)) with (length (spin_part false lower)) by lia. destruct b; cbn [negb]; [apply Nat.mul_comm|reflexivity].
  - set (e := (if b then sgn (length (spin_part false upper) * length (spin_part true upper)) else 1)%Z) in *.
    assert (e * e = 1)%Z as Ee by (unfold e; destruct b; [apply sgn_mul_self|reflexivity]).
    assert (RL' : reorder_sign lower (I1 ++ I2) (sl * e)). { rewrite <- EL. unfold e. replace (length (spin_part false upper)) with (length (spin_part false lower)) by lia. rewrite Hb. exact RL. }
    assert (PB : map idx_beta U = repeat b (length I1) ++ repeat (negb b) (length I2)).
    { rewrite EU, map_app, (map_beta_const b _ (part_beta _ _)), (map_beta_const (negb b) _ (part_beta _ _)). unfold I1, I2. rewrite !(Permutation_length (part_perm _ _ _ Pl)), !(Permutation_length (part_perm _ _ _ Pu)).
      assert (Q : forall c, length (spin_part c upper) = length (spin_part c lower)) by (intros []; lia). rewrite !Q. reflexivity. }
    assert (Sg : forall a c, In (a, c) ps -> reorder_sign lower (pick1 a ++ pick2 c) (sl * e * (sgn (inversions Nat.ltb a) * sgn (inversions Nat.ltb c)))).
    { intros a c H. apply InP in H as [H1 H2]. apply (reorder_sign_trans _ (I1 ++ I2)); [exact RL'|]. rewrite <- (nth_seq I1 d) at 1. rewrite <- (nth_seq I2 d) at 1. apply reorder_sign_app; apply reorder_sign_map, perm_sign; assumption. }
    intros s L. unfold ls. rewrite in_map_iff. split.
    + intros ([a c] & E & H). unfold entry in E. cbn [fst snd] in E. injection E as <- <-. pose proof (Sg a c H) as SG. apply InP in H as [H1 H2]. split; [symmetry; apply (reorder_sign_perm _ _ _ SG)|]. split.
      * rewrite PB, map_app. assert (Q1 : Permutation (pick1 a) I1) by (apply (nth_perm I1 (pick1 a) d); exists a; auto). assert (Q2 : Permutation (pick2 c) I2) by (apply (nth_perm I2 (pick2 c) d); exists c; auto).
        rewrite (map_beta_const b (pick1 a)), (map_beta_const (negb b) (pick2 c)), (Permutation_length Q1), (Permutation_length Q2); [reflexivity| |].
        -- apply (Permutation_Forall (Permutation_sym Q2)), part_beta.
        -- apply (Permutation_Forall (Permutation_sym Q1)), part_beta.
      * exists (su * e)%Z. eexists. split; [exact RU|]. split; [exact SG|]. transitivity (e * e * (sgn (inversions Nat.ltb a) * sgn (inversions Nat.ltb c) * (su * sl)))%Z; [rewrite Ee; ring|ring].
    + intros (PL & BL & tu & tl & Tu & Tl & ->). rewrite PB in BL.
      set (L1 := firstn (length I1) L). set (L2 := skipn (length I1) L). assert (LE : L = L1 ++ L2) by (symmetry; apply firstn_skipn).
      assert (LL : length L = length I1 + length I2) by (rewrite (Permutation_length PL), <- (Permutation_length Pl), <- (Permutation_length PI), app_length; reflexivity).
      assert (LL1 : length L1 = length I1) by (unfold L1; rewrite firstn_length; lia). assert (BL' := BL). rewrite LE, map_app in BL'. apply app_inj_length in BL' as [B1 B2]; [|rewrite map_length, repeat_length; exact LL1].
      assert (F1 : Forall (fun i => idx_beta i = b) L1) by (apply Forall_forall; intros i Hi; apply (in_map idx_beta) in Hi; rewrite B1 in Hi; apply repeat_spec in Hi; exact Hi).
      assert (F2 : Forall (fun i => idx_beta i = negb b) L2) by (apply Forall_forall; intros i Hi; apply (in_map idx_beta) in Hi; rewrite B2 in Hi; apply repeat_spec in Hi; exact Hi).
      assert (Q1 : Permutation L1 I1). { destruct (part_all b L1 F1) as [E1 _]. destruct (part_all (negb b) L2 F2) as [_ E2]. rewrite negb_involutive in E2. unfold I1. rewrite (part_perm b _ _ Pl), <- (part_perm b _ _ PL), LE, part_app, E1, E2, app_nil_r. reflexivity. }
      assert (Q2 : Permutation L2 I2). { destruct (part_all b L1 F1) as [_ E1]. destruct (part_all (negb b) L2 F2) as [E2 _]. unfold I2. rewrite (part_perm (negb b) _ _ Pl), <- (part_perm (negb b) _ _ PL), LE, part_app, E1, E2. reflexivity. }
      apply (nth_perm I1 L1 d) in Q1 as (a & Pa & Ea). apply (nth_perm I2 L2 d) in Q2 as (c & Pc & Ec). assert (H : In (a, c) ps) by (apply InP; auto). exists (a, c). split; [|exact H].
      pose proof (Sg a c H) as SG. unfold entry. cbn [fst snd]. unfold pick1, pick2 in *. rewrite <- Ea, <- Ec, <- LE in *. f_equal.
      assert (tu = (su * e)%Z) as -> by (apply (reorder_sign_unique upper U); assumption). rewrite (reorder_sign_unique lower L _ _ Nl Tl SG).
      transitivity (e * e * (sgn (inversions Nat.ltb a) * sgn (inversions Nat.ltb c) * (su * sl)))%Z; [rewrite Ee; ring|ring].
Qed.
