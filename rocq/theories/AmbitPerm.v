(** Permutation texts determine the number of permutations. *)
From Coq Require Import Ascii String ZArith QArith Qcanon Lia.
From Verif Require Import PyBase SpaceModel IndexModel IndexProofs IndicesModel IndicesProofs ElemModel MacroModel TermModel TermSpec SymmetryModel CombineModel TextProofs PermuteModel PermuteSpec PermuteProofs OpenProofs.
Local Close Scope Q_scope.
Local Close Scope Qc_scope.
Local Open Scope nat_scope.
Local Notation length := List.length.

Definition block_text (b : list idx) : text := join [sp] (map idx_text b).
(** what follows the first index of a block *)
Definition rest_text (b : list idx) (bs : list (list idx)) (r : text) : text :=
  flat_map (fun i => sp :: idx_text i) b ++ flat_map (fun b => str " / " ++ block_text b) bs ++ str " )" ++ r.
Lemma join_flat (s a : text) l : join s (a :: l) = a ++ flat_map (fun x => s ++ x) l.
Proof. revert a. induction l as [|b l IH]; intros a; [cbn; rewrite app_nil_r; reflexivity|]. change (join s (a :: b :: l)) with (a ++ s ++ join s (b :: l)). rewrite IH. cbn [flat_map]. rewrite <- app_assoc. reflexivity. Qed.
Lemma block_text_cons i b : block_text (i :: b) = idx_text i ++ flat_map (fun i => sp :: idx_text i) b.
Proof. unfold block_text. cbn [map]. rewrite join_flat. f_equal. rewrite !flat_map_concat_map, map_map. reflexivity. Qed.
Lemma rest_nil_cons i b bs r : rest_text [] ((i :: b) :: bs) r = sp :: "/"%char :: sp :: idx_text i ++ rest_text b bs r.
Proof. unfold rest_text. cbn [flat_map app]. rewrite block_text_cons. rewrite <- !app_assoc. reflexivity. Qed.
Lemma rest_cons i b bs r : rest_text (i :: b) bs r = sp :: idx_text i ++ rest_text b bs r.
Proof. unfold rest_text. cbn [flat_map app]. rewrite <- !app_assoc. reflexivity. Qed.
Lemma rest_end r : rest_text [] [] r = sp :: ")"%char :: r.
Proof. reflexivity. Qed.
Lemma label_char_ne2 l : label_char l <> "/"%char /\ label_char l <> ")"%char.
Proof. destruct l as [[] []]; split; vm_compute; discriminate. Qed.
Ltac uncons E := apply (f_equal (@tl ascii)) in E; cbn [tl] in E.
Lemma rest_prefix : forall bs b bs' b' r r', ~ In [] bs -> ~ In [] bs' -> rest_text b bs r = rest_text b' bs' r' -> b = b' /\ bs = bs' /\ r = r'.
Proof.
  assert (H1 : forall i s c t, idx_text i ++ s = c :: t -> c = label_char (fst i)) by (intros i s c t E; unfold idx_text in E; cbn in E; congruence).
  induction bs as [|[|j b1] bs IH]; intros b; [|intros b' ? ? ? N; exfalso; apply N; left; reflexivity|].
  - induction b as [|i b IHb]; intros bs' b' r r' N N' E.
    + rewrite rest_end in E. destruct b' as [|i' b'].
      * destruct bs' as [|[|j' b1'] bs']; [rewrite rest_end in E; do 2 uncons E; subst; auto|exfalso; apply N'; left; reflexivity|]. rewrite rest_nil_cons in E. discriminate.
      * rewrite rest_cons in E. uncons E. symmetry in E. apply H1 in E. destruct (label_char_ne2 (fst i')) as [_ Q]. congruence.
    + rewrite rest_cons in E. destruct b' as [|i' b'].
      * destruct bs' as [|[|j' b1'] bs']; [rewrite rest_end in E|exfalso; apply N'; left; reflexivity|rewrite rest_nil_cons in E]; uncons E; apply H1 in E; destruct (label_char_ne2 (fst i)); congruence.
      * rewrite rest_cons in E. uncons E. apply idx_text_prefix in E. destruct E as [-> E]. destruct (IHb _ _ _ _ N N' E) as (-> & -> & ->). auto.
  - induction b as [|i b IHb]; intros bs' b' r r' N N' E.
    + rewrite rest_nil_cons in E. destruct b' as [|i' b'].
      * destruct bs' as [|[|j' b1'] bs']; [rewrite rest_end in E; discriminate|exfalso; apply N'; left; reflexivity|]. rewrite rest_nil_cons in E. do 3 uncons E. apply idx_text_prefix in E. destruct E as [-> E].
        destruct (IH b1 bs' b1' r r') as (-> & -> & ->); auto; intros Q; [apply N|apply N']; right; exact Q.
      * rewrite rest_cons in E. uncons E. symmetry in E. apply H1 in E. destruct (label_char_ne2 (fst i')) as [Q _]. congruence.
    + rewrite rest_cons in E. destruct b' as [|i' b'].
      * destruct bs' as [|[|j' b1'] bs']; [rewrite rest_end in E|exfalso; apply N'; left; reflexivity|rewrite rest_nil_cons in E]; uncons E; apply H1 in E; destruct (label_char_ne2 (fst i)); congruence.
      * rewrite rest_cons in E. uncons E. apply idx_text_prefix in E. destruct E as [-> E]. destruct (IHb _ _ _ _ N N' E) as (-> & -> & ->). auto.
Qed.
Lemma perm_text_rest i b bs r : perm_text ((i :: b) :: bs) ++ r = str "{\cal P} ( " ++ idx_text i ++ rest_text b bs r.
Proof.
  change (perm_text ((i :: b) :: bs)) with (str "{\cal P} ( " ++ join (str " / ") (block_text (i :: b) :: map block_text bs) ++ str " )"). rewrite join_flat, block_text_cons. unfold rest_text. rewrite <- !app_assoc. do 4 f_equal. rewrite !flat_map_concat_map, map_map. reflexivity.
Qed.
Lemma perm_text_prefix p p' r r' : p <> [] -> p' <> [] -> ~ In [] p -> ~ In [] p' -> perm_text p ++ r = perm_text p' ++ r' -> p = p' /\ r = r'.
Proof.
  intros N N' H H' E. destruct p as [|[|i b] bs]; [congruence|exfalso; apply H; left; reflexivity|]. destruct p' as [|[|i' b'] bs']; [congruence|exfalso; apply H'; left; reflexivity|].
  rewrite !perm_text_rest in E. apply app_inv_head in E. apply idx_text_prefix in E. destruct E as [-> E].
  apply rest_prefix in E; [destruct E as (-> & -> & ->); auto| |]; intros Q; [apply H|apply H']; right; exact Q.
Qed.
Lemma perm_text_ne p : perm_text p <> [].
Proof. discriminate. Qed.

(** ** At least two blocks give at least two permutations *)
Lemma fact_add a b : fact a * fact b <= fact (a + b).
Proof. induction a as [|a IH]; [cbn; lia|]. change (fact (S a)) with ((S a) * fact a). change (S a + b) with (S (a + b)). change (fact (S (a + b))) with ((S (a + b)) * fact (a + b)). nia. Qed.
Lemma fact_add_lt a b : 0 < a -> 0 < b -> fact a * fact b < fact (a + b).
Proof. destruct a as [|a]; [lia|]. intros _ Hb. change (fact (S a)) with ((S a) * fact a). change (S a + b) with (S (a + b)). change (fact (S (a + b))) with ((S (a + b)) * fact (a + b)). pose proof (fact_add a b). pose proof (lt_O_fact (a + b)). nia. Qed.
Lemma product_le (p : list (list idx)) : product (map (fun b => fact (length b)) p) <= fact (length (concat p)).
Proof. unfold product. induction p as [|b p IH]; cbn [map fold_right concat]; [cbn; lia|]. rewrite app_length. pose proof (fact_add (length b) (length (concat p))). pose proof (lt_O_fact (length b)). nia. Qed.
Lemma product_lt (p : list (list idx)) : ~ In [] p -> 1 < length p -> product (map (fun b => fact (length b)) p) < fact (length (concat p)).
Proof.
  intros N L. destruct p as [|b [|b' p]]; cbn in L; try lia. unfold product. cbn [map fold_right]. change (concat (b :: b' :: p)) with (b ++ concat (b' :: p)). rewrite app_length.
  pose proof (product_le (b' :: p)) as Q. unfold product in Q. cbn [map fold_right] in Q.
  assert (0 < length b) by (destruct b; [exfalso; apply N; left; reflexivity|cbn; lia]). assert (0 < length (concat (b' :: p))) by (cbn [concat]; rewrite app_length; destruct b'; [exfalso; apply N; right; left; reflexivity|cbn; lia]).
  pose proof (fact_add_lt (length b) (length (concat (b' :: p))) H H0). pose proof (lt_O_fact (length b)). nia.
Qed.

(** ** One side *)
Section Side.
  Context (t : itype) (T : itype_antisymmetric t = true).
  Record side (self : list idx) (part : list (list idx)) : Prop := {
    si_nodup : NoDup self; si_perm : Permutation (concat part) self; si_nonempty : self <> [] -> ~ In [] part }.
  Lemma side_valid self part : side self part -> valid_partition self part = Ok tt.
  Proof. intros [N P _]. apply valid_part_sub. intros b x Hb Hx. apply (Permutation_in _ P). apply in_concat. exists b. auto. Qed.
  Lemma side_count self part : side self part -> exists n, n_multiset_permutation t self part = Ok n /\ n = length (multiset_permutations (list_index part)) /\ n * product (map (fun b => fact (length b)) part) = fact (length self) /\
    exist_permute_format t self part = Ok (negb (n =? 1)) /\ latex_permute_format t self part = Ok (n, if n =? 1 then [] else perm_text part).
  Proof.
    intros Hs. pose proof Hs as [N P NE]. destruct (n_multiset_ok t part self T N P) as (n & E & C). pose proof (n_multiset_shuffles t part self T N P) as E'. rewrite E in E'. injection E' as E'.
    exists n. split; [exact E|]. split; [exact E'|]. split; [exact C|].
    assert (Ex : exist_permute_format t self part = Ok (negb (n =? 1))).
    { unfold exist_permute_format. rewrite (side_valid _ _ Hs). cbn [pybind]. rewrite T. cbn [andb]. f_equal. destruct (Nat.eqb_spec (length self) 0) as [Z|Z].
      - apply length_zero_iff_nil in Z. subst self. unfold n_multiset_permutation, exist_permute_format in E. rewrite (side_valid _ _ Hs) in E. cbn [pybind length Nat.eqb] in E. rewrite Bool.andb_false_r in E. cbn in E. injection E as <-. reflexivity.
      - destruct (Nat.ltb_spec 1 (length part)) as [L|L].
        + pose proof (product_lt part (NE ltac:(intros ->; apply Z; reflexivity)) L) as Q. rewrite (Permutation_length P), <- C in Q. destruct (Nat.eqb_spec n 1); [subst; lia|reflexivity].
        + unfold n_multiset_permutation, exist_permute_format in E. rewrite (side_valid _ _ Hs) in E. cbn [pybind] in E. destruct (Nat.ltb_spec 1 (length part)); [lia|]. destruct (length self =? 0); rewrite Bool.andb_false_r in E; cbn in E; injection E as <-; reflexivity. }
    split; [exact Ex|]. unfold latex_permute_format. rewrite (side_valid _ _ Hs), T, E. cbn [pybind]. destruct (Nat.eqb_spec n 1) as [D|D]; [rewrite D|]; reflexivity.
  Qed.
  Lemma side_part_ne self part n : side self part -> n_multiset_permutation t self part = Ok n -> n <> 1 -> part <> [] /\ ~ In [] part.
  Proof.
    intros Hs E D. pose proof Hs as [N P NE]. destruct (side_count _ _ Hs) as (n' & E' & _ & C & _). rewrite E in E'. injection E' as <-.
    assert (self <> []). { intros ->. assert (concat part = []) by (apply Permutation_nil; symmetry; exact P). pose proof (product_pos part). cbn in C. nia. }
    split; [|auto]. intros ->. cbn in P. apply Permutation_nil in P. congruence.
  Qed.
End Side.

(** ** Both sides *)
Section Both.
  Context (t : itype) (T : itype_antisymmetric t = true).
  Lemma both_count o pc pa : side (cre o) pc -> side (ann o) pa -> exists nc na, n_multiset_permutation t (cre o) pc = Ok nc /\ n_multiset_permutation t (ann o) pa = Ok na /\
    op_n_multiset_permutation t o pc pa = Ok (nc * na) /\ op_exist_permute_format t o pc pa = Ok (negb ((nc =? 1) && (na =? 1))) /\
    exists r, op_latex_permute_format t o pc pa = Ok r /\ snd (fst r) = (if nc =? 1 then [] else perm_text pc) ++ (if (nc =? 1) || (na =? 1) then [] else [sp]) ++ (if na =? 1 then [] else perm_text pa).
  Proof.
    intros Hc Ha. destruct (side_count t T _ _ Hc) as (nc & Ec & _ & Cc & Xc & Lc). destruct (side_count t T _ _ Ha) as (na & Ea & _ & Ca & Xa & La).
    exists nc, na. split; [exact Ec|]. split; [exact Ea|]. unfold op_n_multiset_permutation, op_exist_permute_format, op_latex_permute_format. rewrite Ec, Ea, Xc, Xa, Lc, La. cbn [pybind]. split; [reflexivity|]. split; [destruct (nc =? 1), (na =? 1); reflexivity|].
    destruct (op_is_empty o) eqn:Em.
    - eexists. split; [reflexivity|]. unfold op_is_empty in Em. destruct (cre o) eqn:E1, (ann o) eqn:E2; try discriminate. cbn in Cc, Ca. pose proof (product_pos pc). pose proof (product_pos pa). assert (nc = 1) as -> by nia. assert (na = 1) as -> by nia. reflexivity.
    - eexists. split; [reflexivity|]. cbn [fst snd]. destruct (nc =? 1), (na =? 1); cbn [orb app]; try rewrite !app_nil_r; try reflexivity.
  Qed.
  Lemma same_text_count o pc pa o' pc' pa' n n' r r' : side (cre o) pc -> side (ann o) pa -> side (cre o') pc' -> side (ann o') pa' ->
    op_n_multiset_permutation t o pc pa = Ok n -> op_n_multiset_permutation t o' pc' pa' = Ok n' -> op_latex_permute_format t o pc pa = Ok r -> op_latex_permute_format t o' pc' pa' = Ok r' ->
    snd (fst r) = snd (fst r') -> n = n'.
  Proof.
    intros Hc Ha Hc' Ha' En En' Er Er' X. destruct (both_count o pc pa Hc Ha) as (nc & na & Ec & Ea & E1 & _ & rr & Err & Tx). destruct (both_count o' pc' pa' Hc' Ha') as (nc' & na' & Ec' & Ea' & E1' & _ & rr' & Err' & Tx').
    rewrite E1 in En. rewrite E1' in En'. injection En as <-. injection En' as <-. rewrite Er in Err. rewrite Er' in Err'. injection Err as <-. injection Err' as <-. rewrite Tx, Tx' in X. clear Tx Tx'.
    assert (U : forall s p s' p' m m', side s p -> side s' p' -> n_multiset_permutation t s p = Ok m -> n_multiset_permutation t s' p' = Ok m' -> p = p' -> m = m').
    { intros s p s' p' m m' Hs Hs' Em Em' ->. destruct (side_count t T _ _ Hs) as (k & Ek & Lk & _). destruct (side_count t T _ _ Hs') as (k' & Ek' & Lk' & _). congruence. }
    pose proof (side_part_ne t T _ _ _ Hc Ec) as Nc. pose proof (side_part_ne t T _ _ _ Ha Ea) as Na. pose proof (side_part_ne t T _ _ _ Hc' Ec') as Nc'. pose proof (side_part_ne t T _ _ _ Ha' Ea') as Na'.
    destruct (Nat.eqb_spec nc 1) as [D1|D1], (Nat.eqb_spec na 1) as [D2|D2], (Nat.eqb_spec nc' 1) as [D3|D3], (Nat.eqb_spec na' 1) as [D4|D4]; cbn [orb app] in X; rewrite ?app_nil_r in X; subst; try reflexivity; try (exfalso; discriminate X);
    repeat match goal with H : ?n <> 1 -> _ /\ _, D : ?n <> 1 |- _ => let a := fresh in let b := fresh in destruct (H D) as [a b]; clear H end.
    all: assert (Q : forall p p', p <> [] -> p' <> [] -> ~ In [] p -> ~ In [] p' -> perm_text p = perm_text p' -> p = p') by (intros p p' G1 G2 G3 G4 G; rewrite <- (app_nil_r (perm_text p)), <- (app_nil_r (perm_text p')) in G; apply perm_text_prefix in G; try assumption; apply G).
    all: assert (Q2 : forall p p' y, p <> [] -> p' <> [] -> ~ In [] p -> ~ In [] p' -> perm_text p = perm_text p' ++ sp :: y -> False) by (intros p p' y G1 G2 G3 G4 G; rewrite <- (app_nil_r (perm_text p)) in G; apply perm_text_prefix in G; try assumption; destruct G as [_ G]; discriminate G).
    - apply Q in X; [|assumption..]. rewrite (U _ _ _ _ _ _ Ha Ha' Ea Ea' X). reflexivity.
    - apply Q in X; [|assumption..]. rewrite (U _ _ _ _ _ _ Ha Hc' Ea Ec' X). lia.
    - exfalso. apply Q2 in X; assumption.
    - apply Q in X; [|assumption..]. rewrite (U _ _ _ _ _ _ Hc Ha' Ec Ea' X). lia.
    - apply Q in X; [|assumption..]. rewrite (U _ _ _ _ _ _ Hc Hc' Ec Ec' X). lia.
    - exfalso. apply Q2 in X; assumption.
    - exfalso. symmetry in X. apply Q2 in X; assumption.
    - exfalso. symmetry in X. apply Q2 in X; assumption.
    - apply perm_text_prefix in X; [|assumption..]. destruct X as [X Y]. uncons Y. apply Q in Y; [|assumption..]. rewrite (U _ _ _ _ _ _ Hc Hc' Ec Ec' X), (U _ _ _ _ _ _ Ha Ha' Ea Ea' Y). reflexivity.
  Qed.
End Both.
