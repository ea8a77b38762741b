(** canonicalize_sympy: if SymPy's answer is canonical, terms that are the same up to symmetry get the same tensors and operators. *)
From Coq Require Import Ascii String ZArith QArith Qcanon Sorting.Sorted Lia.
From Verif Require Import PyBase OrderSpec OrderProofs SortProofs ParitySpec ParityProofs SpaceModel IndexProofs IndicesModel IterProofs IndicesProofs SpaceProofs ElemModel MacroModel TermModel ValueSpec ValueProofs TermSpec SumProofs TermProofs RenameProofs
  SimplifyProofs CanonProofs SymmetryModel SymmetrySpec SymmetryProofs SympyProofs SympyValue SympyShape MergeSpec MergeMoves MergeLabels MergeGroups MergeWords.
Local Close Scope Q_scope.
Local Close Scope Qc_scope.
Local Open Scope nat_scope.
Local Notation length := List.length.

(** ** Lists *)
Lemma table (U V : list nat) : NoDup U -> length U = length V -> exists f, map f U = V.
Proof.
  revert V. induction U as [|u U IH]; intros [|v V] ND L; try discriminate; [exists (fun x => x); reflexivity|]. inversion ND; subst. destruct (IH V) as (f & E); [assumption|cbn in L; lia|].
  exists (fun x => if x =? u then v else f x). cbn [map]. rewrite Nat.eqb_refl. f_equal. rewrite <- E. apply map_ext_in. intros x Hx. eqb_cases; [subst x; contradiction|reflexivity].
Qed.
Lemma array_perm g n : is_array (g ++ [n; n + 1]) = true -> length g = n -> Permutation g (seq 0 n).
Proof.
  intros H L. symmetry. apply NoDup_Permutation_bis; [apply seq_NoDup|rewrite seq_length; lia|]. intros k Hk. apply in_seq in Hk. unfold is_array in H. rewrite forallb_forall in H. specialize (H k). rewrite existsb_exists in H. destruct H as (x & Hx & E).
  - apply in_seq. rewrite app_length. cbn. lia.
  - apply Nat.eqb_eq in E. subst x. apply in_app_or in Hx as [Hx|[Hx|[Hx|[]]]]; [exact Hx|lia|lia].
Qed.
Lemma groupby_two {B K} (eqk : K -> K -> bool) (key : B -> K) (R : B -> B -> Prop) (HK : forall x y, R x y -> key x = key y) l l' : Forall2 R l l' -> Forall2 (Forall2 R) (groupby eqk key l) (groupby eqk key l').
Proof.
  induction 1 as [|x y l l' Rxy F IH]; [constructor|]. cbn [groupby]. destruct IH as [|g g' gs gs' Rg Rgs]; [repeat constructor; exact Rxy|]. destruct Rg as [|a b g g' Rab Rg]; [repeat constructor; assumption|].
  rewrite (HK _ _ Rxy), (HK _ _ Rab). destruct (eqk _ _); repeat constructor; assumption.
Qed.
Lemma pymap_same {B C} (f : B -> pyres C) (R : B -> B -> Prop) (HF : forall x y, R x y -> f x = f y) l l' : Forall2 R l l' -> pymap f l = pymap f l'.
Proof. induction 1 as [|x y l l' Rxy F IH]; [reflexivity|]. cbn [pymap]. rewrite (HF _ _ Rxy), IH. reflexivity. Qed.
Lemma two_length {B C} (R : B -> C -> Prop) l l' : Forall2 R l l' -> length l = length l'.
Proof. induction 1; cbn; congruence. Qed.

Lemma groups_alike h xs ys : Forall2 alike xs ys -> tensor_groups h xs = tensor_groups h ys.
Proof.
  intros F. set (R := fun a b : tensor * nat => alike (fst a) (fst b) /\ snd a = snd b).
  assert (E : (exists ks ks', pymap (fun x => pybind (n_body x) (fun n => Ok (x, n))) xs = Ok ks /\ pymap (fun x => pybind (n_body x) (fun n => Ok (x, n))) ys = Ok ks' /\ Forall2 R ks ks') \/
    (exists e, pymap (fun x => pybind (n_body x) (fun n => Ok (x, n))) xs = Raise e /\ pymap (fun x => pybind (n_body x) (fun n => Ok (x, n))) ys = Raise e)).
  { induction F as [|x y xs ys A F IH]; [left; exists [], []; repeat split; constructor|]. cbn [pymap]. assert (En : n_body y = n_body x) by (unfold n_body; rewrite (ak_lower _ _ A), (ak_upper _ _ A); reflexivity). rewrite En. destruct (n_body x) as [n|e]; [|right; exists e; auto]. cbn [pybind].
    destruct IH as [(ks & ks' & -> & -> & Q)|(e & -> & ->)]; [left|right; exists e; auto]. exists ((x, n) :: ks), ((y, n) :: ks'). split; [reflexivity|]. split; [reflexivity|]. constructor; [split; [exact A|reflexivity]|exact Q]. }
  unfold tensor_groups. destruct E as [(ks & ks' & -> & -> & Q)|(e & -> & ->)]; [|reflexivity]. cbn [pybind]. apply (pymap_same _ (Forall2 R)).
  - intros g g' G. pose proof (two_length _ _ _ G) as LG. destruct G as [|[x n] [y n'] g g' [A _] G]; [reflexivity|]. cbn [fst] in A. rewrite (ak_type _ _ A), (ak_upper _ _ A), (ak_lower _ _ A), LG. reflexivity.
  - apply groupby_two; [|exact Q]. intros [x n] [y n'] [A E]. cbn [fst snd] in *. rewrite (ak_name _ _ A), E. reflexivity.
Qed.
Lemma read_alike dummy xs ys : Forall2 alike xs ys -> forall l l', firstn (slots xs) l = firstn (slots xs) l' -> slots xs <= length l -> slots xs <= length l' -> read_tensors dummy xs l = read_tensors dummy ys l'.
Proof.
  induction 1 as [|x y xs ys A F IH]; intros l l' E L L'; [reflexivity|]. rewrite slots_cons in E, L, L'. cbn [read_tensors]. rewrite (ak_type _ _ A), (ak_upper _ _ A), (ak_lower _ _ A).
  assert (S3 : forall (l : list nat) n, tslots x + slots xs <= length l -> n <= tslots x -> firstn n l = firstn n (firstn (tslots x + slots xs) l)) by (intros m n Lm Ln; rewrite firstn_firstn; f_equal; lia).
  assert (Ts : tslots x = length (tlower x) + length (tupper x)) by reflexivity.
  assert (E1 : firstn (length (tlower x)) l = firstn (length (tlower x)) l') by (rewrite (S3 l), (S3 l'), E by lia; reflexivity).
  assert (E2 : firstn (length (tupper x)) (skipn (length (tlower x)) l) = firstn (length (tupper x)) (skipn (length (tlower x)) l')).
  { rewrite !firstn_skipn_comm. f_equal. rewrite (S3 l), (S3 l'), E by lia. reflexivity. }
  rewrite E1, E2. destruct (read_indices _ _ (firstn (length (tlower x)) l')) as [lo|]; [|reflexivity]. cbn [pybind]. destruct (read_indices _ _ _) as [up|]; [|reflexivity]. cbn [pybind].
  assert (EF : from_indices x up lo = from_indices y up lo) by (unfold from_indices; rewrite (ak_class _ _ A), (ak_type _ _ A), (ak_name _ _ A), (ak_priority _ _ A); reflexivity). rewrite EF. destruct (from_indices y up lo); [|reflexivity]. cbn [pybind].
  rewrite (IH (skipn (length (tlower x) + length (tupper x)) l) (skipn (length (tlower x) + length (tupper x)) l')); [reflexivity| | |].
  - rewrite !firstn_skipn_comm. rewrite Ts in E. rewrite E. reflexivity.
  - rewrite skipn_length. lia.
  - rewrite skipn_length. lia.
Qed.

(** ** One call *)
Definition slot_word (xs : list tensor) (o : op) : list idx := op_slots o ++ flat_map tensor_slots xs.
Definition dummies (t : term) : list idx := sort_by (plt idx_ord) (map snd (minimal_indices t)).
Lemma sympy_run sympy core ra herm t t' tm d0 : simplify core ra t = Ok t' -> is_void t' = false -> canonicalize_sympy sympy core ra herm t = Ok tm -> paired (ttensors t') (tsq t') ->
  let xs := ttensors t' in let o := tsq t' in let m := minimal_indices t' in let dummy := dummies t' in let l := slot_word xs o in let N := length l in
  exists g0 oruns runs gc an cr ys c, map (fun x => nth (x / 2) dummy d0) g0 = map (rename m) l /\ Permutation g0 (seq 0 N) /\ N = 2 * length dummy /\
    (oruns = [] /\ oslots o = 0 \/ exists gens, op_generating_set (ttype t') o = Ok gens /\ oruns = [(gens, 1)] /\ oslots o <> 0) /\ tensor_groups herm xs = Ok runs /\
    sympy (g0 ++ [N; N + 1]) (dummy_ranges dummy) (oruns ++ runs) = Ok (Some gc) /\
    read_indices (ttype t') dummy (firstn (length (ann o)) gc) = Ok an /\ read_indices (ttype t') dummy (skipn (length (ann o)) (firstn (oslots o) gc)) = Ok cr /\ read_tensors dummy xs (skipn (oslots o) gc) = Ok ys /\
    make_term (ttype t') ys (Op cr an) c = Ok tm.
Proof.
  intros Hs Ev H HT2. unfold canonicalize_sympy in H. rewrite Hs in H. cbn [pybind] in H. rewrite Ev in H. cbv zeta in H. cbv zeta. set (m := minimal_indices t') in *. fold (dummies t') in H. set (dummy := dummies t') in *. set (xs := ttensors t') in *. set (o := tsq t') in *.
  destruct (minimal_indices_spec t') as (next' & N1 & N2 & N3 & N4). fold m xs o in N1, N2, N3, N4. destruct (generates_spec _ _ _ N3) as (N5 & _ & _).
  assert (PD : Permutation dummy (map snd m)) by apply sort_by_perm. assert (ND : NoDup dummy) by (eapply Permutation_NoDup; [symmetry; exact PD|exact N5]).
  assert (HI : forall i, In i (content_indices xs o) -> In i (map fst m) /\ In (rename m i) dummy).
  { intros i Hi. apply N2 in Hi. split; [exact Hi|]. rewrite PD. apply (in_map snd) with (x := (i, rename m i)). apply rename_in, Hi. }
  assert (HJ : forall i j, In i (content_indices xs o) -> In j (content_indices xs o) -> rename m i = rename m j -> i = j) by (intros i j Hi Hj; apply (rename_inj _ _ _ N5); apply N2; assumption).
  fold (slot_word xs o) in H. set (l := slot_word xs o) in *. assert (PL : Permutation l (content_indices xs o)) by apply slots_perm.
  assert (LD : length l = 2 * length dummy).
  { rewrite (Permutation_length PL), (Permutation_length PD), map_length, <- (map_length fst m). apply length_twice; [exact N1|intros i; apply N2|]. intros i Hi. apply N2, idx_times_in in Hi. rewrite content_times in *. apply HT2, Hi. }
  match type of H with pybind ?a _ = _ => destruct a as [g0|] eqn:Eg end; [|discriminate]. cbn [pybind] in H.
  destruct (slot_labels_ok m dummy d0 ND l (map (fun iv => (snd iv, 2 * fst iv)) (enumerate 0 dummy)) (fun _ => 0) g0) as [R1 R2]; [ | | |exact Eg|].
  { intros k i Hk. rewrite (enumerate_get dummy k 0 i ND Hk). f_equal. lia. }
  { intros j Hj. apply HI. rewrite <- PL. exact Hj. }
  { intros i. cbn [Nat.add]. rewrite (idx_times_perm i _ _ (Permutation_map (rename m) PL)). destruct (in_dec idx_eq_dec i (map (rename m) (content_indices xs o))) as [Hi|Hi].
    - apply in_map_iff in Hi as (j & <- & Hj). rewrite count_map_inj; [|intros k Hk; apply HJ; assumption]. rewrite content_times. apply idx_times_in in Hj. rewrite content_times in Hj. rewrite (HT2 j Hj). lia.
    - unfold idx_times. rewrite (proj1 (count_occ_not_In idx_eq_dec _ _) Hi). lia. }
  assert (Lg : length g0 = length l) by (rewrite <- (map_length (fun x => nth (x / 2) dummy d0) g0), R1, map_length; reflexivity).
  assert (Loi : length (op_indices o) = oslots o) by (unfold op_indices, oslots; rewrite app_length; lia). rewrite Loi in *.
  match type of H with pybind ?a _ = _ => destruct a as [oruns|] eqn:Eo end; [|discriminate]. cbn [pybind] in H. destruct (tensor_groups herm xs) as [runs|] eqn:Er; [|discriminate]. cbn [pybind] in H.
  match type of H with pybind ?a _ = _ => destruct a as [[gc|]|] eqn:Es end; [|discriminate|discriminate]. cbn [pybind] in H.
  destruct (is_array _) eqn:Ea; [|discriminate]. rewrite Lg in Ea, Es.
  match type of H with pybind ?a _ = _ => destruct a as [an|] eqn:Ean end; [|discriminate]. cbn [pybind] in H. match type of H with pybind ?a _ = _ => destruct a as [cr|] eqn:Ecr end; [|discriminate]. cbn [pybind] in H.
  match type of H with pybind ?a _ = _ => destruct a as [ys|] eqn:Ey end; [|discriminate]. cbn [pybind] in H.
  eexists g0, oruns, runs, gc, an, cr, ys, _. split; [exact R1|]. split; [apply array_perm; assumption|]. split; [exact LD|]. split.
  { destruct (oslots o =? 0) eqn:E0; [left; injection Eo as <-; split; [reflexivity|apply Nat.eqb_eq, E0]|right]. destruct (op_generating_set (ttype t') o) as [gens|]; [|discriminate]. cbn [pybind] in Eo. injection Eo as <-. exists gens. split; [reflexivity|]. split; [reflexivity|]. apply Nat.eqb_neq, E0. }
  split; [reflexivity|]. split; [exact Es|]. split; [exact Ean|]. split; [exact Ecr|]. split; [exact Ey|exact H].
Qed.

(** ** Two calls *)
Definition in_order (xs : list tensor) : Prop := le_sorted key3_ord (map key3 xs).
Lemma symmetric_key h rho x y : symmetric_tensor h rho x y -> key3 y = key3 x.
Proof.
  intros (_ & _ & EN & EP & [[P1 P2]|(_ & P1 & P2)]); unfold key3; rewrite EN, EP; apply Permutation_length in P1, P2; rewrite map_length in P1, P2; f_equal; f_equal; unfold idx in *; lia.
Qed.
Lemma symmetric_keys h rho xs ys : Forall2 (symmetric_tensor h rho) xs ys -> map key3 xs = map key3 ys.
Proof. induction 1 as [|x y xs ys S F IH]; [reflexivity|]. cbn [map]. rewrite IH, (symmetric_key _ _ _ _ S). reflexivity. Qed.
Lemma symmetric_bodied h rho xs ys : Forall2 (symmetric_tensor h rho) xs ys -> Forall bodied_tensor xs -> Forall bodied_tensor ys.
Proof.
  induction 1 as [|x y xs ys (_ & _ & _ & _ & S) F IH]; intros B; [constructor|]. inversion B; subst. constructor; [|apply IH; assumption]. unfold bodied_tensor in *. destruct S as [[P1 P2]|(_ & P1 & P2)]; apply Permutation_length in P1, P2; rewrite map_length in P1, P2; lia.
Qed.
Lemma symmetric_slots h rho x y : symmetric_tensor h rho x y -> Permutation (map rho (tensor_slots x)) (tensor_slots y).
Proof.
  intros (_ & _ & _ & _ & [[P1 P2]|(_ & P1 & P2)]); unfold tensor_slots; rewrite map_app, P1, P2; [reflexivity|apply Permutation_app_comm].
Qed.
Lemma symmetric_word h rho xs ys zs o o' : Forall2 (symmetric_tensor h rho) xs ys -> Permutation ys zs -> Permutation (map rho (cre o)) (cre o') -> Permutation (map rho (ann o)) (ann o') -> Permutation (map rho (slot_word xs o)) (slot_word zs o').
Proof.
  intros F P C A. unfold slot_word, op_slots. rewrite !map_app, C, A. apply Permutation_app_head. transitivity (flat_map tensor_slots ys); [|apply Permutation_flat_map, P]. clear P. induction F as [|x y xs ys S F IH]; [reflexivity|]. cbn [flat_map]. rewrite map_app, (symmetric_slots _ _ _ _ S), IH. reflexivity.
Qed.
(** tensors in the same places are of the same kind *)
Lemma same_places h rho xs ys zs ty : Forall2 (symmetric_tensor h rho) xs ys -> Permutation ys zs -> map key3 xs = map key3 zs -> Forall bodied_tensor xs -> classes_by_name xs -> Forall (fun x => titype x = ty) xs -> Forall2 alike xs zs.
Proof.
  intros F P K B CN HT. assert (BZ : Forall bodied_tensor zs) by (pose proof (symmetric_bodied _ _ _ _ F B) as BY; rewrite Forall_forall in *; intros z Hz; apply BY; rewrite P; exact Hz).
  assert (CZ : forall z, In z zs -> titype z = ty /\ forall x, In x xs -> tname x = tname z -> tcls z = tcls x).
  { intros z Hz. rewrite <- P in Hz. clear -F Hz CN HT. assert (Q : exists w, In w xs /\ symmetric_tensor h rho w z).
    { clear CN HT. induction F as [|x y xs ys S F IH]; [destruct Hz|]. destruct Hz as [<-|Hz]; [exists x; split; [left; reflexivity|exact S]|]. destruct (IH Hz) as (w & Hw & Sw). exists w. split; [right; exact Hw|exact Sw]. }
    destruct Q as (w & Hw & C & T & Nm & _ & _). split; [rewrite T; rewrite Forall_forall in HT; apply HT, Hw|]. intros x Hx E. rewrite C. apply CN; [exact Hw|exact Hx|congruence]. }
  clear F P. rewrite Forall_forall in HT. assert (G : forall us vs, map key3 us = map key3 vs -> incl us xs -> incl vs zs -> Forall bodied_tensor us -> Forall bodied_tensor vs -> Forall2 alike us vs).
  { induction us as [|u us IH]; intros [|v vs] E IU IV BU BV; try discriminate; [constructor|]. cbn [map] in E. injection E as Ep En El E. inversion BU; inversion BV; subst. unfold bodied_tensor in *.
    constructor; [|apply IH; try assumption; [intros a Ha; apply IU; right; exact Ha|intros a Ha; apply IV; right; exact Ha]]. destruct (CZ v (IV v (or_introl eq_refl))) as [Tv Cv]. split; try lia; try congruence.
    - apply Cv; [apply IU; left; reflexivity|exact En].
    - rewrite Tv. symmetry. apply HT, IU. left. reflexivity. }
  apply G; auto; apply incl_refl.
Qed.

(** the numbers of indices with each label are the same *)
Lemma label_count t s : exists next', (forall s n, In (s, n) (map snd (minimal_indices t)) <-> n < next' s) /\ length (filter (fun i => label_eqb (fst i) s) (map fst (minimal_indices t))) = next' s.
Proof.
  destruct (minimal_indices_spec t) as (next' & N1 & N2 & N3 & N4). destruct (generates_spec _ _ _ N3) as (N5 & _ & N6). exists next'. split; [intros s' n; rewrite N6; lia|].
  transitivity (length (filter (fun i => label_eqb (fst i) s) (map snd (minimal_indices t)))).
  - clear N1 N2 N3 N5 N6. induction (minimal_indices t) as [|[i j] m IH]; [reflexivity|]. cbn [map fst snd filter]. rewrite (N4 i j (or_introl eq_refl)). assert (Q := IH (fun i' j' H => N4 i' j' (or_intror H))). destruct (label_eqb (fst i) s); cbn [length]; congruence.
  - transitivity (length (map (fun n => (s, n) : idx) (seq 0 (next' s)))); [|rewrite map_length; apply seq_length]. apply Permutation_length, NoDup_Permutation; [apply NoDup_filter, N5|apply FinFun.Injective_map_NoDup; [intros a b E; congruence|apply seq_NoDup]|].
    intros [s' n]. split.
    + intros H. apply filter_In in H as [H1 H2]. cbn [fst] in H2. apply label_ext in H2. subst s'. apply N6 in H1. apply in_map_iff. exists n. split; [reflexivity|apply in_seq; lia].
    + intros H. apply in_map_iff in H as (k & E & Hk). injection E as <- <-. apply in_seq in Hk. apply filter_In. split; [apply N6; lia|apply label_ext; reflexivity].
Qed.
Lemma same_dummies t1 t2 rho : (forall i, In i (content_indices (ttensors t1) (tsq t1)) -> fst (rho i) = fst i) ->
  (forall i j, In i (content_indices (ttensors t1) (tsq t1)) -> In j (content_indices (ttensors t1) (tsq t1)) -> rho i = rho j -> i = j) ->
  Permutation (map rho (content_indices (ttensors t1) (tsq t1))) (content_indices (ttensors t2) (tsq t2)) -> dummies t1 = dummies t2.
Proof.
  intros HL HJ HP. unfold dummies. apply (sorted_unique idx_ord idx_lawful idx_ext); [apply sort_by_sorted, idx_lawful|apply sort_by_sorted, idx_lawful|]. rewrite !sort_by_perm.
  destruct (minimal_indices_spec t1) as (n1 & A1 & A2 & A3 & _). destruct (minimal_indices_spec t2) as (n2 & B1 & B2 & B3 & _). destruct (generates_spec _ _ _ A3) as (A5 & _ & _). destruct (generates_spec _ _ _ B3) as (B5 & _ & _).
  apply NoDup_Permutation; [exact A5|exact B5|]. intros [s n]. destruct (label_count t1 s) as (k1 & Q1 & C1). destruct (label_count t2 s) as (k2 & Q2 & C2). rewrite Q1, Q2. replace (k2 s) with (k1 s); [reflexivity|]. rewrite <- C1, <- C2.
  rewrite <- (map_length rho). apply Permutation_length, NoDup_Permutation.
  - assert (G : forall l, NoDup l -> incl l (content_indices (ttensors t1) (tsq t1)) -> NoDup (map rho l)).
    { induction l as [|a l IH]; intros ND I; [constructor|]. inversion ND; subst. cbn [map]. constructor; [|apply IH; [assumption|intros b Hb; apply I; right; exact Hb]]. intros Hin. apply in_map_iff in Hin as (b & E & Hb). apply HJ in E; [subst b; contradiction|apply I; right; exact Hb|apply I; left; reflexivity]. }
    apply G; [apply NoDup_filter, A1|]. intros i Hi. apply filter_In in Hi as [Hi _]. apply A2, Hi.
  - apply NoDup_filter, B1.
  - intros j. rewrite filter_In, in_map_iff, B2, <- HP, in_map_iff. split.
    + intros (i & <- & Hi). apply filter_In in Hi as [Hi El]. apply A2 in Hi. split; [exists i; auto|]. rewrite (HL i Hi). exact El.
    + intros ((i & <- & Hi) & El). exists i. split; [reflexivity|]. apply filter_In. split; [apply A2, Hi|]. rewrite <- (HL i Hi). exact El.
Qed.
Lemma combine_fst {B C} (l : list B) (l' : list C) : length l = length l' -> map fst (combine l l') = l.
Proof. revert l'. induction l as [|x l IH]; intros [|y l'] H; try discriminate; [reflexivity|]. cbn. f_equal. apply IH. cbn in H. lia. Qed.
Lemma combine_snd {B C} (l : list B) (l' : list C) : length l = length l' -> map snd (combine l l') = l'.
Proof. revert l'. induction l as [|x l IH]; intros [|y l'] H; try discriminate; [reflexivity|]. cbn. f_equal. apply IH. cbn in H. lia. Qed.
Lemma combine_at {B C} (l : list B) (l' : list C) b c : In (b, c) (combine l l') -> forall {D} (f : B -> D) (g : C -> D), map f l = map g l' -> f b = g c.
Proof.
  revert l'. induction l as [|x l IH]; intros [|y l'] H D f g E; cbn in H; try contradiction. cbn [map] in E. injection E as E1 E2. destruct H as [H|H]; [injection H as <- <-; exact E1|exact (IH l' H D f g E2)].
Qed.

(** the two products are forms of each other *)
Lemma words_near herm rho xs ys zs o o' oruns runs ty du g :
  let l := slot_word xs o in let N := length l in
  itype_antisymmetric ty = true -> Forall (fun x => titype x = ty) xs -> length (cre o) = length (ann o) ->
  (oruns = [] /\ oslots o = 0 \/ exists gens, op_generating_set ty o = Ok gens /\ oruns = [(gens, 1)]) -> tensor_groups herm xs = Ok runs -> Forall bodied_tensor xs ->
  Forall2 (symmetric_tensor herm rho) xs ys -> shuffle ys zs -> Permutation (map rho (cre o)) (cre o') -> Permutation (map rho (ann o)) (ann o') -> length g = N ->
  exists Z, Permutation (combine g (map rho l)) Z /\ map snd Z = slot_word zs o' /\ near (slot_symmetries N 0 (oruns ++ runs)) du N g (map fst Z).
Proof.
  intros l N AS HT HB HO HR BX F SH PC PA Lg. assert (Lo : length (op_slots o) = oslots o) by (unfold op_slots; rewrite app_length; reflexivity).
  assert (HN : N = oslots o + slots xs) by (unfold N, l, slot_word; rewrite app_length, slot_count; lia).
  assert (L0 : length g = length (map rho l)) by (rewrite map_length; exact Lg). set (Z0 := combine g (map rho l)). assert (F0 : map fst Z0 = g) by (apply combine_fst, L0). assert (S0 : map snd Z0 = map rho l) by (apply combine_snd, L0).
  unfold l, slot_word, op_slots in S0. rewrite !map_app in S0. apply map_app_split in S0 as (Zo & Zt & EZ & So & St). apply map_app_split in So as (b1 & b2 & -> & E1 & E2).
  assert (L1 : length b1 = length (ann o)) by (rewrite <- (map_length snd b1), E1, map_length; reflexivity). assert (L2 : length b2 = length (cre o)) by (rewrite <- (map_length snd b2), E2, map_length; reflexivity).
  assert (LZ : length ((b1 ++ b2) ++ Zt) = N) by (rewrite <- EZ, <- (map_length fst Z0), F0; exact Lg).
  rewrite <- E1 in PA. rewrite <- E2 in PC. apply snd_perm in PA as (b1' & Q1 & A1). apply snd_perm in PC as (b2' & Q2 & A2).
  pose proof (op_move ty xs o oruns runs N du AS HB HO HN b1 b2 b1' b2' Zt L1 L2 LZ Q1 Q2) as R1.
  assert (LA : length (b1' ++ b2') = oslots o) by (rewrite app_length, <- (Permutation_length Q1), <- (Permutation_length Q2); unfold oslots; lia).
  destruct (tensors_move ty herm xs o oruns runs N du AS HT HB HO HR HN rho xs ys F [] (b1' ++ b2') Zt eq_refl) as (Zt1 & R2 & S1).
  { rewrite LA. unfold slots. cbn. lia. }
  { rewrite St. clear. induction xs as [|x xs IH]; [reflexivity|]. cbn [flat_map]. rewrite map_app, IH. reflexivity. }
  destruct (shuffle_move ty herm xs o oruns runs N du HT HB HO HR HN ys zs SH (symmetric_keys _ _ _ _ F) BX (symmetric_bodied _ _ _ _ F BX) (b1' ++ b2') Zt1 LA S1) as (Zt2 & R3 & S2).
  destruct (zreach_trans _ _ _ _ _ _ _ (zreach_trans _ _ _ _ _ _ _ R1 R2) R3) as [P Nr]. exists ((b1' ++ b2') ++ Zt2). rewrite <- EZ in P, Nr. split; [exact P|]. rewrite F0 in Nr. split; [|exact Nr].
  rewrite !map_app, A1, A2, S2. reflexivity.
Qed.
(** labels are exchanged so that the words are the same *)
Lemma labels_near t1 t2 rho xs1 o1 xs2 o2 sl d0 g1 g2 Z :
  xs1 = ttensors t1 -> o1 = tsq t1 -> xs2 = ttensors t2 -> o2 = tsq t2 ->
  let dummy := dummies t1 in let N := 2 * length dummy in
  dummies t2 = dummy -> (forall i, In i (content_indices xs1 o1) -> fst (rho i) = fst i) ->
  map (fun x => nth (x / 2) dummy d0) g1 = map (rename (minimal_indices t1)) (slot_word xs1 o1) -> map (fun x => nth (x / 2) dummy d0) g2 = map (rename (minimal_indices t2)) (slot_word xs2 o2) ->
  Permutation g1 (seq 0 N) -> Permutation g2 (seq 0 N) -> Permutation (combine g1 (map rho (slot_word xs1 o1))) Z -> map snd Z = slot_word xs2 o2 ->
  near sl (dummy_symmetries N (dummy_ranges dummy)) N (map fst Z) g2.
Proof.
  intros -> -> -> -> dummy N ED HL R1 R2 P1 P2 PZ SZ. set (h := fun x => nth (x / 2) dummy d0) in *. set (m1 := minimal_indices t1) in *. set (m2 := minimal_indices t2) in *. set (l1 := slot_word (ttensors t1) (tsq t1)) in *. set (l2 := slot_word (ttensors t2) (tsq t2)) in *.
  destruct (minimal_indices_spec t1) as (n1 & A1 & A2 & A3 & A4). destruct (minimal_indices_spec t2) as (n2 & B1 & B2 & B3 & B4). fold m1 in A1, A2, A3, A4. fold m2 in B1, B2, B3, B4. destruct (generates_spec _ _ _ A3) as (A5 & _ & _). destruct (generates_spec _ _ _ B3) as (B5 & _ & _).
  assert (I1 : forall i, In i l1 -> In i (content_indices (ttensors t1) (tsq t1))) by (intros i; apply Permutation_in, slots_perm). assert (I2 : forall i, In i l2 -> In i (content_indices (ttensors t2) (tsq t2))) by (intros i; apply Permutation_in, slots_perm).
  assert (ND : NoDup dummy) by (eapply Permutation_NoDup; [symmetry; apply sort_by_perm|exact A5]).
  assert (SD : le_sorted idx_ord dummy) by (apply sort_by_sorted, idx_lawful).
  assert (LG1 : length g1 = length l1) by (rewrite <- (map_length h g1), R1, map_length; reflexivity).
  assert (LG2 : length g2 = length l2) by (rewrite <- (map_length h g2), R2, map_length; reflexivity).
  set (U := map fst Z). assert (PU : Permutation U (seq 0 N)) by (rewrite <- P1; unfold U; rewrite <- PZ, combine_fst by (rewrite map_length; exact LG1); reflexivity).
  assert (LZ : length Z = length g2) by (rewrite <- (map_length snd Z), SZ; symmetry; exact LG2).
  destruct (table U g2) as (f & Ef); [eapply Permutation_NoDup; [symmetry; exact PU|apply seq_NoDup]|unfold U; rewrite map_length; exact LZ|].
  set (f' := fun x => if x <? N then f x else x).
  assert (InU : forall x, In x U <-> x < N) by (intros x; rewrite PU, in_seq; lia). assert (In2 : forall x, In x g2 <-> x < N) by (intros x; rewrite P2, in_seq; lia).
  assert (Ef' : map f' U = g2) by (rewrite <- Ef; apply map_ext_in; intros x Hx; apply InU in Hx; unfold f'; destruct (Nat.ltb_spec x N); [reflexivity|lia]).
  (** what the label x and its image stand for *)
  assert (KEY : forall x, x < N -> exists i j, In i l1 /\ h x = rename m1 i /\ j = rho i /\ In j l2 /\ h (f' x) = rename m2 j).
  { intros x Hx. apply InU in Hx. unfold U in Hx. apply in_map_iff in Hx as ([x' j] & <- & Hz). cbn [fst]. assert (Hj : In j l2) by (rewrite <- SZ; exact (in_map snd _ _ Hz)).
    pose proof Hz as Hz'. rewrite <- PZ in Hz'.
    assert (Hi : exists i, In (x', i) (combine g1 l1) /\ j = rho i).
    { clear -Hz'. revert Hz'. generalize l1. induction g1 as [|a g IH]; intros [|b l] H; cbn in H; try contradiction. destruct H as [H|H]; [injection H as <- <-; exists b; split; [left; reflexivity|reflexivity]|]. destruct (IH l H) as (i & Hi & E). exists i. split; [right; exact Hi|exact E]. }
    destruct Hi as (i & Hi & ->). exists i, (rho i). split; [apply in_combine_r in Hi; exact Hi|]. split; [exact (combine_at g1 l1 x' i Hi h (rename m1) R1)|]. split; [reflexivity|]. split; [exact Hj|].
    assert (HZ : In (x', rho i) (combine U l2)). { unfold U. rewrite <- SZ. clear -Hz. induction Z as [|[a b] Z IH]; [contradiction|]. cbn. destruct Hz as [Hz|Hz]; [left; exact Hz|right; apply IH, Hz]. }
    apply (combine_at U l2 x' (rho i) HZ (fun x => h (f' x)) (rename m2)). rewrite <- R2, <- Ef', map_map. reflexivity. }
  assert (HH : forall x y, x < N -> y < N -> h x = h y -> x / 2 = y / 2).
  { intros x y Hx Hy E. apply (proj1 (NoDup_nth dummy d0) ND); [apply Nat.div_lt_upper_bound; unfold N in *; lia|apply Nat.div_lt_upper_bound; unfold N in *; lia|exact E]. }
  assert (RL : relabelling dummy d0 N f').
  { constructor.
    - intros x Hx. apply In2. rewrite <- Ef'. apply in_map, InU, Hx.
    - intros x y Hx Hy E. apply InU in Hx, Hy. assert (ND2 : NoDup (map f' U)) by (rewrite Ef'; eapply Permutation_NoDup; [symmetry; exact P2|apply seq_NoDup]). clear -Hx Hy E ND2. revert Hx Hy ND2. generalize U. induction U0 as [|u U0 IH]; intros Hx Hy ND2; [contradiction|]. cbn [map] in ND2. inversion ND2; subst. destruct Hx as [<-|Hx], Hy as [<-|Hy]; [reflexivity| | |apply IH; assumption]; exfalso; apply H1; [rewrite E; apply in_map, Hy|rewrite <- E; apply in_map, Hx].
    - intros k Hk. assert (K1 : 2 * k < N) by (unfold N; lia). assert (K2 : 2 * k + 1 < N) by (unfold N; lia). destruct (KEY _ K1) as (i & j & Hi & E1 & -> & Hj & E2). destruct (KEY _ K2) as (i' & j' & Hi' & E1' & -> & Hj' & E2').
      assert (Eh : h (2 * k) = h (2 * k + 1)) by (unfold h; rewrite half_even, half_odd; reflexivity). assert (Ei : i = i') by (apply (rename_inj _ _ _ A5); [apply A2, I1, Hi|apply A2, I1, Hi'|congruence]). subst i'.
      apply HH; [apply In2; rewrite <- Ef'; apply in_map, InU, K1|apply In2; rewrite <- Ef'; apply in_map, InU, K2|congruence].
    - intros x Hx. destruct (KEY x Hx) as (i & j & Hi & E1 & -> & Hj & E2). change (nth (f' x / 2) dummy d0) with (h (f' x)). change (nth (x / 2) dummy d0) with (h x). rewrite E1, E2.
      rewrite (B4 (rho i) (rename m2 (rho i))) by (apply rename_in, B2, I2, Hj). rewrite (A4 i (rename m1 i)) by (apply rename_in, A2, I1, Hi). apply HL, I1, Hi.
    - unfold f'. rewrite (proj2 (Nat.ltb_ge N N)), (proj2 (Nat.ltb_ge (N + 1) N)) by lia. auto. }
  intros s Hs. exists s. split; [exact Hs|]. fold U. assert (ET : map f' (U ++ sign_tail N s) = g2 ++ sign_tail N s).
  { rewrite map_app, Ef'. f_equal. destruct (rl_tail _ _ _ _ RL) as [T1 T2]. unfold sign_tail. destruct (s =? 1)%Z; cbn [map]; rewrite T1, T2; reflexivity. }
  rewrite <- ET. apply (relabel_form sl dummy d0 N SD eq_refl (length dummy) f'); [exact RL|intros x Hx Hm; lia|].
  apply Forall_app. split; [apply Forall_forall; intros x Hx; apply InU in Hx; lia|]. unfold sign_tail. destruct (s =? 1)%Z; repeat (constructor; [lia|]); constructor.
Qed.

Theorem merged_canonical sympy core ra herm t1 t2 s1 s2 u1 u2 : admissible sympy -> canonical sympy ->
  simplify core ra t1 = Ok s1 -> simplify core ra t2 = Ok s2 -> is_void s1 = false -> is_void s2 = false ->
  canonicalize_sympy sympy core ra herm t1 = Ok u1 -> canonicalize_sympy sympy core ra herm t2 = Ok u2 ->
  ttype s1 = ttype s2 -> itype_antisymmetric (ttype s1) = true -> Forall (fun x => titype x = ttype s1) (ttensors s1) -> classes_by_name (ttensors s1) -> in_order (ttensors s1) -> in_order (ttensors s2) ->
  length (cre (tsq s1)) = length (ann (tsq s1)) -> paired (ttensors s1) (tsq s1) -> paired (ttensors s2) (tsq s2) ->
  same_up_to_symmetry herm s1 s2 -> same_content u1 u2.
Proof.
  intros AD CA HS1 HS2 V1 V2 H1 H2 ET AS HT CN O1 O2 HB D1 D2 (rho & HL & HJ & PC & PA & ys & PY & F). set (d0 := (Lab false Sg, 0) : idx).
  destruct (sympy_run sympy core ra herm t1 s1 u1 d0 HS1 V1 H1 D1) as (g1 & or1 & r1 & gc1 & an1 & cr1 & ys1 & c1 & R1 & P1 & N1 & HO1 & HR1 & Y1 & A1 & C1 & T1 & M1).
  destruct (sympy_run sympy core ra herm t2 s2 u2 d0 HS2 V2 H2 D2) as (g2 & or2 & r2 & gc2 & an2 & cr2 & ys2 & c2 & R2 & P2 & N2 & HO2 & HR2 & Y2 & A2 & C2 & T2 & M2).
  set (xs1 := ttensors s1) in *. set (xs2 := ttensors s2) in *. set (o1 := tsq s1) in *. set (o2 := tsq s2) in *. rewrite <- ET in *. set (ty := ttype s1) in *.
  assert (KY : map key3 xs1 = map key3 ys) by (apply (symmetric_keys _ _ _ _ F)).
  assert (K : map key3 xs1 = map key3 xs2) by (apply (sorted_unique key3_ord key3_lawful key3_ext); [exact O1|exact O2|rewrite KY; apply Permutation_map, PY]).
  assert (BX : Forall bodied_tensor xs1). { unfold tensor_groups in HR1. destruct (pymap (fun x => pybind (n_body x) (fun n => Ok (x, n))) xs1) as [ks|] eqn:Ek; [|discriminate]. apply keyed_ok in Ek. apply Ek. }
  assert (AL : Forall2 alike xs1 xs2) by (apply (same_places herm rho xs1 ys xs2 ty); assumption).
  assert (SH : shuffle ys xs2) by (apply reorder; [exact O2|congruence|exact PY]).
  assert (PW : Permutation (map rho (slot_word xs1 o1)) (slot_word xs2 o2)) by (apply (symmetric_word herm rho xs1 ys xs2 o1 o2); assumption).
  assert (LN : length (slot_word xs2 o2) = length (slot_word xs1 o1)) by (pose proof (Permutation_length PW) as Q; rewrite map_length in Q; symmetry; exact Q).
  assert (ED : dummies s2 = dummies s1). { symmetry. apply (same_dummies s1 s2 rho HL HJ). etransitivity; [apply Permutation_map; symmetry; apply slots_perm|]. etransitivity; [exact PW|apply slots_perm]. }
  rewrite ED in N2, R2, Y2, A2, C2, T2. rewrite LN in P2, Y2. set (N := length (slot_word xs1 o1)) in *. set (dummy := dummies s1) in *.
  assert (EC : length (cre o2) = length (cre o1)) by (pose proof (Permutation_length PC) as Q; rewrite map_length in Q; symmetry; exact Q). assert (EA : length (ann o2) = length (ann o1)) by (pose proof (Permutation_length PA) as Q; rewrite map_length in Q; symmetry; exact Q).
  assert (EO : oslots o2 = oslots o1) by (unfold oslots; lia). assert (EG : op_generating_set ty o2 = op_generating_set ty o1) by (unfold op_generating_set; rewrite EC, EA; reflexivity).
  rewrite EA in A2, C2. rewrite EO in HO2, C2, T2. rewrite EG in HO2. rewrite <- (groups_alike herm xs1 xs2 AL), HR1 in HR2. injection HR2 as <-.
  assert (ER : or2 = or1). { destruct HO1 as [[-> Q1]|(gens & Q1 & -> & Q3)], HO2 as [[-> Q2]|(gens' & Q2 & -> & Q4)]; try congruence. }
  subst or2. assert (HO : or1 = [] /\ oslots o1 = 0 \/ exists gens, op_generating_set ty o1 = Ok gens /\ or1 = [(gens, 1)]) by (destruct HO1 as [Q|(gens & Q1 & Q2 & _)]; [left; exact Q|right; exists gens; auto]).
  assert (L1 : length g1 = N) by (rewrite (Permutation_length P1); apply seq_length). assert (L2 : length g2 = N) by (rewrite (Permutation_length P2); apply seq_length).
  destruct (words_near herm rho xs1 ys xs2 o1 o2 or1 r1 ty (dummy_symmetries N (dummy_ranges dummy)) g1 AS HT HB HO HR1 BX F SH PC PA L1) as (Z & PZ & SZ & W1). fold N in W1.
  rewrite N1 in P1, P2. pose proof (labels_near s1 s2 rho xs1 o1 xs2 o2 (slot_symmetries N 0 (or1 ++ r1)) d0 g1 g2 Z eq_refl eq_refl eq_refl eq_refl ED HL R1 R2 P1 P2 PZ SZ) as W2. cbv zeta in W2. fold dummy in W2. rewrite <- N1 in W2, P1, P2.
  destruct (near_trans _ _ _ _ _ _ W1 W2 1%Z (or_introl eq_refl)) as (s & Hs & E). change (sign_tail N 1) with [N; N + 1] in E.
  assert (EQ : firstn N gc1 = firstn N gc2).
  { pose proof (CA (g1 ++ [N; N + 1]) (g2 ++ [N; N + 1]) _ _ _ _ Y1 Y2) as Q. rewrite !app_length, L1, L2 in Q. cbn [length] in Q. replace (N + 2 - 2) with N in Q by lia. apply Q; [reflexivity|]. destruct Hs as [->| ->].
    - left. exact E.
    - right. unfold negated. rewrite app_length, L2. cbn [length]. replace (N + 2 - 2) with N by lia. rewrite firstn_app, skipn_app, <- L2, firstn_all, skipn_all, Nat.sub_diag. cbn [firstn skipn app rev]. rewrite app_nil_r, L2. exact E. }
  assert (HN : N = oslots o1 + slots xs1) by (unfold N, slot_word; rewrite app_length, slot_count; unfold op_slots, oslots; rewrite app_length; lia).
  assert (LEN : forall g gc, length g = N -> Forall (fun x => x < N) g -> sympy (g ++ [N; N + 1]) (dummy_ranges dummy) (or1 ++ r1) = Ok (Some gc) -> length gc = N + 2).
  { intros g gc Lg Fg Y. apply AD in Y. cbv zeta in Y. rewrite app_length in Y. cbn [length] in Y. rewrite Lg in Y. replace (N + 2 - 2) with N in Y by lia. set (ro := firstn (oslots o1) g). set (rt := skipn (oslots o1) g). assert (Eg : g = ro ++ rt) by (symmetry; apply firstn_skipn). rewrite Eg in Y.
    destruct (minimal_indices_spec s1) as (nx & _ & _ & G3 & _). destruct (generates_spec _ _ _ G3) as (G5 & _ & _).
    apply (form_mstate (fun _ _ => True)) with (ty := ty) (herm := herm) (xs := xs1) (o := o1) (d0 := d0) in Y; try assumption; try exact Logic.I.
    - destruct Y as (ro' & rt' & z & -> & _ & Lo' & Lt' & _). rewrite !app_length, Lo', Lt'. destruct (sign_tail_two N z) as (? & ? & ->). cbn [length]. lia.
    - split; intros; exact Logic.I.
    - destruct HO as [[Q _]|Q]; [left; exact Q|right; exact Q].
    - intros Q. destruct HO as [[_ Q']|(gens & _ & Q')]; [exact Q'|congruence].
    - apply tensor_groups_ok; assumption.
    - eapply Permutation_NoDup; [symmetry; apply sort_by_perm|exact G5].
    - unfold ro. apply firstn_length_le. lia.
    - unfold rt. rewrite skipn_length. lia.
    - rewrite <- Eg. exact Fg. }
  assert (LT : forall g, Permutation g (seq 0 N) -> Forall (fun x => x < N) g) by (intros g P; apply Forall_forall; intros x Hx; rewrite P in Hx; apply in_seq in Hx; lia).
  pose proof (LEN g1 gc1 L1 (LT g1 P1) Y1) as G1. pose proof (LEN g2 gc2 L2 (LT g2 P2) Y2) as G2.
  assert (FN : forall n, n <= N -> firstn n gc1 = firstn n gc2). { intros n Hn. replace n with (Nat.min n N) by lia. rewrite <- !firstn_firstn, EQ. reflexivity. }
  rewrite <- (FN (length (ann o1))), A1 in A2 by (unfold oslots in HN; lia). injection A2 as <-. rewrite <- (FN (oslots o1)), C1 in C2 by lia. injection C2 as <-.
  rewrite <- (read_alike dummy xs1 xs2 AL (skipn (oslots o1) gc1)), T1 in T2; [|rewrite !firstn_skipn_comm, <- HN, EQ; reflexivity|rewrite skipn_length; lia|rewrite skipn_length; lia]. injection T2 as <-.
  apply make_term_inv in M1 as (_ & _ & ->). apply make_term_inv in M2 as (_ & _ & ->). split; reflexivity.
Qed.
