(** canonicalize_sympy: terms that are the same up to symmetry are handed to SymPy as forms of one product. *)
From Coq Require Import Ascii String ZArith QArith Qcanon Sorting.Sorted Lia.
From Verif Require Import PyBase OrderSpec OrderProofs SortProofs ParitySpec ParityProofs SpaceModel IndexProofs IndicesModel IterProofs IndicesProofs SpaceProofs ElemModel MacroModel TermModel ValueSpec ValueProofs TermSpec SumProofs TermProofs RenameProofs
  SimplifyProofs CanonProofs SymmetryModel SymmetrySpec SymmetryProofs SympyProofs SympyValue SympyShape MergeSpec MergeMoves MergeLabels MergeGroups.
Local Close Scope Q_scope.
Local Close Scope Qc_scope.
Local Open Scope nat_scope.
Local Notation length := List.length.

Definition word := list (nat * idx).
Lemma snd_perm (b : word) l : Permutation (map snd b) l -> exists b', Permutation b b' /\ map snd b' = l.
Proof. intros H. symmetry in H. apply Permutation_map_inv in H as (b' & -> & P). exists b'. auto. Qed.
Lemma map_app_split {B C} (f : B -> C) l a b : map f l = a ++ b -> exists l1 l2, l = l1 ++ l2 /\ map f l1 = a /\ map f l2 = b.
Proof. intros H. apply map_eq_app in H. exact H. Qed.

(** ** Orders of tensors *)
Definition key3 (x : tensor) : Z * (string * nat) := (tpriority x, (tname x, length (tupper x) + length (tlower x))).
Definition key3_ord : pyord (Z * (string * nat)) := pair_ord Z_ord (pair_ord string_ord nat_ord).
Inductive shuffle : list tensor -> list tensor -> Prop :=
| sh_refl l : shuffle l l
| sh_swap l1 x y l2 : key3 x = key3 y -> shuffle (l1 ++ x :: y :: l2) (l1 ++ y :: x :: l2)
| sh_trans l l' l'' : shuffle l l' -> shuffle l' l'' -> shuffle l l''.
Lemma shuffle_cons x l l' : shuffle l l' -> shuffle (x :: l) (x :: l').
Proof. induction 1 as [l|l1 a b l2 E|l l' l'' _ IH1 _ IH2]; [apply sh_refl|exact (sh_swap (x :: l1) a b l2 E)|eapply sh_trans; eassumption]. Qed.
Lemma shuffle_front l1 z l2 : Forall (fun x => key3 x = key3 z) l1 -> shuffle (l1 ++ z :: l2) (z :: l1 ++ l2).
Proof.
  induction 1 as [|x l1 E F IH]; [apply sh_refl|]. cbn [app]. eapply sh_trans; [apply shuffle_cons, IH|]. apply (sh_swap [] x z (l1 ++ l2)). exact E.
Qed.
Lemma shuffle_keys l l' : shuffle l l' -> map key3 l = map key3 l'.
Proof. induction 1 as [l|l1 x y l2 E|l l' l'' _ IH1 _ IH2]; [reflexivity|rewrite !map_app; cbn [map]; rewrite E; reflexivity|congruence]. Qed.
Lemma shuffle_perm l l' : shuffle l l' -> Permutation l l'.
Proof. induction 1 as [l|l1 x y l2 E|l l' l'' _ IH1 _ IH2]; [reflexivity|apply Permutation_app_head; constructor|etransitivity; eassumption]. Qed.
Lemma key3_lawful : lawful key3_ord.
Proof. apply pair_lawful; [apply Z_lawful|]. apply pair_lawful; [apply string_lawful|apply nat_lawful]. Qed.
Lemma key3_ext : extensional key3_ord.
Proof. apply pair_ext; [intros a b; apply Z.eqb_eq|]. apply pair_ext; [apply string_ext|apply nat_ext]. Qed.
Lemma reorder zs : forall ys, le_sorted key3_ord (map key3 zs) -> map key3 ys = map key3 zs -> Permutation ys zs -> shuffle ys zs.
Proof.
  induction zs as [|z zs IH]; intros ys S E P; [symmetry in P; apply Permutation_nil in P as ->; apply sh_refl|].
  assert (Hz : In z ys) by (rewrite P; left; reflexivity). apply in_split in Hz as (l1 & l2 & ->).
  assert (F : Forall (fun x => key3 x = key3 z) l1).
  { destruct l1 as [|x l1]; [constructor|]. assert (S' : le_sorted key3_ord (map key3 ((x :: l1) ++ z :: l2))) by (rewrite E; exact S). assert (Ex : key3 x = key3 z) by (exact (f_equal (hd (key3 z)) E)).
    cbn [app map] in S'. inversion S' as [|? ? S1 F1]; subst. apply Forall_forall. intros w [<-|Hw]; [exact Ex|]. rewrite map_app in S1, F1. cbn [map] in S1, F1.
    assert (L1 : ple key3_ord (key3 x) (key3 w) = true) by (rewrite Forall_forall in F1; apply F1, in_or_app; left; apply in_map, Hw).
    assert (L2 : ple key3_ord (key3 w) (key3 z) = true). { apply in_split in Hw as (a & b & ->). rewrite map_app in S1. cbn [map] in S1. rewrite <- app_assoc in S1. clear -S1. induction (map key3 a) as [|u m IH]; cbn [app] in S1; inversion S1 as [|? ? Q1 Q2]; subst; [rewrite Forall_forall in Q2; apply Q2, in_or_app; right; left; reflexivity|apply IH, Q1]. }
    rewrite Ex in L1. exact (ple_antisym key3_ord key3_lawful key3_ext _ _ L2 L1). }
  eapply sh_trans; [apply shuffle_front, F|]. apply shuffle_cons. pose proof (shuffle_keys _ _ (shuffle_front l1 z l2 F)) as K. rewrite E in K. apply (f_equal (@tl _)) in K. cbn [map tl] in K. apply IH; [inversion S; assumption|symmetry; exact K|]. apply Permutation_app_inv with (l3 := []) (l4 := zs) (a := z). exact P.
Qed.
Lemma tensor_after x y : ple tensor_ord x y = true -> ple key3_ord (key3 x) (key3 y) = true.
Proof.
  unfold tensor_ord, tensor_key_ord, key_ord, key3_ord, comparison_tuple, tkey, key3. cbn [ple pair_ord]. unfold pair_op. cbn [fst snd k_priority k_name k_upper k_lower peq ple pair_ord nat_ord]. unfold pair_op. cbn [fst snd].
  destruct (peq Z_ord _ _); [|auto]. destruct (peq string_ord _ _); [|auto]. destruct (_ =? _) eqn:E; [|auto]. intros _. apply Nat.eqb_eq in E. apply Nat.leb_le. lia.
Qed.
Lemma sorted_keys l : le_sorted key3_ord (map key3 (sort_by (plt tensor_ord) l)).
Proof.
  pose proof (sort_by_sorted tensor_ord tensor_ord_lawful l) as S. induction S as [|x m S IH F]; cbn [map]; constructor; [exact IH|]. rewrite Forall_forall in *. intros k Hk. apply in_map_iff in Hk as (y & <- & Hy). apply tensor_after, F, Hy.
Qed.

(** ** The slots of a product *)
Section Product.
  Context (ty : itype) (herm : bool) (xs : list tensor) (o : op) (oruns runs : list (list (list nat) * nat)) (N : nat) (du : list (list nat)).
  Context (AS : itype_antisymmetric ty = true) (HT : Forall (fun x => titype x = ty) xs) (HB : length (cre o) = length (ann o)).
  Context (HO : oruns = [] /\ oslots o = 0 \/ exists gens, op_generating_set ty o = Ok gens /\ oruns = [(gens, 1)]).
  Context (HR : tensor_groups herm xs = Ok runs) (HN : N = oslots o + slots xs).
  Let sl := slot_symmetries N 0 (oruns ++ runs).
  Definition zreach (Z Z' : word) : Prop := Permutation Z Z' /\ near sl du N (map fst Z) (map fst Z').
  Lemma zreach_refl Z : zreach Z Z.
  Proof. split; [reflexivity|apply near_refl]. Qed.
  Lemma zreach_trans Z Z' Z'' : zreach Z Z' -> zreach Z' Z'' -> zreach Z Z''.
  Proof. intros [P1 N1] [P2 N2]. split; [etransitivity; eassumption|eapply near_trans; eassumption]. Qed.
  Lemma declared_tensors s : In s (slot_symmetries N (oslots o) runs) -> In s sl.
  Proof.
    intros H. unfold sl. destruct HO as [[-> E0]|(gens & Eg & ->)]; [rewrite E0 in H; exact H|]. cbn [app slot_symmetries]. apply in_or_app. right. cbn [seq map Nat.sub app].
    destruct (op_symmetry Qc_alg zero_values ty o gens Eg HB (fun _ => zero_antisymmetric)) as [Ng HG]. assert (Lg : length (hd [] gens) - 2 = oslots o).
    { destruct gens as [|p gens]; [congruence|]. destruct (HG p (or_introl eq_refl)) as [L _]. cbn [hd]. rewrite L. unfold oslots. lia. }
    rewrite Lg. replace (0 + 1 * oslots o) with (oslots o) by lia. exact H.
  Qed.
  Lemma op_move (b1 b2 b1' b2' D : word) : length b1 = length (ann o) -> length b2 = length (cre o) -> length ((b1 ++ b2) ++ D) = N -> Permutation b1 b1' -> Permutation b2 b2' -> zreach ((b1 ++ b2) ++ D) ((b1' ++ b2') ++ D).
  Proof.
    intros L1 L2 LN P1 P2. split; [apply Permutation_app_tail, Permutation_app; assumption|]. destruct HO as [[_ E0]|(gens & Eg & EO)].
    - unfold oslots in E0. destruct b1; [|cbn in L1; lia]. destruct b2; [|cbn in L2; lia]. apply Permutation_nil in P1, P2. subst. apply near_refl.
    - rewrite !map_app. destruct (op_symmetry Qc_alg zero_values ty o gens Eg HB (fun _ => zero_antisymmetric)) as [Ng HG].
      apply (near_blocks sl du N 0 (length (ann o)) (length (cre o)) gens [] (map fst b1) (map fst b2) (map fst b1') (map fst b2') (map fst D)).
      + intros p Hp. unfold sl. rewrite EO. cbn [app slot_symmetries]. apply in_or_app. left. cbn [seq flat_map]. rewrite app_nil_r. apply in_map_iff. exists p. auto.
      + intros p Hp. destruct (HG p Hp) as (Lp & Pp & _). split; assumption.
      + intros a Ha. unfold op_generating_set in Eg. rewrite AS in Eg. unfold base_strong_generating_set in Eg. destruct (length (cre o) + length (ann o) =? 0) eqn:E0; [discriminate|]. rewrite AS in Eg. apply Nat.eqb_neq in E0.
        destruct (asym_plain_group (length (cre o)) (length (ann o))) as (gens' & Eg' & G); [lia|lia|]. rewrite Eg in Eg'. injection Eg' as <-. rewrite HB in *. apply G. exact Ha.
      + reflexivity.
      + rewrite map_length. exact L1.
      + rewrite map_length. exact L2.
      + cbn [app]. rewrite <- !map_app, map_length. exact LN.
      + apply Permutation_map, P1.
      + apply Permutation_map, P2.
  Qed.
  Lemma tensor_move xs1 x xs2 (A b1 b2 b1' b2' D : word) : xs = xs1 ++ x :: xs2 -> length A = oslots o + slots xs1 -> length b1 = length (tlower x) -> length b2 = length (tupper x) -> length (A ++ (b1 ++ b2) ++ D) = N ->
    (Permutation b1 b1' /\ Permutation b2 b2') \/ (herm = true /\ Permutation b1 b2' /\ Permutation b2 b1') -> zreach (A ++ (b1 ++ b2) ++ D) (A ++ (b1' ++ b2') ++ D).
  Proof.
    intros EX LA L1 L2 LN HP. rewrite EX in HT, HR. destruct (embed_declared ty herm xs1 x xs2 runs HT HR) as (n & gens & Ll & Lu & Eb & HI). rewrite Ll in L1. rewrite Lu in L2.
    assert (HI' : forall p, In p gens -> In (embed N (length A) p) sl) by (intros p Hp; rewrite LA; apply declared_tensors, HI, Hp).
    assert (HW : forall p, In p gens -> well_formed (n + n) p).
    { intros p Hp. destruct (tensor_symmetry Qc_alg zero_values ty TCumulant "" n herm gens Eb) as [_ HG]; [intros _; apply zero_antisymmetric|intros Q; congruence|intros _; repeat intro; reflexivity|]. destruct (HG p Hp) as (Lp & Pp & _). split; assumption. }
    unfold base_strong_generating_set in Eb. destruct (n + n =? 0) eqn:E0; [discriminate|]. apply Nat.eqb_neq in E0. rewrite AS in Eb.
    split.
    - apply Permutation_app_head, Permutation_app_tail. destruct HP as [[P1 P2]|(_ & P1 & P2)]; [apply Permutation_app; assumption|]. rewrite P1, P2. apply Permutation_app_comm.
    - rewrite !map_app. destruct HP as [[P1 P2]|(Hh & P1 & P2)].
      + apply (near_blocks sl du N (length A) n n gens); try (rewrite !map_length; assumption || reflexivity); try (apply Permutation_map; assumption); try assumption.
        * intros a Ha. destruct herm.
          -- destruct (asym_hermitian_group n) as (gens' & Eg' & G). rewrite Eb in Eg'. injection Eg' as <-. replace (n + n) with (2 * n) by lia. apply G. left. exact Ha.
          -- destruct (asym_plain_group n n) as (gens' & Eg' & G); [lia|lia|]. rewrite Eb in Eg'. injection Eg' as <-. apply G. exact Ha.
        * rewrite <- !map_app, map_length. exact LN.
      + rewrite Hh in Eb. apply (near_crossed sl du N (length A) n gens); try (rewrite !map_length; assumption || reflexivity); try (apply Permutation_map; assumption); try assumption.
        * intros a Ha. destruct (asym_hermitian_group n) as (gens' & Eg' & G). rewrite Eb in Eg'. injection Eg' as <-. replace (n + n) with (2 * n) by lia. apply G. right. exact Ha.
        * rewrite <- !map_app, map_length. exact LN.
  Qed.
  Lemma exchange_move xs1 x y xs2 (A b1 b2 D : word) : xs = xs1 ++ x :: y :: xs2 -> tname y = tname x -> length (tlower y) = length (tlower x) -> length A = oslots o + slots xs1 -> length b1 = tslots x -> length b2 = tslots x ->
    length (A ++ b1 ++ b2 ++ D) = N -> zreach (A ++ b1 ++ b2 ++ D) (A ++ b2 ++ b1 ++ D).
  Proof.
    intros EX EN EL LA L1 L2 LN. rewrite EX in HT, HR. split.
    - apply Permutation_app_head. rewrite !app_assoc. apply Permutation_app_tail, Permutation_app_comm.
    - rewrite !map_app. apply (near_exchange sl du N (oslots o + slots xs1) (tslots x)).
      + apply declared_tensors. exact (exchange_declared ty herm xs1 x y xs2 runs HT HR EN EL N (oslots o)).
      + rewrite map_length. exact LA.
      + rewrite map_length. exact L1.
      + rewrite map_length. exact L2.
      + rewrite <- !map_app, map_length. exact LN.
  Qed.

  Lemma slot_count l : length (flat_map tensor_slots l) = slots l.
  Proof. induction l as [|x l IH]; [reflexivity|]. cbn [flat_map]. rewrite app_length, IH, slots_cons. unfold tensor_slots, tslots. rewrite app_length. reflexivity. Qed.
  (** every tensor takes the indices of its counterpart *)
  Lemma tensors_move rho : forall xs2 ys, Forall2 (symmetric_tensor herm rho) xs2 ys -> forall xs1 (A Z : word), xs = xs1 ++ xs2 -> length A = oslots o + slots xs1 -> map snd Z = flat_map (fun x => map rho (tensor_slots x)) xs2 ->
    exists Z', zreach (A ++ Z) (A ++ Z') /\ map snd Z' = flat_map tensor_slots ys.
  Proof.
    induction 1 as [|x y xs2 ys HS F IH]; intros xs1 A Z EX LA EZ; [exists Z; split; [apply zreach_refl|exact EZ]|]. cbn [flat_map] in EZ. apply map_app_split in EZ as (Zx & D & -> & Ex & ED). unfold tensor_slots in Ex. rewrite map_app in Ex. apply map_app_split in Ex as (b1 & b2 & -> & E1 & E2).
    assert (L1 : length b1 = length (tlower x)) by (rewrite <- (map_length snd b1), E1, map_length; reflexivity). assert (L2 : length b2 = length (tupper x)) by (rewrite <- (map_length snd b2), E2, map_length; reflexivity).
    assert (LD : length D = slots xs2). { rewrite <- (map_length snd D), ED, <- slot_count. clear. induction xs2 as [|x xs2 IH]; [reflexivity|]. cbn [flat_map]. rewrite !app_length, map_length, IH. reflexivity. }
    assert (LN : length (A ++ (b1 ++ b2) ++ D) = N) by (rewrite !app_length, HN, EX, slots_app, slots_cons; unfold tslots; lia).
    destruct HS as (_ & _ & _ & _ & HS). assert (X : exists b1' b2', ((Permutation b1 b1' /\ Permutation b2 b2') \/ (herm = true /\ Permutation b1 b2' /\ Permutation b2 b1')) /\ map snd b1' = tlower y /\ map snd b2' = tupper y).
    { destruct HS as [[PU PL]|(Hh & PU & PL)]; rewrite <- E1 in PL; rewrite <- E2 in PU; apply snd_perm in PU as (c2 & Q2 & F2); apply snd_perm in PL as (c1 & Q1 & F1); [exists c1, c2; auto|exists c2, c1; auto]. }
    destruct X as (b1' & b2' & HP & F1 & F2). pose proof (tensor_move xs1 x xs2 A b1 b2 b1' b2' D EX LA L1 L2 LN HP) as R1.
    assert (LB : length (b1' ++ b2') = tslots x). { unfold tslots. rewrite app_length. destruct HP as [[P1 P2]|(_ & P1 & P2)]; rewrite <- L1, <- L2, (Permutation_length P1), (Permutation_length P2); lia. }
    destruct (IH (xs1 ++ [x]) (A ++ b1' ++ b2') D) as (D' & R2 & ED'); [rewrite <- app_assoc; exact EX|rewrite app_length, slots_app, LB; unfold slots at 2; cbn [map list_sum fold_right]; lia|exact ED|].
    exists ((b1' ++ b2') ++ D'). split; [eapply zreach_trans; [exact R1|]; rewrite <- (app_assoc A) in R2; rewrite (app_assoc A (b1' ++ b2') D), (app_assoc A (b1' ++ b2') D'); rewrite <- !app_assoc; rewrite <- !app_assoc in R2; exact R2|].
    cbn [flat_map]. rewrite !map_app, F1, F2, ED'. reflexivity.
  Qed.
  (** tensors of the same kind change places *)
  Lemma shuffle_move ys zs : shuffle ys zs -> map key3 xs = map key3 ys -> Forall bodied_tensor xs -> Forall bodied_tensor ys -> forall (A Z : word), length A = oslots o -> map snd Z = flat_map tensor_slots ys -> exists Z', zreach (A ++ Z) (A ++ Z') /\ map snd Z' = flat_map tensor_slots zs.
  Proof.
    induction 1 as [l|l1 x y l2 E|l l' l'' S1 IH1 S2 IH2]; intros EK B1 B2 A Z LA EZ.
    - exists Z. split; [apply zreach_refl|exact EZ].
    - rewrite flat_map_app in EZ. cbn [flat_map] in EZ. apply map_app_split in EZ as (Z1 & Zr & -> & E1 & Er). apply map_app_split in Er as (Zx & Zs & -> & Ex & Es). apply map_app_split in Es as (Zy & D & -> & Ey & ED).
      rewrite map_app in EK. cbn [map] in EK. apply map_app_split in EK as (xs1 & r & EX & K1 & Kr). destruct r as [|u [|w xs2]]; [discriminate|discriminate|]. cbn [map] in Kr. injection Kr as Ku1 Ku2 Ku3 Kw1 Kw2 Kw3 K2. unfold key3 in E. injection E as _ En El.
      apply Forall_app in B2 as [Bl1 B2]. pose proof (Forall_inv B2) as Bx. pose proof (Forall_inv (Forall_inv_tail B2)) as By. rewrite EX in B1. apply Forall_app in B1 as [B11 B1]. pose proof (Forall_inv B1) as Bu. pose proof (Forall_inv (Forall_inv_tail B1)) as Bw. unfold bodied_tensor in Bx, By, Bu, Bw.
      assert (SL : forall l m, map key3 l = map key3 m -> slots l = slots m).
      { clear. induction l as [|a l IH]; intros [|b m] H; try discriminate; [reflexivity|]. cbn [map] in H. injection H as H1 H2 H3 H4. rewrite !slots_cons. unfold tslots. rewrite (IH m H4). lia. }
      assert (LZ1 : length Z1 = slots xs1) by (rewrite <- (map_length snd Z1), E1, slot_count; symmetry; apply SL, K1). assert (LZx : length Zx = tslots u) by (rewrite <- (map_length snd Zx), Ex; unfold tensor_slots, tslots; rewrite app_length; lia).
      assert (LZy : length Zy = tslots u) by (rewrite <- (map_length snd Zy), Ey; unfold tensor_slots, tslots; rewrite app_length; lia). assert (LD : length D = slots xs2) by (rewrite <- (map_length snd D), ED, slot_count; symmetry; apply SL, K2).
      exists (Z1 ++ Zy ++ Zx ++ D). split.
      + pose proof (exchange_move xs1 u w xs2 (A ++ Z1) Zx Zy D EX) as R. rewrite <- !app_assoc in R. apply R; [congruence|lia|rewrite app_length; lia|exact LZx|exact LZy|]. rewrite !app_length, HN, EX, slots_app, !slots_cons. unfold tslots in *. lia.
      + rewrite flat_map_app. cbn [flat_map]. rewrite !map_app, E1, Ex, Ey, ED. reflexivity.
    - destruct (IH1 EK B1 B2 A Z LA EZ) as (Z' & R1 & E1). assert (B2' : Forall bodied_tensor l') by (rewrite Forall_forall in *; intros z Hz; apply B2; rewrite (shuffle_perm _ _ S1); exact Hz).
      destruct (IH2 (eq_trans EK (shuffle_keys _ _ S1)) B1 B2' A Z' LA E1) as (Z'' & R2 & E2). exists Z''. split; [eapply zreach_trans; eassumption|exact E2].
  Qed.
End Product.
