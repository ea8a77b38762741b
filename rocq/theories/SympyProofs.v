(** canonicalize_sympy keeps the value for every admissible answer. *)
From Coq Require Import Ascii String ZArith QArith Qcanon Sorting.Sorted Ring_theory Ring.
From Verif Require Import PyBase OrderSpec OrderProofs ParitySpec ParityProofs SpaceModel IndicesModel IterProofs IndicesProofs SpaceProofs ElemModel MacroModel TermModel ValueSpec ValueProofs TermSpec SumProofs TermProofs RenameProofs
  SimplifyProofs CanonProofs SymmetryModel SymmetrySpec SymmetryProofs.
Local Close Scope Q_scope.
Local Close Scope Qc_scope.
Local Open Scope nat_scope.
Local Notation length := List.length.

(** ** The generators of one factor *)
Lemma compose_seq_l size p : (forall k, In k p -> k < size) -> compose (seq 0 size) p = p.
Proof. intros H. unfold compose. apply map_id_in. intros k Hk. rewrite seq_nth by (apply H, Hk). reflexivity. Qed.
Lemma adj_lt n i k : S i < n -> In k (adj n i) -> k < n + 2.
Proof. intros H Hk. unfold adj in Hk. repeat (apply in_app_or in Hk as [Hk|Hk]); try (apply in_seq in Hk; lia); cbn in Hk; lia. Qed.
Lemma exch_lt n k : In k (exch n) -> k < 2 * n + 2.
Proof. intros Hk. unfold exch in Hk. repeat (apply in_app_or in Hk as [Hk|Hk]); try (apply in_seq in Hk; lia); cbn in Hk; lia. Qed.
Lemma adj2_lt n i k : S i < n -> In k (adj2 n i) -> k < 2 * n + 2.
Proof. intros H Hk. unfold adj2 in Hk. repeat (apply in_app_or in Hk as [Hk|Hk]); try (apply in_seq in Hk; lia); cbn in Hk; lia. Qed.
Lemma seq_lt n k : In k (seq 0 n) -> k < n.
Proof. intros H. apply in_seq in H. lia. Qed.
Lemma gens_generated size gens p : In p gens -> (forall k, In k p -> k < size) -> generated size gens p.
Proof. intros H L. rewrite <- (compose_seq_l size p L). apply gd_step; [constructor|exact H]. Qed.

Lemma plain_gens n1 n2 gens p : 1 <= n1 -> 1 <= n2 -> asym_perms n1 n2 false = Ok gens -> gens <> [] /\ (In p gens -> block_permutation n1 n2 p).
Proof.
  intros H1 H2 H. destruct (asym_plain_spec n1 n2 H1 H2) as (g & E & N & _ & Q). destruct (asym_plain_group n1 n2 H1 H2) as (g' & E' & G). rewrite H in E, E'. injection E as <-. injection E' as <-.
  split; [exact N|]. intros Hp. apply G. apply gens_generated; [exact Hp|]. intros k Hk. apply Q in Hp as [->|(i & Hi & ->)]; [apply seq_lt, Hk|]. eapply adj_lt; [|exact Hk]. lia.
Qed.
Lemma hermitian_gens n gens p : asym_perms n n true = Ok gens -> gens <> [] /\ (In p gens -> block_permutation n n p \/ exchanged_permutation n p).
Proof.
  intros H. destruct (asym_hermitian_group n) as (g' & E' & G). pose proof (asym_hermitian_spec n) as E. rewrite H in E, E'. injection E' as <-. injection E as E. split.
  { rewrite E. intros Q. apply (f_equal (@length _)) in Q. rewrite !app_length in Q. cbn in Q. lia. }
  intros Hp. apply G. apply gens_generated; [exact Hp|]. intros k Hk. rewrite E in Hp. apply in_app_or in Hp as [Hp|Hp]; [|apply in_app_or in Hp as [Hp|[<-|[]]]].
  - apply in_map_iff in Hp as (i & <- & Hi). apply in_seq in Hi. apply adj_lt in Hk; lia.
  - apply in_map_iff in Hp as (i & <- & Hi). apply in_seq in Hi. apply adj_lt in Hk; lia.
  - apply exch_lt, Hk.
Qed.
Lemma sym_gens n h gens p : sym_perms n n h = Ok gens -> gens <> [] /\ (In p gens -> pair_permutation n p \/ h = true /\ exchanged_pair_permutation n p).
Proof.
  intros H. destruct (sym_group n h) as (g' & E' & G). pose proof (sym_perms_spec n h) as E. rewrite H in E, E'. injection E' as <-. injection E as E. split.
  { rewrite E. intros Q. apply (f_equal (@length _)) in Q. rewrite !app_length in Q. cbn in Q. lia. }
  intros Hp. apply G. apply gens_generated; [exact Hp|]. intros k Hk. rewrite E in Hp. apply in_app_or in Hp as [Hp|[<-|[]]].
  - apply in_map_iff in Hp as (i & <- & Hi). apply in_seq in Hi. apply adj2_lt in Hk; lia.
  - destruct h; [apply exch_lt, Hk|apply seq_lt, Hk].
Qed.

(** the sign carried by an array with sz slots *)
Definition psign (sz : nat) (p : list nat) : Z := if nth sz p 0 =? sz then 1%Z else (-1)%Z.
Lemma psign_tail n b s : length b = n -> s = 1%Z \/ s = (-1)%Z -> psign n (b ++ sign_tail n s) = s.
Proof.
  intros L H. unfold psign. assert (E : nth n (b ++ sign_tail n s) 0 = hd 0 (sign_tail n s)).
  { rewrite app_nth2 by lia. rewrite L, Nat.sub_diag. destruct (sign_tail n s); reflexivity. }
  rewrite E. destruct H as [->| ->]; cbn [sign_tail hd Z.eqb]; [rewrite Nat.eqb_refl; reflexivity|]. destruct (Nat.eqb_spec (n + 1) n); [lia|reflexivity].
Qed.

Section Factor.
  Context (A : qalg) (S : system) (v : tvaluation A).
  Add Ring alg_ring5 : (q_ring A).

  (** [F] is a value depending on sz slots; it has the symmetry p *)
  Definition has_symmetry (F : list nat -> A) (sz : nat) (p : list nat) : Prop :=
    length p = sz + 2 /\ Permutation (firstn sz p) (seq 0 sz) /\
    forall b, length b = sz -> F b = (zin (psign sz p) * F (map (fun k => nth k b 0%nat) (firstn sz p)))%alg.

  Lemma split_pick (b : list nat) n1 n2 : length b = n1 + n2 -> firstn n1 b = map (fun k => nth k b 0) (seq 0 n1) /\ skipn n1 b = map (fun k => nth k b 0) (seq n1 n2).
  Proof.
    intros L. assert (G : forall a c : list nat, a = map (fun k => nth k (a ++ c) 0) (seq 0 (length a)) /\ c = map (fun k => nth k (a ++ c) 0) (seq (length a) (length c))).
    { intros a c. split; symmetry; [exact (map_nth_block 0 [] a c)|]. pose proof (map_nth_block 0 a c []) as H. rewrite app_nil_r in H. exact H. }
    destruct (G (firstn n1 b) (skipn n1 b)) as [G1 G2]. rewrite firstn_skipn in *. rewrite firstn_length_le in * by lia. rewrite skipn_length in G2. replace (length b - n1) with n2 in G2 by lia. auto.
  Qed.
  Lemma parity_reorder (f : nat -> nat) a n b : Permutation b (seq a n) -> reorder_sign (map f (seq a n)) (map f b) (parity b).
  Proof. intros P. apply reorder_sign_map. symmetry in P. destruct (perm_swaps _ _ P) as [k Hk]. exists k. split; [exact Hk|]. apply (parity_swaps a n), Hk. Qed.
  Lemma skipn_map' {B C} (f : B -> C) n l : skipn n (map f l) = map f (skipn n l).
  Proof. apply skipn_map. Qed.

  (** two blocks; G is the value as a function of the second and the first block *)
  Lemma block_symmetry (G : list nat -> list nat -> A) n1 n2 p : (forall l, alternates (fun u => G u l)) -> (forall u, alternates (G u)) -> block_permutation n1 n2 p ->
    has_symmetry (fun b => G (skipn n1 b) (firstn n1 b)) (n1 + n2) p.
  Proof.
    intros HU HL (b1 & b2 & P1 & P2 & ->). destruct (perm_seq_nodup _ _ _ P1) as [_ L1]. destruct (perm_seq_nodup _ _ _ P2) as [_ L2].
    rewrite app_assoc. assert (L : length (b1 ++ b2) = n1 + n2) by (rewrite app_length; lia). split; [|split].
    - rewrite app_length, L. destruct (sign_tail_two (n1 + n2) (parity b1 * parity b2)) as (x & y & ->). reflexivity.
    - rewrite firstn_at by lia. rewrite seq_app. apply Permutation_app; assumption.
    - intros b Lb. rewrite psign_tail; [|exact L|apply parity_mul_pm]. rewrite firstn_at by lia. rewrite map_app. rewrite skipn_at by (rewrite map_length; lia). rewrite firstn_at by (rewrite map_length; lia).
      destruct (split_pick b n1 n2 Lb) as [E1 E2]. rewrite E1, E2. rewrite (alternates_sign A (fun u => G u _) _ _ _ (HU _) (parity_reorder (fun k => nth k b 0) _ _ _ P2)).
      rewrite (alternates_sign A (G _) _ _ _ (HL _) (parity_reorder (fun k => nth k b 0) _ _ _ P1)). rewrite (zin_mul A). ring.
  Qed.
  Lemma exchanged_symmetry (G : list nat -> list nat -> A) n p : (forall l, alternates (fun u => G u l)) -> (forall u, alternates (G u)) -> (forall u l, G u l = G l u) -> exchanged_permutation n p ->
    has_symmetry (fun b => G (skipn n b) (firstn n b)) (n + n) p.
  Proof.
    intros HU HL HH (b1 & b2 & P1 & P2 & ->). destruct (perm_seq_nodup _ _ _ P1) as [_ L1]. destruct (perm_seq_nodup _ _ _ P2) as [_ L2].
    rewrite app_assoc. assert (L : length (b1 ++ b2) = n + n) by (rewrite app_length; lia). replace (2 * n) with (n + n) by lia. split; [|split].
    - rewrite app_length, L. destruct (sign_tail_two (n + n) (parity b1 * parity b2)) as (x & y & ->). reflexivity.
    - rewrite firstn_at by lia. rewrite seq_app. rewrite Permutation_app_comm. apply Permutation_app; assumption.
    - intros b Lb. rewrite psign_tail; [|exact L|apply parity_mul_pm]. rewrite firstn_at by lia. rewrite map_app. rewrite skipn_at by (rewrite map_length; lia). rewrite firstn_at by (rewrite map_length; lia).
      destruct (split_pick b n n Lb) as [E1 E2]. rewrite E1, E2. rewrite HH. rewrite (alternates_sign A (fun u => G u _) _ _ _ (HU _) (parity_reorder (fun k => nth k b 0) _ _ _ P2)).
      rewrite (alternates_sign A (G _) _ _ _ (HL _) (parity_reorder (fun k => nth k b 0) _ _ _ P1)). rewrite (zin_mul A). ring.
  Qed.
  Lemma pairs_symmetric (G : list nat -> list nat -> A) (f g : nat -> nat) k l l' :
    (forall u1 x y u2 l1 x' y' l2, length u1 = length l1 -> G (u1 ++ x :: y :: u2) (l1 ++ x' :: y' :: l2) = G (u1 ++ y :: x :: u2) (l1 ++ y' :: x' :: l2)) ->
    swaps k l l' -> G (map f l) (map g l) = G (map f l') (map g l').
  Proof.
    intros HG. induction 1 as [|k p x y q l' _ IH]; [reflexivity|]. rewrite <- IH. rewrite !map_app. cbn [map]. apply HG. rewrite !map_length. reflexivity.
  Qed.
  Lemma pair_symmetry (G : list nat -> list nat -> A) n (h : bool) p :
    (forall u1 x y u2 l1 x' y' l2, length u1 = length l1 -> G (u1 ++ x :: y :: u2) (l1 ++ x' :: y' :: l2) = G (u1 ++ y :: x :: u2) (l1 ++ y' :: x' :: l2)) ->
    (h = true -> forall u l, G u l = G l u) -> pair_permutation n p \/ h = true /\ exchanged_pair_permutation n p ->
    has_symmetry (fun b => G (skipn n b) (firstn n b)) (n + n) p.
  Proof.
    intros HG HH H. assert (Q : exists s, Permutation s (seq 0 n) /\ (p = s ++ map (fun k => k + n) s ++ [2 * n; 2 * n + 1] \/ h = true /\ p = map (fun k => k + n) s ++ s ++ [2 * n; 2 * n + 1])).
    { destruct H as [(s & P & ->)|(Hh & s & P & ->)]; exists s; auto. }
    destruct Q as (s & P & Q). clear H. destruct (perm_seq_nodup _ _ _ P) as [_ L]. assert (P' : Permutation (map (fun k => k + n) s) (seq n n)) by (rewrite P, map_add_seq; reflexivity).
    change [2 * n; 2 * n + 1] with (sign_tail (2 * n) 1) in Q. replace (2 * n) with (n + n) in Q by lia.
    assert (D : forall b, length b = n + n -> G (skipn n b) (firstn n b) = G (map (fun k => nth k b 0) (map (fun k => k + n) s)) (map (fun k => nth k b 0) s)).
    { intros b Lb. destruct (split_pick b n n Lb) as [-> ->]. rewrite <- (map_add_seq n 0 n) at 1. rewrite !map_map. symmetry in P. destruct (perm_swaps _ _ P) as [k Hk]. eapply pairs_symmetric; [exact HG|exact Hk]. }
    destruct Q as [->|[Hh ->]]; rewrite app_assoc; (split; [|split]).
    - rewrite !app_length, map_length, L. cbn. lia.
    - rewrite firstn_at by (rewrite app_length, map_length; lia). rewrite seq_app. apply Permutation_app; assumption.
    - intros b Lb. rewrite psign_tail; [|rewrite app_length, map_length; lia|auto]. rewrite firstn_at by (rewrite app_length, map_length; lia). rewrite map_app. rewrite skipn_at by (rewrite map_length; lia). rewrite firstn_at by (rewrite map_length; lia).
      rewrite (zin_1 A), (D b Lb). ring.
    - rewrite !app_length, map_length, L. cbn. lia.
    - rewrite firstn_at by (rewrite app_length, map_length; lia). rewrite seq_app, Permutation_app_comm. apply Permutation_app; assumption.
    - intros b Lb. rewrite psign_tail; [|rewrite app_length, map_length; lia|auto]. rewrite firstn_at by (rewrite app_length, map_length; lia). rewrite map_app. rewrite skipn_at by (rewrite !map_length; lia). rewrite firstn_at by (rewrite !map_length; lia).
      rewrite (zin_1 A), (D b Lb), (HH Hh). ring.
  Qed.
  Lemma id_symmetry (F : list nat -> A) sz : has_symmetry F sz (seq 0 (sz + 2)).
  Proof.
    split; [apply seq_length|]. rewrite seq_app. rewrite firstn_at by (rewrite seq_length; reflexivity). split; [reflexivity|]. intros b L. assert (E : map (fun k => nth k b 0) (seq 0 sz) = b) by (rewrite <- L; apply map_nth_seq). rewrite E.
    change (seq (0 + sz) 2) with (sz :: [Datatypes.S sz]). replace (sz :: [Datatypes.S sz]) with (sign_tail sz 1) by (cbn; rewrite Nat.add_1_r; reflexivity).
    rewrite psign_tail; [|apply seq_length|auto]. rewrite (zin_1 A). ring.
  Qed.

  (** the generators of a tensor are symmetries of its value *)
  Lemma tensor_symmetry t c name n h gens : base_strong_generating_set t n n h false = Ok gens ->
    (itype_antisymmetric t = true -> antisymmetric v) -> (itype_antisymmetric t = false -> pair_symmetric v) -> (h = true -> hermitian_values v) ->
    gens <> [] /\ forall p, In p gens -> has_symmetry (fun b => vtensor v c name (skipn n b) (firstn n b)) (n + n) p.
  Proof.
    intros H HA HP HH. unfold base_strong_generating_set in H. destruct (n + n =? 0) eqn:E0; [discriminate|]. apply Nat.eqb_neq in E0. destruct (itype_antisymmetric t).
    - specialize (HA eq_refl). destruct h.
      + split; [apply (hermitian_gens n gens [] H)|]. intros p Hp. apply (hermitian_gens n gens p H) in Hp as [Hp|Hp].
        * apply block_symmetry; [apply (as_upper v HA)|apply (as_lower v HA)|exact Hp].
        * apply exchanged_symmetry; [apply (as_upper v HA)|apply (as_lower v HA)|apply HH; reflexivity|exact Hp].
      + split; [apply (plain_gens n n gens []); [lia|lia|exact H]|]. intros p Hp. apply (plain_gens n n gens p) in Hp; [|lia|lia|exact H]. apply block_symmetry; [apply (as_upper v HA)|apply (as_lower v HA)|exact Hp].
    - specialize (HP eq_refl). split; [apply (sym_gens n h gens [] H)|]. intros p Hp. apply (sym_gens n h gens p H) in Hp.
      apply (pair_symmetry (vtensor v c name) n h); [apply HP|intros Hh; apply HH, Hh|exact Hp].
  Qed.
  Lemma op_symmetry t o gens : op_generating_set t o = Ok gens -> length (cre o) = length (ann o) -> (itype_antisymmetric t = true -> antisymmetric v) ->
    gens <> [] /\ forall p, In p gens -> has_symmetry (fun b => voper v (skipn (length (ann o)) b) (firstn (length (ann o)) b)) (length (ann o) + length (cre o)) p.
  Proof.
    intros H E HA. unfold op_generating_set in H. rewrite E in *. set (n := length (ann o)) in *. destruct (itype_antisymmetric t) eqn:Et.
    - specialize (HA eq_refl). unfold base_strong_generating_set in H. rewrite Et in H. destruct (n + n =? 0) eqn:E0; [discriminate|]. apply Nat.eqb_neq in E0.
      split; [apply (plain_gens n n gens []); [lia|lia|exact H]|]. intros p Hp. apply (plain_gens n n gens p) in Hp; [|lia|lia|exact H]. apply block_symmetry; [apply (as_cre v HA)|apply (as_ann v HA)|exact Hp].
    - unfold base_strong_generating_set in H. destruct (n + n =? 0); [discriminate|]. rewrite Nat.eqb_refl in H. injection H as <-. split; [discriminate|]. intros p [<-|[]]. replace (n + (n + 0) + 2) with (n + n + 2) by lia. apply id_symmetry.
  Qed.
End Factor.

(** ** Moves on the array of slot labels *)
Definition act (p b : list nat) : list nat := map (fun k => nth k b 0) (firstn (length b) p).
Lemma map_seq_eq {B} (f : nat -> B) off b d : (forall k, k < length b -> f (off + k) = nth k b d) -> map f (seq off (length b)) = b.
Proof.
  revert off. induction b as [|x b IH]; intros off H; [reflexivity|]. cbn [length seq map]. f_equal.
  - specialize (H 0 (Nat.lt_0_succ _)). rewrite Nat.add_0_r in H. exact H.
  - apply IH. intros k Hk. specialize (H (S k)). cbn [length nth] in H. rewrite <- H by lia. f_equal. lia.
Qed.
Lemma map_seq_at {B} (f : nat -> B) off n b d : n = length b -> (forall k, k < length b -> f (off + k) = nth k b d) -> map f (seq off n) = b.
Proof. intros ->. apply map_seq_eq. Qed.
Lemma nth_mid {B} (a b c : list B) d k q : k = length a + q -> q < length b -> nth k (a ++ b ++ c) d = nth q b d.
Proof. intros -> H. rewrite app_nth2_plus, app_nth1 by exact H. reflexivity. Qed.
Lemma act_length p b : length p = length b + 2 -> length (act p b) = length b.
Proof. intros H. unfold act. rewrite map_length, firstn_length_le by lia. reflexivity. Qed.
Lemma act_nth p b k : length p = length b + 2 -> k < length b -> nth k (act p b) 0 = nth (nth k p 0) b 0.
Proof.
  intros L H. unfold act. rewrite (nth_indep _ 0 (nth 0 b 0)) by (rewrite map_length, firstn_length_le; lia). rewrite (map_nth (fun k => nth k b 0)). f_equal.
  rewrite <- (firstn_skipn (length b) p) at 2. rewrite app_nth1 by (rewrite firstn_length_le; lia). reflexivity.
Qed.
Lemma act_perm p b : Permutation (firstn (length b) p) (seq 0 (length b)) -> Permutation (act p b) b.
Proof. intros H. unfold act. rewrite H. rewrite map_nth_seq. reflexivity. Qed.
Lemma perm_nth_lt p n k : Permutation (firstn n p) (seq 0 n) -> length p = n + 2 -> k < n -> nth k p 0 < n.
Proof.
  intros H L Hk. assert (Q : In (nth k p 0) (firstn n p)).
  { rewrite <- (firstn_skipn n p) at 1. rewrite app_nth1 by (rewrite firstn_length_le; lia). apply nth_In. rewrite firstn_length_le; lia. }
  rewrite H in Q. apply in_seq in Q. lia.
Qed.
Lemma sign_tail_mul n s t : s = 1%Z \/ s = (-1)%Z -> t = 1%Z \/ t = (-1)%Z -> sign_tail n (s * t) = if (t =? 1)%Z then sign_tail n s else rev (sign_tail n s).
Proof. intros [->| ->] [->| ->]; reflexivity. Qed.
Lemma psign_pm n p : psign n p = 1%Z \/ psign n p = (-1)%Z.
Proof. unfold psign. destruct (_ =? _); auto. Qed.

Lemma embed_step N a b d p s : length (a ++ b ++ d) = N -> length p = length b + 2 -> Permutation (firstn (length b) p) (seq 0 (length b)) -> s = 1%Z \/ s = (-1)%Z ->
  compose ((a ++ b ++ d) ++ sign_tail N s) (embed N (length a) p) = (a ++ act p b ++ d) ++ sign_tail N (s * psign (length b) p).
Proof.
  intros LN Lp P Hs. destruct (sign_tail_two N s) as (x & y & E). rewrite (sign_tail_mul N s _ Hs (psign_pm _ _)), E. unfold compose, embed. rewrite Lp. replace (length b + 2 - 2) with (length b) by lia.
  rewrite map_map. rewrite !app_length in LN. replace (N + 2) with (length a + (length b + (length d + 2))) by lia. rewrite !seq_app, !map_app. cbn [Nat.add]. rewrite <- !app_assoc. f_equal; [|f_equal; [|f_equal]].
  - apply (map_seq_at _ _ _ _ 0 eq_refl). intros k Hk. cbn [Nat.add]. replace (length a <=? k) with false by (symmetry; apply Nat.leb_gt; lia). cbn [andb]. replace (k <? N) with true by (symmetry; apply Nat.ltb_lt; lia).
    rewrite app_nth1 by exact Hk. reflexivity.
  - apply (map_seq_at _ _ _ _ 0); [symmetry; apply act_length, Lp|]. rewrite act_length by exact Lp. intros k Hk. rewrite act_nth by assumption.
    replace (length a <=? length a + k) with true by (symmetry; apply Nat.leb_le; lia). replace (length a + k <? length a + length b) with true by (symmetry; apply Nat.ltb_lt; lia). cbn [andb].
    replace (length a + k - length a) with k by lia. apply nth_mid; [reflexivity|]. apply perm_nth_lt; assumption.
  - apply (map_seq_at _ _ _ _ 0 eq_refl). intros k Hk. replace (length a + length b + k <? length a + length b) with false by (symmetry; apply Nat.ltb_ge; lia). rewrite andb_false_r.
    replace (length a + length b + k <? N) with true by (symmetry; apply Nat.ltb_lt; lia). rewrite (app_assoc a b). apply nth_mid; [rewrite app_length; reflexivity|exact Hk].
  - replace (length a + length b + length d) with N by lia. cbn [seq map]. replace (N <? length a + length b) with false by (symmetry; apply Nat.ltb_ge; lia). replace (Datatypes.S N <? length a + length b) with false by (symmetry; apply Nat.ltb_ge; lia).
    rewrite !andb_false_r, Nat.ltb_irrefl. replace (Datatypes.S N <? N) with false by (symmetry; apply Nat.ltb_ge; lia). rewrite Nat.eqb_refl. replace (Datatypes.S N =? N) with false by (symmetry; apply Nat.eqb_neq; lia).
    assert (E0 : nth N (a ++ b ++ d ++ [x; y]) 0 = x). { rewrite !app_assoc. rewrite app_nth2 by (rewrite !app_length; lia). rewrite !app_length. replace (N - _) with 0 by lia. reflexivity. }
    assert (E1 : nth (N + 1) (a ++ b ++ d ++ [x; y]) 0 = y). { rewrite !app_assoc. rewrite app_nth2 by (rewrite !app_length; lia). rewrite !app_length. replace (N + 1 - _) with 1 by lia. reflexivity. }
    unfold psign. destruct (nth (length b) p 0 =? length b); cbn [Z.eqb rev app].
    + replace (Datatypes.S N) with (N + 1) by lia. rewrite E0, E1. reflexivity.
    + rewrite E0, E1. reflexivity.
Qed.
Lemma exchange_step N a b1 b2 d tl : length (a ++ b1 ++ b2 ++ d) = N -> length b1 = length b2 -> length tl = 2 ->
  compose ((a ++ b1 ++ b2 ++ d) ++ tl) (exchange N (length a) (length b1)) = (a ++ b2 ++ b1 ++ d) ++ tl.
Proof.
  intros LN Lb Lt. unfold compose, exchange. rewrite map_map. rewrite !app_length in LN. replace (N + 2) with (length a + (length b1 + (length b1 + (length d + 2)))) by lia. rewrite !seq_app, !map_app. cbn [Nat.add]. rewrite <- !app_assoc.
  f_equal; [|f_equal; [|f_equal; [|f_equal]]].
  - apply (map_seq_at _ _ _ _ 0 eq_refl). intros k Hk. cbn [Nat.add]. replace (length a <=? k) with false by (symmetry; apply Nat.leb_gt; lia). replace (length a + length b1 <=? k) with false by (symmetry; apply Nat.leb_gt; lia). cbn [andb].
    rewrite app_nth1 by exact Hk. reflexivity.
  - apply (map_seq_at _ _ _ _ 0 Lb). intros k Hk. replace (length a <=? length a + k) with true by (symmetry; apply Nat.leb_le; lia). replace (length a + k <? length a + length b1) with true by (symmetry; apply Nat.ltb_lt; lia). cbn [andb].
    rewrite (app_assoc a b1). apply nth_mid; [rewrite app_length; lia|exact Hk].
  - apply (map_seq_at _ _ _ _ 0 eq_refl). intros k Hk. replace (length a + length b1 + k <? length a + length b1) with false by (symmetry; apply Nat.ltb_ge; lia). rewrite andb_false_r.
    replace (length a + length b1 <=? length a + length b1 + k) with true by (symmetry; apply Nat.leb_le; lia). replace (length a + length b1 + k <? length a + 2 * length b1) with true by (symmetry; apply Nat.ltb_lt; lia). cbn [andb].
    apply nth_mid; [lia|exact Hk].
  - apply (map_seq_at _ _ _ _ 0 eq_refl). intros k Hk. replace (length a + length b1 + length b1 + k <? length a + length b1) with false by (symmetry; apply Nat.ltb_ge; lia).
    replace (length a + length b1 + length b1 + k <? length a + 2 * length b1) with false by (symmetry; apply Nat.ltb_ge; lia). rewrite !andb_false_r.
    rewrite (app_assoc a b1), (app_assoc (a ++ b1)). apply nth_mid; [rewrite !app_length; lia|exact Hk].
  - apply (map_seq_at _ _ _ _ 0); [symmetry; exact Lt|]. intros k Hk. set (q := length a + length b1 + length b1 + length d + k). replace (q <? length a + length b1) with false by (symmetry; apply Nat.ltb_ge; lia).
    replace (q <? length a + 2 * length b1) with false by (symmetry; apply Nat.ltb_ge; lia). rewrite !andb_false_r. rewrite (app_assoc a b1), (app_assoc (a ++ b1)), (app_assoc ((a ++ b1) ++ b2)). rewrite app_nth2 by (rewrite !app_length; lia). f_equal. rewrite !app_length. lia.
Qed.

(** ** The factors read from a list of slots *)
Definition tslots (x : tensor) : nat := length (tlower x) + length (tupper x).
Definition one (x : tensor) (r : list idx) : tensor := Ten (tcls x) (titype x) (tname x) (tpriority x) (skipn (length (tlower x)) r) (firstn (length (tlower x)) r).
Fixpoint fac (xs : list tensor) (r : list idx) : list tensor :=
  match xs with [] => [] | x :: xs' => one x (firstn (tslots x) r) :: fac xs' (skipn (tslots x) r) end.
Definition fop (o : op) (r : list idx) : op := Op (skipn (length (ann o)) r) (firstn (length (ann o)) r).
Definition slots (xs : list tensor) : nat := list_sum (map tslots xs).
Definition oslots (o : op) : nat := length (ann o) + length (cre o).

Lemma slots_cons x xs : slots (x :: xs) = tslots x + slots xs.
Proof. reflexivity. Qed.
Lemma slots_app xs ys : slots (xs ++ ys) = slots xs + slots ys.
Proof. unfold slots. rewrite map_app. apply list_sum_app. Qed.
Lemma fac_app xs ys r q : length r = slots xs -> fac (xs ++ ys) (r ++ q) = fac xs r ++ fac ys q.
Proof.
  revert r. induction xs as [|x xs IH]; intros r L; cbn [app fac].
  - destruct r; [reflexivity|discriminate].
  - rewrite slots_cons in L. rewrite firstn_app, skipn_app. replace (tslots x - length r) with 0 by lia. cbn [firstn skipn]. rewrite app_nil_r. f_equal. apply IH. rewrite skipn_length. lia.
Qed.
Lemma fac_one x xs r q : length r = tslots x -> fac (x :: xs) (r ++ q) = one x r :: fac xs q.
Proof. intros L. cbn [fac]. rewrite firstn_at by (symmetry; exact L). rewrite skipn_at by (symmetry; exact L). reflexivity. Qed.
Lemma fac_rename rho xs r : fac xs (map rho r) = map (rename_tensor rho) (fac xs r).
Proof.
  revert r. induction xs as [|x xs IH]; intros r; [reflexivity|]. cbn [fac map]. rewrite firstn_map, skipn_map, IH. f_equal. unfold one, rename_tensor. cbn. rewrite firstn_map, skipn_map. reflexivity.
Qed.
Lemma fop_rename rho o r : fop o (map rho r) = rename_op rho (fop o r).
Proof. unfold fop, rename_op. cbn. rewrite firstn_map, skipn_map. reflexivity. Qed.
Lemma fac_self xs : fac xs (flat_map tensor_slots xs) = xs.
Proof.
  induction xs as [|x xs IH]; [reflexivity|]. cbn [flat_map]. rewrite fac_one by (unfold tensor_slots, tslots; apply app_length). rewrite IH. f_equal. unfold one, tensor_slots. rewrite firstn_at, skipn_at by reflexivity. destruct x; reflexivity.
Qed.
Lemma fop_self o : fop o (op_slots o) = o.
Proof. unfold fop, op_slots. rewrite firstn_at, skipn_at by reflexivity. destruct o; reflexivity. Qed.
Lemma fac_perm xs r : length r = slots xs -> Permutation (flat_map tensor_indices (fac xs r)) r.
Proof.
  revert r. induction xs as [|x xs IH]; intros r L; [destruct r; [constructor|discriminate]|]. rewrite slots_cons in L. cbn [fac flat_map]. rewrite IH by (rewrite skipn_length; lia).
  rewrite <- (firstn_skipn (tslots x) r) at 3. apply Permutation_app_tail. unfold tensor_indices, one. cbn. rewrite Permutation_app_comm, firstn_skipn. reflexivity.
Qed.
Lemma content_fac xs o ro rt : length rt = slots xs -> Permutation (content_indices (fac xs rt) (fop o ro)) (ro ++ rt).
Proof.
  intros L. unfold content_indices. rewrite fac_perm by exact L. apply Permutation_app_tail. unfold op_indices, fop. cbn. rewrite Permutation_app_comm, firstn_skipn. reflexivity.
Qed.

Section Product.
  Context (A : qalg) (S : system) (v : tvaluation A) (c : Qc) (xs : list tensor) (o : op) (h : nat -> idx).
  Add Ring alg_ring6 : (q_ring A).

  Definition val (ro rt : list nat) : A := content_value S v c (fac xs (map h rt)) (fop o (map h ro)).

  Lemma content_scale z ys p zs q : (forall i, In i (content_indices ys p) <-> In i (content_indices zs q)) -> (forall e, integrand v ys p e = (zin z * integrand v zs q e)%alg) ->
    content_value S v c ys p = (zin z * content_value S v c zs q)%alg.
  Proof.
    intros HI HE. unfold content_value. rewrite (sum_over_same A S _ (nodup idx_eq_dec (content_indices zs q)) (integrand v ys p)); [|apply NoDup_nodup|apply NoDup_nodup|intros i; rewrite !nodup_In; apply HI|apply integrand_depends].
    transitivity (inj c * (zin z * sum_over S (nodup idx_eq_dec (content_indices zs q)) (integrand v zs q)))%alg; [|ring]. f_equal. rewrite <- (sum_over_mul A S). apply sum_over_ext; [|apply NoDup_nodup]. intros e _. apply HE.
  Qed.
  Lemma aprod_cons x l : @aprod A (x :: l) = (x * aprod l)%alg.
  Proof. reflexivity. Qed.
  Lemma one_value e x r : tensor_value v e (one x r) = vtensor v (tcls x) (tname x) (skipn (length (tlower x)) (map e r)) (firstn (length (tlower x)) (map e r)).
  Proof. unfold tensor_value, one. cbn. rewrite skipn_map, firstn_map. reflexivity. Qed.
  Lemma act_map (g : nat -> nat) p b : Permutation (firstn (length b) p) (seq 0 (length b)) -> map g (act p b) = map (fun k => nth k (map g b) 0) (firstn (length b) p).
  Proof.
    intros P. unfold act. rewrite map_map. apply map_ext_in. intros k Hk. rewrite P in Hk. apply in_seq in Hk. rewrite (nth_indep (map g b) 0 (g 0)) by (rewrite map_length; lia). rewrite map_nth. reflexivity.
  Qed.
  Lemma symmetric_act F p (g : nat -> nat) b : has_symmetry A F (length b) p -> F (map g b) = (zin (psign (length b) p) * F (map g (act p b)))%alg.
  Proof. intros (_ & P & H). rewrite (H (map g b)) by apply map_length. rewrite (act_map g p b P). reflexivity. Qed.

  Lemma val_op_step ro rt p : length ro = oslots o -> length rt = slots xs ->
    has_symmetry A (fun b => voper v (skipn (length (ann o)) b) (firstn (length (ann o)) b)) (length ro) p -> val ro rt = (zin (psign (length ro) p) * val (act p ro) rt)%alg.
  Proof.
    intros Lo Lt HS. unfold val. apply content_scale.
    - intros i. rewrite !content_fac by (rewrite map_length; exact Lt). rewrite !in_app_iff. destruct HS as (_ & P & _). rewrite (Permutation_map h (act_perm p ro P)). reflexivity.
    - intros e. unfold integrand, op_value, fop. cbn [cre ann]. rewrite <- !skipn_map, <- !firstn_map, !map_map. rewrite (symmetric_act _ p (fun x => e (h x)) ro HS). ring.
  Qed.
  Lemma val_tensor_step ro a b d p xs1 x xs2 : xs = xs1 ++ x :: xs2 -> length a = slots xs1 -> length b = tslots x -> length d = slots xs2 ->
    has_symmetry A (fun b => vtensor v (tcls x) (tname x) (skipn (length (tlower x)) b) (firstn (length (tlower x)) b)) (length b) p ->
    val ro (a ++ b ++ d) = (zin (psign (length b) p) * val ro (a ++ act p b ++ d))%alg.
  Proof.
    intros E La Lb Ld HS. assert (Lx : slots xs = length a + (length b + length d)) by (rewrite E, slots_app; rewrite ?slots_cons; lia).
    assert (La' : length (act p b) = length b) by (apply act_length; apply HS). unfold val. apply content_scale.
    - intros i. rewrite !content_fac by (rewrite map_length, !app_length; lia). rewrite !map_app, !in_app_iff. destruct HS as (_ & P & _). rewrite (Permutation_map h (act_perm p b P)). reflexivity.
    - intros e. unfold integrand. rewrite E, !map_app. rewrite !fac_app by (rewrite map_length; exact La). rewrite !fac_one by (rewrite map_length; lia). rewrite !map_app, !(aprod_app A). cbn [map]. rewrite !aprod_cons. rewrite !one_value, !map_map.
      rewrite (symmetric_act _ p (fun x => e (h x)) b HS). ring.
  Qed.
  Lemma val_exchange_step ro a b1 b2 d xs1 x y xs2 : xs = xs1 ++ x :: y :: xs2 -> length a = slots xs1 -> length b1 = tslots x -> length b2 = tslots x -> tslots y = tslots x -> length (tlower y) = length (tlower x) -> tcls y = tcls x -> tname y = tname x -> length d = slots xs2 ->
    val ro (a ++ b1 ++ b2 ++ d) = val ro (a ++ b2 ++ b1 ++ d).
  Proof.
    intros E La L1 L2 Ly Ll Ec En Ld. assert (Lx : slots xs = length a + (length b1 + (length b2 + length d))) by (rewrite E, slots_app; rewrite ?slots_cons; lia).
    transitivity (zin 1 * val ro (a ++ b2 ++ b1 ++ d))%alg; [|rewrite (zin_1 A); ring]. unfold val. apply content_scale.
    - intros i. rewrite !content_fac by (rewrite map_length, !app_length; lia). rewrite !map_app, !in_app_iff. tauto.
    - intros e. unfold integrand. rewrite E, !map_app. rewrite !fac_app by (rewrite map_length; exact La). rewrite !(fac_one x) by (rewrite map_length; lia). rewrite !(fac_one y) by (rewrite map_length; lia).
      rewrite !map_app, !(aprod_app A). cbn [map]. rewrite !aprod_cons. rewrite !one_value, Ll, Ec, En, (zin_1 A). ring.
  Qed.
  Lemma val_rename ro rt ro' rt' tau : map h ro' = map tau (map h ro) -> map h rt' = map tau (map h rt) -> length rt = slots xs ->
    (forall i, In i (map h (ro ++ rt)) -> fst (tau i) = fst i) -> (forall i j, In i (map h (ro ++ rt)) -> In j (map h (ro ++ rt)) -> tau i = tau j -> i = j) -> val ro' rt' = val ro rt.
  Proof.
    intros E1 E2 L HF HI. unfold val. rewrite E1, E2, fac_rename, fop_rename. assert (Q : forall i, In i (content_indices (fac xs (map h rt)) (fop o (map h ro))) -> In i (map h (ro ++ rt))).
    { intros i Hi. rewrite content_fac in Hi by (rewrite map_length; exact L). rewrite map_app. exact Hi. }
    apply content_value_rename_inj; auto.
  Qed.
End Product.

(** ** Runs of equivalent tensors *)
Lemma gens_length t n h gens : base_strong_generating_set t n n h false = Ok gens -> length (hd [] gens) = n + n + 2.
Proof.
  intros H. set (v := TVal Qc_alg (fun _ _ _ _ => Q2Qc 0) (fun _ _ => Q2Qc 0)).
  destruct (tensor_symmetry Qc_alg v t TCumulant "" n h gens H) as [N Q]; try (intros _; repeat intro; reflexivity).
  - intros _. constructor; intros; repeat intro; cbn; apply Qc_is_canon; reflexivity.
  - destruct gens as [|p gens]; [congruence|]. apply (Q p). left. reflexivity.
Qed.

Inductive runs_ok (ty : itype) (h : bool) : list tensor -> list (list (list nat) * nat) -> Prop :=
| ro_nil : runs_ok ty h [] []
| ro_cons n name g xs gens runs : g <> [] -> (forall y, In y g -> tname y = name /\ length (tlower y) = n /\ length (tupper y) = n) ->
    base_strong_generating_set ty n n h false = Ok gens -> runs_ok ty h xs runs -> runs_ok ty h (g ++ xs) ((gens, length g) :: runs).

Lemma groupby_spec {B K} (eqk : K -> K -> bool) (key : B -> K) l : (forall a b, eqk a b = true -> a = b) ->
  concat (groupby eqk key l) = l /\ Forall (fun g => g <> [] /\ forall x y, In x g -> In y g -> key x = key y) (groupby eqk key l).
Proof.
  intros HE. induction l as [|x l [IH1 IH2]]; [split; [reflexivity|constructor]|]. cbn [groupby]. destruct (groupby eqk key l) as [|[|y ys] gs] eqn:E.
  - cbn in *. subst l. split; [reflexivity|]. constructor; [|constructor]. split; [discriminate|]. intros a b [<-|[]] [<-|[]]. reflexivity.
  - inversion IH2 as [|? ? [Q _] _]; subst. congruence.
  - inversion IH2 as [|? ? [Q1 Q2] Q3]; subst. destruct (eqk (key x) (key y)) eqn:Ek.
    + apply HE in Ek. split; [cbn in *; congruence|]. constructor; [|exact Q3]. split; [discriminate|]. assert (G : forall a, In a (x :: y :: ys) -> key a = key y).
      { intros a [<-|Ha]; [exact Ek|]. apply Q2; [exact Ha|left; reflexivity]. }
      intros a b Ha Hb. rewrite (G a Ha), (G b Hb). reflexivity.
    + split; [cbn in *; congruence|]. constructor; [|constructor; [split; assumption|exact Q3]]. split; [discriminate|]. intros a b [<-|[]] [<-|[]]. reflexivity.
Qed.
Lemma tensor_groups_ok ty h xs runs : Forall (fun x => titype x = ty) xs -> tensor_groups h xs = Ok runs -> runs_ok ty h xs runs.
Proof.
  intros HT H. unfold tensor_groups in H. destruct (pymap _ xs) as [keyed|] eqn:E; [|discriminate]. cbn [pybind] in H.
  assert (K : map fst keyed = xs /\ forall x n, In (x, n) keyed -> length (tlower x) = n /\ length (tupper x) = n).
  { clear H HT. revert keyed E. induction xs as [|x xs IH]; intros keyed E; cbn [pymap] in E; [injection E as <-; split; [reflexivity|intros ? ? []]|].
    unfold n_body in E at 1. destruct (length (tlower x) =? length (tupper x)) eqn:L; [|discriminate]. apply Nat.eqb_eq in L. cbn [pybind] in E. destruct (pymap _ xs) as [ks|] eqn:E'; [|discriminate]. cbn [pybind] in E. injection E as <-.
    destruct (IH ks eq_refl) as [I1 I2]. split; [cbn; congruence|]. intros y n [Q|Q]; [injection Q as <- <-; auto|apply I2, Q]. }
  destruct K as [K1 K2]. destruct (groupby_spec name_body_eqb (fun xn : tensor * nat => (tname (fst xn), snd xn)) keyed) as [G1 G2].
  { intros [a n] [b m]. unfold name_body_eqb. cbn. rewrite andb_true_iff, String.eqb_eq, Nat.eqb_eq. intros [-> ->]. reflexivity. }
  rewrite <- K1, <- G1 in HT. rewrite <- G1 in K2. rewrite <- K1, <- G1. clear E K1 G1. revert runs H HT K2. induction G2 as [|g gs [Q1 Q2] _ IH]; intros runs H HT K2; cbn [pymap] in H; [injection H as <-; constructor|].
  destruct g as [|[x n] g]; [congruence|]. destruct (base_strong_generating_set _ _ _ _ _) as [gens|] eqn:Eb; [|discriminate]. cbn [pybind] in H. destruct (pymap _ gs) as [rs|] eqn:Ep; [|discriminate]. cbn [pybind] in H. injection H as <-.
  cbn [concat]. rewrite map_app. 
  assert (EL : S (length g) = length (map fst ((x, n) :: g))) by (rewrite map_length; reflexivity). change (length ((x, n) :: g)) with (S (length g)) in *. rewrite EL.
  destruct (K2 x n) as [L1 L2]; [left; reflexivity|]. rewrite L1, L2 in Eb. cbn [concat] in HT. rewrite map_app in HT. apply Forall_app in HT as [HT1 HT2]. inversion HT1 as [|? ? T1 _]; subst ty. cbn [fst] in Eb.
  apply (ro_cons _ _ n (tname x)); [discriminate| |exact Eb|].
  - intros y Hy. apply in_map_iff in Hy as ([z m] & <- & Hz). pose proof (Q2 (z, m) (x, n) Hz (or_introl eq_refl)) as Q. cbn in Q. injection Q as Qa Qb. cbn [fst]. split; [exact Qa|]. rewrite <- Qb. apply K2. cbn [concat]. apply in_or_app. left. exact Hz.
  - apply IH; [reflexivity|exact HT2|]. intros y m Hy. apply K2. cbn [concat]. apply in_or_app. right. exact Hy.
Qed.

Lemma slots_same n g : (forall y, In y g -> length (tlower y) = n /\ length (tupper y) = n) -> slots g = length g * (n + n).
Proof. induction g as [|y g IH]; intros H; [reflexivity|]. rewrite slots_cons, IH by (intros z Hz; apply H; right; exact Hz). unfold tslots. destruct (H y (or_introl eq_refl)) as [-> ->]. cbn. lia. Qed.
Lemma slot_cases ty h xs runs N off s : runs_ok ty h xs runs -> In s (slot_symmetries N off runs) ->
  (exists xs1 x xs2 n gens p, xs = xs1 ++ x :: xs2 /\ length (tlower x) = n /\ length (tupper x) = n /\ base_strong_generating_set ty n n h false = Ok gens /\ In p gens /\ s = embed N (off + slots xs1) p) \/
  (exists xs1 x y xs2, xs = xs1 ++ x :: y :: xs2 /\ tname y = tname x /\ length (tlower y) = length (tlower x) /\ length (tupper y) = length (tupper x) /\ s = exchange N (off + slots xs1) (tslots x)).
Proof.
  intros R. revert off. induction R as [|n name g xs gens runs Hg HG HB _ IH]; intros off Hs; [destruct Hs|]. cbn [slot_symmetries] in Hs. rewrite (gens_length _ _ _ _ HB) in Hs. replace (n + n + 2 - 2) with (n + n) in Hs by lia.
  assert (HS : forall g1 g2, g = g1 ++ g2 -> slots g1 = length g1 * (n + n)). { intros g1 g2 E. apply slots_same. intros y Hy. apply (HG y). rewrite E. apply in_or_app. auto. }
  apply in_app_or in Hs as [Hs|Hs]; [|apply in_app_or in Hs as [Hs|Hs]].
  - left. apply in_flat_map in Hs as (c & Hc & Hs). apply in_seq in Hc. apply in_map_iff in Hs as (p & <- & Hp). destruct (skipn c g) as [|x g2] eqn:E; [apply (f_equal (@length _)) in E; rewrite skipn_length in E; cbn in E; lia|].
    assert (Eg : g = firstn c g ++ x :: g2) by (rewrite <- E, firstn_skipn; reflexivity). assert (Lc : length (firstn c g) = c) by (apply firstn_length_le; lia). exists (firstn c g), x, (g2 ++ xs), n, gens, p.
    destruct (HG x) as (_ & L1 & L2); [rewrite Eg; apply in_or_app; right; left; reflexivity|]. split; [rewrite Eg at 1; rewrite <- app_assoc; reflexivity|]. repeat (split; [assumption|]). rewrite (HS _ _ Eg), Lc. reflexivity.
  - right. apply in_map_iff in Hs as (c & <- & Hc). apply in_seq in Hc. destruct (skipn c g) as [|x [|y g2]] eqn:E; [apply (f_equal (@length _)) in E; rewrite skipn_length in E; cbn in E; lia|apply (f_equal (@length _)) in E; rewrite skipn_length in E; cbn in E; lia|].
    assert (Eg : g = firstn c g ++ x :: y :: g2) by (rewrite <- E, firstn_skipn; reflexivity). assert (Lc : length (firstn c g) = c) by (apply firstn_length_le; lia). exists (firstn c g), x, y, (g2 ++ xs).
    destruct (HG x) as (N1 & L1 & L2); [rewrite Eg; apply in_or_app; right; left; reflexivity|]. destruct (HG y) as (N1' & L1' & L2'); [rewrite Eg; apply in_or_app; right; right; left; reflexivity|].
    split; [rewrite Eg at 1; rewrite <- app_assoc; reflexivity|]. split; [congruence|]. split; [congruence|]. split; [congruence|]. rewrite (HS _ _ Eg), Lc. unfold tslots. rewrite L1, L2. reflexivity.
  - assert (Eo : slots g = length g * (n + n)) by (apply (HS g []); rewrite app_nil_r; reflexivity). apply IH in Hs as [(xs1 & x & xs2 & n' & gens' & p & -> & Q)|(xs1 & x & y & xs2 & -> & Q)]; [left|right].
    + exists (g ++ xs1), x, xs2, n', gens', p. rewrite <- app_assoc. split; [reflexivity|]. rewrite slots_app, Eo, Nat.add_assoc. exact Q.
    + exists (g ++ xs1), x, y, xs2. rewrite <- app_assoc. split; [reflexivity|]. rewrite slots_app, Eo, Nat.add_assoc. exact Q.
Qed.

(** ** Ranges of dummies *)
Lemma neighbours_cons {B} (x y : B) l : neighbours (x :: y :: l) = (x, y) :: neighbours (y :: l).
Proof. destruct l; reflexivity. Qed.
Lemma accumulate_neighbours {B} (gs : list (list B)) s a b : In (a, b) (neighbours (s :: accumulate s (map (@length B) gs))) ->
  exists gs1 g gs2, gs = gs1 ++ g :: gs2 /\ a = s + length (concat gs1) /\ b = a + length g.
Proof.
  revert s. induction gs as [|g gs IH]; intros s H; [destruct H|]. cbn [map accumulate] in H. rewrite neighbours_cons in H. destruct H as [H|H].
  - injection H as <- <-. exists [], g, gs. split; [reflexivity|]. cbn. lia.
  - apply IH in H as (gs1 & g' & gs2 & -> & -> & ->). exists (g :: gs1), g', gs2. split; [reflexivity|]. cbn. rewrite app_length. lia.
Qed.
Lemma dummy_ranges_spec dummy r d : In r (dummy_ranges dummy) -> exists a b, r = (2 * a, 2 * b) /\ a <= b /\ b <= length dummy /\
  forall k l, a <= k < b -> a <= l < b -> fst (nth k dummy d) = fst (nth l dummy d).
Proof.
  intros H. unfold dummy_ranges in H. apply in_map_iff in H as ([a b] & <- & H). apply accumulate_neighbours in H as (gs1 & g & gs2 & E & -> & ->). cbn [fst snd Nat.add].
  destruct (groupby_spec label_eqb (@fst label nat) dummy) as [G1 G2]; [intros x y; apply label_ext|]. rewrite E in G1, G2. exists (length (concat gs1)), (length (concat gs1) + length g). split; [reflexivity|].
  assert (L : length dummy = length (concat gs1) + (length g + length (concat gs2))) by (rewrite <- G1, concat_app; cbn [concat]; rewrite !app_length; reflexivity). split; [lia|]. split; [lia|].
  apply Forall_app in G2 as [_ G2]. inversion G2 as [|? ? [_ Q] _]; subst. intros k l Hk Hl. rewrite concat_app. cbn [concat].
  rewrite (nth_mid _ g _ d k (k - length (concat gs1))), (nth_mid _ g _ d l (l - length (concat gs1))) by lia. apply Q; apply nth_In; lia.
Qed.
