(** canonicalize_sympy: which forms of a product SymPy is told to be equal. Slots are words of labels, each with the index it stands for. *)
From Coq Require Import Ascii String ZArith QArith Qcanon Sorting.Sorted Lia.
From Verif Require Import PyBase OrderSpec OrderProofs SortProofs ParitySpec ParityProofs SpaceModel IndicesModel IterProofs IndicesProofs SpaceProofs ElemModel MacroModel TermModel ValueSpec ValueProofs TermSpec SumProofs TermProofs RenameProofs
  SimplifyProofs CanonProofs SymmetryModel SymmetrySpec SymmetryProofs SympyProofs SympyValue SympyShape.
Local Close Scope Q_scope.
Local Close Scope Qc_scope.
Local Open Scope nat_scope.
Local Notation length := List.length.

Lemma form_trans sl du g g' g'' : equivalent_form sl du g g' -> equivalent_form sl du g' g'' -> equivalent_form sl du g g''.
Proof. intros H. induction 1 as [|g1 s _ IH Hs|g1 d _ IH Hd]; [exact H|apply ef_slot; assumption|apply ef_dummy; assumption]. Qed.
Lemma pick_perm (l l' : list nat) : Permutation l l' -> exists p, Permutation p (seq 0 (length l)) /\ l' = map (fun k => nth k l 0) p.
Proof.
  intros H. rewrite <- (map_nth_seq 0 l) in H at 1. symmetry in H. apply Permutation_map_inv in H as (p & -> & P). exists p. split; [symmetry; exact P|reflexivity].
Qed.
Lemma act_compose a s b : length a = length b + 2 -> length s = length b + 2 -> Permutation (firstn (length b) s) (seq 0 (length b)) -> act (compose a s) b = act s (act a b).
Proof.
  intros La Ls P. unfold act at 1 2. rewrite act_length by exact La. unfold compose. rewrite firstn_map, map_map. apply map_ext_in. intros k Hk. rewrite P in Hk. apply in_seq in Hk. symmetry. apply act_nth; [exact La|lia].
Qed.
Lemma act_id b : act (seq 0 (length b + 2)) b = b.
Proof. unfold act. rewrite seq_app, firstn_at by (rewrite seq_length; reflexivity). apply map_nth_seq. Qed.
Lemma act_app p1 p2 tail (b1 b2 : list nat) : length p1 = length b1 -> length p2 = length b2 -> act (p1 ++ p2 ++ tail) (b1 ++ b2) = map (fun k => nth k (b1 ++ b2) 0) p1 ++ map (fun k => nth k (b1 ++ b2) 0) p2.
Proof. intros L1 L2. unfold act. rewrite app_assoc, firstn_at by (rewrite !app_length; lia). apply map_app. Qed.
Lemma pick_left p (b1 b2 : list nat) : Permutation p (seq 0 (length b1)) -> map (fun k => nth k (b1 ++ b2) 0) p = map (fun k => nth k b1 0) p.
Proof. intros P. apply map_ext_in. intros k Hk. rewrite P in Hk. apply in_seq in Hk. apply app_nth1. lia. Qed.
Lemma pick_right p (b1 b2 : list nat) : map (fun k => nth k (b1 ++ b2) 0) (map (fun k => k + length b1) p) = map (fun k => nth k b2 0) p.
Proof. rewrite map_map. apply map_ext. intros k. rewrite Nat.add_comm. apply app_nth2_plus. Qed.
Lemma shift_perm p n m : Permutation p (seq 0 m) -> Permutation (map (fun k => k + n) p) (seq n m).
Proof. intros ->. rewrite map_add_seq. reflexivity. Qed.

Definition signed (z : Z) : Prop := z = 1%Z \/ z = (-1)%Z.
Lemma signed_mul a b : signed a -> signed b -> signed (a * b).
Proof. intros [->| ->] [->| ->]; unfold signed; auto. Qed.

Section Words.
  Context (sl du : list (list nat)) (N : nat).
  Notation E := (equivalent_form sl du).
  (** the words of labels are the same form, up to a sign *)
  Definition near (W W' : list nat) : Prop := forall s, signed s -> exists s', signed s' /\ E (W ++ sign_tail N s) (W' ++ sign_tail N s').
  Lemma near_refl W : near W W.
  Proof. intros s Hs. exists s. split; [exact Hs|apply ef_refl]. Qed.
  Lemma near_trans W W' W'' : near W W' -> near W' W'' -> near W W''.
  Proof. intros H1 H2 s Hs. destruct (H1 s Hs) as (s' & Hs' & E1). destruct (H2 s' Hs') as (s'' & Hs'' & E2). exists s''. split; [exact Hs''|]. exact (form_trans _ _ _ _ _ E1 E2). Qed.

  Definition well_formed (sz : nat) (p : list nat) : Prop := length p = sz + 2 /\ Permutation (firstn sz p) (seq 0 sz).
  Lemma near_generated off sz gens : (forall p, In p gens -> In (embed N off p) sl) -> (forall p, In p gens -> well_formed sz p) ->
    forall a, generated (sz + 2) gens a -> forall A b D, length A = off -> length b = sz -> length (A ++ b ++ D) = N -> length a = sz + 2 /\ near (A ++ b ++ D) (A ++ act a b ++ D).
  Proof.
    intros HI HW a G A b D LA Lb LN. induction G as [|a s _ [La IH] Hs].
    - rewrite <- Lb at 3. rewrite act_id, seq_length. split; [reflexivity|apply near_refl].
    - destruct (HW s Hs) as [Ls Ps]. split; [unfold compose; rewrite map_length; exact Ls|]. rewrite act_compose; [|lia|lia|rewrite Lb; exact Ps]. eapply near_trans; [exact IH|]. intros z Hz.
      exists (z * psign (length (act a b)) s)%Z. split; [apply signed_mul; [exact Hz|apply psign_pm]|]. pose proof (act_length a b ltac:(lia)) as Lab.
      pose proof (embed_step N A (act a b) D s z) as Q. rewrite LA in Q. rewrite <- Q; [|rewrite !app_length in *; lia|lia|rewrite Lab, Lb; exact Ps|exact Hz]. apply ef_slot; [apply ef_refl|apply HI, Hs].
  Qed.

  Lemma near_blocks off n1 n2 gens A b1 b2 b1' b2' D : (forall p, In p gens -> In (embed N off p) sl) -> (forall p, In p gens -> well_formed (n1 + n2) p) ->
    (forall a, block_permutation n1 n2 a -> generated (n1 + n2 + 2) gens a) -> length A = off -> length b1 = n1 -> length b2 = n2 -> length (A ++ (b1 ++ b2) ++ D) = N ->
    Permutation b1 b1' -> Permutation b2 b2' -> near (A ++ (b1 ++ b2) ++ D) (A ++ (b1' ++ b2') ++ D).
  Proof.
    intros HI HW HG LA L1 L2 LN P1 P2. destruct (pick_perm b1 b1' P1) as (p1 & Q1 & E1). destruct (pick_perm b2 b2' P2) as (p2 & Q2 & E2).
    set (q2 := map (fun k => k + length b1) p2). assert (Q2' : Permutation q2 (seq n1 n2)) by (rewrite <- L1, <- L2; apply shift_perm, Q2).
    assert (G := HG (p1 ++ q2 ++ sign_tail (n1 + n2) (parity p1 * parity q2))). destruct (near_generated off (n1 + n2) gens HI HW _ (G ltac:(exists p1, q2; rewrite <- L1 at 1; auto)) A (b1 ++ b2) D LA) as [_ R]; [rewrite app_length; lia|exact LN|].
    rewrite act_app in R; [|rewrite (Permutation_length Q1), seq_length; reflexivity|unfold q2; rewrite map_length, (Permutation_length Q2), seq_length; reflexivity].
    rewrite pick_left in R by exact Q1. unfold q2 in R. rewrite pick_right in R. rewrite <- E1, <- E2 in R. exact R.
  Qed.
  Lemma near_crossed off n gens A b1 b2 b1' b2' D : (forall p, In p gens -> In (embed N off p) sl) -> (forall p, In p gens -> well_formed (n + n) p) ->
    (forall a, exchanged_permutation n a -> generated (n + n + 2) gens a) -> length A = off -> length b1 = n -> length b2 = n -> length (A ++ (b1 ++ b2) ++ D) = N ->
    Permutation b1 b2' -> Permutation b2 b1' -> near (A ++ (b1 ++ b2) ++ D) (A ++ (b1' ++ b2') ++ D).
  Proof.
    intros HI HW HG LA L1 L2 LN P1 P2. destruct (pick_perm b1 b2' P1) as (p1 & Q1 & E1). destruct (pick_perm b2 b1' P2) as (p2 & Q2 & E2).
    set (q2 := map (fun k => k + length b1) p2). assert (Q2' : Permutation q2 (seq n n)) by (rewrite <- L1 at 1; rewrite <- L2; apply shift_perm, Q2). assert (Q1' : Permutation p1 (seq 0 n)) by (rewrite <- L1; exact Q1).
    assert (G := HG (q2 ++ p1 ++ sign_tail (2 * n) (parity q2 * parity p1))). destruct (near_generated off (n + n) gens HI HW _ (G (ex_intro _ q2 (ex_intro _ p1 (conj Q2' (conj Q1' eq_refl))))) A (b1 ++ b2) D LA) as [_ R]; [rewrite app_length; lia|exact LN|].
    assert (L12 : length b2 = length b1) by lia. unfold act in R. rewrite (app_assoc q2 p1), firstn_at in R.
    2: { rewrite !app_length. unfold q2. rewrite map_length, (Permutation_length Q1), (Permutation_length Q2), !seq_length. lia. }
    rewrite map_app, (pick_left p1) in R by exact Q1. unfold q2 in R. rewrite pick_right in R. rewrite <- E1, <- E2 in R. exact R.
  Qed.
  Lemma near_exchange off sz A b1 b2 D : In (exchange N off sz) sl -> length A = off -> length b1 = sz -> length b2 = sz -> length (A ++ b1 ++ b2 ++ D) = N -> near (A ++ b1 ++ b2 ++ D) (A ++ b2 ++ b1 ++ D).
  Proof.
    intros HI LA L1 L2 LN s Hs. exists s. split; [exact Hs|]. pose proof (exchange_step N A b1 b2 D (sign_tail N s) LN) as Q. rewrite LA, L1 in Q. rewrite <- Q; [|lia|destruct (sign_tail_two N s) as (? & ? & ->); reflexivity]. apply ef_slot; [apply ef_refl|exact HI].
  Qed.
End Words.
