(** The generators of the slot symmetries. *)
From Coq Require Import ZArith.
From Verif Require Import PyBase ParitySpec ParityProofs SpaceModel IndicesModel ElemModel SymmetryModel SymmetrySpec.

(** ** seq, nth *)
Lemma map_nth_seq {A} (d : A) l : map (fun k => nth k l d) (seq 0 (length l)) = l.
Proof.
  induction l as [|x l IH]; [reflexivity|]. cbn [length seq map nth]. f_equal. rewrite <- seq_shift, map_map. exact IH.
Qed.
Lemma map_nth_block {A} (d : A) a b c : map (fun k => nth k (a ++ b ++ c) d) (seq (length a) (length b)) = b.
Proof.
  revert a. induction b as [|x b IH]; intros a; [reflexivity|]. cbn [length seq map]. f_equal.
  - rewrite app_nth2, Nat.sub_diag by lia. reflexivity.
  - specialize (IH (a ++ [x])). rewrite app_length, Nat.add_1_r in IH. rewrite <- app_assoc in IH. exact IH.
Qed.
Lemma map_add_seq k a n : map (fun x => x + k) (seq a n) = seq (a + k) n.
Proof. revert a. induction n as [|n IH]; intros a; [reflexivity|]. cbn [seq map]. f_equal. apply (IH (S a)). Qed.
Lemma map_id_in {A} (f : A -> A) l : (forall x, In x l -> f x = x) -> map f l = l.
Proof. intros H. rewrite <- (map_id l) at 2. apply map_ext_in. exact H. Qed.

(** ** Neighbour transpositions *)
Definition adj (n i : nat) : list nat := seq 0 i ++ [S i; i] ++ seq (S (S i)) (n - i - 2) ++ [n + 1; n].
Definition exch (n : nat) : list nat := seq n n ++ seq 0 n ++ [2 * n; 2 * n + 1].
Definition adj2 (n i : nat) : list nat :=
  (seq 0 i ++ [S i; i] ++ seq (S (S i)) (n - i - 2)) ++ (seq n i ++ [n + S i; n + i] ++ seq (n + S (S i)) (n - i - 2)) ++ [2 * n; 2 * n + 1].

Lemma neighbours_seq a n : neighbours (seq a n) = map (fun i => (i, S i)) (seq a (n - 1)).
Proof.
  unfold neighbours. revert a. induction n as [|n IH]; intros a; [reflexivity|]. destruct n as [|n]; [reflexivity|].
  cbn [Nat.sub] in *. rewrite Nat.sub_0_r in *. specialize (IH (S a)). cbn [seq removelast tl combine map] in *. f_equal. exact IH.
Qed.
Lemma swapped_fix i j k : k <> i -> k <> j -> swapped i j k = k.
Proof. intros H1 H2. unfold swapped. destruct (Nat.eqb_spec k i), (Nat.eqb_spec k j); congruence. Qed.
Lemma swapped_l i j : swapped i j i = j.
Proof. unfold swapped. rewrite Nat.eqb_refl. reflexivity. Qed.
Lemma swapped_r i j : swapped i j j = i.
Proof. unfold swapped. destruct (Nat.eqb_spec j i); [congruence|]. rewrite Nat.eqb_refl. reflexivity. Qed.
Lemma seq_split3 i n : S i < n -> seq 0 n = seq 0 i ++ [i; S i] ++ seq (S (S i)) (n - i - 2).
Proof. intros H. replace n with (i + (2 + (n - i - 2))) at 1 by lia. rewrite !seq_app. cbn [Nat.add]. f_equal. f_equal. f_equal; lia. Qed.
Lemma map_swapped_seq i n : S i < n -> map (swapped i (S i)) (seq 0 n) = seq 0 i ++ [S i; i] ++ seq (S (S i)) (n - i - 2).
Proof.
  intros H. rewrite (seq_split3 i n H), !map_app. cbn [map]. rewrite swapped_l, swapped_r. f_equal; [|f_equal].
  - apply map_id_in. intros x Hx. apply in_seq in Hx. apply swapped_fix; lia.
  - apply map_id_in. intros x Hx. apply in_seq in Hx. apply swapped_fix; lia.
Qed.
Lemma adj_array n i : S i < n -> map (fun k => swapped n (n + 1) (swapped i (S i) k)) (seq 0 (n + 2)) = adj n i.
Proof.
  intros H. rewrite <- (map_map (swapped i (S i)) (swapped n (n + 1))). rewrite map_swapped_seq by lia. unfold adj.
  replace (n + 2 - i - 2) with ((n - i - 2) + 2) by lia. rewrite seq_app, !map_app. cbn [seq map]. replace (S (S i) + (n - i - 2)) with n by lia.
  rewrite swapped_l. replace (S n) with (n + 1) by lia. rewrite swapped_r. rewrite !swapped_fix by lia.
  rewrite !map_id_in; [reflexivity| |]; intros x Hx; apply in_seq in Hx; apply swapped_fix; lia.
Qed.
Lemma set_nth_app {A} (a : list A) x b v : set_nth (length a) v (a ++ x :: b) = a ++ v :: b.
Proof. induction a as [|y a IH]; [reflexivity|]. cbn. rewrite IH. reflexivity. Qed.
Lemma set_nth_at {A} k (a : list A) x b v : k = length a -> set_nth k v (a ++ x :: b) = a ++ v :: b.
Proof. intros ->. apply set_nth_app. Qed.

Lemma exchange_array_spec n : exchange_array (2 * n + 2) (combine (seq 0 n) (seq n n)) = exch n.
Proof.
  unfold exchange_array. assert (G : forall m k, k + m = n ->
    fold_left (fun p ij => set_nth (snd ij) (fst ij) (set_nth (fst ij) (snd ij) p)) (combine (seq k m) (seq (n + k) m))
      (seq n k ++ seq k m ++ seq 0 k ++ seq (n + k) m ++ [2 * n; 2 * n + 1]) = exch n).
  { induction m as [|m IH]; intros k H.
    - cbn [seq combine fold_left app]. unfold exch. replace k with n by lia. reflexivity.
    - cbn [seq combine fold_left fst snd]. rewrite <- (IH (S k)) by lia. replace (n + S k) with (S (n + k)) by lia. f_equal.
      rewrite <- app_comm_cons. rewrite set_nth_at by (rewrite seq_length; reflexivity).
      replace (seq n k ++ (n + k) :: seq (S k) m ++ seq 0 k ++ ((n + k) :: seq (S (n + k)) m) ++ [2 * n; 2 * n + 1])
        with ((seq n k ++ (n + k) :: seq (S k) m ++ seq 0 k) ++ (n + k) :: seq (S (n + k)) m ++ [2 * n; 2 * n + 1]) by (repeat (rewrite <- ?app_assoc, <- ?app_comm_cons; cbn [app]); reflexivity).
      rewrite set_nth_at by (rewrite !app_length; cbn [length]; rewrite app_length, !seq_length; lia).
      rewrite (seq_S k n), (seq_S k 0). cbn [Nat.add]. repeat (rewrite <- ?app_assoc, <- ?app_comm_cons; cbn [app]). reflexivity. }
  specialize (G n 0 eq_refl). rewrite Nat.add_0_r in G. cbn [seq app] in G. rewrite <- G. f_equal.
  replace (2 * n + 2) with (n + (n + 2)) by lia. rewrite !seq_app. cbn [Nat.add seq]. rewrite ?Nat.add_0_r. replace (n + n) with (2 * n) by lia. replace (S (2 * n)) with (2 * n + 1) by lia. reflexivity.
Qed.
Lemma adj2_array n i : S i < n -> map (fun k => swapped (i + n) (S i + n) (swapped i (S i) k)) (seq 0 (2 * n + 2)) = adj2 n i.
Proof.
  intros H. rewrite <- (map_map (swapped i (S i)) (swapped (i + n) (S i + n))). rewrite map_swapped_seq by lia. unfold adj2.
  replace (2 * n + 2 - i - 2) with ((n - i - 2) + (i + (2 + ((n - i - 2) + 2)))) by lia. rewrite !seq_app, !map_app. cbn [seq map].
  replace (S (S i) + (n - i - 2)) with n by lia. replace (i + n) with (n + i) by lia. replace (S i + n) with (S (n + i)) by lia. rewrite swapped_l, swapped_r, !swapped_fix by lia.
  replace (n + i + 2) with (S (S (n + i))) by lia. replace (S (S (n + i)) + (n - i - 2)) with (2 * n) by lia.
  rewrite !map_id_in; [| | | |]; try (intros x Hx; apply in_seq in Hx; apply swapped_fix; lia).
  repeat (rewrite <- ?app_assoc, <- ?app_comm_cons; cbn [app]). replace (n + S (S i)) with (S (S (n + i))) by lia. replace (n + S i) with (S (n + i)) by lia. replace (S (2 * n)) with (2 * n + 1) by lia. reflexivity.
Qed.

(** the generators, by shape *)
Lemma sym_perms_spec n h : sym_perms n n h = Ok (map (adj2 n) (seq 0 (n - 1)) ++ [if h then exch n else seq 0 (2 * n + 2)]).
Proof.
  unfold sym_perms. rewrite Nat.eqb_refl. f_equal. f_equal.
  - rewrite neighbours_seq, map_map. apply map_ext_in. intros i Hi. apply in_seq in Hi. cbn [fst snd]. apply adj2_array. lia.
  - destruct h; [rewrite exchange_array_spec; reflexivity|reflexivity].
Qed.
Lemma asym_hermitian_spec n : asym_perms n n true = Ok (map (adj (n + n)) (seq 0 (n - 1)) ++ map (adj (n + n)) (seq n (n - 1)) ++ [exch n]).
Proof.
  unfold asym_perms. rewrite Nat.eqb_refl. replace (n + n - n) with n by lia. f_equal. f_equal; [|f_equal].
  - rewrite neighbours_seq, map_map. apply map_ext_in. intros i Hi. apply in_seq in Hi. cbn [fst snd]. apply adj_array. lia.
  - rewrite neighbours_seq, map_map. apply map_ext_in. intros i Hi. apply in_seq in Hi. cbn [fst snd]. apply adj_array. lia.
  - replace (n + n + 2) with (2 * n + 2) by lia. rewrite exchange_array_spec. reflexivity.
Qed.
Lemma key_eqb_eq' a b : key_eqb a b = true <-> a = b.
Proof.
  revert b. induction a as [|x a IH]; intros [|y b]; cbn; split; intros H; try discriminate; try reflexivity.
  - apply andb_true_iff in H as [H1 H2]. apply Nat.eqb_eq in H1 as ->. apply IH in H2 as ->. reflexivity.
  - injection H as -> ->. rewrite Nat.eqb_refl. apply IH. reflexivity.
Qed.
Lemma sgs_in n p : 1 <= n -> In p (get_symmetric_group_sgs n) <-> (n = 1 /\ p = seq 0 3) \/ exists i, S i < n /\ p = adj n i.
Proof.
  intros Hn. unfold get_symmetric_group_sgs. destruct (Nat.eqb_spec n 1) as [->|H1].
  - cbn [In]. split; [intros [<-|[]]; auto|]. intros [[_ ->]|(i & Hi & _)]; [auto|lia].
  - rewrite neighbours_seq, map_map. rewrite in_map_iff. cbn [fst snd]. split.
    + intros (i & <- & Hi). apply in_seq in Hi. right. exists i. split; [lia|]. rewrite map_swapped_seq by lia. unfold adj. rewrite <- !app_assoc. reflexivity.
    + intros [[? _]|(i & Hi & ->)]; [congruence|]. exists i. split; [|apply in_seq; lia]. rewrite map_swapped_seq by lia. unfold adj. rewrite <- !app_assoc. reflexivity.
Qed.
Lemma adj_length n i : S i < n -> length (adj n i) = n + 2.
Proof. intros H. unfold adj. rewrite !app_length, !seq_length. cbn [length]. lia. Qed.
Lemma adj_not_id n i : S i < n -> adj n i <> seq 0 (n + 2).
Proof.
  intros H E. apply (f_equal (fun l => nth n l 0)) in E. rewrite seq_nth in E by lia. unfold adj in E. rewrite !app_assoc in E. rewrite app_nth2 in E by (rewrite !app_length, !seq_length; cbn; lia).
  rewrite !app_length, !seq_length in E. cbn [length] in E. replace (n - (i + 2 + (n - i - 2))) with 0 in E by lia. cbn in E. lia.
Qed.
Lemma sgs_head n : 1 <= n -> exists h gs, get_symmetric_group_sgs n = h :: gs /\ length h = n + 2.
Proof.
  intros H. destruct (get_symmetric_group_sgs n) as [|h gs] eqn:E.
  - exfalso. destruct (Nat.eq_dec n 1) as [->|H1]; [discriminate|]. assert (X : In (adj n 0) []); [|destruct X]. rewrite <- E. apply sgs_in; [exact H|]. right. exists 0. split; [lia|reflexivity].
  - exists h, gs. split; [reflexivity|]. assert (X : In h (h :: gs)) by (left; reflexivity). rewrite <- E in X. apply sgs_in in X as [[-> ->]|(i & Hi & ->)]; [reflexivity| |exact H]. apply adj_length, Hi.
Qed.
Lemma firstn_at {A} k (a b : list A) : k = length a -> firstn k (a ++ b) = a.
Proof. intros ->. rewrite firstn_app, firstn_all, Nat.sub_diag. apply app_nil_r. Qed.
Lemma skipn_at {A} k (a b : list A) : k = length a -> skipn k (a ++ b) = b.
Proof. intros ->. rewrite skipn_app, skipn_all, Nat.sub_diag. reflexivity. Qed.
Lemma adj_left n1 n2 i : S i < n1 -> firstn n1 (adj n1 i) ++ seq n1 n2 ++ map (fun x => x + n2) (skipn n1 (adj n1 i)) = adj (n1 + n2) i.
Proof.
  intros H. unfold adj. rewrite !app_assoc. set (a := (seq 0 i ++ [S i; i]) ++ seq (S (S i)) (n1 - i - 2)). assert (L : length a = n1) by (unfold a; rewrite !app_length, !seq_length; cbn; lia).
  rewrite firstn_at, skipn_at by (symmetry; exact L). cbn [map]. unfold a.
  replace (n1 + n2 - i - 2) with ((n1 - i - 2) + n2) by lia. rewrite seq_app. replace (S (S i) + (n1 - i - 2)) with n1 by lia. rewrite <- !app_assoc. replace (n1 + 1 + n2) with (n1 + n2 + 1) by lia. reflexivity.
Qed.
Lemma adj_right n1 n2 i : S i < n2 -> seq 0 n1 ++ map (fun x => x + n1) (adj n2 i) = adj (n1 + n2) (n1 + i).
Proof.
  intros H. unfold adj. rewrite !map_app, !map_add_seq. rewrite (seq_app n1 i 0). cbn [map Nat.add]. rewrite <- !app_assoc. replace (n1 + n2 - (n1 + i) - 2) with (n2 - i - 2) by lia.
  replace (S (S i) + n1) with (S (S (n1 + i))) by lia. replace (S (i + n1)) with (S (n1 + i)) by lia. replace (i + n1) with (n1 + i) by lia. replace (n2 + 1 + n1) with (n1 + n2 + 1) by lia. replace (n2 + n1) with (n1 + n2) by lia. reflexivity.
Qed.
Lemma asym_plain_spec n1 n2 : 1 <= n1 -> 1 <= n2 -> exists gens, asym_perms n1 n2 false = Ok gens /\ gens <> [] /\
  (forall i, S i < n1 \/ n1 <= i /\ S i < n1 + n2 -> In (adj (n1 + n2) i) gens) /\
  (forall p, In p gens -> p = seq 0 (n1 + n2 + 2) \/ exists i, (S i < n1 \/ n1 <= i /\ S i < n1 + n2) /\ p = adj (n1 + n2) i).
Proof.
  intros H1 H2. unfold asym_perms. destruct (sgs_head n1 H1) as (h1 & gs1 & E1 & L1). destruct (sgs_head n2 H2) as (h2 & gs2 & E2 & L2).
  unfold direct_product. rewrite E1, E2. rewrite <- E1, <- E2. rewrite L1, L2. replace (n1 + 2 - 2) with n1 by lia. replace (n2 + 2 - 2) with n2 by lia.
  set (all := _ ++ _). assert (HA : forall p, In p all -> p = seq 0 (n1 + n2 + 2) \/ exists i, (S i < n1 \/ n1 <= i /\ S i < n1 + n2) /\ p = adj (n1 + n2) i).
  { intros p Hp. unfold all in Hp. apply in_app_or in Hp as [Hp|Hp]; apply in_map_iff in Hp as (q & <- & Hq).
    - apply sgs_in in Hq as [[-> ->]|(i & Hi & ->)]; [| |exact H1].
      + left. cbn [firstn skipn seq map app]. f_equal. replace (1 + n2 + 2) with (S (n2 + 2)) by lia. cbn [seq Nat.add]. rewrite seq_app. cbn [seq Nat.add]. reflexivity.
      + right. exists i. split; [lia|]. apply adj_left, Hi.
    - apply sgs_in in Hq as [[-> ->]|(i & Hi & ->)]; [| |exact H2].
      + left. rewrite map_add_seq. replace (n1 + 1 + 2) with (n1 + 3) by lia. rewrite (seq_app n1 3 0). reflexivity.
      + right. exists (n1 + i). split; [lia|]. apply adj_right, Hi. }
  assert (HB : forall i, S i < n1 \/ n1 <= i /\ S i < n1 + n2 -> In (adj (n1 + n2) i) all).
  { intros i [Hi|[Hi Hj]]; unfold all; apply in_or_app; [left|right]; apply in_map_iff.
    - exists (adj n1 i). split; [apply adj_left, Hi|]. apply sgs_in; [exact H1|]. right. exists i. auto.
    - exists (adj n2 (i - n1)). split; [|apply sgs_in; [exact H2|]; right; exists (i - n1); split; [lia|reflexivity]]. rewrite adj_right by lia. f_equal. lia. }
  clearbody all. set (f := filter _ all). assert (HF : forall p, In p f <-> In p all /\ p <> seq 0 (n1 + n2 + 2)).
  { intros p. unfold f. rewrite filter_In, negb_true_iff. split; intros [X Y]; (split; [exact X|]).
    - intros ->. rewrite (proj2 (key_eqb_eq' _ _) eq_refl) in Y. discriminate.
    - destruct (key_eqb p _) eqn:E; [|reflexivity]. apply key_eqb_eq' in E. contradiction. }
  clearbody f. assert (HC : forall i, S i < n1 \/ n1 <= i /\ S i < n1 + n2 -> In (adj (n1 + n2) i) f) by (intros i Hi; apply HF; split; [apply HB, Hi|apply adj_not_id; lia]).
  destruct f as [|x f'] eqn:Ef.
  - eexists. split; [reflexivity|]. split; [discriminate|]. split; [intros i Hi; destruct (HC i Hi)|]. intros p [<-|[]]. auto.
  - eexists. split; [reflexivity|]. split; [discriminate|]. split; [exact HC|]. intros p Hp. apply HF in Hp as [Hp _]. apply HA, Hp.
Qed.

(** ** Composition with a generator *)
Lemma compose_app a s t : compose a (s ++ t) = compose a s ++ compose a t.
Proof. apply map_app. Qed.
Lemma compose_block a b c : compose (a ++ b ++ c) (seq (length a) (length b)) = b.
Proof. apply map_nth_block. Qed.
Lemma compose_at a b c k m : k = length a -> m = length b -> compose (a ++ b ++ c) (seq k m) = b.
Proof. intros -> ->. apply map_nth_block. Qed.
Lemma nth_at {A} (a : list A) x c d k : k = length a -> nth k (a ++ x :: c) d = x.
Proof. intros ->. rewrite app_nth2, Nat.sub_diag by lia. reflexivity. Qed.

Lemma compose_adj p x y q s t n : length p + length q + 2 = n -> compose (p ++ x :: y :: q ++ [s; t]) (adj n (length p)) = p ++ y :: x :: q ++ [t; s].
Proof.
  intros H. unfold adj. rewrite !compose_app. f_equal; [|change (y :: x :: q ++ [t; s]) with ([y; x] ++ q ++ [t; s]); f_equal; [|f_equal]].
  - change (p ++ x :: y :: q ++ [s; t]) with ([] ++ p ++ (x :: y :: q ++ [s; t])). apply compose_at; reflexivity.
  - unfold compose. cbn [map]. f_equal; [|f_equal].
    + replace (p ++ x :: y :: q ++ [s; t]) with ((p ++ [x]) ++ y :: q ++ [s; t]) by (rewrite <- app_assoc; reflexivity). apply nth_at. rewrite app_length. cbn. lia.
    + apply nth_at. reflexivity.
  - replace (p ++ x :: y :: q ++ [s; t]) with ((p ++ [x; y]) ++ q ++ [s; t]) by (rewrite <- app_assoc; reflexivity). apply compose_at; [rewrite app_length; cbn; lia|lia].
  - unfold compose. cbn [map]. replace (p ++ x :: y :: q ++ [s; t]) with ((p ++ [x; y] ++ q) ++ [s; t]) by (rewrite <- !app_assoc; reflexivity).
    rewrite !(app_nth2 (p ++ [x; y] ++ q)) by (rewrite !app_length; cbn; lia). rewrite !app_length. cbn [length]. replace (n + 1 - _) with 1 by lia. replace (n - _) with 0 by lia. reflexivity.
Qed.
Lemma compose_exch b1 b2 s t n : length b1 = n -> length b2 = n -> compose (b1 ++ b2 ++ [s; t]) (exch n) = b2 ++ b1 ++ [s; t].
Proof.
  intros H1 H2. unfold exch. rewrite !compose_app. f_equal; [|f_equal].
  - apply compose_at; congruence.
  - change (b1 ++ b2 ++ [s; t]) with ([] ++ b1 ++ (b2 ++ [s; t])). apply compose_at; [reflexivity|congruence].
  - unfold compose. cbn [map]. rewrite app_assoc. rewrite !(app_nth2 (b1 ++ b2)) by (rewrite !app_length; lia). rewrite app_length. replace (2 * n + 1 - _) with 1 by lia. replace (2 * n - _) with 0 by lia. reflexivity.
Qed.
Lemma compose_id a n : length a = n -> compose a (seq 0 n) = a.
Proof. intros <-. apply map_nth_seq. Qed.
Lemma compose_adj2 p x y q p' x' y' q' s t n : length p + length q + 2 = n -> length p' = length p -> length q' = length q ->
  compose ((p ++ x :: y :: q) ++ (p' ++ x' :: y' :: q') ++ [s; t]) (adj2 n (length p)) = (p ++ y :: x :: q) ++ (p' ++ y' :: x' :: q') ++ [s; t].
Proof.
  intros H H1 H2. unfold adj2. set (l := (p ++ x :: y :: q) ++ _).
  assert (G : forall a b c k m, l = a ++ b ++ c -> k = length a -> m = length b -> compose l (seq k m) = b) by (intros a b c k m -> ? ?; apply compose_at; assumption).
  assert (N : forall a z c k, l = a ++ z :: c -> k = length a -> nth k l 0 = z) by (intros a z c k -> ?; apply nth_at; assumption).
  rewrite !compose_app. f_equal; [|f_equal].
  - change (p ++ y :: x :: q) with (p ++ [y; x] ++ q). f_equal; [|f_equal].
    + apply (G [] p ((x :: y :: q) ++ (p' ++ x' :: y' :: q') ++ [s; t])); [unfold l; rewrite <- !app_assoc; reflexivity|reflexivity|reflexivity].
    + unfold compose. cbn [map]. rewrite (N (p ++ [x]) y (q ++ (p' ++ x' :: y' :: q') ++ [s; t])); [|unfold l; rewrite <- !app_assoc; reflexivity|rewrite app_length; cbn; lia].
      rewrite (N p x ((y :: q) ++ (p' ++ x' :: y' :: q') ++ [s; t])); [reflexivity|unfold l; rewrite <- !app_assoc; reflexivity|reflexivity].
    + apply (G (p ++ [x; y]) q ((p' ++ x' :: y' :: q') ++ [s; t])); [unfold l; rewrite <- !app_assoc; reflexivity|rewrite app_length; cbn; lia|lia].
  - change (p' ++ y' :: x' :: q') with (p' ++ [y'; x'] ++ q'). f_equal; [|f_equal].
    + apply (G (p ++ x :: y :: q) p' ((x' :: y' :: q') ++ [s; t])); [unfold l; rewrite <- !app_assoc; reflexivity|rewrite app_length; cbn; lia|lia].
    + unfold compose. cbn [map]. rewrite (N ((p ++ x :: y :: q) ++ p' ++ [x']) y' (q' ++ [s; t])); [|unfold l; rewrite <- !app_assoc; reflexivity|rewrite !app_length; cbn; lia].
      rewrite (N ((p ++ x :: y :: q) ++ p') x' ((y' :: q') ++ [s; t])); [reflexivity|unfold l; rewrite <- !app_assoc; reflexivity|rewrite !app_length; cbn; lia].
    + apply (G ((p ++ x :: y :: q) ++ p' ++ [x'; y']) q' [s; t]); [unfold l; rewrite <- !app_assoc; reflexivity|rewrite !app_length; cbn; lia|lia].
  - unfold compose. cbn [map]. rewrite (N ((p ++ x :: y :: q) ++ p' ++ x' :: y' :: q') s [t]); [|unfold l; rewrite <- !app_assoc; reflexivity|rewrite !app_length; cbn; lia].
    rewrite (N (((p ++ x :: y :: q) ++ p' ++ x' :: y' :: q') ++ [s]) t []); [reflexivity|unfold l; rewrite <- !app_assoc; reflexivity|rewrite !app_length; cbn; lia].
Qed.

(** ** The generated groups *)
Lemma sign_tail_two n s : exists x y, sign_tail n s = [x; y].
Proof. unfold sign_tail. destruct (s =? 1)%Z; eauto. Qed.
Lemma sign_tail_opp n s x y : s = 1%Z \/ s = (-1)%Z -> sign_tail n s = [x; y] -> [y; x] = sign_tail n (- s).
Proof. intros [->| ->]; cbn; intros H; injection H as <- <-; reflexivity. Qed.
Lemma parity_pm b : parity b = 1%Z \/ parity b = (-1)%Z.
Proof. apply sgn_pm. Qed.
Lemma parity_mul_pm a b : (parity a * parity b = 1 \/ parity a * parity b = -1)%Z.
Proof. destruct (parity_pm a) as [->| ->], (parity_pm b) as [->| ->]; cbn; auto. Qed.
Lemma parity_swap p x y q : NoDup (p ++ x :: y :: q) -> parity (p ++ y :: x :: q) = (- parity (p ++ x :: y :: q))%Z.
Proof.
  intros N. unfold parity. rewrite (inversions_swap Nat.ltb p x y q); [lia|]. assert (x <> y). { apply NoDup_remove_2 in N. intros ->. apply N. apply in_or_app. right. left. reflexivity. }
  destruct (Nat.ltb_spec x y), (Nat.ltb_spec y x); cbn; try reflexivity; lia.
Qed.
Lemma nat_total l : total_on Nat.ltb l.
Proof. intros x y _ _ H. destruct (Nat.ltb_spec x y), (Nat.ltb_spec y x); cbn; try reflexivity; lia. Qed.
Lemma inversions_seq a n : inversions Nat.ltb (seq a n) = 0.
Proof.
  apply inversions_zero. revert a. induction n as [|n IH]; intros a; [constructor|]. cbn [seq]. constructor; [|apply IH]. apply Forall_forall. intros x Hx. apply in_seq in Hx. apply Nat.ltb_ge. lia.
Qed.
Lemma parity_swaps a n k b : swaps k (seq a n) b -> parity b = sgn k.
Proof.
  intros H. pose proof (swaps_inversions Nat.ltb k _ _ (seq_NoDup n a) (nat_total _) H) as E. rewrite inversions_seq in E. change (sgn 0) with 1%Z in E. unfold parity.
  destruct (sgn_pm k) as [K|K], (sgn_pm (inversions Nat.ltb b)) as [K'|K']; rewrite K, K' in *; lia.
Qed.
Lemma split_at {A} i (l : list A) : S i < length l -> exists p x y q, l = p ++ x :: y :: q /\ length p = i.
Proof.
  intros H. exists (firstn i l). destruct (skipn i l) as [|x [|y q]] eqn:E.
  - apply (f_equal (@length A)) in E. rewrite skipn_length in E. cbn in E. lia.
  - apply (f_equal (@length A)) in E. rewrite skipn_length in E. cbn in E. lia.
  - exists x, y, q. rewrite <- E, firstn_skipn. split; [reflexivity|]. apply firstn_length_le. lia.
Qed.

Lemma id_state n1 n2 : seq 0 n1 ++ seq n1 n2 ++ [n1 + n2; n1 + n2 + 1] = seq 0 (n1 + n2 + 2).
Proof. rewrite (seq_app (n1 + n2) 2 0), (seq_app n1 n2 0), <- app_assoc. cbn [seq Nat.add]. replace (S (n1 + n2)) with (n1 + n2 + 1) by lia. reflexivity. Qed.

Section Blocks.
  Context (n1 n2 : nat).
  Notation N := (n1 + n2).
  Definition bstate (b1 b2 : list nat) (s : Z) : list nat := b1 ++ b2 ++ sign_tail N s.

  Lemma step_left p x y q b2 s : length (p ++ x :: y :: q) + length b2 = N -> s = 1%Z \/ s = (-1)%Z ->
    compose (bstate (p ++ x :: y :: q) b2 s) (adj N (length p)) = bstate (p ++ y :: x :: q) b2 (- s).
  Proof.
    intros H Hs. unfold bstate. destruct (sign_tail_two N s) as (c & d & E). rewrite E, <- (sign_tail_opp N s c d Hs E).
    replace ((p ++ x :: y :: q) ++ b2 ++ [c; d]) with (p ++ x :: y :: (q ++ b2) ++ [c; d]) by (rewrite <- ?app_assoc; cbn; rewrite <- ?app_assoc; reflexivity).
    rewrite compose_adj by (rewrite !app_length in *; cbn in *; lia). rewrite <- ?app_assoc. cbn. rewrite <- ?app_assoc. reflexivity.
  Qed.
  Lemma step_right b1 p x y q s : length b1 + length (p ++ x :: y :: q) = N -> s = 1%Z \/ s = (-1)%Z ->
    compose (bstate b1 (p ++ x :: y :: q) s) (adj N (length b1 + length p)) = bstate b1 (p ++ y :: x :: q) (- s).
  Proof.
    intros H Hs. unfold bstate. destruct (sign_tail_two N s) as (c & d & E). rewrite E, <- (sign_tail_opp N s c d Hs E).
    replace (b1 ++ (p ++ x :: y :: q) ++ [c; d]) with ((b1 ++ p) ++ x :: y :: q ++ [c; d]) by (rewrite <- !app_assoc; reflexivity).
    rewrite <- (app_length b1 p), compose_adj by (rewrite !app_length in *; cbn in *; lia). rewrite <- !app_assoc. reflexivity.
  Qed.

  Context (gens : list (list nat)).
  Context (HG : forall i, S i < n1 \/ n1 <= i /\ S i < N -> In (adj N i) gens).

  Lemma reach_left k l l' b2 s : swaps k l l' -> length l = n1 -> length b2 = n2 -> s = 1%Z \/ s = (-1)%Z ->
    generated (N + 2) gens (bstate l b2 s) -> generated (N + 2) gens (bstate l' b2 (s * sgn k)).
  Proof.
    intros H. revert s. induction H as [l|k p x y q l' H IH]; intros s L1 L2 Hs G.
    - change (sgn 0) with 1%Z. rewrite Z.mul_1_r. exact G.
    - rewrite sgn_S. replace (s * - sgn k)%Z with (- s * sgn k)%Z by ring. rewrite app_length in L1. cbn in L1. apply IH; [rewrite app_length; cbn; lia|exact L2|lia|].
      rewrite <- step_left; [|rewrite app_length; cbn; lia|exact Hs]. apply gd_step; [exact G|]. apply HG. left. lia.
  Qed.
  Lemma reach_right k l l' b1 s : swaps k l l' -> length l = n2 -> length b1 = n1 -> s = 1%Z \/ s = (-1)%Z ->
    generated (N + 2) gens (bstate b1 l s) -> generated (N + 2) gens (bstate b1 l' (s * sgn k)).
  Proof.
    intros H. revert s. induction H as [l|k p x y q l' H IH]; intros s L1 L2 Hs G.
    - change (sgn 0) with 1%Z. rewrite Z.mul_1_r. exact G.
    - rewrite sgn_S. replace (s * - sgn k)%Z with (- s * sgn k)%Z by ring. rewrite app_length in L1. cbn in L1. apply IH; [rewrite app_length; cbn; lia|exact L2|lia|].
      rewrite <- step_right; [|rewrite app_length; cbn; lia|exact Hs]. apply gd_step; [exact G|]. apply HG. right. lia.
  Qed.
  Lemma block_reached a : block_permutation n1 n2 a -> generated (N + 2) gens a.
  Proof.
    intros (b1 & b2 & P1 & P2 & ->). destruct (perm_swaps _ _ (Permutation_sym P1)) as [k1 S1]. destruct (perm_swaps _ _ (Permutation_sym P2)) as [k2 S2].
    rewrite (parity_swaps _ _ _ _ S1), (parity_swaps _ _ _ _ S2). rewrite <- (Z.mul_1_l (sgn k1)). apply (reach_right _ _ _ _ _ S2); [apply seq_length|rewrite (Permutation_length P1); apply seq_length|destruct (sgn_pm k1) as [->| ->]; cbn; auto|].
    apply (reach_left _ _ _ _ _ S1); [apply seq_length|apply seq_length|auto|]. unfold bstate. change (sign_tail N 1) with [N; N + 1]. rewrite id_state. constructor.
  Qed.
End Blocks.

(** a state of two blocks holding any rearrangement, and one generator *)
Lemma bstate_step n1 n2 b1 b2 i : length b1 = n1 -> length b2 = n2 -> NoDup b1 -> NoDup b2 -> S i < n1 \/ n1 <= i /\ S i < n1 + n2 ->
  exists b1' b2', Permutation b1' b1 /\ Permutation b2' b2 /\
    compose (bstate n1 n2 b1 b2 (parity b1 * parity b2)) (adj (n1 + n2) i) = bstate n1 n2 b1' b2' (parity b1' * parity b2').
Proof.
  intros L1 L2 N1 N2 [H|[H H']].
  - destruct (split_at i b1) as (p & x & y & q & -> & <-); [lia|]. exists (p ++ y :: x :: q), b2. split; [apply Permutation_app_head, perm_swap|]. split; [reflexivity|].
    rewrite step_left; [|lia|apply parity_mul_pm]. rewrite (parity_swap p x y q) by exact N1. f_equal. ring.
  - destruct (split_at (i - n1) b2) as (p & x & y & q & -> & Hp); [lia|]. exists b1, (p ++ y :: x :: q). split; [reflexivity|]. split; [apply Permutation_app_head, perm_swap|].
    replace i with (length b1 + length p) by lia. rewrite step_right; [|lia|apply parity_mul_pm]. rewrite (parity_swap p x y q) by exact N2. f_equal. ring.
Qed.
Lemma perm_seq_nodup b a n : Permutation b (seq a n) -> NoDup b /\ length b = n.
Proof. intros P. split; [apply (Permutation_NoDup (Permutation_sym P)), seq_NoDup|]. rewrite (Permutation_length P). apply seq_length. Qed.
Lemma id_block n1 n2 : block_permutation n1 n2 (seq 0 (n1 + n2 + 2)).
Proof.
  exists (seq 0 n1), (seq n1 n2). split; [reflexivity|]. split; [reflexivity|]. unfold parity. rewrite !inversions_seq. symmetry. apply id_state.
Qed.

Lemma asym_plain_group n1 n2 : 1 <= n1 -> 1 <= n2 -> exists gens, asym_perms n1 n2 false = Ok gens /\
  forall a, generated (n1 + n2 + 2) gens a <-> block_permutation n1 n2 a.
Proof.
  intros H1 H2. destruct (asym_plain_spec n1 n2 H1 H2) as (gens & E & _ & HI & HO). exists gens. split; [exact E|]. intros a. split; [|apply block_reached; exact HI].
  induction 1 as [|a s _ IH Hs]; [apply id_block|]. destruct IH as (b1 & b2 & P1 & P2 & ->). destruct (perm_seq_nodup _ _ _ P1) as [N1 L1]. destruct (perm_seq_nodup _ _ _ P2) as [N2 L2].
  apply HO in Hs as [->|(i & Hi & ->)].
  - rewrite compose_id; [exists b1, b2; auto|]. destruct (sign_tail_two (n1 + n2) (parity b1 * parity b2)) as (x & y & ->). rewrite !app_length. cbn. lia.
  - destruct (bstate_step n1 n2 b1 b2 i L1 L2 N1 N2 Hi) as (b1' & b2' & Q1 & Q2 & Q). exists b1', b2'. split; [rewrite Q1; exact P1|]. split; [rewrite Q2; exact P2|]. exact Q.
Qed.
Lemma asym_hermitian_group n : exists gens, asym_perms n n true = Ok gens /\
  forall a, generated (2 * n + 2) gens a <-> block_permutation n n a \/ exchanged_permutation n a.
Proof.
  exists (map (adj (n + n)) (seq 0 (n - 1)) ++ map (adj (n + n)) (seq n (n - 1)) ++ [exch n]). split; [apply asym_hermitian_spec|]. set (gens := _ ++ _).
  assert (HI : forall i, S i < n \/ n <= i /\ S i < n + n -> In (adj (n + n) i) gens).
  { intros i [Hi|Hi]; unfold gens; apply in_or_app; [left; apply in_map, in_seq; lia|right; apply in_or_app; left; apply in_map, in_seq; lia]. }
  assert (HE : In (exch n) gens) by (unfold gens; rewrite !in_app_iff; right; right; left; reflexivity).
  assert (HO : forall p, In p gens -> p = exch n \/ exists i, (S i < n \/ n <= i /\ S i < n + n) /\ p = adj (n + n) i).
  { intros p Hp. unfold gens in Hp. rewrite !in_app_iff in Hp. destruct Hp as [Hp|[Hp|[<-|[]]]]; [| |auto]; apply in_map_iff in Hp as (i & <- & Hi); apply in_seq in Hi; right; exists i; (split; [lia|reflexivity]). }
  clearbody gens. replace (2 * n + 2) with (n + n + 2) by lia. intros a. split.
  - induction 1 as [|a s _ IH Hs]; [left; apply id_block|].
    assert (X : exists b1 b2, ((Permutation b1 (seq 0 n) /\ Permutation b2 (seq n n)) \/ (Permutation b1 (seq n n) /\ Permutation b2 (seq 0 n))) /\ a = bstate n n b1 b2 (parity b1 * parity b2)).
    { destruct IH as [(b1 & b2 & P1 & P2 & ->)|(b1 & b2 & P1 & P2 & ->)]; exists b1, b2; (split; [auto|]); unfold bstate; [reflexivity|]. replace (2 * n) with (n + n) by lia. reflexivity. }
    destruct X as (b1 & b2 & P & ->). clear IH.
    assert (Y : forall b1' b2', ((Permutation b1' (seq 0 n) /\ Permutation b2' (seq n n)) \/ (Permutation b1' (seq n n) /\ Permutation b2' (seq 0 n))) ->
       block_permutation n n (bstate n n b1' b2' (parity b1' * parity b2')) \/ exchanged_permutation n (bstate n n b1' b2' (parity b1' * parity b2'))).
    { intros b1' b2' [[Q1 Q2]|[Q1 Q2]]; [left|right]; exists b1', b2'; (split; [exact Q1|]); (split; [exact Q2|]); unfold bstate; [reflexivity|]. replace (2 * n) with (n + n) by lia. reflexivity. }
    assert (L : (NoDup b1 /\ length b1 = n) /\ (NoDup b2 /\ length b2 = n)) by (destruct P as [[Q1 Q2]|[Q1 Q2]]; split; eauto using perm_seq_nodup).
    destruct L as [[N1 L1] [N2 L2]]. apply HO in Hs as [->|(i & Hi & ->)].
    + unfold bstate. destruct (sign_tail_two (n + n) (parity b1 * parity b2)) as (x & y & E). rewrite E, compose_exch by assumption. rewrite <- E, Z.mul_comm. apply Y. tauto.
    + destruct (bstate_step n n b1 b2 i L1 L2 N1 N2 Hi) as (b1' & b2' & Q1 & Q2 & ->). apply Y. rewrite Q1, Q2. exact P.
  - intros [H|(b1 & b2 & P1 & P2 & ->)]; [apply block_reached; assumption|]. destruct (perm_seq_nodup _ _ _ P1) as [_ L1]. destruct (perm_seq_nodup _ _ _ P2) as [_ L2].
    destruct (sign_tail_two (2 * n) (parity b1 * parity b2)) as (x & y & E). rewrite E, <- (compose_exch b2 b1 x y n) by assumption. apply gd_step; [|exact HE]. apply block_reached; [exact HI|]. exists b2, b1. split; [exact P2|]. split; [exact P1|].
    replace (n + n) with (2 * n) by lia. rewrite (Z.mul_comm (parity b2)), E. reflexivity.
Qed.

(** spin-adapted pairs *)
Definition pstate (n : nat) (b : list nat) : list nat := b ++ map (fun k => k + n) b ++ [2 * n; 2 * n + 1].
Definition xstate (n : nat) (b : list nat) : list nat := map (fun k => k + n) b ++ b ++ [2 * n; 2 * n + 1].
Lemma pstate_step n p x y q : length (p ++ x :: y :: q) = n -> compose (pstate n (p ++ x :: y :: q)) (adj2 n (length p)) = pstate n (p ++ y :: x :: q).
Proof.
  intros H. rewrite app_length in H. cbn in H. unfold pstate. rewrite !map_app. cbn [map]. rewrite compose_adj2 by (rewrite ?map_length; lia). reflexivity.
Qed.
Lemma xstate_step n p x y q : length (p ++ x :: y :: q) = n -> compose (xstate n (p ++ x :: y :: q)) (adj2 n (length p)) = xstate n (p ++ y :: x :: q).
Proof.
  intros H. rewrite app_length in H. cbn in H. unfold xstate. rewrite !map_app. cbn [map]. rewrite <- (map_length (fun k => k + n) p) at 1. rewrite compose_adj2 by (rewrite ?map_length; lia). reflexivity.
Qed.
Lemma id_pair n : seq 0 (2 * n + 2) = pstate n (seq 0 n).
Proof.
  unfold pstate. rewrite map_add_seq. replace (2 * n + 2) with (n + (n + 2)) by lia. rewrite !seq_app. cbn [seq Nat.add]. replace (n + n) with (2 * n) by lia. replace (S (2 * n)) with (2 * n + 1) by lia. reflexivity.
Qed.
Lemma sym_group n h : exists gens, sym_perms n n h = Ok gens /\
  forall a, generated (2 * n + 2) gens a <-> pair_permutation n a \/ (h = true /\ exchanged_pair_permutation n a).
Proof.
  exists (map (adj2 n) (seq 0 (n - 1)) ++ [if h then exch n else seq 0 (2 * n + 2)]). split; [apply sym_perms_spec|]. set (gens := _ ++ _).
  assert (HI : forall i, S i < n -> In (adj2 n i) gens) by (intros i Hi; unfold gens; apply in_or_app; left; apply in_map, in_seq; lia).
  assert (HE : h = true -> In (exch n) gens) by (intros ->; unfold gens; apply in_or_app; right; left; reflexivity).
  assert (HO : forall p, In p gens -> (h = true /\ p = exch n) \/ p = seq 0 (2 * n + 2) \/ exists i, S i < n /\ p = adj2 n i).
  { intros p Hp. unfold gens in Hp. apply in_app_or in Hp as [Hp|[<-|[]]]; [|destruct h; auto]. apply in_map_iff in Hp as (i & <- & Hi). apply in_seq in Hi. right. right. exists i. split; [lia|reflexivity]. }
  clearbody gens. assert (R : forall k b b', swaps k b b' -> length b = n -> generated (2 * n + 2) gens (pstate n b) -> generated (2 * n + 2) gens (pstate n b')).
  { intros k b b' H. induction H as [l|k p x y q l' H IH]; intros L G; [exact G|]. rewrite app_length in L. cbn in L. apply IH; [rewrite app_length; cbn; lia|]. rewrite <- pstate_step by (rewrite app_length; cbn; lia). apply gd_step; [exact G|]. apply HI. lia. }
  assert (R' : forall b, Permutation b (seq 0 n) -> generated (2 * n + 2) gens (pstate n b)).
  { intros b P. destruct (perm_swaps _ _ (Permutation_sym P)) as [k Sk]. apply (R k _ _ Sk); [apply seq_length|]. rewrite <- id_pair. constructor. }
  intros a. split.
  - induction 1 as [|a s _ IH Hs]; [left; exists (seq 0 n); split; [reflexivity|apply id_pair]|].
    assert (X : exists b, Permutation b (seq 0 n) /\ (a = pstate n b \/ (h = true /\ a = xstate n b))) by (destruct IH as [(b & P & ->)|(Hh & b & P & ->)]; exists b; auto).
    destruct X as (b & P & Hb). clear IH. destruct (perm_seq_nodup _ _ _ P) as [_ L].
    assert (Y : forall b' a', Permutation b' (seq 0 n) -> (a' = pstate n b' \/ (h = true /\ a' = xstate n b')) -> pair_permutation n a' \/ (h = true /\ exchanged_pair_permutation n a')).
    { intros b' a' Q [->|[Hh ->]]; [left|right; split; [exact Hh|]]; exists b'; auto. }
    apply HO in Hs as [[Hh ->]|[->|(i & Hi & ->)]].
    + apply (Y b _ P). destruct Hb as [->|[_ ->]].
      * right. split; [exact Hh|]. unfold pstate, xstate. apply compose_exch; rewrite ?map_length; exact L.
      * left. unfold pstate, xstate. apply compose_exch; rewrite ?map_length; exact L.
    + apply (Y b _ P). rewrite compose_id; [exact Hb|]. destruct Hb as [->|[_ ->]]; unfold pstate, xstate; rewrite !app_length, map_length; cbn; lia.
    + destruct (split_at i b) as (p & x & y & q & -> & <-); [lia|]. apply (Y (p ++ y :: x :: q)); [rewrite (perm_swap x y q); exact P|]. destruct Hb as [->|[Hh ->]]; [left; apply pstate_step, L|right; split; [exact Hh|]; apply xstate_step, L].
  - intros [(b & P & ->)|(Hh & b & P & ->)]; [apply R', P|]. destruct (perm_seq_nodup _ _ _ P) as [_ L]. rewrite <- (compose_exch b (map (fun k => k + n) b) _ _ n) by (rewrite ?map_length; exact L). apply gd_step; [apply R', P|apply HE, Hh].
Qed.
