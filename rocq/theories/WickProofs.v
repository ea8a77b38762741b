(** Signs and leg bookkeeping of a composite contraction. *)
From Verif Require Import PyBase OrderSpec OrderProofs ParitySpec ParityProofs SpaceModel IndicesModel IndicesProofs IterProofs HalfProofs
  ElemModel ElemSpec ElemProofs CodeModel CompatSpec CompatProofs BacktrackProofs MacroModel SortProofs WickModel WickSpec.
From Coq Require Import ZArith Sorting.Sorted.

Lemma NoDup_app_iff {A} (l m : list A) : NoDup (l ++ m) <-> NoDup l /\ NoDup m /\ (forall x, In x l -> ~ In x m).
Proof. split; [apply NoDup_app_elim|]. intros [H1 [H2 H3]]. apply NoDup_app_intro; assumption. Qed.

Lemma leg_eqb_eq a b : leg_eqb a b = true <-> a = b.
Proof.
  destruct a as [x i], b as [y j]. unfold leg_eqb. cbn [fst snd]. rewrite andb_true_iff, Bool.eqb_true_iff, idx_eqb_eq.
  split; [intros [-> ->]; reflexivity|intros [= -> ->]; auto].
Qed.
Lemma mem_leg_in x l : mem_leg x l = true <-> In x l.
Proof.
  unfold mem_leg. rewrite existsb_exists. split; [intros [y [H E]]; apply leg_eqb_eq in E; subst; exact H|].
  intros H. exists x. split; [exact H|]. apply leg_eqb_eq. reflexivity.
Qed.
Lemma mem_leg_notin x l : mem_leg x l = false <-> ~ In x l.
Proof. rewrite <- mem_leg_in. destruct (mem_leg x l); split; congruence. Qed.
Lemma leg_eq_dec (a b : leg) : {a = b} + {a <> b}.
Proof. destruct (leg_eqb a b) eqn:E; [left|right]; [apply leg_eqb_eq, E|]. intros H. apply leg_eqb_eq in H. congruence. Qed.

Lemma leg_set_gen l s : NoDup s -> let r := fold_left (fun s x => if mem_leg x s then s else s ++ [x]) l s in
  NoDup r /\ (forall x, In x r <-> In x s \/ In x l).
Proof.
  revert s; induction l as [|x l IH]; intros s Hs; cbn [fold_left]; [split; [exact Hs|intros x; simpl; tauto]|].
  destruct (mem_leg x s) eqn:E.
  - destruct (IH s Hs) as [N I]. split; [exact N|]. intros y. rewrite I. apply mem_leg_in in E. simpl. split; [tauto|intros [H|[<-|H]]; auto].
  - apply mem_leg_notin in E. destruct (IH (s ++ [x])) as [N I].
    + apply NoDup_app_iff. repeat split; [exact Hs|repeat constructor; simpl; tauto|]. intros y Hy [<-|[]]. contradiction.
    + split; [exact N|]. intros y. rewrite I, in_app_iff. simpl. tauto.
Qed.
Lemma leg_set_nodup l : NoDup (leg_set l).
Proof. apply leg_set_gen. constructor. Qed.
Lemma in_leg_set x l : In x (leg_set l) <-> In x l.
Proof. unfold leg_set. destruct (leg_set_gen l [] (NoDup_nil _)) as [_ I]. rewrite I. simpl. tauto. Qed.
Lemma leg_set_perm l : NoDup l -> Permutation (leg_set l) l.
Proof. intros H. apply NoDup_Permutation; [apply leg_set_nodup|exact H|intros x; apply in_leg_set]. Qed.
Lemma leg_set_length l : length (leg_set l) <= length l.
Proof. apply NoDup_incl_length; [apply leg_set_nodup|]. intros x. apply in_leg_set. Qed.
Lemma leg_set_full l : length (leg_set l) = length l -> NoDup l.
Proof.
  intros H. apply (NoDup_incl_NoDup (leg_set_nodup l)); [lia|]. intros x. apply in_leg_set.
Qed.

(** ** the base order map *)
Lemma dict_set_keys (k : leg) (v : nat) d : map fst (dict_set leg_eqb k v d) = if mem_leg k (map fst d) then map fst d else map fst d ++ [k].
Proof.
  induction d as [|[k0 v0] d IH]; cbn [dict_set map fst mem_leg existsb app]; [reflexivity|].
  destruct (leg_eqb k k0) eqn:E; cbn [orb map fst]; [reflexivity|]. rewrite IH. unfold mem_leg. destruct (existsb (leg_eqb k) (map fst d)); reflexivity.
Qed.
Lemma base_map_keys_gen l n d : map fst (fold_left (fun m iv => dict_set leg_eqb (snd iv) (fst iv) m) (enumerate n l) d) =
  fold_left (fun s x => if mem_leg x s then s else s ++ [x]) l (map fst d).
Proof.
  revert n d; induction l as [|x l IH]; intros n d; cbn [enumerate fold_left fst snd]; [reflexivity|]. rewrite IH, dict_set_keys. reflexivity.
Qed.
Lemma base_indices_written ops : base_order_indices ops = written_string ops.
Proof. reflexivity. Qed.
Lemma base_map_keys ops : map fst (base_order_map ops) = leg_set (written_string ops).
Proof. unfold base_order_map. rewrite base_map_keys_gen. reflexivity. Qed.
Lemma base_map_length ops : length (base_order_map ops) = length (leg_set (written_string ops)).
Proof. rewrite <- base_map_keys, map_length. reflexivity. Qed.

Lemma dict_get_set_same (k : leg) (v : nat) d : dict_get leg_eqb k (dict_set leg_eqb k v d) = Some v.
Proof.
  induction d as [|[k0 v0] d IH]; cbn [dict_set dict_get].
  - destruct (leg_eqb k k) eqn:E; [reflexivity|]. assert (leg_eqb k k = true) by (apply leg_eqb_eq; reflexivity). congruence.
  - destruct (leg_eqb k k0) eqn:E; cbn [dict_get]; rewrite E; [reflexivity|exact IH].
Qed.
Lemma enumerate_app {A} (l m : list A) n : enumerate n (l ++ m) = enumerate n l ++ enumerate (n + length l) m.
Proof.
  revert n; induction l as [|x l IH]; intros n; cbn [app enumerate length]; [rewrite Nat.add_0_r; reflexivity|].
  rewrite IH. replace (S n + length l) with (n + S (length l)) by lia. reflexivity.
Qed.
(** the last leg has the largest position *)
Lemma base_map_last l x : dict_get leg_eqb x (fold_left (fun m iv => dict_set leg_eqb (snd iv) (fst iv) m) (enumerate 0 (l ++ [x])) []) = Some (length l).
Proof. rewrite enumerate_app, fold_left_app. cbn [enumerate fold_left fst snd Nat.add]. apply dict_get_set_same. Qed.

Lemma base_map_distinct l : NoDup l ->
  fold_left (fun m iv => dict_set leg_eqb (snd iv) (fst iv) m) (enumerate 0 l) [] = combine l (seq 0 (length l)).
Proof.
  intros H. assert (G : forall (m : list leg) n d, NoDup m -> (forall x, In x m -> ~ In x (map fst d)) ->
    fold_left (fun m iv => dict_set leg_eqb (snd iv) (fst iv) m) (enumerate n m) d = d ++ combine m (seq n (length m))).
  { induction m as [|x m IH]; intros n d Nm D; cbn [enumerate fold_left fst snd length seq combine]; [rewrite app_nil_r; reflexivity|].
    inversion Nm as [|? ? N1 N2]; subst. rewrite (dict_set_new leg_eqb leg_eqb_eq) by (apply D; left; reflexivity).
    rewrite IH; [rewrite <- app_assoc; reflexivity|exact N2|]. intros y Hy. rewrite map_app, in_app_iff. cbn.
    intros [G|[->|[]]]; [exact (D y (or_intror Hy) G)|contradiction]. }
  rewrite (G l 0 []); [reflexivity|exact H|intros x _ []].
Qed.

(** position in a list *)
Fixpoint lpos (l : list leg) (x : leg) : nat :=
  match l with [] => 0 | y :: l' => if leg_eqb x y then 0 else S (lpos l' x) end.
Lemma lpos_nth l x : In x l -> nth_error l (lpos l x) = Some x.
Proof.
  induction l as [|y l IH]; [intros []|]. cbn [lpos]. intros H. destruct (leg_eqb x y) eqn:E.
  - apply leg_eqb_eq in E. subst. reflexivity.
  - cbn [nth_error]. apply IH. destruct H as [->|H]; [|exact H]. assert (leg_eqb x x = true) by (apply leg_eqb_eq; reflexivity). congruence.
Qed.
Lemma lpos_lt l x : In x l -> lpos l x < length l.
Proof. intros H. apply nth_error_Some. rewrite (lpos_nth l x H). discriminate. Qed.
Lemma lpos_get l x n : In x l -> dict_get leg_eqb x (combine l (seq n (length l))) = Some (n + lpos l x).
Proof.
  revert n; induction l as [|y l IH]; intros n; [intros []|]. intros H. cbn [length seq combine dict_get lpos].
  destruct (leg_eqb x y) eqn:E; [rewrite Nat.add_0_r; reflexivity|]. rewrite IH.
  - f_equal. lia.
  - destruct H as [->|H]; [|exact H]. assert (leg_eqb x x = true) by (apply leg_eqb_eq; reflexivity). congruence.
Qed.
Lemma lpos_self l : NoDup l -> map (lpos l) l = seq 0 (length l).
Proof.
  induction 1 as [|x l Hx ND IH]; [reflexivity|]. cbn [map length seq lpos].
  assert (E : leg_eqb x x = true) by (apply leg_eqb_eq; reflexivity). rewrite E. f_equal.
  rewrite <- seq_shift, <- IH, map_map. apply map_ext_in. intros y Hy.
  destruct (leg_eqb y x) eqn:E'; [apply leg_eqb_eq in E'; subst; contradiction|reflexivity].
Qed.

Lemma inversions_seq n k : inversions Nat.ltb (seq k n) = 0.
Proof.
  revert k; induction n as [|n IH]; intros k; cbn [seq inversions]; [reflexivity|].
  rewrite IH, filter_none; [reflexivity|]. intros y Hy. apply in_seq in Hy. apply Nat.ltb_ge. lia.
Qed.

Lemma sympy_inversions_ok ps : Permutation ps (seq 0 (length ps)) -> sympy_inversions ps = Ok (inversions Nat.ltb ps).
Proof.
  intros P. unfold sympy_inversions. assert (E : forallb (fun k => mem_nat k ps) (seq 0 (length ps)) = true); [|rewrite E; reflexivity].
  apply forallb_forall. intros k Hk. apply mem_nat_in, (Permutation_in _ (Permutation_sym P)), Hk.
Qed.
Lemma sympy_inversions_bad ps k : In k ps -> length ps <= k -> sympy_inversions ps = Raise ValueError.
Proof.
  intros Hk Hl. unfold sympy_inversions. destruct (forallb (fun k => mem_nat k ps) (seq 0 (length ps))) eqn:E; [exfalso|reflexivity].
  rewrite forallb_forall in E. assert (P : Permutation (seq 0 (length ps)) ps).
  { apply NoDup_Permutation_bis; [apply seq_NoDup|rewrite seq_length; lia|]. intros x Hx. apply mem_nat_in, E, Hx. }
  apply (Permutation_in _ (Permutation_sym P)), in_seq in Hk. lia.
Qed.

(** the sign of an order of distinct legs *)
Lemma order_sign_ok ops order : distinct_legs ops -> Permutation (written_string ops) order ->
  exists s, order_sign (base_order_map ops) order = Ok s /\ reorder_sign (written_string ops) order s.
Proof.
  intros D P. unfold order_sign. unfold base_order_map. rewrite base_indices_written, base_map_distinct by exact D.
  set (w := written_string ops) in *.
  rewrite (pymap_total _ (lpos w)).
  2:{ intros x Hx. unfold dict_item. rewrite lpos_get by (apply (Permutation_in _ (Permutation_sym P)), Hx). reflexivity. }
  cbn [pybind]. rewrite sympy_inversions_ok.
  2:{ rewrite map_length, <- (Permutation_length P), <- (lpos_self w D). symmetry. apply Permutation_map, P. }
  cbn [pybind]. eexists. split; [reflexivity|]. destruct (reorder_sign_exists w order P) as [s Hs].
  pose proof (reorder_sign_inversions (fun x y => lpos w x <? lpos w y) w order s D) as R. rewrite <- inversions_map, lpos_self, inversions_seq in R by exact D.
  rewrite <- inversions_map in R. change (sgn 0) with 1%Z in R. rewrite Z.mul_1_l in R. rewrite <- R; [exact Hs| |exact Hs].
  intros x y Hx Hy Ne. assert (lpos w x <> lpos w y).
  { intros E. apply Ne. pose proof (lpos_nth w x Hx) as E1. pose proof (lpos_nth w y Hy) as E2. congruence. }
  destruct (Nat.ltb_spec (lpos w x) (lpos w y)), (Nat.ltb_spec (lpos w y) (lpos w x)); simpl; lia || reflexivity.
Qed.

(** repeated legs are rejected *)
Lemma order_sign_dup ops order : ~ distinct_legs ops -> Permutation (leg_set (written_string ops)) order ->
  order_sign (base_order_map ops) order = Raise ValueError.
Proof.
  intros D P. unfold order_sign. set (m := base_order_map ops).
  set (f := fun x => match dict_get leg_eqb x m with Some k => k | None => 0 end).
  rewrite (pymap_total _ f).
  2:{ intros x Hx. unfold f, dict_item. destruct (dict_get_key leg_eqb leg_eqb_eq x m) as [v ->]; [|reflexivity].
      unfold m. rewrite base_map_keys. apply (Permutation_in _ (Permutation_sym P)), Hx. }
  cbn [pybind]. set (w := written_string ops) in *.
  assert (L : length (leg_set w) < length w).
  { pose proof (leg_set_length w). destruct (Nat.eq_dec (length (leg_set w)) (length w)) as [E|]; [|lia]. apply leg_set_full in E. contradiction. }
  destruct (rev w) as [|x r] eqn:Er.
  - assert (w = []) by (rewrite <- (rev_involutive w), Er; reflexivity). rewrite H in L. simpl in L. lia.
  - assert (Ew : w = rev r ++ [x]) by (rewrite <- (rev_involutive w), Er; reflexivity).
    rewrite (sympy_inversions_bad _ (length (rev r))); [reflexivity| |].
    + apply in_map_iff. exists x. split.
      * unfold f, m, base_order_map. rewrite base_indices_written. fold w. rewrite Ew, base_map_last. reflexivity.
      * apply (Permutation_in _ P), in_leg_set. rewrite Ew. apply in_app_iff. right. left. reflexivity.
    + rewrite map_length, <- (Permutation_length P). rewrite Ew in L at 2. rewrite app_length in L. simpl in L. lia.
Qed.

(** ** contracted and open legs *)
Record from_ops (ops : list op) (e : econ) : Prop := {
  fo_upper : forall i, In i (upper e) -> In (true, i) (written_string ops);
  fo_lower : forall i, In i (lower e) -> In (false, i) (written_string ops);
  fo_nu : NoDup (upper e); fo_nl : NoDup (lower e);
  fo_len : length (upper e) = length (lower e); fo_pos : 1 <= length (upper e);
  fo_hole : hole e = true -> length (upper e) = 1 }.

Lemma contracted_order_group ops e : from_ops ops e -> contracted_order e = group e.
Proof.
  intros [_ _ _ _ L _ H]. unfold contracted_order, group. destruct (hole e); [|reflexivity]. specialize (H eq_refl).
  rewrite !firstn_all2 by lia. reflexivity.
Qed.
Lemma in_group x e : In x (group e) <-> (fst x = true /\ In (snd x) (upper e)) \/ (fst x = false /\ In (snd x) (lower e)).
Proof.
  destruct x as [b i]. unfold group. cbn [fst snd]. destruct (hole e); rewrite in_app_iff, !in_map_iff.
  - split; [intros [[j [[= <- <-] H]]|[j [[= <- <-] H]]]; auto|intros [[-> H]|[-> H]]; [right|left]; exists i; auto].
  - split; [intros [[j [[= <- <-] H]]|[j [[= <- <-] H]]]; [auto|apply in_rev in H; auto]|intros [[-> H]|[-> H]]; [left|right]; exists i; auto].
    split; [reflexivity|]. apply in_rev. rewrite rev_involutive. exact H.
Qed.
Lemma nodup_map_pair (b : bool) (l : list idx) : NoDup l -> NoDup (map (pair b) l).
Proof. intros H. apply FinFun.Injective_map_NoDup; [intros x y [= ->]; reflexivity|exact H]. Qed.
Lemma group_nodup ops e : from_ops ops e -> NoDup (group e).
Proof.
  intros [_ _ Nu Nl _ _ _]. unfold group. destruct (hole e); apply NoDup_app_iff; repeat split;
    try apply nodup_map_pair; try apply NoDup_rev; try assumption;
    intros x H1 H2; apply in_map_iff in H1 as [? [<- _]]; apply in_map_iff in H2 as [? [? _]]; discriminate.
Qed.
Lemma group_length e : length (upper e) = length (lower e) -> length (group e) = 2 * length (upper e).
Proof. intros H. unfold group. destruct (hole e); rewrite app_length, !map_length, ?rev_length; lia. Qed.
Lemma group_incl ops e : from_ops ops e -> incl (group e) (written_string ops).
Proof. intros [Hu Hl _ _ _ _ _] [b i] Hx. apply in_group in Hx. cbn [fst snd] in Hx. destruct Hx as [[-> H]|[-> H]]; auto. Qed.
Lemma groups_disjoint e f x : disjoint_con e f -> In x (group e) -> ~ In x (group f).
Proof. intros [D1 D2]. rewrite !in_group. intros [[E H]|[E H]] [[E' H']|[E' H']]; try congruence; [exact (D1 _ H H')|exact (D2 _ H H')]. Qed.
Lemma groups_nodup ops s : Forall (from_ops ops) s -> ForallOrdPairs disjoint_con s -> NoDup (flat_map group s).
Proof.
  intros F D. induction D as [|e s H D IH]; cbn [flat_map]; [constructor|]. inversion F as [|? ? F1 F2]; subst.
  apply NoDup_app_iff. repeat split; [apply (group_nodup ops), F1|apply IH, F2|]. intros x Hx Hf.
  apply in_flat_map in Hf as [f [Hf Hx']]. rewrite Forall_forall in H. exact (groups_disjoint e f x (H f Hf) Hx Hx').
Qed.
Lemma groups_incl ops s : Forall (from_ops ops) s -> incl (flat_map group s) (written_string ops).
Proof.
  intros F x Hx. apply in_flat_map in Hx as [e [He Hx]]. rewrite Forall_forall in F. exact (group_incl ops e (F e He) x Hx).
Qed.

Lemma in_written x ops : In x (written_string ops) <-> exists o, In o ops /\ In x (open_string o).
Proof. apply in_flat_map. Qed.
Lemma in_open_string x o : In x (open_string o) <-> (fst x = true /\ In (snd x) (cre o)) \/ (fst x = false /\ In (snd x) (ann o)).
Proof.
  destruct x as [b i]. unfold open_string. cbn [fst snd]. rewrite in_app_iff, !in_map_iff.
  split; [intros [[j [[= <- <-] H]]|[j [[= <- <-] H]]]; [auto|apply in_rev in H; auto]|intros [[-> H]|[-> H]]; [left|right]; exists i; auto].
  split; [reflexivity|]. apply in_rev. rewrite rev_involutive. exact H.
Qed.
Lemma in_upper_set x ops : In x (upper_indices_set ops) <-> fst x = true /\ In x (written_string ops).
Proof.
  unfold upper_indices_set. rewrite in_leg_set, in_flat_map, in_written. destruct x as [b i]. cbn [fst]. split.
  - intros [o [Ho H]]. apply in_map_iff in H as [j [[= <- <-] H]]. split; [reflexivity|]. exists o. split; [exact Ho|]. apply in_open_string. auto.
  - intros [-> [o [Ho H]]]. exists o. split; [exact Ho|]. apply in_open_string in H as [[_ H]|[E _]]; [|discriminate]. apply in_map, H.
Qed.
Lemma in_lower_set x ops : In x (lower_indices_set ops) <-> fst x = false /\ In x (written_string ops).
Proof.
  unfold lower_indices_set. rewrite in_leg_set, in_flat_map, in_written. destruct x as [b i]. cbn [fst]. split.
  - intros [o [Ho H]]. apply in_map_iff in H as [j [[= <- <-] H]]. split; [reflexivity|]. exists o. split; [exact Ho|]. apply in_open_string.
    right. split; [reflexivity|]. apply in_rev, H.
  - intros [-> [o [Ho H]]]. exists o. split; [exact Ho|]. apply in_open_string in H as [[E _]|[_ H]]; [discriminate|].
    apply (in_map (pair false)), in_rev. rewrite rev_involutive. exact H.
Qed.
Lemma written_alpha ops x : Forall op_alpha ops -> In x (written_string ops) -> idx_beta (snd x) = false.
Proof.
  intros A H. apply in_written in H as [o [Ho H]]. rewrite Forall_forall in A. destruct (A o Ho) as [A1 A2]. rewrite Forall_forall in A1, A2.
  apply in_open_string in H as [[_ H]|[_ H]]; [apply A1, H|apply A2, H].
Qed.

Lemma strictly_sorted l : NoDup l -> le_sorted idx_ord l -> StronglySorted (fun a b => plt idx_ord a b = true) l.
Proof.
  intros N S. induction S as [|x l S IH F]; constructor.
  - apply IH. inversion N; assumption.
  - inversion N as [|? ? N1 N2]; subst. rewrite Forall_forall in *. intros y Hy. specialize (F y Hy). rewrite (lw_le idx_ord idx_lawful) in F.
    apply orb_true_iff in F as [F|F]; [exact F|]. apply idx_ext in F. subst. contradiction.
Qed.

(** the sorted indices of a set of legs of one kind *)
Lemma sorted_indices_ok (b : bool) legs : NoDup legs -> (forall x, In x legs -> fst x = b) -> (forall x, In x legs -> idx_beta (snd x) = false) ->
  make_so (sorted_indices legs) = Ok (sorted_indices legs) /\ Permutation (map (pair b) (sorted_indices legs)) legs /\
  StronglySorted (fun a b => plt idx_ord a b = true) (sorted_indices legs).
Proof.
  intros N B A. unfold sorted_indices. pose proof (sort_by_perm (plt idx_ord) (map snd legs)) as P.
  assert (M : map (pair b) (map snd legs) = legs).
  { rewrite map_map. rewrite <- (map_id legs) at 2. apply map_ext_in. intros [b' i] Hx. cbn. f_equal. symmetry. apply (B _ Hx). }
  assert (Nm : NoDup (map snd legs)).
  { apply (NoDup_map_inv (pair b)). rewrite M. exact N. }
  assert (Ns : NoDup (sort_by (plt idx_ord) (map snd legs))) by (apply (Permutation_NoDup (Permutation_sym P)), Nm).
  split; [|split].
  - unfold make_so. apply nodup_idx_spec in Ns. rewrite Ns. assert (E : existsb idx_beta (sort_by (plt idx_ord) (map snd legs)) = false); [|rewrite E; reflexivity].
    apply not_true_is_false. intros E. apply existsb_exists in E as [i [Hi E]]. apply (Permutation_in _ P), in_map_iff in Hi as [x [<- Hx]].
    rewrite (A x Hx) in E. discriminate.
  - rewrite P, M. reflexivity.
  - apply strictly_sorted; [exact Ns|]. apply sort_by_sorted, idx_lawful.
Qed.
(** the result does not depend on the iteration order of the set *)
Lemma sorted_indices_perm l l' : Permutation l l' -> sorted_indices l = sorted_indices l'.
Proof.
  intros P. unfold sorted_indices. apply (sorted_unique idx_ord idx_lawful idx_ext); [apply sort_by_sorted, idx_lawful|apply sort_by_sorted, idx_lawful|].
  rewrite !sort_by_perm. apply Permutation_map, P.
Qed.

(** the order of all legs after contraction *)
Lemma open_order ops us ls cur : Forall op_alpha ops ->
  Permutation us (upper_indices_set ops) -> Permutation ls (lower_indices_set ops) ->
  NoDup cur -> incl cur (written_string ops) ->
  let fu := filter (fun x => negb (mem_leg x cur)) us in let fl := filter (fun x => negb (mem_leg x cur)) ls in
  make_so (sorted_indices fu) = Ok (sorted_indices fu) /\ make_so (sorted_indices fl) = Ok (sorted_indices fl) /\
  StronglySorted (fun a b => plt idx_ord a b = true) (sorted_indices fu) /\
  StronglySorted (fun a b => plt idx_ord a b = true) (sorted_indices fl) /\
  Permutation (leg_set (written_string ops)) (cur ++ open_string (Op (sorted_indices fu) (sorted_indices fl))).
Proof.
  intros A Pu Pl N I fu fl.
  assert (Iu : forall x, In x fu <-> fst x = true /\ In x (written_string ops) /\ ~ In x cur).
  { intros x. unfold fu. rewrite filter_In, negb_true_iff, mem_leg_notin. split.
    - intros [H1 H2]. apply (Permutation_in _ Pu), in_upper_set in H1. tauto.
    - intros [H1 [H2 H3]]. split; [|exact H3]. apply (Permutation_in _ (Permutation_sym Pu)), in_upper_set. auto. }
  assert (Il : forall x, In x fl <-> fst x = false /\ In x (written_string ops) /\ ~ In x cur).
  { intros x. unfold fl. rewrite filter_In, negb_true_iff, mem_leg_notin. split.
    - intros [H1 H2]. apply (Permutation_in _ Pl), in_lower_set in H1. tauto.
    - intros [H1 [H2 H3]]. split; [|exact H3]. apply (Permutation_in _ (Permutation_sym Pl)), in_lower_set. auto. }
  assert (Nu : NoDup fu) by (apply NoDup_filter, (Permutation_NoDup (Permutation_sym Pu)), leg_set_nodup).
  assert (Nl : NoDup fl) by (apply NoDup_filter, (Permutation_NoDup (Permutation_sym Pl)), leg_set_nodup).
  destruct (sorted_indices_ok true fu Nu) as (U1 & U2 & U3); [intros x Hx; apply Iu, Hx|intros x Hx; apply (written_alpha ops); [exact A|apply Iu, Hx]|].
  destruct (sorted_indices_ok false fl Nl) as (L1 & L2 & L3); [intros x Hx; apply Il, Hx|intros x Hx; apply (written_alpha ops); [exact A|apply Il, Hx]|].
  repeat (split; [assumption|]).
  assert (Q : Permutation (open_string (Op (sorted_indices fu) (sorted_indices fl))) (fu ++ fl)).
  { unfold open_string. cbn [cre ann]. apply Permutation_app; [exact U2|]. apply (Permutation_trans (l' := map (pair false) (sorted_indices fl))); [apply Permutation_map, Permutation_sym, Permutation_rev|exact L2]. }
  rewrite Q. apply NoDup_Permutation; [apply leg_set_nodup| |].
  - apply NoDup_app_iff. repeat split; [exact N|apply NoDup_app_iff; repeat split; [exact Nu|exact Nl|]|].
    + intros x H1 H2. apply Iu in H1. apply Il in H2. destruct H1 as [H1 _], H2 as [H2 _]. congruence.
    + intros x H1 H2. apply in_app_iff in H2 as [H2|H2]; [apply Iu in H2|apply Il in H2]; tauto.
  - intros x. rewrite in_leg_set, !in_app_iff. split.
    + intros H. destruct (in_dec leg_eq_dec x cur) as [G|G]; [left; exact G|right].
      destruct (fst x) eqn:E; [left; apply Iu|right; apply Il]; auto.
    + intros [H|[H|H]]; [apply I, H|apply Iu, H|apply Il, H].
Qed.

Definition finish_order (ops : list op) (s : list econ) (order : list leg) (sq : op) : Prop :=
  order = flat_map group s ++ open_string sq /\ Permutation (leg_set (written_string ops)) order /\
  StronglySorted (fun a b => plt idx_ord a b = true) (cre sq) /\ StronglySorted (fun a b => plt idx_ord a b = true) (ann sq).

Definition entries_list (expand_hole : bool) (s : list econ) (sign : Z) (sq : op) : list entry :=
  map (fun sd => ((sign * fst sd)%Z, snd sd, sq))
    (if expand_hole then expand_hole_densities (map density_of s) else [(1%Z, map density_of s)]).

Lemma finish_reduce ops us ls s expand : Forall op_alpha ops ->
  Permutation us (upper_indices_set ops) -> Permutation ls (lower_indices_set ops) ->
  Forall (from_ops ops) s -> ForallOrdPairs disjoint_con s ->
  exists order sq, finish_order ops s order sq /\
    finish_composite s (Z.of_nat (length (leg_set (written_string ops))) - Z.of_nat (length (flat_map group s))) expand (base_order_map ops) us ls =
    pybind (order_sign (base_order_map ops) order) (fun sign => Ok (entries_list expand s sign sq)).
Proof.
  intros A Pu Pl F D.
  assert (Ec : flat_map contracted_order s = flat_map group s).
  { apply flat_map_ext_in. intros e He. rewrite Forall_forall in F. apply (contracted_order_group ops), F, He. }
  pose proof (groups_nodup ops s F D) as N. pose proof (groups_incl ops s F) as I.
  unfold finish_composite. rewrite Ec. set (cur := flat_map group s) in *.
  destruct (Z.eqb_spec (Z.of_nat (length (leg_set (written_string ops))) - Z.of_nat (length cur)) 0) as [E|E].
  - exists cur, (Op [] []). cbn [pybind fst snd]. split; [|reflexivity]. split; [|split; [|split; constructor]].
    + unfold open_string. cbn. rewrite app_nil_r. reflexivity.
    + symmetry. apply NoDup_Permutation_bis; [exact N|lia|]. intros x Hx. apply in_leg_set, I, Hx.
  - destruct (open_order ops us ls cur A Pu Pl N I) as (U1 & L1 & U2 & L2 & P).
    rewrite U1. cbn [pybind]. rewrite L1. cbn [pybind fst snd]. eexists. eexists. split; [|reflexivity].
    split; [reflexivity|]. split; [exact P|]. split; [exact U2|exact L2].
Qed.

Lemma finish_ok ops us ls s expand : Forall op_alpha ops -> distinct_legs ops ->
  Permutation us (upper_indices_set ops) -> Permutation ls (lower_indices_set ops) ->
  Forall (from_ops ops) s -> ForallOrdPairs disjoint_con s ->
  exists sign sq, wick_term ops s sign sq /\
    finish_composite s (n_open ops s) expand (base_order_map ops) us ls = Ok (entries_list expand s sign sq).
Proof.
  intros A Dl Pu Pl F D. destruct (finish_reduce ops us ls s expand A Pu Pl F D) as (order & sq & (Eo & P & S1 & S2) & E).
  rewrite (leg_set_perm _ Dl) in P. rewrite (Permutation_length (leg_set_perm _ Dl)) in E.
  destruct (order_sign_ok ops order Dl P) as (sign & Es & R). unfold n_open. rewrite E, Es. cbn [pybind].
  exists sign, sq. split; [|reflexivity]. constructor; [exact S1|exact S2|]. rewrite <- Eo. exact R.
Qed.

Lemma finish_dup ops us ls s expand : Forall op_alpha ops -> ~ distinct_legs ops ->
  Permutation us (upper_indices_set ops) -> Permutation ls (lower_indices_set ops) ->
  Forall (from_ops ops) s -> ForallOrdPairs disjoint_con s ->
  finish_composite s (Z.of_nat (length (base_order_map ops)) - Z.of_nat (length (flat_map group s))) expand (base_order_map ops) us ls = Raise ValueError.
Proof.
  intros A Dl Pu Pl F D. destruct (finish_reduce ops us ls s expand A Pu Pl F D) as (order & sq & (Eo & P & S1 & S2) & E).
  rewrite base_map_length, E, (order_sign_dup ops order Dl P). reflexivity.
Qed.

(** ** uniqueness: the sign does not depend on the order of the contractions *)
Lemma sign_unique {A} (eqd : forall a b : A, {a = b} + {a <> b}) (l l' : list A) s t :
  NoDup l -> reorder_sign l l' s -> reorder_sign l l' t -> s = t.
Proof.
  intros N Hs Ht.
  set (p := fix p (l : list A) (x : A) : nat := match l with [] => 0 | y :: l0 => if eqd x y then 0 else S (p l0 x) end).
  assert (Pn : forall l x, In x l -> nth_error l (p l x) = Some x).
  { induction l0 as [|y l0 IH]; [intros x []|]. intros x Hx. cbn. destruct (eqd x y) as [->|Ne]; [reflexivity|]. cbn.
    apply IH. destruct Hx as [->|Hx]; [congruence|exact Hx]. }
  assert (T : total_on (fun x y => p l x <? p l y) l).
  { intros x y Hx Hy Ne. assert (p l x <> p l y) by (intros E; apply Ne; pose proof (Pn l x Hx); pose proof (Pn l y Hy); congruence).
    destruct (Nat.ltb_spec (p l x) (p l y)), (Nat.ltb_spec (p l y) (p l x)); simpl; lia || reflexivity. }
  rewrite (reorder_sign_inversions _ _ _ _ N T Hs), (reorder_sign_inversions _ _ _ _ N T Ht). reflexivity.
Qed.

Lemma even_blocks_commute {A B} (f : A -> list B) s s' : (forall e, In e s -> exists k, length (f e) = 2 * k) ->
  Permutation s s' -> reorder_sign (flat_map f s) (flat_map f s') 1.
Proof.
  intros E P. induction P as [|x l l' P IH|x y l|l1 l2 l3 P1 IH1 P2 IH2].
  - apply reorder_sign_refl.
  - cbn [flat_map]. apply (reorder_sign_app _ _ _ _ 1 1); [apply reorder_sign_refl|]. apply IH. intros e He. apply E. right. exact He.
  - cbn [flat_map]. rewrite !app_assoc. apply (reorder_sign_app _ _ _ _ 1 1); [|apply reorder_sign_refl].
    destruct (E x) as [a Ha]; [right; left; reflexivity|]. pose proof (reorder_sign_blocks (f y) (f x)) as R.
    rewrite Ha in R. replace (length (f y) * (2 * a)) with (length (f y) * a + length (f y) * a) in R by lia. rewrite sgn_double in R. exact R.
  - apply (reorder_sign_trans _ (flat_map f l2) _ 1 1); [apply IH1, E|apply IH2]. intros e He. apply E, (Permutation_in _ (Permutation_sym P1)), He.
Qed.

Lemma wick_term_perm ops s s' sign sq : Forall (from_ops ops) s -> Permutation s s' -> wick_term ops s sign sq -> wick_term ops s' sign sq.
Proof.
  intros F P [H1 H2 H3]. constructor; [exact H1|exact H2|]. replace sign with (sign * (1 * 1))%Z by lia.
  apply (reorder_sign_trans _ _ _ _ _ H3). apply reorder_sign_app; [|apply reorder_sign_refl].
  apply even_blocks_commute; [|exact P]. intros e He. rewrite Forall_forall in F. exists (length (upper e)). apply group_length, (F e He).
Qed.

Lemma wick_term_unique ops s sign sq sign' sq' : distinct_legs ops ->
  wick_term ops s sign sq -> wick_term ops s sign' sq' -> sign = sign' /\ sq = sq'.
Proof.
  intros D [A1 A2 A3] [B1 B2 B3].
  assert (P : Permutation (open_string sq) (open_string sq')).
  { apply (Permutation_app_inv_l (flat_map group s)). rewrite <- (reorder_sign_perm _ _ _ A3). apply (reorder_sign_perm _ _ _ B3). }
  assert (S : forall a, StronglySorted (fun a b => plt idx_ord a b = true) a -> le_sorted idx_ord a).
  { intros a Sa. induction Sa as [|x l Sx IH Fx]; constructor; [exact IH|]. rewrite Forall_forall in *. intros y Hy. rewrite (lw_le _ idx_lawful), (Fx y Hy). reflexivity. }
  assert (Pick : forall b o, filter (fun x : leg => Bool.eqb (fst x) b) (open_string o) = map (pair b) (if b then cre o else rev (ann o))).
  { intros b o. unfold open_string. rewrite filter_app. destruct b.
    - rewrite filter_true, filter_false, app_nil_r; [reflexivity| |]; intros x Hx; apply in_map_iff in Hx as [? [<- _]]; reflexivity.
    - rewrite filter_false, filter_true; [reflexivity| |]; intros x Hx; apply in_map_iff in Hx as [? [<- _]]; reflexivity. }
  assert (Pu : Permutation (cre sq) (cre sq')).
  { pose proof (perm_filter (fun x : leg => Bool.eqb (fst x) true) _ _ P) as Q. rewrite !Pick in Q. apply (Permutation_map snd) in Q. rewrite !map_map, !map_id in Q. exact Q. }
  assert (Pl : Permutation (ann sq) (ann sq')).
  { pose proof (perm_filter (fun x : leg => Bool.eqb (fst x) false) _ _ P) as Q. rewrite !Pick in Q. apply (Permutation_map snd) in Q. rewrite !map_map, !map_id in Q.
    rewrite <- !Permutation_rev in Q. exact Q. }
  assert (sq = sq').
  { destruct sq as [c a], sq' as [c' a']. cbn [cre ann] in *. f_equal; apply (sorted_unique idx_ord idx_lawful idx_ext); auto. }
  subst sq'. split; [|reflexivity]. exact (sign_unique leg_eq_dec _ _ _ _ D A3 B3).
Qed.
