(** The partition of the open indices (Term.py:410-462) and the grouping of terms
    (phys_op_contraction.py:453-468). *)
From Coq Require Import Ascii String ZArith QArith Qcanon Factorial Sorting.Sorted.
From Verif Require Import PyBase OrderSpec OrderProofs SpaceModel SpaceProofs IndexModel IndexProofs IndicesModel IterProofs ParitySpec ParityProofs IndicesProofs ElemModel ElemProofs HalfProofs MacroModel SortProofs TermModel TermSpec TermProofs SymmetryModel CombineModel CombineProofs TextProofs PermuteModel PermuteSpec PermuteProofs.
Local Close Scope Q_scope.
Local Close Scope Qc_scope.
Local Open Scope nat_scope.
Local Notation length := List.length.

Lemma label_eqb_iff a b : label_eqb a b = true <-> a = b.
Proof. destruct a as [[] []], b as [[] []]; cbn; split; congruence. Qed.

(** ** splitting by space *)
Definition of_label (l : list idx) (s : label) : list idx := filter (fun i => label_eqb s (fst i)) l.
Lemma split_spaces_eq l : exists ks, split_spaces l = map (of_label l) ks /\ NoDup ks /\ forall s, In s ks <-> In s (map fst l).
Proof.
  unfold split_spaces. set (cat := append_all label_eqb (map (fun i => (fst i, i)) l) []). set (ks := sort_by _ (map fst cat)). assert (P : Permutation ks (map fst cat)) by apply sort_by_perm.
  exists ks. split; [|split].
  - apply map_ext. intros s. unfold cat. rewrite (dict_list_append_all label_eqb label_eqb_iff). change (dict_list label_eqb s []) with (@nil idx). cbn [app]. unfold of_label. clear. induction l as [|i l IH]; [reflexivity|]. cbn [map filter fst snd]. destruct (label_eqb s (fst i)); cbn [map snd]; rewrite IH; reflexivity.
  - apply (Permutation_NoDup (Permutation_sym P)). apply append_all_nodup; [apply label_eqb_iff|constructor].
  - intros s. split.
    + intros H. apply (Permutation_in _ P) in H. apply (append_all_keys label_eqb label_eqb_iff) in H as [H|[]]. rewrite map_map in H. exact H.
    + intros H. apply (Permutation_in _ (Permutation_sym P)). apply (append_all_keys label_eqb label_eqb_iff). left. rewrite map_map. exact H.
Qed.
Lemma filter_split {A} (p : A -> bool) l : Permutation (filter p l ++ filter (fun x => negb (p x)) l) l.
Proof. induction l as [|x l IH]; [reflexivity|]. cbn [filter]. destruct (p x); cbn [negb app]; [constructor; exact IH|]. rewrite <- Permutation_middle. constructor. exact IH. Qed.
Lemma concat_map_perm {A B} (f g : A -> list B) l : (forall x, In x l -> Permutation (f x) (g x)) -> Permutation (concat (map f l)) (concat (map g l)).
Proof. induction l as [|x l IH]; intros H; [reflexivity|]. cbn [map concat]. apply Permutation_app; [apply H; left; reflexivity|apply IH; intros y Hy; apply H; right; exact Hy]. Qed.
Lemma of_labels_perm ks : NoDup ks -> forall l, (forall i, In i l -> In (fst i) ks) -> Permutation (concat (map (of_label l) ks)) l.
Proof.
  intros N. induction N as [|s ks Hs N IH]; intros l H.
  - destruct l as [|i l]; [reflexivity|]. destruct (H i (or_introl eq_refl)).
  - cbn [map concat]. rewrite <- (filter_split (fun i => label_eqb s (fst i)) l) at 3. apply Permutation_app; [reflexivity|].
    set (l' := filter (fun i => negb (label_eqb s (fst i))) l). rewrite <- (IH l').
    + apply concat_map_perm. intros s' Hs'. unfold of_label, l'. clear - Hs Hs'. induction l as [|i l IHl]; [reflexivity|]. cbn [filter]. destruct (label_eqb s (fst i)) eqn:E; cbn [negb].
      * apply label_eqb_iff in E. destruct (label_eqb s' (fst i)) eqn:E'; [apply label_eqb_iff in E'; congruence|exact IHl].
      * cbn [filter]. destruct (label_eqb s' (fst i)); [constructor|]; exact IHl.
    + intros i Hi. apply filter_In in Hi as [Hi Q]. destruct (H i Hi) as [->|R]; [|exact R]. rewrite (proj2 (label_eqb_iff _ _) eq_refl) in Q. discriminate.
Qed.
Lemma split_spaces_perm l : Permutation (concat (split_spaces l)) l.
Proof. destruct (split_spaces_eq l) as (ks & -> & N & K). apply of_labels_perm; [exact N|]. intros i Hi. apply K, in_map, Hi. Qed.
Lemma filter_sorted {A} (o : pyord A) p l : le_sorted o l -> le_sorted o (filter p l).
Proof.
  unfold le_sorted. intros H. induction H as [|x l H IH F]; [constructor|]. cbn [filter]. destruct (p x); [|exact IH]. constructor; [exact IH|]. rewrite Forall_forall in *. intros y Hy. apply F. apply filter_In in Hy. apply Hy.
Qed.

(** ** the partition *)
Lemma in_perm_part ops sets b x : In b (perm_part_atomic ops sets) -> In x b -> In x ops.
Proof.
  unfold perm_part_atomic. destruct ops as [|i [|j ops]]; [intros [<-|[]] []|intros [<-|[]] H; exact H|]. set (O := i :: j :: ops). intros Hb Hx.
  apply (Permutation_in _ (sort_by_perm _ _)) in Hb. apply in_flat_map in Hb as (p & Hp & Hb). assert (Hx' : In x (concat (split_spaces p))) by (apply in_concat; exists b; auto).
  apply (Permutation_in _ (split_spaces_perm p)) in Hx'. apply filter_In in Hp as [Hp _]. apply in_map_iff in Hp as (s & <- & _). apply (Permutation_in _ (sort_by_perm _ _)) in Hx'. apply filter_In in Hx' as [_ Hx']. apply mem_idx_in, Hx'.
Qed.
Lemma atomic_good ops sets : NoDup ops -> Permutation (concat (map (fun s => filter (fun i => mem_idx i ops) s) sets)) ops ->
  good_partition ops (fun x y => exists s, In s sets /\ In x s /\ In y s) (perm_part_atomic ops sets).
Proof.
  intros N C. unfold perm_part_atomic.
  assert (One : forall x, In x ops -> exists s, In s sets /\ In x s).
  { intros x Hx. apply (Permutation_in _ (Permutation_sym C)) in Hx. apply in_concat in Hx as (b & Hb & Hx). apply in_map_iff in Hb as (s & <- & Hs). apply filter_In in Hx as [Hx _]. eauto. }
  destruct ops as [|i [|j ops]].
  - constructor; [reflexivity|congruence|repeat constructor|repeat constructor|]. intros x y. split; [intros (b & [<-|[]] & [] & _)|intros ([] & _)].
  - constructor; [reflexivity|intros _ [H|[]]; discriminate|repeat constructor|repeat constructor|]. intros x y. split.
    + intros (b & [<-|[]] & [<-|[]] & [<-|[]]). destruct (One i (or_introl eq_refl)) as (s & Hs & Hi). repeat split; [left; reflexivity|left; reflexivity|]. exists s. auto.
    + intros ([<-|[]] & [<-|[]] & _). exists [i]. repeat split; left; reflexivity.
  - set (O := i :: j :: ops) in *. set (F := fun s => sort_by (plt idx_ord) (filter (fun i => mem_idx i O) s)). set (processed := filter _ (map F sets)).
    set (out := flat_map split_spaces processed). assert (PO : Permutation (sort_by (plt (list_ord idx_ord)) out) out) by apply sort_by_perm.
    assert (InP : forall b, In b out <-> exists s ks, In s sets /\ split_spaces (F s) = map (of_label (F s)) ks /\ NoDup ks /\ (forall k, In k ks <-> In k (map fst (F s))) /\ exists k, In k ks /\ b = of_label (F s) k).
    { intros b. unfold out. rewrite in_flat_map. split.
      - intros (p & Hp & Hb). apply filter_In in Hp as [Hp _]. apply in_map_iff in Hp as (s & <- & Hs). destruct (split_spaces_eq (F s)) as (ks & E & Nk & K). rewrite E in Hb. apply in_map_iff in Hb as (k & <- & Hk). exists s, ks. repeat split; try assumption; try apply K. exists k. auto.
      - intros (s & ks & Hs & E & Nk & K & k & Hk & ->). exists (F s). split; [|rewrite E; apply in_map, Hk]. apply filter_In. split; [apply in_map, Hs|]. apply K in Hk. destruct (F s); [destruct Hk|reflexivity]. }
    assert (InF : forall s x, In x (F s) <-> In x s /\ In x O).
    { intros s x. unfold F. split; intros H.
      - apply (Permutation_in _ (sort_by_perm _ _)) in H. apply filter_In in H as [H1 H2]. split; [exact H1|apply mem_idx_in, H2].
      - apply (Permutation_in _ (Permutation_sym (sort_by_perm _ _))). apply filter_In. split; [apply H|apply mem_idx_in, H]. }
    constructor.
    + rewrite <- C. transitivity (concat out); [clear - PO; induction PO as [|x l m P IH|x y l|l m n P IH P' IH']; cbn [concat]; [reflexivity|apply Permutation_app_head, IH|rewrite !app_assoc; apply Permutation_app_tail, Permutation_app_comm|etransitivity; eassumption]|].
      unfold out. transitivity (concat processed).
      * generalize processed. clear. intros l. induction l as [|p l IH]; [reflexivity|]. cbn [flat_map concat]. rewrite concat_app. apply Permutation_app; [apply split_spaces_perm|exact IH].
      * unfold processed. transitivity (concat (map F sets)).
        -- generalize (map F sets). clear. intros l. induction l as [|p l IH]; [reflexivity|]. cbn [filter concat]. destruct p as [|x p]; cbn [length Nat.eqb negb]; [exact IH|]. cbn [concat]. apply Permutation_app_head, IH.
        -- apply concat_map_perm. intros s _. apply sort_by_perm.
    + intros _ H. apply (Permutation_in _ PO), InP in H as (s & ks & Hs & E & Nk & K & k & Hk & H). apply K, in_map_iff in Hk as (x & <- & Hx). assert (G : In x (of_label (F s) (fst x))) by (apply filter_In; split; [exact Hx|apply label_eqb_iff; reflexivity]). rewrite <- H in G. exact G.
    + apply Forall_forall. intros b Hb. apply (Permutation_in _ PO), InP in Hb as (s & ks & Hs & E & Nk & K & k & Hk & ->). apply filter_sorted, sort_by_sorted, idx_lawful.
    + apply sort_by_sorted, list_lawful, idx_lawful.
    + intros x y. split.
      * intros (b & Hb & Hx & Hy). apply (Permutation_in _ PO), InP in Hb as (s & ks & Hs & E & Nk & K & k & Hk & ->). apply filter_In in Hx as [Hx Ex]. apply filter_In in Hy as [Hy Ey]. apply label_eqb_iff in Ex, Ey. apply InF in Hx as [Hx Ox], Hy as [Hy Oy].
        split; [exact Ox|]. split; [exact Oy|]. split; [congruence|]. exists s. auto.
      * intros (Ox & Oy & L & s & Hs & Hx & Hy). exists (of_label (F s) (fst x)). split; [|split].
        -- apply (Permutation_in _ (Permutation_sym PO)), InP. destruct (split_spaces_eq (F s)) as (ks & E & Nk & K). exists s, ks. repeat split; try assumption; try apply K. exists (fst x). split; [apply K, in_map, InF; auto|reflexivity].
        -- apply filter_In. split; [apply InF; auto|apply label_eqb_iff; reflexivity].
        -- apply filter_In. split; [apply InF; auto|apply label_eqb_iff, L].
Qed.
(** the indices of an operator side lie on exactly one tensor each *)
Lemma side_cover ops xs : NoDup ops -> (forall x, In x ops -> list_sum (map (fun t => idx_times x (tensor_indices t)) xs) = 1) ->
  Permutation (concat (map (fun s => filter (fun i => mem_idx i ops) s) (map (fun x => dedup (tensor_indices x)) xs))) ops.
Proof.
  intros N H. apply (Permutation_count_occ idx_eq_dec). intros x. rewrite map_map.
  assert (Z1 : count_occ idx_eq_dec (concat (map (fun t => filter (fun i => mem_idx i ops) (dedup (tensor_indices t))) xs)) x = if mem_idx x ops then list_sum (map (fun t => if mem_idx x (tensor_indices t) then 1 else 0) xs) else 0).
  { clear H. induction xs as [|t xs IH]; [destruct (mem_idx x ops); reflexivity|]. cbn [map concat]. rewrite count_occ_app, IH. clear IH.
    assert (Q : count_occ idx_eq_dec (filter (fun i => mem_idx i ops) (dedup (tensor_indices t))) x = if mem_idx x ops then (if mem_idx x (tensor_indices t) then 1 else 0) else 0).
    { assert (ND : NoDup (filter (fun i => mem_idx i ops) (dedup (tensor_indices t)))) by (apply NoDup_filter, dedup_nodup). rewrite (NoDup_count_occ' idx_eq_dec) in ND. destruct (mem_idx x ops) eqn:E1; [destruct (mem_idx x (tensor_indices t)) eqn:E2|].
      - apply ND, filter_In. split; [apply dedup_in, mem_idx_in, E2|exact E1].
      - apply count_occ_not_In. intros R. apply filter_In in R as [R _]. apply (proj1 (dedup_in _ _)) in R. apply mem_idx_in in R. congruence.
      - apply count_occ_not_In. intros R. apply filter_In in R as [_ R]. congruence. }
    rewrite Q. destruct (mem_idx x ops); [|reflexivity]. reflexivity. }
  rewrite Z1. destruct (mem_idx x ops) eqn:E.
  - apply mem_idx_in in E. rewrite (proj1 (NoDup_count_occ' idx_eq_dec ops) N x E). specialize (H x E). clear - H.
    induction xs as [|t xs IH]; [exact H|]. cbn [map list_sum fold_right] in *. unfold list_sum in *. cbn [map fold_right] in *. destruct (mem_idx x (tensor_indices t)) eqn:M.
    + apply mem_idx_in in M. apply (count_occ_In idx_eq_dec) in M. unfold idx_times in H at 1. assert (F0 : fold_right Nat.add 0 (map (fun t => idx_times x (tensor_indices t)) xs) = 0) by lia.
      assert (G : fold_right Nat.add 0 (map (fun t0 => if mem_idx x (tensor_indices t0) then 1 else 0) xs) = 0); [|lia]. clear - F0. induction xs as [|t xs IH]; [reflexivity|]. cbn [map fold_right] in *. destruct (mem_idx x (tensor_indices t)) eqn:M; [apply mem_idx_in, (count_occ_In idx_eq_dec) in M; unfold idx_times in F0 at 1; lia|]. apply IH. lia.
    + apply IH. assert (Z : idx_times x (tensor_indices t) = 0); [|lia]. apply count_occ_not_In. intros R. apply mem_idx_in in R. congruence.
  - symmetry. apply count_occ_not_In. intros R. apply mem_idx_in in R. congruence.
Qed.
Lemma open_partition t xs o c tm : make_term t xs o c = Ok tm -> tdiag tm = [] -> NoDup (cre o) -> NoDup (ann o) ->
  let together := fun x y => exists z, In z xs /\ In x (tensor_indices z) /\ In y (tensor_indices z) in
  good_partition (cre o) together (fst (perm_partition_open tm)) /\ good_partition (ann o) together (snd (perm_partition_open tm)).
Proof.
  intros H D Nc Na together. pose proof (make_term_inv _ _ _ _ _ H) as (_ & C & _). pose proof (make_term_fields _ _ _ _ _ H) as (_ & P & _ & Eo & _ & _ & _ & _ & _ & Hd).
  assert (ND : forall i, ~ diagonal_in i xs o). { intros i Q. assert (R : In (i, total_times i xs o) (tdiag tm)) by (apply Hd; auto). rewrite D in R. exact R. }
  assert (Sum : forall x, list_sum (map (fun t => idx_times x (tensor_indices t)) (ttensors tm)) = list_sum (map (fun z => idx_times x (tupper z) + idx_times x (tlower z)) xs)).
  { intros x. transitivity (list_sum (map (fun t => idx_times x (tensor_indices t)) xs)).
    - assert (PS : forall a b, Permutation a b -> list_sum a = list_sum b) by (intros a b Q; induction Q; cbn in *; unfold list_sum in *; cbn; lia). apply PS, Permutation_map, P.
    - f_equal. apply map_ext. intros z. unfold tensor_indices, idx_times. apply count_occ_app. }
  assert (T2 : forall i, 0 < total_times i xs o -> total_times i xs o = 2) by (intros i Q; apply (C i Q), ND).
  assert (InT : forall s x, In s (map (fun x => dedup (tensor_indices x)) (ttensors tm)) -> In x s -> exists z, In z xs /\ s = dedup (tensor_indices z)).
  { intros s x Hs _. apply in_map_iff in Hs as (z & <- & Hz). exists z. split; [apply (Permutation_in _ P), Hz|reflexivity]. }
  assert (Conv : forall ops part, good_partition ops (fun x y => exists s, In s (map (fun x => dedup (tensor_indices x)) (ttensors tm)) /\ In x s /\ In y s) part -> good_partition ops together part).
  { intros ops part [G1 G2 G3 G4 G5]. constructor; try assumption. intros x y. rewrite G5. assert (E : (exists s, In s (map (fun x => dedup (tensor_indices x)) (ttensors tm)) /\ In x s /\ In y s) <-> together x y).
    { split.
      - intros (s & Hs & Hx & Hy). apply in_map_iff in Hs as (z & <- & Hz). exists z. split; [apply (Permutation_in _ P), Hz|]. split; apply dedup_in; assumption.
      - intros (z & Hz & Hx & Hy). exists (dedup (tensor_indices z)). split; [apply in_map_iff; exists z; split; [reflexivity|apply (Permutation_in _ (Permutation_sym P)), Hz]|]. split; apply dedup_in; assumption. }
    tauto. }
  unfold perm_partition_open. rewrite Eo. cbn [fst snd]. split; apply Conv, atomic_good; try assumption; apply side_cover; try assumption; intros x Hx; rewrite Sum.
  - assert (A1 : idx_times x (cre o) = 1) by (apply (proj1 (NoDup_count_occ' idx_eq_dec _) Nc), Hx). assert (A2 : idx_times x (ann o) = 0) by (apply count_occ_not_In; intros R; apply (ND x); left; auto).
    pose proof (T2 x) as Q. unfold total_times in Q. lia.
  - assert (A1 : idx_times x (ann o) = 1) by (apply (proj1 (NoDup_count_occ' idx_eq_dec _) Na), Hx). assert (A2 : idx_times x (cre o) = 0) by (apply count_occ_not_In; intros R; apply (ND x); left; auto).
    pose proof (T2 x) as Q. unfold total_times in Q. lia.
Qed.

(** ** grouping *)
Lemma get_set {V} k k' (v : V) d : dict_get text_eqb k (dict_set text_eqb k' v d) = if text_eqb k k' then Some v else dict_get text_eqb k d.
Proof.
  induction d as [|[k0 v0] d IH]; cbn [dict_set dict_get]; [reflexivity|]. destruct (text_eqb k' k0) eqn:E; cbn [dict_get].
  - apply text_eqb_eq in E as <-. destruct (text_eqb k k'); reflexivity.
  - rewrite IH. destruct (text_eqb k k0) eqn:E1, (text_eqb k k') eqn:E2; try reflexivity. apply text_eqb_eq in E1, E2. subst. rewrite (proj2 (text_eqb_eq _ _) eq_refl) in E. discriminate.
Qed.
Lemma cat_eqb_eq a b : cat_eqb a b = true <-> a = b.
Proof. unfold cat_eqb. rewrite andb_true_iff, !text_eqb_eq. destruct a, b; cbn. split; [intros [-> ->]; reflexivity|intros H; injection H; auto]. Qed.
Lemma valid_part_sub self part : (forall b x, In b part -> In x b -> In x self) -> valid_partition self part = Ok tt.
Proof. intros H. unfold valid_partition. rewrite (proj2 (forallb_forall _ _)); [reflexivity|]. intros b Hb. apply forallb_forall. intros x Hx. apply mem_idx_in, (H b x Hb Hx). Qed.
Lemma latex_total t self part : (forall b x, In b part -> In x b -> In x self) -> exists n p, latex_permute_format t self part = Ok (n, p).
Proof.
  intros H. unfold latex_permute_format, n_multiset_permutation, exist_permute_format. rewrite (valid_part_sub self part H). cbn [pybind]. destruct (itype_antisymmetric t); [|eauto]. cbn [andb].
  repeat (match goal with |- context [if ?b then _ else _] => destruct b end; cbn [pybind negb]); eauto.
Qed.
Lemma category_total t : exists p, category t = Ok (space_str t, p).
Proof.
  unfold category. destruct (perm_partition_open t) as [pc pa] eqn:E. unfold perm_partition_open in E. injection E as <- <-. unfold op_latex_permute_format. destruct (op_is_empty (tsq t)); [eexists; reflexivity|].
  destruct (latex_total (ttype t) (cre (tsq t)) _ (fun b x => in_perm_part _ (map (fun x => dedup (tensor_indices x)) (ttensors t)) b x)) as (n & p & ->). cbn [pybind].
  destruct (latex_total (ttype t) (ann (tsq t)) _ (fun b x => in_perm_part _ (map (fun x => dedup (tensor_indices x)) (ttensors t)) b x)) as (n' & p' & ->). cbn [pybind]. eexists. reflexivity.
Qed.
Definition key_of (t : term) : text * text := match category t with Ok k => k | Raise _ => ([], []) end.
Lemma key_of_ok t : category t = Ok (key_of t).
Proof. unfold key_of. destruct (category_total t) as [p ->]. reflexivity. Qed.

Definition with_key (k : text * text) (terms : list term) : list term := filter (fun t => cat_eqb k (key_of t)) terms.
Definition store (kv : (text * text) * list term) (d : list (text * inner)) : pyres (list (text * inner)) :=
  pybind (sorted_terms (snd kv)) (fun s =>
  pybind (dict_item text_eqb (fst (fst kv)) d) (fun row =>
  Ok (dict_set text_eqb (fst (fst kv)) (dict_set text_eqb (snd (fst kv)) s row) d))).
Lemma store_fold_raise items e : fold_left (fun acc kv => pybind acc (fun d => store kv d)) items (Raise e) = Raise e.
Proof. induction items; [reflexivity|]. exact IHitems. Qed.
Lemma store_fold items : forall d, NoDup (map fst items) -> (forall k, In k (map fst items) -> dict_get text_eqb (fst k) d <> None) ->
  (forall k ts, In (k, ts) items -> same_types ts = true) ->
  exists out, fold_left (fun acc kv => pybind acc (fun d => store kv d)) items (Ok d) = Ok out /\
    (forall s p, bucket out s p = match dict_get cat_eqb (s, p) items with Some ts => Some (sort_by (plt term_ord) ts) | None => bucket d s p end).
Proof.
  induction items as [|[[s0 p0] ts] items IH]; intros d N R T; [exists d; split; [reflexivity|]; intros s p; reflexivity|].
  cbn [map fst] in N. inversion N as [|? ? N1 N2]; subst. cbn [fold_left pybind].
  destruct (dict_get text_eqb s0 d) as [row|] eqn:ER; [|destruct (R (s0, p0) (or_introl eq_refl)); exact ER].
  set (d' := dict_set text_eqb s0 (dict_set text_eqb p0 (sort_by (plt term_ord) ts) row) d).
  assert (ES : store (s0, p0, ts) d = Ok d') by (unfold store, sorted_terms, dict_item; cbn [fst snd]; rewrite (T (s0, p0) ts (or_introl eq_refl)), ER; reflexivity). rewrite ES.
  destruct (IH d' N2) as (out & Eo & Hb).
  - intros k Hk. unfold d'. rewrite get_set. destruct (text_eqb (fst k) s0); [discriminate|]. apply R. right. exact Hk.
  - intros k us Hk. apply (T k us). right. exact Hk.
  - exists out. split; [exact Eo|]. intros s p. rewrite Hb. cbn [dict_get]. destruct (cat_eqb (s, p) (s0, p0)) eqn:E.
    + apply cat_eqb_eq in E. injection E as -> ->. rewrite (ElemProofs.dict_get_none cat_eqb cat_eqb_eq) by exact N1. unfold bucket, d'. rewrite get_set, (proj2 (text_eqb_eq _ _) eq_refl), get_set, (proj2 (text_eqb_eq _ _) eq_refl). reflexivity.
    + destruct (dict_get cat_eqb (s, p) items); [reflexivity|]. unfold bucket, d'. rewrite get_set. destruct (text_eqb s s0) eqn:E1; [|reflexivity]. apply text_eqb_eq in E1 as ->. unfold inner in *. rewrite ER, get_set. destruct (text_eqb p p0) eqn:E2; [|reflexivity]. apply text_eqb_eq in E2 as ->. rewrite (proj2 (cat_eqb_eq _ _) eq_refl) in E. discriminate.
Qed.
Lemma store_fold_type items : forall d, (forall k, In k (map fst items) -> dict_get text_eqb (fst k) d <> None) -> (exists k ts, In (k, ts) items /\ same_types ts = false) ->
  fold_left (fun acc kv => pybind acc (fun d => store kv d)) items (Ok d) = Raise TypeError.
Proof.
  induction items as [|[[s0 p0] ts] items IH]; intros d R (k & us & H & F); [destruct H|]. cbn [fold_left pybind].
  destruct (dict_get text_eqb s0 d) as [row|] eqn:ER; [|destruct (R (s0, p0) (or_introl eq_refl)); exact ER].
  assert (ES : store (s0, p0, ts) d = if same_types ts then Ok (dict_set text_eqb s0 (dict_set text_eqb p0 (sort_by (plt term_ord) ts) row) d) else Raise TypeError) by (unfold store, sorted_terms, dict_item; cbn [fst snd]; rewrite ER; destruct (same_types ts); reflexivity). rewrite ES.
  destruct (same_types ts) eqn:Ts; [|apply store_fold_raise]. apply IH.
  - intros k' Hk. rewrite get_set. destruct (text_eqb (fst k') s0); [discriminate|]. apply R. right. exact Hk.
  - destruct H as [H|H]; [congruence|eauto].
Qed.
Definition start_rows (ks : list (text * text)) (d : list (text * inner)) := fold_left (fun d k => dict_set text_eqb (fst k) [(snd k, [])] d) ks d.
Lemma last_map_some {A} (l : list A) k : last (map Some l) None = Some k -> In k l.
Proof. induction l as [|x l IH]; [discriminate|]. cbn [map]. destruct l as [|y l]; [cbn; intros H; injection H as ->; left; reflexivity|]. intros H. right. apply IH. exact H. Qed.
Lemma last_map_none {A} (l : list A) : last (map Some l) None = None -> l = [].
Proof. induction l as [|x l IH]; [reflexivity|]. cbn [map]. destruct l as [|y l]; [discriminate|]. intros H. specialize (IH H). discriminate. Qed.

Lemma start_rows_get ks : forall d s, dict_get text_eqb s (start_rows ks d) = match last (map Some (filter (fun k => text_eqb s (fst k)) ks)) None with Some k => Some [(snd k, [])] | None => dict_get text_eqb s d end.
Proof.
  induction ks as [|k ks IH]; intros d s; [reflexivity|]. unfold start_rows in *. cbn [fold_left]. rewrite IH, get_set. cbn [filter]. destruct (text_eqb s (fst k)) eqn:E; [|reflexivity]. cbn [map]. destruct (filter (fun k => text_eqb s (fst k)) ks) as [|k' fs]; [reflexivity|]. change (last (Some k :: map Some (k' :: fs)) None) with (last (map Some (k' :: fs)) None). destruct (last (map Some (k' :: fs)) None) eqn:L; [reflexivity|]. apply last_map_none in L. discriminate.
Qed.
Lemma categorize_unfold terms : categorize_contractions terms =
  let items := append_all cat_eqb (map (fun t => (key_of t, t)) terms) [] in
  fold_left (fun acc kv => pybind acc (fun d => store kv d)) items (Ok (start_rows (map fst items) [])).
Proof.
  unfold categorize_contractions. assert (E : pymap (fun t => pybind (category t) (fun k => Ok (k, t))) terms = Ok (map (fun t => (key_of t, t)) terms)) by (apply pymap_total; intros t _; rewrite key_of_ok; reflexivity).
  rewrite E. reflexivity.
Qed.
Lemma items_get terms k : dict_list cat_eqb k (append_all cat_eqb (map (fun t => (key_of t, t)) terms) []) = with_key k terms.
Proof.
  rewrite (dict_list_append_all cat_eqb cat_eqb_eq). change (dict_list cat_eqb k []) with (@nil term). cbn [app]. unfold with_key. induction terms as [|t ts IH]; [reflexivity|]. cbn [map filter fst snd]. destruct (cat_eqb k (key_of t)); cbn [map snd]; rewrite IH; reflexivity.
Qed.
Lemma items_keys terms k : In k (map fst (append_all cat_eqb (map (fun t => (key_of t, t)) terms) [])) <-> with_key k terms <> [].
Proof.
  rewrite (append_all_keys cat_eqb cat_eqb_eq). rewrite map_map. cbn [fst map In]. split.
  - intros [H|[]]. apply in_map_iff in H as (t & <- & Ht). intros E. assert (G : In t (with_key (key_of t) terms)) by (apply filter_In; split; [exact Ht|apply cat_eqb_eq; reflexivity]). rewrite E in G. exact G.
  - intros H. left. destruct (with_key k terms) as [|t ts] eqn:E; [congruence|]. assert (G : In t (with_key k terms)) by (rewrite E; left; reflexivity). apply filter_In in G as [G Q]. apply cat_eqb_eq in Q as ->. apply in_map, G.
Qed.
Lemma items_in terms k ts : In (k, ts) (append_all cat_eqb (map (fun t => (key_of t, t)) terms) []) -> ts = with_key k terms.
Proof.
  intros H. rewrite <- items_get. unfold dict_list. assert (N : NoDup (map fst (append_all cat_eqb (map (fun t => (key_of t, t)) terms) []))) by (apply append_all_nodup; [apply cat_eqb_eq|constructor]).
  rewrite (proj2 (ElemProofs.dict_get_in cat_eqb cat_eqb_eq k ts _ N) H). reflexivity.
Qed.
Lemma rows_present terms : let items := append_all cat_eqb (map (fun t => (key_of t, t)) terms) [] in
  forall k, In k (map fst items) -> dict_get text_eqb (fst k) (start_rows (map fst items) []) <> None.
Proof.
  intros items k Hk. rewrite start_rows_get. destruct (last _ None) eqn:E; [discriminate|]. apply last_map_none in E. assert (G : In k (filter (fun k0 => text_eqb (fst k) (fst k0)) (map fst items))) by (apply filter_In; split; [exact Hk|apply text_eqb_eq; reflexivity]). rewrite E in G. destruct G.
Qed.
Lemma categorize_ok terms : (forall t t', In t terms -> In t' terms -> key_of t = key_of t' -> ttype t = ttype t') ->
  exists out, categorize_contractions terms = Ok out /\
    forall s p, bucket out s p = match with_key (s, p) terms with [] => None | ts => Some (sort_by (plt term_ord) ts) end.
Proof.
  intros HT. rewrite categorize_unfold. cbv zeta. set (items := append_all cat_eqb _ []).
  assert (N : NoDup (map fst items)) by (apply append_all_nodup; [apply cat_eqb_eq|constructor]).
  destruct (store_fold items (start_rows (map fst items) []) N (rows_present terms)) as (out & E & B).
  - intros k ts H. apply items_in in H as ->. apply same_types_iff. intros t t' H H'. apply filter_In in H as [H Q], H' as [H' Q']. apply cat_eqb_eq in Q, Q'. apply HT; congruence.
  - exists out. split; [exact E|]. intros s p. rewrite B. destruct (dict_get cat_eqb (s, p) items) as [ts|] eqn:G.
    + apply (ElemProofs.dict_get_in cat_eqb cat_eqb_eq (s, p) ts items N) in G. pose proof (items_in _ _ _ G) as ->. assert (K : In (s, p) (map fst items)) by (apply in_map_iff; eexists; split; [|exact G]; reflexivity). apply items_keys in K. destruct (with_key (s, p) terms); [congruence|reflexivity].
    + assert (K : with_key (s, p) terms = []). { destruct (with_key (s, p) terms) eqn:W; [reflexivity|]. assert (K : In (s, p) (map fst items)) by (apply items_keys; rewrite W; discriminate). destruct (ElemProofs.dict_get_key cat_eqb cat_eqb_eq (s, p) items K) as [v V]. congruence. }
      rewrite K. unfold bucket. rewrite start_rows_get. destruct (last _ None) as [k|] eqn:L; [|reflexivity]. apply last_map_some, filter_In in L as [L Q]. apply text_eqb_eq in Q. cbn [dict_get]. destruct (text_eqb p (snd k)) eqn:Q2; [|reflexivity]. apply text_eqb_eq in Q2. exfalso. apply items_keys in L. apply L. destruct k; cbn in *; subst. exact K.
Qed.
Lemma categorize_type terms : (exists t t', In t terms /\ In t' terms /\ key_of t = key_of t' /\ ttype t <> ttype t') -> categorize_contractions terms = Raise TypeError.
Proof.
  intros (t & t' & H & H' & K & T). rewrite categorize_unfold. cbv zeta. set (items := append_all cat_eqb _ []). apply store_fold_type; [apply rows_present|].
  exists (key_of t), (with_key (key_of t) terms). split.
  - assert (N : NoDup (map fst items)) by (apply append_all_nodup; [apply cat_eqb_eq|constructor]). assert (J : In (key_of t) (map fst items)). { apply items_keys. intros E. assert (G : In t (with_key (key_of t) terms)) by (apply filter_In; split; [exact H|apply cat_eqb_eq; reflexivity]). rewrite E in G. exact G. }
    destruct (ElemProofs.dict_get_key cat_eqb cat_eqb_eq (key_of t) items J) as [v V]. apply (ElemProofs.dict_get_in cat_eqb cat_eqb_eq _ _ items N) in V. pose proof (items_in _ _ _ V) as <-. exact V.
  - destruct (same_types (with_key (key_of t) terms)) eqn:S; [|reflexivity]. exfalso. apply T. rewrite same_types_iff in S. apply S; apply filter_In; (split; [assumption|apply cat_eqb_eq; congruence]).
Qed.
