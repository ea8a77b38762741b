(** The sets of elementary contractions of the contraction code are the families of groups of the written string. *)
From Coq Require Import Ascii String ZArith QArith Qcanon Ring_theory Ring Lia Bool Sorting.Sorted.
From Verif Require Import PyBase OrderSpec OrderProofs ParitySpec ParityProofs SpaceModel IndicesModel IndicesProofs IterProofs ElemModel ElemSpec ElemProofs MacroModel CompatSpec ConnectedProofs BacktrackProofs CumulantProofs HalfProofs WickModel WickSpec WickProofs DriverProofs
  TermModel BchSpec ValueSpec ValueProofs TermSpec SumProofs SymmetrySpec CombineModel ContractSpec ContractValue FamilySpec FamilyProofs FamilySets FockSpec ExtensionProofs FockProofs.
Local Close Scope Q_scope.
Local Close Scope Qc_scope.
Local Open Scope nat_scope.
Local Notation length := List.length.

Definition tleg : Type := (nat * leg)%type.
Lemma tleg_dec (x y : tleg) : {x = y} + {x <> y}.
Proof. repeat decide equality. Qed.
Definition memb (x : tleg) (l : list tleg) : bool := if in_dec tleg_dec x l then true else false.
Lemma memb_in x l : memb x l = true <-> In x l.
Proof. unfold memb. destruct (in_dec tleg_dec x l); split; auto; discriminate. Qed.
Lemma pair_dec (x y : nat * idx) : {x = y} + {x <> y}.
Proof. repeat decide equality. Qed.
Definition memp (x : nat * idx) (l : list (nat * idx)) : bool := if in_dec pair_dec x l then true else false.
Lemma memp_in x l : memp x l = true <-> In x l.
Proof. unfold memp. destruct (in_dec pair_dec x l); split; auto; discriminate. Qed.

Definition untag (x : tleg) : nat * idx := (fst x, snd (snd x)).
Definition cres (g : list tleg) : list (nat * idx) := map untag (filter (fun x => fst (snd x)) g).
Definition anns (g : list tleg) : list (nat * idx) := map untag (filter (fun x => negb (fst (snd x))) g).
Definition tagged_string (ops : list op) : list tleg := tag_all 0 (map open_string ops).

Lemma tagged_snd ops : map snd (tagged_string ops) = written_string ops.
Proof. unfold tagged_string, written_string. rewrite tag_all_snd, flat_map_concat_map. reflexivity. Qed.
Lemma in_tag_all ops : forall k n b i, In (n, (b, i)) (tag_all k (map open_string ops)) <-> k <= n /\ exists o, nth_error ops (n - k) = Some o /\ In i (if b : bool then cre o else ann o).
Proof.
  induction ops as [|o ops IH]; intros k n b i; cbn [map tag_all].
  - split; [intros []|intros (_ & o & H & _)]. destruct (n - k); discriminate.
  - rewrite in_app_iff, IH, in_map_iff. split.
    + intros [([b' j] & [= <- -> ->] & H)|(L & o' & E & H)].
      * split; [lia|]. exists o. rewrite Nat.sub_diag. split; [reflexivity|]. apply in_open_string in H as [[E H]|[E H]]; cbn [fst] in E; subst b; exact H.
      * split; [lia|]. exists o'. replace (n - k) with (Datatypes.S (n - Datatypes.S k)) by lia. auto.
    + intros (L & o' & E & H). destruct (Nat.eq_dec n k) as [->|N].
      * left. rewrite Nat.sub_diag in E. cbn in E. injection E as <-. exists (b, i). split; [reflexivity|]. apply in_open_string. cbn [fst snd]. destruct b; auto.
      * right. split; [lia|]. exists o'. replace (n - k) with (Datatypes.S (n - Datatypes.S k)) in E by lia. auto.
Qed.
Lemma in_tagged ops n b i : In (n, (b, i)) (tagged_string ops) <-> exists o, nth_error ops n = Some o /\ In i (if b : bool then cre o else ann o).
Proof. unfold tagged_string. rewrite in_tag_all, Nat.sub_0_r. split; [intros [_ H]; exact H|intros H; split; [lia|exact H]]. Qed.
Lemma in_legs_iff (f : op -> list idx) ops n i : In (n, i) (legs (map f ops)) <-> exists o, nth_error ops n = Some o /\ In i (f o).
Proof.
  split; [apply in_legs|]. intros (o & E & H). unfold legs. apply in_flat_map. exists (n, f o). split; [|cbn [fst snd]; apply in_map, H]. apply in_enumerate. split; [lia|]. rewrite Nat.sub_0_r, nth_error_map, E. reflexivity.
Qed.
Lemma tagged_sorted ops : StronglySorted (fun x y : tleg => fst x <= fst y) (tagged_string ops).
Proof.
  unfold tagged_string. generalize (map open_string ops) as ws. intros ws. generalize 0 as k. induction ws as [|w ws IH]; intros k; [constructor|]. cbn [tag_all].
  assert (B : forall (ws : list (list leg)) k x, In x (tag_all k ws) -> k <= fst x).
  { clear. induction ws as [|w ws IH]; intros k x H; [destruct H|]. cbn [tag_all] in H. apply in_app_or in H as [H|H]; [apply in_map_iff in H as (y & <- & _); apply le_n|]. specialize (IH _ _ H). lia. }
  induction w as [|y w IHw]; [apply IH|]. cbn [map app]. constructor; [exact IHw|]. apply Forall_forall. intros x H. cbn [fst]. apply in_app_or in H as [H|H]; [apply in_map_iff in H as (z & <- & _); apply le_n|]. specialize (B _ _ _ H). lia.
Qed.
Lemma sorted_pair {Y} (R : Y -> Y -> Prop) l x y : StronglySorted R l -> subseq [x; y] l -> R x y.
Proof.
  intros S. induction S as [|z l S IH F]; intros H; inversion H as [|? ? ? H'|? ? ? H']; subst; [|apply IH, H']. rewrite Forall_forall in F. apply F, (subseq_incl _ _ H'). left. reflexivity.
Qed.
Lemma subseq_single {Y} (y : Y) l : In y l -> subseq [y] l.
Proof. induction l as [|z l IH]; intros []; [subst; constructor; apply subseq_nil_l|constructor; apply IH; assumption]. Qed.
Lemma pair_sorted (l : list tleg) x y : StronglySorted (fun x y : tleg => fst x <= fst y) l -> In x l -> In y l -> fst x < fst y -> subseq [x; y] l.
Proof.
  intros S. induction S as [|z l S IH F]; intros Hx Hy L; [destruct Hx|]. rewrite Forall_forall in F. destruct Hx as [->|Hx], Hy as [<-|Hy]; [lia| | |].
  - constructor. apply subseq_single, Hy.
  - specialize (F x Hx). lia.
  - constructor. apply IH; assumption.
Qed.
Lemma filter_map_all {Y Z} (f : Y -> Z) (p : Z -> bool) l : filter p (map f l) = map f (filter (fun y => p (f y)) l).
Proof. induction l as [|y l IH]; [reflexivity|]. cbn [map filter]. rewrite IH. destruct (p (f y)); reflexivity. Qed.
Lemma cres_app g h : cres (g ++ h) = cres g ++ cres h.
Proof. unfold cres. rewrite filter_app, map_app. reflexivity. Qed.
Lemma open_cres k o : cres (map (pair k) (open_string o)) = map (pair k) (cre o).
Proof.
  unfold cres, open_string. rewrite map_app, filter_app, !map_map. rewrite !filter_map_all. cbn [fst snd]. assert (E1 : forall l : list idx, filter (fun _ => true) l = l) by (induction l as [|i l IH]; cbn; [reflexivity|rewrite IH; reflexivity]). assert (E2 : forall l : list idx, filter (fun _ => false) l = []) by (induction l as [|i l IH]; cbn; [reflexivity|exact IH]).
  rewrite E1, E2. cbn [map]. rewrite app_nil_r, map_map. reflexivity.
Qed.
Lemma tagged_cres ops : cres (tagged_string ops) = legs (map cre ops).
Proof.
  unfold tagged_string, legs. generalize 0 as k. induction ops as [|o ops IH]; intros k; [reflexivity|]. cbn [map tag_all enumerate flat_map fst snd]. rewrite cres_app, open_cres, IH. reflexivity.
Qed.
Lemma legs_filter (f : op -> list idx) ops : legs (map (fun o => filter active_like (f o)) ops) = filter (fun x => active_like (snd x)) (legs (map f ops)).
Proof.
  unfold legs. generalize 0 as k. induction ops as [|o ops IH]; intros k; [reflexivity|]. cbn [map enumerate flat_map fst snd]. rewrite filter_app, IH. f_equal. rewrite filter_map_all. reflexivity.
Qed.

Lemma nodup_map_eq {Y Z} (f : Y -> Z) l x y : NoDup (map f l) -> In x l -> In y l -> f x = f y -> x = y.
Proof.
  induction l as [|z l IH]; intros N Hx Hy E; [destruct Hx|]. cbn [map] in N. inversion N as [|? ? N1 N2]; subst. destruct Hx as [->|Hx], Hy as [->|Hy]; [reflexivity| | |apply IH; assumption].
  - exfalso. apply N1. rewrite E. apply in_map, Hy.
  - exfalso. apply N1. rewrite <- E. apply in_map, Hx.
Qed.

Section Ops.
  Context (ops : list op) (D : distinct_legs ops) (AL : Forall op_alpha ops).
  Local Notation W := (tagged_string ops).
  Lemma tagged_nodup : NoDup W.
  Proof. apply (NoDup_map_inv snd). rewrite tagged_snd. exact D. Qed.
  Lemma tag_unique n m b i : In (n, (b, i)) W -> In (m, (b, i)) W -> n = m.
  Proof.
    intros H1 H2. assert (N : NoDup (map snd W)) by (rewrite tagged_snd; exact D). assert (E : (n, (b, i)) = (m, (b, i))); [|injection E as <-; reflexivity].
    apply (nodup_map_eq snd W); [exact N|exact H1|exact H2|reflexivity].
  Qed.
  Definition all_anns : list (nat * idx) := legs (map ann ops).
  Lemma in_all_anns n i : In (n, i) all_anns <-> In (n, (false, i)) W.
  Proof. unfold all_anns. rewrite in_legs_iff, in_tagged. reflexivity. Qed.
  Lemma in_all_cres n i : In (n, i) (legs (map cre ops)) <-> In (n, (true, i)) W.
  Proof. rewrite in_legs_iff, in_tagged. reflexivity. Qed.
  Lemma nodup_cres : NoDup (map snd (legs (map cre ops))).
  Proof. rewrite snd_legs, <- flat_map_concat_map. apply (distinct_flat ops D). Qed.
  Lemma nodup_anns : NoDup (map snd all_anns).
  Proof. unfold all_anns. rewrite snd_legs, <- flat_map_concat_map. apply (distinct_flat ops D). Qed.

  (** ** from groups to elementary contractions and back *)
  Definition lowers (g : list tleg) : list (nat * idx) := filter (fun x => memb (fst x, (false, snd x)) g) all_anns.
  Definition hole_pair (g : list tleg) : bool := match g with [(_, (false, _)); (_, (true, _))] => true | _ => false end.
  Definition econ_of (g : list tleg) : econ := Con (hole_pair g) (map snd (cres g)) (map snd (lowers g)).
  Definition holds (e : econ) (l : leg) : bool := if in_dec idx_eq_dec (snd l) (if fst l then upper e else lower e) then true else false.
  Definition group_of (e : econ) : list tleg := filter (fun x => holds e (snd x)) W.
  Lemma holds_in e l : holds e l = true <-> In (snd l) (if fst l then upper e else lower e).
  Proof. unfold holds. destruct (in_dec _ _ _); split; auto; discriminate. Qed.
  Lemma in_cres g n i : In (n, i) (cres g) <-> In (n, (true, i)) g.
  Proof.
    unfold cres. rewrite in_map_iff. split.
    - intros ([m [b j]] & [= <- <-] & H). apply filter_In in H as [H E]. cbn in E. subst b. exact H.
    - intros H. exists (n, (true, i)). split; [reflexivity|]. apply filter_In. auto.
  Qed.
  Lemma in_anns g n i : In (n, i) (anns g) <-> In (n, (false, i)) g.
  Proof.
    unfold anns. rewrite in_map_iff. split.
    - intros ([m [b j]] & [= <- <-] & H). apply filter_In in H as [H E]. cbn in E. destruct b; [discriminate|]. exact H.
    - intros H. exists (n, (false, i)). split; [reflexivity|]. apply filter_In. auto.
  Qed.
  Lemma in_lowers g n i : incl g W -> In (n, i) (lowers g) <-> In (n, (false, i)) g.
  Proof.
    intros I. unfold lowers. rewrite filter_In, memb_in. cbn [fst snd]. rewrite in_all_anns. split; [tauto|]. intros H. split; [apply I, H|exact H].
  Qed.
  Lemma in_upper_econ g i : In i (upper (econ_of g)) <-> exists n, In (n, (true, i)) g.
  Proof.
    cbn [econ_of upper]. rewrite in_map_iff. split; [intros ([n j] & E & H); cbn in E; subst; exists n; apply in_cres, H|intros [n H]; exists (n, i); split; [reflexivity|apply in_cres, H]].
  Qed.
  Lemma in_lower_econ g i : incl g W -> In i (lower (econ_of g)) <-> exists n, In (n, (false, i)) g.
  Proof.
    intros I. cbn [econ_of lower]. rewrite in_map_iff. split; [intros ([n j] & E & H); cbn in E; subst; exists n; apply (in_lowers g); assumption|intros [n H]; exists (n, i); split; [reflexivity|apply in_lowers; assumption]].
  Qed.
  Lemma holds_econ g x : incl g W -> In x W -> (holds (econ_of g) (snd x) = true <-> In x g).
  Proof.
    intros I H. rewrite holds_in. destruct x as [n [[|] i]]; cbn [fst snd].
    - rewrite in_upper_econ. split; [intros [m Q]; rewrite (tag_unique n m true i H (I _ Q)); exact Q|eauto].
    - rewrite (in_lower_econ g i I). split; [intros [m Q]; rewrite (tag_unique n m false i H (I _ Q)); exact Q|eauto].
  Qed.
  Lemma group_econ g : subseq g W -> group_of (econ_of g) = g.
  Proof.
    intros H. symmetry. unfold group_of. rewrite (subseq_is_filter memb memb_in g W H tagged_nodup) at 1. apply filter_ext_in. intros x Hx. apply eq_true_iff_eq. rewrite memb_in. symmetry. apply holds_econ; [apply subseq_incl, H|exact Hx].
  Qed.
  Lemma nodup_all_anns : NoDup all_anns. Proof. apply (NoDup_map_inv snd), nodup_anns. Qed.
  Lemma nodup_all_cres : NoDup (legs (map cre ops)). Proof. apply (NoDup_map_inv snd), nodup_cres. Qed.
  Lemma untag_filter_nodup b g : NoDup g -> NoDup (map untag (filter (fun x : tleg => Bool.eqb (fst (snd x)) b) g)).
  Proof.
    induction g as [|[n [b' i]] g IH]; intros N; [constructor|]. inversion N as [|? ? N1 N2]; subst. cbn [filter fst snd]. destruct (Bool.eqb b' b) eqn:E; [|apply IH, N2]. apply eqb_prop in E. subst b'. cbn [map]. constructor; [|apply IH, N2].
    intros H. apply in_map_iff in H as ([m [b' j]] & [= -> ->] & H). apply filter_In in H as [H E]. cbn in E. apply eqb_prop in E. subst b'. contradiction.
  Qed.
  Lemma anns_nodup g : NoDup g -> NoDup (anns g).
  Proof. intros N. unfold anns. rewrite (filter_ext _ (fun x : tleg => Bool.eqb (fst (snd x)) false)); [apply untag_filter_nodup, N|]. intros [n [[|] i]]; reflexivity. Qed.
  Lemma lowers_perm g : subseq g W -> Permutation (lowers g) (anns g).
  Proof.
    intros H. apply NoDup_Permutation; [apply NoDup_filter, nodup_all_anns|apply anns_nodup, (subseq_NoDup _ _ H), tagged_nodup|]. intros [n i]. rewrite in_anns. apply in_lowers, subseq_incl, H.
  Qed.
  Lemma subseq_filter_map g (p : tleg -> bool) : subseq g W -> subseq (map untag (filter p g)) (map untag (filter p W)).
  Proof.
    intros H. apply subseq_map. induction H as [|x c l H IH|x c l H IH]; [constructor|..]; cbn [filter]; destruct (p x); try constructor; exact IH.
  Qed.
  Lemma cres_sub g : subseq g W -> subseq (cres g) (legs (map cre ops)).
  Proof. intros H. rewrite <- tagged_cres. apply subseq_filter_map, H. Qed.
  Lemma subseq_same (a b l : list (nat * idx)) : NoDup l -> subseq a l -> subseq b l -> (forall x, In x a <-> In x b) -> a = b.
  Proof.
    intros N Ha Hb E. rewrite (subseq_is_filter memp memp_in a l Ha N), (subseq_is_filter memp memp_in b l Hb N). apply filter_ext. intros x. apply eq_true_iff_eq. rewrite !memp_in. apply E.
  Qed.
  Lemma subseq_into_filter {Y} (p : Y -> bool) (c l : list Y) : subseq c l -> (forall x, In x c -> p x = true) -> subseq c (filter p l).
  Proof.
    intros H. induction H as [|x c l H IH|x c l H IH]; intros P; [constructor| |]; cbn [filter].
    - rewrite P by (left; reflexivity). constructor. apply IH. intros y Hy. apply P. right. exact Hy.
    - destruct (p x); [constructor|]; apply IH, P.
  Qed.
  Lemma count_legs g : length (cres g) + length (anns g) = length g.
  Proof. unfold cres, anns. rewrite !map_length. induction g as [|[n [[|] i]] g IH]; [reflexivity|..]; cbn in *; lia. Qed.

  (** which groups count *)
  Definition share (bad : space) (p q : idx) : bool := existsb (fun s => negb (space_eqb s bad) && existsb (space_eqb s) (space_elems (lsp (fst q)))) (space_elems (lsp (fst p))).
  Lemma space_eqb_eq s t : space_eqb s t = true <-> s = t.
  Proof. destruct s, t; cbn; split; intros H; try reflexivity; discriminate. Qed.
  Lemma share_spec bad p q : share bad p q = true <-> exists s, s <> bad /\ share_space s p q.
  Proof.
    unfold share, share_space. rewrite existsb_exists. split.
    - intros (s & H & E). apply andb_true_iff in E as [E1 E2]. apply existsb_exists in E2 as (t & Ht & E2). apply space_eqb_eq in E2. subst t. exists s. split; [intros ->; destruct bad; discriminate|auto].
    - intros (s & N & H1 & H2). exists s. split; [exact H1|]. apply andb_true_iff. split; [apply negb_true_iff; destruct (space_eqb s bad) eqn:E; [apply space_eqb_eq in E; contradiction|reflexivity]|]. apply existsb_exists. exists s. split; [exact H2|apply space_eqb_eq; reflexivity].
  Qed.
  Context (K : nat).
  Definition long_good (g : list tleg) : bool := (2 <=? length (cres g)) && (length (cres g) <=? K) && (length (cres g) =? length (anns g)) && forallb (fun x : tleg => active_like (snd (snd x))) g.
  Definition goodb (g : list tleg) : bool := negb (same_tag g) && match g with
    | [(_, (true, p)); (_, (false, q))] => share Sv p q
    | [(_, (false, q)); (_, (true, p))] => share Sc p q
    | _ => long_good g end.
  Lemma goodb_cases g : goodb g = true -> same_tag g = false /\
    ((exists n m p q, g = [(n, (true, p)); (m, (false, q))] /\ share Sv p q = true) \/ (exists n m p q, g = [(m, (false, q)); (n, (true, p))] /\ share Sc p q = true) \/
     (length g >= 4 /\ long_good g = true)).
  Proof.
    intros H. unfold goodb in H. apply andb_true_iff in H as [H1 H2]. apply negb_true_iff in H1. split; [exact H1|].
    assert (L : long_good g = true -> length g >= 4) by (intros Q; unfold long_good in Q; pose proof (count_legs g); rewrite !andb_true_iff, !Nat.leb_le, Nat.eqb_eq in Q; lia).
    destruct g as [|[n [[|] p]] [|[m [[|] q]] [|z g]]]; try (right; right; split; [apply L, H2|exact H2]); [left; exists n, m, p, q; auto|right; left; exists m, n, q, p; auto].
  Qed.
  Lemma goodb_long g : length g >= 4 -> goodb g = negb (same_tag g) && long_good g.
  Proof. intros L. unfold goodb. destruct g as [|[n [[|] p]] [|[m [[|] q]] [|z g]]]; cbn in L; try lia; reflexivity. Qed.
  Lemma hole_long g : length g >= 4 -> hole_pair g = false.
  Proof. intros L. destruct g as [|[n [[|] p]] [|[m [[|] q]] [|z g]]]; cbn in L; try lia; reflexivity. Qed.
  Lemma econ_pair n m p q : subseq [(n, (true, p)); (m, (false, q))] W -> econ_of [(n, (true, p)); (m, (false, q))] = Con false [p] [q].
  Proof.
    intros H. pose proof (lowers_perm _ H) as P. cbn in P. apply Permutation_sym, Permutation_length_1_inv in P. unfold econ_of. rewrite P. reflexivity.
  Qed.
  Lemma econ_hole n m p q : subseq [(m, (false, q)); (n, (true, p))] W -> econ_of [(m, (false, q)); (n, (true, p))] = Con true [p] [q].
  Proof.
    intros H. pose proof (lowers_perm _ H) as P. cbn in P. apply Permutation_sym, Permutation_length_1_inv in P. unfold econ_of. rewrite P. reflexivity.
  Qed.
  Lemma same_tag_true (g : list tleg) : (forall x y, In x g -> In y g -> fst x = fst y) -> same_tag g = true.
  Proof. destruct g as [|x g]; [reflexivity|]. intros H. cbn. apply forallb_forall. intros y Hy. apply Nat.eqb_eq. apply H; [right; exact Hy|left; reflexivity]. Qed.
  Lemma same_tag_eq (g : list tleg) x y : same_tag g = true -> In x g -> In y g -> fst x = fst y.
  Proof.
    destruct g as [|z g]; intros H; [intros []|]. cbn in H. rewrite forallb_forall in H. assert (U : forall y, In y (z :: g) -> fst y = fst z) by (intros u [<-|Hu]; [reflexivity|apply Nat.eqb_eq, H, Hu]). intros Hx Hy. rewrite (U x Hx), (U y Hy). reflexivity.
  Qed.
  Lemma good_allowed g : subseq g W -> goodb g = true -> allowed ops K (econ_of g).
  Proof.
    intros H G. pose proof (subseq_incl _ _ H) as I. destruct (goodb_cases g G) as (T & [(n & m & p & q & -> & S1)|[(n & m & p & q & -> & S1)|(L & S1)]]).
    - rewrite (econ_pair n m p q H). pose proof (sorted_pair _ _ _ _ (tagged_sorted ops) H) as O. cbn [fst] in O. assert (N : n <> m) by (intros ->; cbn in T; rewrite Nat.eqb_refl in T; discriminate).
      destruct (proj1 (in_tagged ops n true p) (I _ (or_introl eq_refl))) as (o1 & E1 & H1). destruct (proj1 (in_tagged ops m false q) (I _ (or_intror (or_introl eq_refl)))) as (o2 & E2 & H2).
      apply (allowed_pair _ _ _ [n; m]). apply (pc_cumulant ops n m o1 o2); try assumption; [lia|]. apply share_spec in S1. exact S1.
    - rewrite (econ_hole n m p q H). pose proof (sorted_pair _ _ _ _ (tagged_sorted ops) H) as O. cbn [fst] in O. assert (N : n <> m) by (intros ->; cbn in T; rewrite Nat.eqb_refl in T; discriminate).
      destruct (proj1 (in_tagged ops n true p) (I _ (or_intror (or_introl eq_refl)))) as (o1 & E1 & H1). destruct (proj1 (in_tagged ops m false q) (I _ (or_introl eq_refl))) as (o2 & E2 & H2).
      apply (allowed_pair _ _ _ [n; m]). apply (pc_hole ops m n o2 o1); try assumption; [lia|]. apply share_spec in S1. exact S1.
    - pose proof (lowers_perm g H) as LP. unfold long_good in S1. rewrite !andb_true_iff, !Nat.leb_le, Nat.eqb_eq, forallb_forall in S1. destruct S1 as (((S1 & S2) & S3) & S4).
      apply (allowed_cumulant ops K _ (length (cres g)) (cres g) (lowers g)); [lia| | |reflexivity|rewrite (Permutation_length LP); symmetry; exact S3| |].
      + unfold cre_legs. rewrite legs_filter. apply subseq_into_filter; [apply cres_sub, H|]. intros [n i] Hn. apply in_cres in Hn. exact (S4 _ Hn).
      + unfold ann_legs. rewrite legs_filter. apply subseq_into_filter; [apply subseq_filter|]. intros [n i] Hn. apply (in_lowers g n i I) in Hn. exact (S4 _ Hn).
      + intros O. rewrite same_tag_true in T; [discriminate|]. intros x y Hx Hy. apply O; apply in_or_app.
        * destruct x as [n [[|] i]]; [left; apply in_map_iff; exists (n, i); split; [reflexivity|apply in_cres, Hx]|right; apply in_map_iff; exists (n, i); split; [reflexivity|apply in_lowers; assumption]].
        * destruct y as [n [[|] i]]; [left; apply in_map_iff; exists (n, i); split; [reflexivity|apply in_cres, Hy]|right; apply in_map_iff; exists (n, i); split; [reflexivity|apply in_lowers; assumption]].
      + unfold econ_of. rewrite hole_long by exact L. reflexivity.
  Qed.
  Lemma group_of_sub e : subseq (group_of e) W. Proof. apply subseq_filter. Qed.
  Lemma allowed_good e : allowed ops K e -> goodb (group_of e) = true /\ econ_of (group_of e) = e.
  Proof.
    intros [key PC|k c a Hk Sc' Sa' Lc La O ->].
    - inversion PC as [i j o1 o2 u l Hij E1 E2 H1 H2 CN|i j o1 o2 u l Hij E1 E2 H1 H2 CN]; subst.
      + assert (Hx : In (i, (true, u)) W) by (apply in_tagged; exists o1; auto). assert (Hy : In (j, (false, l)) W) by (apply in_tagged; exists o2; auto).
        pose proof (pair_sorted W _ _ (tagged_sorted ops) Hx Hy Hij) as Sx. pose proof (econ_pair i j u l Sx) as E. rewrite <- E, group_econ by exact Sx. split; [|reflexivity]. unfold goodb. cbn [same_tag forallb fst]. assert (N : (j =? i) = false) by (apply Nat.eqb_neq; lia). rewrite N. cbn [andb negb]. apply share_spec. exact CN.
      + assert (Hx : In (j, (true, u)) W) by (apply in_tagged; exists o2; auto). assert (Hy : In (i, (false, l)) W) by (apply in_tagged; exists o1; auto).
        pose proof (pair_sorted W _ _ (tagged_sorted ops) Hy Hx Hij) as Sx. pose proof (econ_hole j i u l Sx) as E. rewrite <- E, group_econ by exact Sx. split; [|reflexivity]. unfold goodb. cbn [same_tag forallb fst]. assert (N : (j =? i) = false) by (apply Nat.eqb_neq; lia). rewrite N. cbn [andb negb]. apply share_spec. exact CN.
    - set (e := Con false (map snd c) (map snd a)). unfold cre_legs in Sc'. unfold ann_legs in Sa'. rewrite legs_filter in Sc', Sa'. pose proof (subseq_incl _ _ Sc') as Ic. pose proof (subseq_incl _ _ Sa') as Ia.
      pose proof (subseq_trans _ _ _ Sc' (subseq_filter _ _)) as Sc2. pose proof (subseq_trans _ _ _ Sa' (subseq_filter _ _)) as Sa2. fold all_anns in Sa2.
      assert (M1 : forall n i, In (n, (true, i)) (group_of e) <-> In (n, i) c).
      { intros n i. unfold group_of. rewrite filter_In, holds_in. cbn [fst snd e upper]. split.
        - intros [Hw Hi]. apply in_map_iff in Hi as ([m j] & E & Hm). cbn in E. subst j. apply (subseq_incl _ _ Sc2) in Hm as Hm'. apply in_all_cres in Hm'. rewrite (tag_unique n m true i Hw Hm'). exact Hm.
        - intros Hc. split; [apply in_all_cres, (subseq_incl _ _ Sc2), Hc|]. apply in_map_iff. exists (n, i). auto. }
      assert (M2 : forall n i, In (n, (false, i)) (group_of e) <-> In (n, i) a).
      { intros n i. unfold group_of. rewrite filter_In, holds_in. cbn [fst snd e lower]. split.
        - intros [Hw Hi]. apply in_map_iff in Hi as ([m j] & E & Hm). cbn in E. subst j. apply (subseq_incl _ _ Sa2) in Hm as Hm'. apply in_all_anns in Hm'. rewrite (tag_unique n m false i Hw Hm'). exact Hm.
        - intros Hc. split; [apply in_all_anns, (subseq_incl _ _ Sa2), Hc|]. apply in_map_iff. exists (n, i). auto. }
      pose proof (group_of_sub e) as Sg. pose proof (subseq_incl _ _ Sg) as Ig.
      assert (EC : cres (group_of e) = c) by (apply (subseq_same _ _ _ nodup_all_cres (cres_sub _ Sg) Sc2); intros [n i]; rewrite in_cres; apply M1).
      assert (EA : lowers (group_of e) = a) by (apply (subseq_same _ _ _ nodup_all_anns (subseq_filter _ _) Sa2); intros [n i]; fold (lowers (group_of e)); rewrite (in_lowers _ n i Ig); apply M2).
      pose proof (Permutation_length (lowers_perm _ Sg)) as LA. rewrite EA in LA. pose proof (count_legs (group_of e)) as CL. rewrite EC in CL.
      assert (L4 : length (group_of e) >= 4) by lia. split.
      + rewrite goodb_long by exact L4. apply andb_true_iff. split.
        * apply negb_true_iff. destruct (same_tag (group_of e)) eqn:T; [|reflexivity]. exfalso. apply O. intros x y Hx Hy.
          assert (G : forall x, In x (map fst c ++ map fst a) -> exists l, In (x, l) (group_of e)).
          { intros z Hz. apply in_app_or in Hz as [Hz|Hz]; apply in_map_iff in Hz as ([n i] & <- & Hz); [exists (true, i); apply M1, Hz|exists (false, i); apply M2, Hz]. }
          destruct (G x Hx) as [l Hl]. destruct (G y Hy) as [l' Hl']. exact (same_tag_eq _ _ _ T Hl Hl').
        * unfold long_good. rewrite !andb_true_iff, !Nat.leb_le, Nat.eqb_eq, forallb_forall, EC. repeat split; try lia. intros [n [[|] i]] Hx; cbn [snd].
          -- apply M1 in Hx. apply Ic, filter_In in Hx. apply Hx.
          -- apply M2 in Hx. apply Ia, filter_In in Hx. apply Hx.
      + unfold econ_of. rewrite hole_long, EC, EA by exact L4. reflexivity.
  Qed.
  Lemma apart_disjoint g h : incl g W -> incl h W -> (apart_groups g h <-> disjoint_con (econ_of g) (econ_of h)).
  Proof.
    intros Ig Ih. unfold disjoint_con. split.
    - intros Q. split; intros i; [rewrite !in_upper_econ|rewrite (in_lower_econ g i Ig), (in_lower_econ h i Ih)]; intros [n Hn] [m Hm].
      + rewrite (tag_unique m n true i (Ih _ Hm) (Ig _ Hn)) in Hm. exact (Q _ Hn Hm).
      + rewrite (tag_unique m n false i (Ih _ Hm) (Ig _ Hn)) in Hm. exact (Q _ Hn Hm).
    - intros [Q1 Q2] [n [[|] i]] H1 H2.
      + apply (Q1 i); apply in_upper_econ; exists n; assumption.
      + apply (Q2 i); apply in_lower_econ; try assumption; exists n; assumption.
  Qed.
End Ops.
