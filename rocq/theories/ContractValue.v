(** The value of contract_terms. *)
From Coq Require Import Ascii String ZArith QArith Qcanon Sorting.Sorted Lia Ring_theory Ring.
From Verif Require Import PyBase OrderSpec OrderProofs ParitySpec SpaceModel IndexModel IndicesModel IterProofs IndicesProofs SpaceProofs ElemModel ElemSpec CompatSpec MacroModel WickModel WickSpec WickProofs TermModel ValueSpec ValueProofs TermSpec SumProofs TermProofs RenameProofs
  DriverProofs ConnectedProofs CommProofs OperatorProofs SimplifyProofs SimplifyValue SymmetryModel SymmetrySpec SympyValue CombineModel CombineSpec CombineProofs CombineValue PropSimplify PropWick PropCanon ScheduleProofs ContractSpec.
Local Close Scope Q_scope.
Local Close Scope Qc_scope.
Local Open Scope nat_scope.
Local Notation length := List.length.

(** ** Densities of the entries *)
Definition density_shape (d : density) : Prop :=
  length (dupper d) = length (dlower d) /\ (kind d <> KCumulant -> length (dupper d) = 1) /\
  (length (dupper d) <> 1 -> Forall (fun i => active_like i = true) (dupper d ++ dlower d)).
Lemma legs_active f ops (l : list (nat * idx)) : incl l (legs (map (fun o : op => filter active_like (f o)) ops)) -> Forall (fun i => active_like i = true) (map snd l).
Proof.
  intros H. apply Forall_forall. intros i Hi. apply in_map_iff in Hi as ([k j] & <- & Hi). apply H in Hi. cbn [snd].
  destruct (in_legs (fun o => filter active_like (f o)) ops k j Hi) as (o & _ & Q). apply filter_In in Q. apply Q.
Qed.
Lemma allowed_shape ops K e : allowed ops K e -> density_shape (density_of e).
Proof.
  intros [key H|k c a Hk Hc Ha Lc La _ ->].
  - destruct H; split; cbn; auto; split; intros; try lia; congruence.
  - unfold density_shape, density_of. cbn [hole upper lower kind dupper dlower]. rewrite !map_length, Lc, La. split; [reflexivity|]. split; [congruence|]. intros _. apply Forall_app. split.
    + apply (legs_active cre ops). apply subseq_incl, Hc.
    + apply (legs_active ann ops). apply subseq_incl, Ha.
Qed.
Lemma expand_shape ds z l : In (z, l) (expand_hole_densities ds) -> Forall density_shape ds -> Forall density_shape l.
Proof.
  intros H F. rewrite Forall_forall in F. unfold expand_hole_densities in H.
  assert (G : forall bad, (forall d, In d bad -> density_shape d /\ kind d <> KCumulant) -> forall e, In e (iproduct (map expand_hole_density bad)) -> Forall density_shape e).
  { clear. induction bad as [|d bad IH]; cbn [map iproduct]; intros B e H; [destruct H as [<-|[]]; constructor|].
    apply in_flat_map in H as (y & Hy & H). apply in_map_iff in H as (e' & <- & H). constructor; [|apply IH; [intros; apply B; right; assumption|exact H]].
    destruct (B d (or_introl eq_refl)) as [(L1 & L2 & _) K]. specialize (L2 K).
    assert (Q : dupper y = dupper d /\ dlower y = dlower d) by (unfold expand_hole_density in Hy; destruct (_ || _)%bool; destruct Hy as [<-|Hy]; try destruct Hy as [<-|[]]; try destruct Hy; auto).
    destruct Q as [Q1 Q2]. unfold density_shape. rewrite Q1, Q2. split; [exact L1|]. split; [auto|]. intros; contradiction. }
  set (bad := filter is_hole ds) in *. assert (B : forall d, In d bad -> density_shape d /\ kind d <> KCumulant).
  { intros d Hd. apply filter_In in Hd as [Hd1 Hd2]. split; [apply F, Hd1|]. unfold is_hole in Hd2. destruct (kind d); discriminate. }
  destruct (map expand_hole_density bad) as [|x xs] eqn:E.
  - destruct H as [[= <- <-]|[]]. apply Forall_forall, F.
  - rewrite <- E in *. apply in_map_iff in H as (e & [= _ <-] & H). apply Forall_app. split; [|exact (G bad B e H)]. apply Forall_forall. intros d Hd. apply filter_In in Hd as [Hd _]. apply F, Hd.
Qed.
Lemma entry_shapes ops expand (P : list econ -> Prop) K lo hi r z ds sq : (forall s, P s -> wick_set ops K lo hi s) -> wick_sum ops expand P r -> In (z, ds, sq) (concat r) -> Forall density_shape ds.
Proof.
  intros Hp (sets & blocks & (O & _) & F & E) H. rewrite E in H. apply in_concat in H as [b [Hb H]]. destruct (Forall2_in_r _ _ _ _ F Hb) as [s [Hs Es]].
  pose proof (ws_allowed _ _ _ _ _ (Hp s (proj2 (O s Hs)))) as A. destruct Es as (cons & sign & sq' & PC & _ & ->). apply in_map_iff in H as [[z' ds'] [[= _ <- _] H]]. cbn [fst snd] in *.
  assert (S : Forall density_shape (map density_of cons)).
  { apply Forall_forall. intros d Hd. apply in_map_iff in Hd as (e & <- & He). apply (Permutation_in _ PC) in He. rewrite Forall_forall in A. exact (allowed_shape _ _ _ (A e He)). }
  destruct expand; [exact (expand_shape _ _ _ H S)|]. destruct H as [[= _ <-]|[]]. exact S.
Qed.

(** ** Indices of the entries *)
Lemma written_indices ops : Permutation (map snd (written_string ops)) (flat_map op_indices ops).
Proof.
  unfold written_string. induction ops as [|o ops IH]; [reflexivity|]. cbn [flat_map]. rewrite map_app. apply Permutation_app; [|exact IH].
  unfold open_string, op_indices. rewrite map_app, !map_map. cbn [snd]. rewrite !map_id. apply Permutation_app_head. symmetry. apply Permutation_rev.
Qed.
Lemma open_indices o : Permutation (map snd (open_string o)) (op_indices o).
Proof. pose proof (written_indices [o]) as H. unfold written_string in H. cbn [flat_map] in H. rewrite !app_nil_r in H. exact H. Qed.
Lemma tensor_of_sides d : tupper (tensor_of d) = dupper d /\ tlower (tensor_of d) = dlower d /\ titype (tensor_of d) = SpinOrbital.
Proof. unfold tensor_of. destruct (kind d); auto. Qed.
Lemma density_leg_indices ds : map snd (flat_map density_legs ds) = flat_map tensor_indices (map tensor_of ds).
Proof.
  induction ds as [|d ds IH]; [reflexivity|]. cbn [flat_map map]. etransitivity; [apply map_app|]. f_equal; [|exact IH]. unfold density_legs, tensor_indices. destruct (tensor_of_sides d) as (-> & -> & _). rewrite map_app, !map_map. cbn [snd]. rewrite !map_id. reflexivity.
Qed.
Lemma filter_empty_ops terms : written_string (map tsq (filter (fun t => negb (op_is_empty (tsq t))) terms)) = written_string (map tsq terms).
Proof.
  unfold written_string. induction terms as [|t terms IH]; [reflexivity|]. cbn [filter map flat_map]. destruct (op_is_empty (tsq t)) eqn:E; cbn [negb]; [|cbn [map flat_map]; rewrite IH; reflexivity].
  rewrite IH. unfold op_is_empty in E. unfold open_string. destruct (cre (tsq t)), (ann (tsq t)); try discriminate. reflexivity.
Qed.
Lemma idx_times_flat {X} (f : X -> list idx) l i : idx_times i (flat_map f l) = list_sum (map (fun x => idx_times i (f x)) l).
Proof. induction l as [|x l IH]; [reflexivity|]. cbn [flat_map map list_sum fold_right]. rewrite idx_times_app, IH. reflexivity. Qed.
Lemma total_times_perm i xs ys o : Permutation xs ys -> total_times i xs o = total_times i ys o.
Proof. intros P. rewrite <- !content_times. apply Permutation_count_occ. unfold content_indices. apply Permutation_app_head, Permutation_flat_map, P. Qed.
Lemma standard_fields t : standard t -> ttype t = SpinOrbital /\ Forall (fun x => titype x = SpinOrbital) (ttensors t) /\
  (forall i, 0 < total_times i (ttensors t) (tsq t) -> total_times i (ttensors t) (tsq t) = 2) /\ forall i, In i (tindices t) <-> 0 < total_times i (ttensors t) (tsq t).
Proof.
  intros H. destruct (st_made _ H) as [xs M]. destruct (make_term_fields _ _ _ _ _ M) as (F1 & F2 & _ & _ & _ & _ & F7 & _). destruct (make_term_inv _ _ _ _ _ M) as (FT & C & _). split; [exact F1|]. split; [|split].
  - apply Forall_forall. intros x Hx. rewrite Forall_forall in FT. apply FT. exact (Permutation_in _ F2 Hx).
  - intros i Hi. rewrite (total_times_perm i _ _ _ F2) in *. destruct (C i Hi) as [_ C2]. apply C2. intros D. apply (st_plain _ H i). destruct D as [D|(x & D1 & D2)]; [left; exact D|right; exists x; split; [|exact D2]]. exact (Permutation_in _ (Permutation_sym F2) D1).
  - intros i. rewrite F7, (total_times_perm i _ _ _ F2). tauto.
Qed.
Lemma standard_type t : standard t -> ttype t = SpinOrbital. Proof. intros H. apply (standard_fields t H). Qed.
Lemma standard_indices t i : standard t -> In i (tindices t) <-> In i (content_indices (ttensors t) (tsq t)).
Proof. intros H. destruct (standard_fields t H) as (_ & _ & _ & F). rewrite F, <- content_times. symmetry. apply idx_times_in. Qed.
Lemma standard_twice t i : standard t -> In i (content_indices (ttensors t) (tsq t)) -> idx_times i (content_indices (ttensors t) (tsq t)) = 2.
Proof. intros H Hi. destruct (standard_fields t H) as (_ & _ & F & _). apply idx_times_in in Hi. rewrite content_times in *. exact (F i Hi). Qed.
Lemma not_in_times i l : ~ In i l -> idx_times i l = 0.
Proof. rewrite idx_times_in. lia. Qed.

Lemma NoDup_app_remove_r {X} (l m : list X) : NoDup (l ++ m) -> NoDup l. Proof. intros H. apply NoDup_app_iff in H. apply H. Qed.
Lemma NoDup_app_remove_l {X} (l m : list X) : NoDup (l ++ m) -> NoDup m. Proof. intros H. apply NoDup_app_iff in H. apply H. Qed.

Section Terms.
  Context (terms : list term) (ST : Forall standard terms) (AP : ForallOrdPairs apart_terms terms).
  Local Notation all := (flat_map (fun t => content_indices (ttensors t) (tsq t)) terms).
  Local Notation tensors := (flat_map ttensors terms).
  Local Notation legs_of := (flat_map (fun t => op_indices (tsq t)) terms).

  Lemma all_perm : Permutation all (legs_of ++ flat_map tensor_indices tensors).
  Proof.
    clear ST AP. induction terms as [|t l IH]; [reflexivity|]. cbn [flat_map]. rewrite flat_map_app. unfold content_indices at 1. rewrite IH. rewrite <- !app_assoc. apply Permutation_app_head. rewrite !app_assoc. apply Permutation_app_tail. apply Permutation_app_comm.
  Qed.
  Lemma all_twice i : In i all -> idx_times i all = 2.
  Proof.
    induction terms as [|t l IH]; [intros []|]. inversion ST as [|? ? S1 S2]; subst. inversion AP as [|? ? A1 A2]; subst. cbn [flat_map]. intros H. rewrite idx_times_app. apply in_app_or in H as [H|H].
    - rewrite (standard_twice _ _ S1 H). rewrite not_in_times; [reflexivity|]. intros Q. apply in_flat_map in Q as (t' & Ht & Q). rewrite Forall_forall in A1, S2. apply (A1 t' Ht i); apply standard_indices; auto.
    - rewrite (IH S2 A2 H). rewrite not_in_times; [reflexivity|]. intros Q. apply in_flat_map in H as (t' & Ht & H). rewrite Forall_forall in A1, S2. apply (A1 t' Ht i); apply standard_indices; auto.
  Qed.
  Lemma NoDup_flat {X} (f g : X -> list idx) l : (forall x, In x l -> NoDup (f x)) -> ForallOrdPairs (fun x y => forall i, In i (g x) -> ~ In i (g y)) l -> (forall x i, In x l -> In i (f x) -> In i (g x)) -> NoDup (flat_map f l).
  Proof.
    induction l as [|x l IH]; intros N F I; [constructor|]. cbn [flat_map]. inversion F as [|? ? F1 F2]; subst. apply NoDup_app_iff; split; [apply N; left; reflexivity|split; [apply IH; auto using in_cons|]].
    intros i Hi Q. apply in_flat_map in Q as (y & Hy & Q). rewrite Forall_forall in F1. apply (F1 y Hy i); [apply I; [left; reflexivity|exact Hi]|apply I; [right; exact Hy|exact Q]].
  Qed.
  Lemma density_in x xs i : In x xs -> is_density x = true -> In i (tensor_indices x) -> In i (flat_map tensor_indices (filter is_density xs)).
  Proof. intros H D I. apply in_flat_map. exists x. split; [apply filter_In; auto|exact I]. Qed.
  Lemma legs_densities_nodup : NoDup (legs_of ++ flat_map tensor_indices (filter is_density tensors)).
  Proof.
    assert (P : Permutation (legs_of ++ flat_map tensor_indices (filter is_density tensors)) (flat_map (fun t => op_indices (tsq t) ++ flat_map tensor_indices (filter is_density (ttensors t))) terms)).
    { clear. induction terms as [|t l IH]; [reflexivity|]. cbn [flat_map]. rewrite filter_app, flat_map_app, <- IH, <- !app_assoc. apply Permutation_app_head. rewrite !app_assoc. apply Permutation_app_tail, Permutation_app_comm. }
    rewrite P. rewrite Forall_forall in ST. apply (NoDup_flat _ (fun t => tindices t)).
    - intros t Ht. unfold op_indices. rewrite <- app_assoc. apply st_legs, ST, Ht.
    - exact AP.
    - intros t i Ht Hi. apply standard_indices; [apply ST, Ht|]. unfold content_indices. apply in_app_or in Hi as [Hi|Hi]; apply in_or_app; [auto|right]. apply in_flat_map in Hi as (x & Hx & Hi). apply filter_In in Hx as [Hx _]. apply in_flat_map. exists x. auto.
  Qed.
  Lemma legs_nodup : NoDup legs_of.
  Proof. pose proof legs_densities_nodup as N. apply NoDup_app_remove_r in N. exact N. Qed.
  Lemma map_snd_nodup {X Y} (l : list (X * Y)) : NoDup (map snd l) -> NoDup l.
  Proof. apply NoDup_map_inv. Qed.
  Lemma flat_map_map {X Y Z} (f : Y -> list Z) (g : X -> Y) l : flat_map f (map g l) = flat_map (fun x => f (g x)) l.
  Proof. induction l as [|x l IH]; [reflexivity|]. cbn. rewrite IH. reflexivity. Qed.
  Lemma legs_written : Permutation (map snd (written_string (map tsq terms))) legs_of.
  Proof. rewrite written_indices, flat_map_map. reflexivity. Qed.
  Lemma standard_distinct : distinct_legs (map tsq (filter (fun t => negb (op_is_empty (tsq t))) terms)).
  Proof. unfold distinct_legs. rewrite filter_empty_ops. apply map_snd_nodup. rewrite legs_written. exact legs_nodup. Qed.
  Lemma standard_alpha : Forall op_alpha (map tsq (filter (fun t => negb (op_is_empty (tsq t))) terms)).
  Proof. apply Forall_forall. intros o Ho. apply in_map_iff in Ho as (t & <- & Ht). apply filter_In in Ht as [Ht _]. rewrite Forall_forall in ST. apply st_alpha, ST, Ht. Qed.

  (** an entry of the drivers *)
  Context (ds : list density) (sq : op) (PL : Permutation (written_string (map tsq terms)) (flat_map density_legs ds ++ open_string sq)) (SH : Forall density_shape ds).
  Local Notation entry_tensors := (tensors ++ map tensor_of ds).
  Lemma entry_indices : Permutation (op_indices sq ++ flat_map tensor_indices (map tensor_of ds)) legs_of.
  Proof. rewrite <- legs_written, PL, map_app, density_leg_indices, open_indices. apply Permutation_app_comm. Qed.
  Lemma entry_content : Permutation (content_indices entry_tensors sq) all.
  Proof.
    rewrite all_perm. unfold content_indices. rewrite flat_map_app, <- entry_indices, <- !app_assoc. apply Permutation_app_head, Permutation_app_comm.
  Qed.
  Lemma entry_legs_nodup : NoDup (op_indices sq ++ flat_map tensor_indices (map tensor_of ds)).
  Proof. rewrite entry_indices. exact legs_nodup. Qed.
  Lemma nodup_sides (a b : list idx) i : NoDup (a ++ b) -> In i a -> In i b -> False.
  Proof. intros N Ha Hb. apply in_split in Ha as (l1 & l2 & ->). rewrite <- app_assoc in N. cbn [app] in N. apply NoDup_remove_2 in N. apply N. rewrite !in_app_iff. auto. Qed.
  Lemma NoDup_flat_in {X} (f : X -> list idx) l x : NoDup (flat_map f l) -> In x l -> NoDup (f x).
  Proof. intros N H. apply in_split in H as (l1 & l2 & ->). rewrite flat_map_app in N. cbn [flat_map] in N. apply NoDup_app_remove_l in N. apply NoDup_app_remove_r in N. exact N. Qed.
  Lemma entry_plain i : ~ diagonal_in i entry_tensors sq.
  Proof.
    pose proof entry_legs_nodup as N. intros [[H1 H2]|(x & Hx & H1 & H2)].
    - apply NoDup_app_remove_r in N. unfold op_indices in N. exact (nodup_sides _ _ _ N H1 H2).
    - apply in_app_or in Hx as [Hx|Hx].
      + apply in_flat_map in Hx as (t & Ht & Hx). rewrite Forall_forall in ST. apply (st_plain _ (ST t Ht) i). right. exists x. auto.
      + apply NoDup_app_remove_l in N. apply (NoDup_flat_in _ _ _ N) in Hx. unfold tensor_indices in Hx. exact (nodup_sides _ _ _ Hx H1 H2).
  Qed.
  Lemma entry_connected : connected entry_tensors sq.
  Proof.
    intros i Hi. split; [intros D; exfalso; exact (entry_plain i D)|]. intros _. rewrite <- content_times in *. unfold idx_times in *.
    pose proof (proj1 (Permutation_count_occ idx_eq_dec _ _) entry_content i) as E. rewrite E in *. apply all_twice. apply idx_times_in. exact Hi.
  Qed.
  Lemma entry_types : Forall (fun x => titype x = SpinOrbital) entry_tensors.
  Proof.
    apply Forall_app. split; apply Forall_forall; intros x Hx.
    - apply in_flat_map in Hx as (t & Ht & Hx). rewrite Forall_forall in ST. destruct (standard_fields _ (ST t Ht)) as (_ & F & _). rewrite Forall_forall in F. apply F, Hx.
    - apply in_map_iff in Hx as (d & <- & _). apply tensor_of_sides.
  Qed.
  Lemma entry_alpha i : In i (flat_map tensor_indices (map tensor_of ds)) -> alpha i.
  Proof.
    intros H. assert (I : In i legs_of) by (apply (Permutation_in _ entry_indices); apply in_or_app; auto). apply in_flat_map in I as (t & Ht & I). rewrite Forall_forall in ST. destruct (st_alpha _ (ST t Ht)) as [A1 A2]. rewrite Forall_forall in A1, A2.
    unfold op_indices in I. apply in_app_or in I as [I|I]; auto.
  Qed.
  Lemma n_beta_alpha l : (forall i, In i l -> alpha i) -> n_beta l = 0.
  Proof. intros H. unfold n_beta. induction l as [|i l IH]; [reflexivity|]. cbn [filter]. assert (E : alpha i) by (apply H; left; reflexivity). unfold alpha in E. unfold idx_beta. rewrite E. apply IH. intros; apply H; right; assumption. Qed.
  Lemma entry_valid : Forall valid_tensor entry_tensors.
  Proof.
    apply Forall_app. split; apply Forall_forall; intros x Hx.
    - apply in_flat_map in Hx as (t & Ht & Hx). rewrite Forall_forall in ST. pose proof (st_valid _ (ST t Ht)) as V. rewrite Forall_forall in V. apply V, Hx.
    - assert (AL : forall i, In i (tensor_indices x) -> alpha i) by (intros i Hi; apply entry_alpha; apply in_flat_map; exists x; auto).
      apply in_map_iff in Hx as (d & <- & Hd). rewrite Forall_forall in SH. destruct (SH d Hd) as (L1 & L2 & _).
      assert (C : is_spin_conserving (dupper d) (dlower d) = Ok true).
      { unfold is_spin_conserving. rewrite L1, Nat.eqb_refl. destruct (tensor_of_sides d) as (T1 & T2 & _). unfold tensor_indices in AL. rewrite T1, T2 in AL. rewrite !n_beta_alpha; [reflexivity|intros i Hi; apply AL; apply in_or_app; auto..]. }
      unfold valid_tensor, check_tensor, tensor_of. destruct (kind d) eqn:K; cbn [tcls tupper tlower].
      + rewrite C. reflexivity.
      + rewrite L1 in L2. rewrite L1, (L2 ltac:(congruence)). cbn [Nat.eqb andb]. rewrite C. reflexivity.
      + rewrite L1 in L2. rewrite L1, (L2 ltac:(congruence)). cbn [Nat.eqb andb]. rewrite C. reflexivity.
  Qed.
  Lemma nodup_filter_flat {X} (f : X -> list idx) p l : NoDup (flat_map f l) -> NoDup (flat_map f (filter p l)).
  Proof.
    induction l as [|x l IH]; intros N; [constructor|]. cbn [flat_map filter] in *. apply NoDup_app_iff in N as (N1 & N2 & N3). destruct (p x); [|auto]. cbn [flat_map]. apply NoDup_app_iff. split; [exact N1|]. split; [auto|].
    intros i Hi Q. apply (N3 i Hi). apply in_flat_map in Q as (y & Hy & Q). apply filter_In in Hy as [Hy _]. apply in_flat_map. exists y. auto.
  Qed.
  Lemma entry_disjoint : densities_disjoint entry_tensors.
  Proof.
    unfold densities_disjoint. rewrite filter_app, flat_map_app. pose proof legs_densities_nodup as N. apply NoDup_app_iff in N as (N1 & N2 & N3). apply NoDup_app_iff. split; [exact N2|]. split.
    - apply nodup_filter_flat. pose proof entry_legs_nodup as N. apply NoDup_app_remove_l in N. exact N.
    - intros i Hi Q. apply (N3 i); [|exact Hi]. apply (Permutation_in _ entry_indices). apply in_or_app. right. apply in_flat_map in Q as (y & Hy & Q). apply filter_In in Hy as [Hy _]. apply in_flat_map. exists y. auto.
  Qed.
  Lemma entry_active : cumulants_open_active entry_tensors.
  Proof.
    intros x i Hx C L Hi. apply in_app_or in Hx as [Hx|Hx].
    - apply in_flat_map in Hx as (t & Ht & Hx). rewrite Forall_forall in ST. exact (st_active _ (ST t Ht) x i Hx C L Hi).
    - assert (AL : alpha i) by (apply entry_alpha; apply in_flat_map; exists x; auto). apply in_map_iff in Hx as (d & <- & Hd). rewrite Forall_forall in SH. destruct (SH d Hd) as (_ & _ & L3). destruct (tensor_of_sides d) as (T1 & T2 & _). rewrite T1 in L. specialize (L3 L).
      unfold tensor_indices in Hi. rewrite T1, T2 in Hi. rewrite Forall_forall in L3. specialize (L3 i Hi). unfold active_like in L3. unfold alpha in AL. destruct i as [[b s] n]. cbn in *. subst b. destruct s; cbn; auto; discriminate.
  Qed.
  Definition side (b : bool) (l : list leg) : nat := length (filter (fun x => Bool.eqb (fst x) b) l).
  Lemma side_app b l m : side b (l ++ m) = side b l + side b m.
  Proof. unfold side. rewrite filter_app, app_length. reflexivity. Qed.
  Lemma side_perm b l m : Permutation l m -> side b l = side b m.
  Proof. intros P. unfold side. induction P as [|x l m P IH|x y l|l m k P1 IH1 P2 IH2]; cbn [filter]; [reflexivity|destruct (Bool.eqb (fst x) b); cbn [Datatypes.length]; congruence| |congruence]. destruct (Bool.eqb (fst x) b), (Bool.eqb (fst y) b); reflexivity. Qed.
  Lemma side_map b b' (l : list idx) : side b (map (pair b') l) = if Bool.eqb b' b then length l else 0.
  Proof. unfold side. induction l as [|i l IH]; cbn [map filter fst Datatypes.length]; [destruct (Bool.eqb b' b); reflexivity|]. destruct (Bool.eqb b' b); cbn [Datatypes.length]; congruence. Qed.
  Lemma side_open b o : side b (open_string o) = if b then length (cre o) else length (ann o).
  Proof. unfold open_string. rewrite side_app, !side_map, rev_length. destruct b; cbn; lia. Qed.
  Lemma entry_balanced : length (cre sq) = length (ann sq).
  Proof.
    assert (B1 : side true (written_string (map tsq terms)) = side false (written_string (map tsq terms))).
    { clear -ST. unfold written_string. induction terms as [|t l IH]; [reflexivity|]. inversion ST as [|? ? S1 S2]; subst. cbn [map flat_map]. rewrite !side_app, !side_open, (IH S2), (st_balanced _ S1). reflexivity. }
    assert (B2 : side true (flat_map density_legs ds) = side false (flat_map density_legs ds)).
    { clear -SH. induction ds as [|d l IH]; [reflexivity|]. inversion SH as [|? ? S1 S2]; subst. cbn [flat_map]. rewrite !side_app, (IH S2). unfold density_legs. rewrite !side_app, !side_map. cbn. destruct S1 as (-> & _). lia. }
    rewrite (side_perm true _ _ PL), (side_perm false _ _ PL), !side_app, !side_open in B1. lia.
  Qed.
End Terms.

(** ** The value of one entry *)
Lemma visible_sign z c : (z = 1 \/ z = -1)%Z -> zero_or_visible c -> zero_or_visible (Qcmult (Qc_of_Z z) c).
Proof.
  intros [->| ->] H.
  - change (Qc_of_Z 1) with (Q2Qc 1). rewrite Qcmult_1_l. exact H.
  - change (-1)%Z with (- (1))%Z. rewrite (Qc_of_Z_opp' 1). change (Qc_of_Z 1) with (Q2Qc 1). replace (Qcmult (Qcopp (Q2Qc 1)) c) with (Qcopp c) by ring. destruct H as [->|[H|H]].
    + left. apply Qc_is_canon. reflexivity.
    + right. right. apply Qcopp_le_compat in H. exact H.
    + right. left. apply Qcopp_le_compat in H. exact H.
Qed.
Lemma consistent_classes xs ds : consistent_names xs -> classes_by_name (xs ++ map tensor_of ds).
Proof.
  intros [_ C] x y Hx Hy E.
  assert (G : forall x, In x (xs ++ map tensor_of ds) -> exists x', In x' (xs ++ driver_tensors) /\ tname x' = tname x /\ tcls x' = tcls x).
  { clear. intros x Hx. apply in_app_or in Hx as [Hx|Hx]; [exists x; split; [apply in_or_app; auto|auto]|]. apply in_map_iff in Hx as (d & <- & _). unfold tensor_of. destruct (kind d).
    - exists (Ten TCumulant SpinOrbital "L" 2%Z [] []). split; [apply in_or_app; right; left; reflexivity|auto].
    - exists (Ten THole SpinOrbital "C" 2%Z [] []). split; [apply in_or_app; right; right; left; reflexivity|auto].
    - exists (Ten TKronecker SpinOrbital "K" (-1)%Z [] []). split; [apply in_or_app; right; right; right; left; reflexivity|auto]. }
  destruct (G x Hx) as (x' & X1 & X2 & X3), (G y Hy) as (y' & Y1 & Y2 & Y3). rewrite <- X3, <- Y3. apply C; [assumption..|congruence].
Qed.

Section Value.
  Context (A : qalg) (S : system) (v : tvaluation A).
  Add Ring alg_ring10 : (q_ring A).
  Context (PH : physical S v) (NA : no_active_amplitudes S v) (AS : antisymmetric v).

  Lemma canonicalize_sympy_value sympy hermitian xs o c t tm : make_term SpinOrbital xs o c = Ok t -> (forall i, ~ diagonal_in i xs o) -> Forall valid_tensor xs -> densities_disjoint xs -> cumulants_open_active xs ->
    classes_by_name xs -> length (cre o) = length (ann o) -> zero_or_visible c -> (hermitian = true -> hermitian_values v) ->
    admissible sympy -> canonicalize_sympy sympy true true hermitian t = Ok tm -> term_value S v tm = content_value S v c xs o.
  Proof.
    intros M ND HV HD HO HC HB Hc HS AD H. destruct (make_term_fields _ _ _ _ _ M) as (E1 & E2 & _ & E4 & E5 & _ & _ & _ & _ & E10).
    destruct (C42_canonicalize_value A S v sympy true true hermitian SpinOrbital xs o c t tm) as (V & _); try assumption; auto.
    - discriminate.
    - unfold canonicalize. destruct (tdiag t) as [|[i n] d] eqn:Ed; [exact H|]. exfalso. apply (ND i). apply (E10 i n). left. reflexivity.
    - rewrite V. unfold term_value. rewrite E4, E5. unfold content_value. f_equal. 
      assert (P : forall i, In i (nodup idx_eq_dec (content_indices (ttensors t) o)) <-> In i (nodup idx_eq_dec (content_indices xs o))).
      { intros i. rewrite !nodup_In. unfold content_indices. rewrite !in_app_iff, !in_flat_map. split; (intros [Q|(x & Q1 & Q2)]; [auto|right; exists x; split; [|exact Q2]]); [apply (Permutation_in _ E2 Q1)|apply (Permutation_in _ (Permutation_sym E2) Q1)]. }
      rewrite (sum_over_same A S _ (nodup idx_eq_dec (content_indices xs o)) _ (NoDup_nodup _ _) (NoDup_nodup _ _) P); [|apply integrand_depends].
      apply sum_over_ext; [|apply NoDup_nodup]. intros e _. unfold integrand. f_equal. apply aprod_perm. apply Permutation_map, E2.
  Qed.

  Context (w : world) (UN : unordered w) (AD : admissible (w_sympy w)) (terms : list term) (ST : Forall standard terms) (AP : ForallOrdPairs apart_terms terms) (CN : consistent_names (flat_map ttensors terms)) (hermitian : bool) (HS : hermitian = true -> hermitian_values v).
  Context (c : Qc) (VC : zero_or_visible c).
  Local Notation tensors := (flat_map ttensors terms).
  Local Notation can := (canonicalize_contraction w tensors c hermitian).

  Lemma entry_sum z ds sq : (z = 1 \/ z = -1)%Z -> Permutation (written_string (map tsq terms)) (flat_map density_legs ds ++ open_string sq) -> Forall density_shape ds ->
    forall t, can (z, ds, sq) = Ok t ->
    term_value S v t = (inj c * sum_over S (all_indices terms) (fun e => (aprod (map (tensor_value v e) tensors) * entry_value (at_orbitals v e) (z, ds, sq))%alg))%alg.
  Proof.
    intros Hz PL SH t H. unfold canonicalize_contraction in H. destruct (make_term _ _ _ _) as [t0|] eqn:M; [|discriminate]. cbn [pybind] in H.
    rewrite (canonicalize_sympy_value (w_sympy w) hermitian _ _ _ _ _ M); try assumption.
    2: eapply entry_plain; eassumption.
    2: eapply entry_valid; eassumption.
    2: eapply entry_disjoint; eassumption.
    2: eapply entry_active; eassumption.
    2: apply consistent_classes; exact CN.
    2: eapply entry_balanced; eassumption.
    2: apply visible_sign; assumption.
    unfold content_value. rewrite inj_mul.
    rewrite (sum_over_same A S _ (all_indices terms)); [|apply NoDup_nodup..| |apply integrand_depends].
    - rewrite (sum_over_ext A S (all_indices terms) (integrand v _ _) (fun e => (aprod (map (tensor_value v e) tensors) * (aprod (map (tensor_value v e) (map tensor_of ds)) * op_value v e sq))%alg)); [|intros e _; unfold integrand; rewrite map_app, (aprod_app A); ring|apply NoDup_nodup].
      rewrite (sum_over_ext A S (all_indices terms) (fun e => (_ * entry_value _ _)%alg) (fun e => (inj (Qc_of_Z z) * (aprod (map (tensor_value v e) tensors) * (aprod (map (tensor_value v e) (map tensor_of ds)) * op_value v e sq)))%alg)); [|intros e _; unfold entry_value, at_orbitals; cbn [fst snd vden vop]; rewrite map_map; unfold zin, Qc_of_Z; ring|apply NoDup_nodup].
      rewrite sum_over_mul. ring.
    - intros i. unfold all_indices. rewrite !nodup_In. split; intros Hi; [apply (Permutation_in _ (entry_content terms ds sq PL) Hi)|apply (Permutation_in _ (Permutation_sym (entry_content terms ds sq PL)) Hi)].
  Qed.
  Lemma entries_sum es rs : pymap can es = Ok rs ->
    (forall z ds sq, In (z, ds, sq) es -> (z = 1 \/ z = -1)%Z /\ Permutation (written_string (map tsq terms)) (flat_map density_legs ds ++ open_string sq) /\ Forall density_shape ds) ->
    asum (map (term_value S v) rs) = (inj c * sum_over S (all_indices terms) (fun e => (aprod (map (tensor_value v e) tensors) * asum (map (entry_value (at_orbitals v e)) es))%alg))%alg.
  Proof.
    intros H. apply pymap_forall2 in H. induction H as [|[[z ds] sq] t l m E _ IH]; intros HE.
    - cbn [map]. change (asum (@nil A)) with (@q0 A). rewrite (sum_over_zero A S (all_indices terms) _ (NoDup_nodup _ _)); [ring|]. intros e _. ring.
    - cbn [map]. unfold asum at 1. cbn [fold_right]. fold (@asum A). change (fold_right qadd q0 (map (term_value S v) m)) with (asum (map (term_value S v) m)). rewrite IH by (intros; apply HE; right; assumption).
      destruct (HE z ds sq (or_introl eq_refl)) as (Z1 & Z2 & Z3). rewrite (entry_sum z ds sq Z1 Z2 Z3 t E).
      rewrite (sum_over_ext A S (all_indices terms) (fun e => (_ * asum (_ :: _))%alg) (fun e => (aprod (map (tensor_value v e) tensors) * entry_value (at_orbitals v e) (z, ds, sq) + aprod (map (tensor_value v e) tensors) * asum (map (entry_value (at_orbitals v e)) l))%alg)); [| |apply NoDup_nodup].
      + unfold sum_over at 3. rewrite (asum_plus A). unfold sum_over. ring.
      + intros e _. unfold asum at 1. cbn [fold_right]. fold (@asum A). change (fold_right qadd q0 (map (entry_value (at_orbitals v e)) l)) with (asum (map (entry_value (at_orbitals v e)) l)). ring.
  Qed.
End Value.

Lemma visible_abs c : zero_or_visible c -> c = Q2Qc 0 \/ Qcle tiny (Qc_abs c).
Proof.
  intros [H|[H|H]]; [auto|right..].
  - eapply Qcle_trans; [exact H|]. apply Qc_abs_ge.
  - apply Qcopp_le_compat in H. eapply Qcle_trans; [exact H|]. apply Qc_abs_ge.
Qed.

Section Contract.
  Context (A : qalg) (S : system) (v : tvaluation A).
  Add Ring alg_ring11 : (q_ring A).
  Lemma same_sums_values tensors l l' : consistent_names tensors -> Forall (clean tensors) l -> Forall (clean tensors) l' -> same_sums l l' -> asum (map (term_value S v) l) = asum (map (term_value S v) l').
  Proof. intros CN G G' SS. apply values_same; [|exact SS]. apply (clean_uniform tensors); [exact CN|]. apply Forall_app. auto. Qed.

  Theorem contract_value w terms max_cu max_o min_o sc fc eh n hermitian out :
    physical S v -> no_active_amplitudes S v -> antisymmetric v -> (hermitian = true -> hermitian_values v) ->
    unordered w -> (forall l, Permutation (w_iter w l) l) -> admissible (w_sympy w) -> Forall standard terms -> ForallOrdPairs apart_terms terms -> consistent_names (flat_map ttensors terms) ->
    2 <= length (filter (fun t => negb (op_is_empty (tsq t))) terms) ->
    (let c := fold_left (fun c t => Qcmult c (tcoeff t)) terms sc in zero_or_visible c) ->
    contract_terms w terms max_cu max_o min_o sc fc eh n hermitian = Ok out ->
    let ops := map tsq (filter (fun t => negb (op_is_empty (tsq t))) terms) in
    exists result (P : list econ -> Prop), compute_operator_contractions (w_pick w) (w_pick_connected w) (w_iter w) fc ops max_cu max_o min_o eh = Ok result /\ wick_sum ops eh P result /\
      (forall s, P s -> wick_set ops (cumulant_level ops max_cu) min_o max_o s /\ (fc = true -> connects_ops ops s /\ has_pair s)) /\
      ((fc = true -> length ops <= 3) -> forall s, wick_set ops (cumulant_level ops max_cu) min_o max_o s -> (fc = true -> connects_ops ops s /\ has_pair s) -> P s) /\
      asum (map (term_value S v) out) = (inj (fold_left (fun c t => Qcmult c (tcoeff t)) terms sc) * contracted_value S v terms result)%alg.
  Proof.
    intros PH NA AS HS UN IT AD ST AP CN L2 VC H. cbv zeta. unfold contract_terms in H. destruct terms as [|t0 ts]; [discriminate|]. set (terms := t0 :: ts) in *. clearbody terms. cbv zeta in H, VC.
    destruct (filter (fun t => negb (op_is_empty (tsq t))) terms) as [|t1 [|t2 tc]] eqn:F; [cbn in L2; lia|cbn in L2; lia|]. rewrite <- F in *. set (ops := map tsq (filter (fun t => negb (op_is_empty (tsq t))) terms)) in *.
    destruct (forallb _ (filter _ terms)) in H; [|discriminate]. fold ops in H. pose proof (standard_alpha terms ST) as Hal. pose proof (standard_distinct terms ST AP) as D. fold ops in Hal, D.
    assert (G : exists result (P : list econ -> Prop), compute_operator_contractions (w_pick w) (w_pick_connected w) (w_iter w) fc ops max_cu max_o min_o eh = Ok result /\ wick_sum ops eh P result /\
      (forall s, P s -> wick_set ops (cumulant_level ops max_cu) min_o max_o s /\ (fc = true -> connects_ops ops s /\ has_pair s)) /\
      ((fc = true -> length ops <= 3) -> forall s, wick_set ops (cumulant_level ops max_cu) min_o max_o s -> (fc = true -> connects_ops ops s /\ has_pair s) -> P s)).
    { destruct fc.
      - destruct (connected_driver_ok (w_pick_connected w) ops max_cu max_o min_o eh Hal D) as (r & P & E & W & P1 & P2). exists r, P. split; [exact E|]. split; [exact W|]. split; [intros s Hs; destruct (P1 s Hs) as (Q1 & Q2 & Q3); auto|]. intros L s Q1 Q2. destruct (Q2 eq_refl) as [Q3 Q4]. apply P2; auto.
      - destruct (C32_entry_point (w_pick w) (w_pick_connected w) (w_iter w) ops max_cu max_o min_o eh Hal IT D) as (r & E & W). exists r, (wick_set ops (cumulant_level ops max_cu) min_o max_o). split; [exact E|]. split; [exact W|]. split; [intros s Hs; split; [exact Hs|discriminate]|auto]. }
    destruct G as (r & P & E & W & P1 & P2). exists r, P. split; [exact E|]. split; [exact W|]. split; [exact P1|]. split; [exact P2|].
    rewrite E in H. cbn [pybind] in H. set (c := fold_left (fun c t => Qcmult c (tcoeff t)) terms sc) in *. pose proof (visible_abs c VC) as HC.
    destruct (batch_loop w _ _ _ _ _ _ _ _ _ _) as [fin|] eqn:EL; [|discriminate]. cbn [pybind] in H.
    destruct (loop_fails _ _ _ _ _ _ _ _ _ _ _ _ EL) as [rs R]. cbn [app] in R.
    destruct (loop_ok w UN _ CN _ HC hermitian (Nat.min n (w_cpus w)) (batch_size_of (Nat.min n (w_cpus w))) r 0 0 [] [] rs) as (fin1 & E1 & G1 & SS1); [constructor|exact R|]. rewrite EL in E1. injection E1 as <-. cbn [app] in SS1.
    destruct (good_combine _ CN _ HC fin G1) as (out' & EO & GO & SO). rewrite H in EO. injection EO as <-.
    pose proof (pymap_good w _ _ hermitian _ _ R) as GR.
    rewrite (same_sums_values _ out rs CN (goods_clean _ _ _ GO) (goods_clean _ _ _ GR) (same_sums_trans _ _ _ SO SS1)).
    rewrite (entries_sum A S v PH NA AS w AD terms ST AP CN hermitian HS c VC _ _ R); [reflexivity|].
    intros z ds sq Hin. destruct (result_legs ops eh P _ _ _ r z ds sq (fun s Hs => proj1 (P1 s Hs)) W Hin) as (Q1 & Q2 & _). split; [exact Q2|]. split.
    - unfold ops in Q1. rewrite filter_empty_ops in Q1. exact Q1.
    - exact (entry_shapes ops eh P _ _ _ r z ds sq (fun s Hs => proj1 (P1 s Hs)) W Hin).
  Qed.
End Contract.

(** ** At most one operator *)
Definition whole_op (terms : list term) : op := match filter (fun t => negb (op_is_empty (tsq t))) terms with t :: _ => tsq t | [] => Op [] [] end.
Section Single.
  Context (A : qalg) (S : system) (v : tvaluation A).
  Add Ring alg_ring12 : (q_ring A).
  Lemma make_value xs o c t I : make_term SpinOrbital xs o c = Ok t -> NoDup I -> (forall i, In i I <-> In i (content_indices xs o)) ->
    term_value S v t = (inj c * sum_over S I (fun e => (aprod (map (tensor_value v e) xs) * op_value v e o)%alg))%alg.
  Proof.
    intros M N HI. destruct (make_term_fields _ _ _ _ _ M) as (E1 & E2 & _ & E4 & E5 & _). unfold term_value, content_value. rewrite E4, E5. f_equal.
    rewrite (sum_over_same A S _ I); [|apply NoDup_nodup|exact N| |apply integrand_depends].
    - apply sum_over_ext; [|exact N]. intros e _. unfold integrand. f_equal. apply aprod_perm, Permutation_map, E2.
    - intros i. rewrite nodup_In, HI. unfold content_indices. rewrite !in_app_iff, !in_flat_map. split; (intros [Q|(x & Q1 & Q2)]; [auto|right; exists x; split; [|exact Q2]]); [apply (Permutation_in _ E2 Q1)|apply (Permutation_in _ (Permutation_sym E2) Q1)].
  Qed.
  Lemma whole_indices terms : length (filter (fun t => negb (op_is_empty (tsq t))) terms) <= 1 -> flat_map (fun t => op_indices (tsq t)) terms = op_indices (whole_op terms).
  Proof.
    unfold whole_op. induction terms as [|t l IH]; [reflexivity|]. cbn [filter flat_map]. destruct (op_is_empty (tsq t)) eqn:E; cbn [negb].
    - intros L. rewrite (IH L). unfold op_is_empty in E. unfold op_indices at 1. destruct (cre (tsq t)), (ann (tsq t)); try discriminate. reflexivity.
    - cbn [Datatypes.length]. intros L. destruct (filter (fun t => negb (op_is_empty (tsq t))) l) as [|t1 l1]; [|cbn in L; lia]. rewrite IH by (cbn; lia). cbn. rewrite app_nil_r. reflexivity.
  Qed.
  Lemma contract_value_single w terms max_cu max_o min_o sc fc eh n hermitian out :
    Forall standard terms -> length (filter (fun t => negb (op_is_empty (tsq t))) terms) <= 1 ->
    contract_terms w terms max_cu max_o min_o sc fc eh n hermitian = Ok out ->
    asum (map (term_value S v) out) =
      (inj (fold_left (fun c t => Qcmult c (tcoeff t)) terms sc) * sum_over S (all_indices terms) (fun e => (aprod (map (tensor_value v e) (flat_map ttensors terms)) * op_value v e (whole_op terms))%alg))%alg.
  Proof.
    intros ST L H. pose proof (whole_indices terms L) as WI. unfold contract_terms in H. unfold whole_op in *. destruct terms as [|t0 ts]; [discriminate|]. pose proof (Forall_inv ST) as S0. assert (T0 : In t0 (t0 :: ts)) by (left; reflexivity). set (terms := t0 :: ts) in *. clearbody terms. cbv zeta in H. rewrite Forall_forall in ST.
    assert (HI : forall o, flat_map (fun t => op_indices (tsq t)) terms = op_indices o -> forall i, In i (all_indices terms) <-> In i (content_indices (flat_map ttensors terms) o)).
    { intros o Ho i. unfold all_indices. rewrite nodup_In. assert (P := all_perm terms). rewrite Ho in P. split; intros Q; [exact (Permutation_in _ P Q)|exact (Permutation_in _ (Permutation_sym P) Q)]. }
    assert (TY : forall t, In t terms -> ttype t = SpinOrbital) by (intros t Ht; apply standard_type, ST, Ht).
    destruct (filter (fun t => negb (op_is_empty (tsq t))) terms) as [|t1 [|t2 tc]] eqn:F; [| |cbn in L; lia].
    - rewrite (TY t0 T0) in H. destruct (make_term _ _ _ _) as [t|] eqn:M; [|discriminate]. cbn [pybind] in H. injection H as <-.
      assert (E0 : tsq t0 = Op [] []).
      { assert (Q : op_is_empty (tsq t0) = true) by (destruct (op_is_empty (tsq t0)) eqn:Q; [reflexivity|]; assert (I : In t0 (filter (fun t => negb (op_is_empty (tsq t))) terms)) by (apply filter_In; split; [exact T0|rewrite Q; reflexivity]); rewrite F in I; destruct I).
        unfold op_is_empty in Q. destruct (tsq t0) as [[|] [|]]; try discriminate. reflexivity. }
      rewrite E0 in M. cbn [map]. unfold asum. cbn [fold_right]. rewrite (make_value _ _ _ _ (all_indices terms) M (NoDup_nodup _ _)); [ring|]. apply HI, WI.
    - assert (T1 : In t1 terms) by (assert (I : In t1 [t1]) by (left; reflexivity); rewrite <- F in I; apply filter_In in I; apply I).
      rewrite (TY t1 T1) in H. destruct (make_term _ _ _ _) as [t|] eqn:M; [|discriminate]. cbn [pybind] in H. injection H as <-.
      cbn [map]. unfold asum. cbn [fold_right]. rewrite (make_value _ _ _ _ (all_indices terms) M (NoDup_nodup _ _)); [ring|]. apply HI, WI.
  Qed.
End Single.

(** ** Commutators *)
Lemma multiple_self c : multiple c c.
Proof. exists 1%Z. change (Qc_of_Z 1) with (Q2Qc 1). ring. Qed.
Lemma contract_good w terms max_cu max_o min_o sc fc eh n h out : unordered w -> consistent_names (flat_map ttensors terms) ->
  let c := fold_left (fun c t => Qcmult c (tcoeff t)) terms sc in c = Q2Qc 0 \/ Qcle tiny (Qc_abs c) -> (forall t, In t terms -> ttype t = SpinOrbital) ->
  contract_terms w terms max_cu max_o min_o sc fc eh n h = Ok out -> Forall (good (flat_map ttensors terms) c) out.
Proof.
  cbv zeta. intros U CN HC HT H. unfold contract_terms in H. destruct terms as [|t0 terms]; [discriminate|]. pose proof (HT t0 (or_introl eq_refl)) as H0. set (ts := t0 :: terms) in *. clearbody ts. cbv zeta in *.
  destruct (filter (fun t => negb (op_is_empty (tsq t))) ts) as [|t1 [|t2 tc]] eqn:F.
  - rewrite H0 in H. destruct (make_term _ _ _ _) as [t|] eqn:M; [|discriminate]. cbn [pybind] in H. injection H as <-. constructor; [|constructor]. split; [exact (make_clean _ _ _ _ M)|]. destruct (make_term_fields _ _ _ _ _ M) as (_ & _ & _ & _ & -> & _). apply multiple_self.
  - rewrite (HT t1) in H; [|assert (I : In t1 [t1]) by (left; reflexivity); rewrite <- F in I; apply filter_In in I; apply I]. destruct (make_term _ _ _ _) as [t|] eqn:M; [|discriminate]. cbn [pybind] in H. injection H as <-. constructor; [|constructor]. split; [exact (make_clean _ _ _ _ M)|]. destruct (make_term_fields _ _ _ _ _ M) as (_ & _ & _ & _ & -> & _). apply multiple_self.
  - destruct (forallb _ (t1 :: t2 :: tc)); [|discriminate]. destruct (compute_operator_contractions _ _ _ _ _ _ _ _ _) as [batches|]; [|discriminate]. cbn [pybind] in *. destruct (batch_loop w _ _ _ _ _ _ _ _ _ _) as [fin|] eqn:E; [|discriminate]. cbn [pybind] in H.
    destruct (loop_fails _ _ _ _ _ _ _ _ _ _ _ _ E) as [rs R]. cbn [app] in R.
    destruct (loop_ok w U _ CN _ HC h (Nat.min n (w_cpus w)) (batch_size_of (Nat.min n (w_cpus w))) batches 0 0 [] [] rs) as (fin1 & E1 & G1 & SS1); [constructor|exact R|]. rewrite E in E1. injection E1 as <-.
    destruct (good_combine _ CN _ HC fin G1) as (out' & EO & GO & _). rewrite H in EO. injection EO as <-. exact GO.
Qed.
Definition hole_values {A} (v : tvaluation A) : Prop :=
  forall p q, vtensor v THole "C" [p] [q] = (vtensor v TKronecker "K" [p] [q] - vtensor v TCumulant "L" [p] [q])%alg.
Section Commutator.
  Context (A : qalg) (S : system) (v : tvaluation A).
  Add Ring alg_ring13 : (q_ring A).
  Context (PH : physical S v) (AS : antisymmetric v) (HV : hole_values v).
  (** like [at_orbitals], but with the hole densities replaced by their definition *)
  Definition without_holes (e : idx -> nat) : valuation A :=
    Val A (fun d => match kind d, dupper d, dlower d with
                    | KHole, [u], [l] => (tensor_value v e (tensor_of (Den KKronecker [u] [l])) -
                                          (if space_eqb (lsp (fst u)) Sv || space_eqb (lsp (fst l)) Sv then q0 else tensor_value v e (tensor_of (Den KCumulant [u] [l]))))%alg
                    | _, _, _ => tensor_value v e (tensor_of d)
                    end) (fun o => op_value v e o).
  Lemma without_holes_ok e : holes_ok (without_holes e).
  Proof. intros u l. reflexivity. Qed.
  Lemma without_antisymmetric e : cumulants_antisymmetric (without_holes e).
  Proof.
    split; intros; cbn; unfold tensor_value; cbn [tensor_of kind tcls tname tupper tlower dupper dlower]; rewrite !map_app; cbn [map]; [apply (as_upper _ AS)|apply (as_lower _ AS)].
  Qed.
  Lemma virtual_orbital i p : lsp (fst i) = Sv -> In p (orbitals S i) -> is_virtual S p = true.
  Proof.
    intros E H. apply orbitals_in in H as [_ H]. unfold relation in H. rewrite E in H. cbn in H. destruct H as [H|[]]. unfold is_virtual. rewrite <- H. reflexivity.
  Qed.
  Lemma without_value e d : density_shape d -> (forall i, In i (dupper d ++ dlower d) -> In (e i) (orbitals S i)) -> vden (without_holes e) d = vden (at_orbitals v e) d.
  Proof.
    intros (L1 & L2 & _) I. cbn [vden without_holes at_orbitals]. destruct d as [k us ls]. cbn [kind dupper dlower] in *. destruct k; try reflexivity. specialize (L2 ltac:(discriminate)). destruct us as [|u [|]]; try discriminate. destruct ls as [|l [|]]; try discriminate.
    unfold tensor_value. cbn [tensor_of kind dupper dlower tcls tname tupper tlower map]. rewrite HV. f_equal. destruct (space_eqb (lsp (fst u)) Sv || space_eqb (lsp (fst l)) Sv) eqn:E; [|reflexivity]. symmetry. apply (ph_one_virtual _ _ PH).
    apply orb_true_iff in E as [E|E]; [left|right].
    - apply (virtual_orbital u); [destruct (lsp (fst u)); try discriminate; reflexivity|apply I; left; reflexivity].
    - apply (virtual_orbital l); [destruct (lsp (fst l)); try discriminate; reflexivity|apply I; right; left; reflexivity].
  Qed.
  Lemma without_result terms result (e : idx -> nat) : (forall z ds sq, In (z, ds, sq) (concat result) -> Permutation (written_string (map tsq terms)) (flat_map density_legs ds ++ open_string sq) /\ Forall density_shape ds) ->
    (forall i, In i (all_indices terms) -> In (e i) (orbitals S i)) -> result_value (without_holes e) result = result_value (at_orbitals v e) result.
  Proof.
    intros HE He. unfold result_value. apply asum_map_ext. intros [[z ds] sq] H. destruct (HE z ds sq H) as [PL SH]. unfold entry_value. cbn [fst snd]. f_equal. f_equal. f_equal. apply map_ext_in. intros d Hd. rewrite Forall_forall in SH. apply without_value; [apply SH, Hd|].
    intros i Hi. apply He. unfold all_indices. apply nodup_In. apply (Permutation_in _ (Permutation_sym (all_perm terms))). apply in_or_app. left. apply (Permutation_in _ (entry_indices terms ds sq PL)). apply in_or_app. right.
    apply in_flat_map. exists (tensor_of d). split; [apply in_map, Hd|]. unfold tensor_indices. destruct (tensor_of_sides d) as (-> & -> & _). exact Hi.
  Qed.
  Definition legs_fit (terms : list term) (result : list (list entry)) : Prop :=
    forall z ds sq, In (z, ds, sq) (concat result) -> Permutation (written_string (map tsq terms)) (flat_map density_legs ds ++ open_string sq) /\ Forall density_shape ds.
  Lemma tensor_value_ext (e e' : idx -> nat) x : (forall i, In i (tensor_indices x) -> e i = e' i) -> tensor_value v e x = tensor_value v e' x.
  Proof. intros H. unfold tensor_value. f_equal; apply map_ext_in; intros i Hi; apply H; unfold tensor_indices; apply in_or_app; auto. Qed.
  Lemma contracted_depends terms result : legs_fit terms result -> depends_on A (all_indices terms) (fun e => (aprod (map (tensor_value v e) (flat_map ttensors terms)) * result_value (at_orbitals v e) result)%alg).
  Proof.
    intros LF e e' H.
    assert (HI : forall i, In i (flat_map (fun t => op_indices (tsq t)) terms ++ flat_map tensor_indices (flat_map ttensors terms)) -> e i = e' i).
    { intros i Hi. apply H. unfold all_indices. apply nodup_In. exact (Permutation_in _ (Permutation_sym (all_perm terms)) Hi). }
    f_equal.
    - f_equal. apply map_ext_in. intros x Hx. apply tensor_value_ext. intros i Hi. apply HI. apply in_or_app. right. apply in_flat_map. exists x. auto.
    - unfold result_value. apply asum_map_ext. intros [[z ds] sq] Hin. destruct (LF z ds sq Hin) as [PL _]. pose proof (entry_indices terms ds sq PL) as PI. unfold entry_value. cbn [fst snd at_orbitals vden vop]. f_equal.
      + f_equal. f_equal. apply map_ext_in. intros d Hd. apply tensor_value_ext. intros i Hi. apply HI. apply in_or_app. left. apply (Permutation_in _ PI). apply in_or_app. right. apply in_flat_map. exists (tensor_of d). split; [apply in_map, Hd|exact Hi].
      + unfold op_value. f_equal; apply map_ext_in; intros i Hi; apply HI; apply in_or_app; left; apply (Permutation_in _ PI); apply in_or_app; left; unfold op_indices; apply in_or_app; auto.
  Qed.
  Lemma swapped_indices a b i : In i (all_indices [b; a]) <-> In i (all_indices [a; b]).
  Proof. unfold all_indices. rewrite !nodup_In. cbn [flat_map]. rewrite !app_nil_r, !in_app_iff. tauto. Qed.
  Lemma contracted_swapped a b result : legs_fit [b; a] result ->
    contracted_value S v [b; a] result = sum_over S (all_indices [a; b]) (fun e => (aprod (map (tensor_value v e) (ttensors a ++ ttensors b)) * result_value (at_orbitals v e) result)%alg).
  Proof.
    intros LF. unfold contracted_value. rewrite (sum_over_same A S _ (all_indices [a; b])); [|apply NoDup_nodup|apply NoDup_nodup|intros i; apply swapped_indices|apply contracted_depends, LF].
    apply sum_over_ext; [|apply NoDup_nodup]. intros e _. f_equal. apply aprod_perm, Permutation_map. cbn [flat_map]. rewrite app_nil_r. apply Permutation_app_comm.
  Qed.
  Lemma sum_over_minus I (F G : (idx -> nat) -> A) : sum_over S I (fun e => (F e - G e)%alg) = (sum_over S I F - sum_over S I G)%alg.
  Proof. unfold sum_over. induction (assignments S I) as [|a l IH]; cbn [map]; unfold asum in *; cbn [fold_right]; [ring|]. rewrite IH. ring. Qed.

  Context (NA : no_active_amplitudes S v).
  (** both operators are present *)
  Lemma commutator_value w1 w2 a b max_cu max_o min_o sc fc eh n hermitian out :
    (hermitian = true -> hermitian_values v) ->
    unordered w1 -> unordered w2 -> (forall l, Permutation (w_iter w1 l) l) -> (forall l, Permutation (w_iter w2 l) l) -> admissible (w_sympy w1) -> admissible (w_sympy w2) ->
    standard a -> standard b -> apart_terms a b -> consistent_names (ttensors a ++ ttensors b) ->
    op_is_empty (tsq a) = false -> op_is_empty (tsq b) = false -> zero_or_visible (Qcmult sc (Qcmult (tcoeff a) (tcoeff b))) ->
    single_commutator w1 w2 a b max_cu max_o min_o sc fc eh n hermitian = Ok out ->
    exists rAB rBA, compute_operator_contractions (w_pick w1) (w_pick_connected w1) (w_iter w1) fc [tsq a; tsq b] max_cu max_o min_o eh = Ok rAB /\
      compute_operator_contractions (w_pick w2) (w_pick_connected w2) (w_iter w2) fc [tsq b; tsq a] max_cu max_o min_o eh = Ok rBA /\
      legs_fit [a; b] rAB /\ legs_fit [b; a] rBA /\
      asum (map (term_value S v) out) = (inj (Qcmult sc (Qcmult (tcoeff a) (tcoeff b))) *
        sum_over S (all_indices [a; b]) (fun e => (aprod (map (tensor_value v e) (ttensors a ++ ttensors b)) * (result_value (at_orbitals v e) rAB - result_value (at_orbitals v e) rBA))%alg))%alg.
  Proof.
    intros HS U1 U2 I1 I2 AD1 AD2 Sa Sb AP CN Ea Eb VC H. unfold single_commutator in H. rewrite Ea, Eb, andb_false_r in H.
    destruct (contract_terms w1 _ _ _ _ _ _ _ _ _) as [oa|] eqn:E1; [|discriminate]. cbn [pybind] in H. destruct (contract_terms w2 _ _ _ _ _ _ _ _ _) as [ob|] eqn:E2; [|discriminate]. cbn [pybind] in H.
    assert (Ta : ttype a = SpinOrbital) by (apply standard_type, Sa).
    assert (Tb : ttype b = SpinOrbital) by (apply standard_type, Sb).
    assert (C1 : consistent_names (flat_map ttensors [a; b])) by (cbn [flat_map]; rewrite app_nil_r; exact CN).
    assert (C2 : consistent_names (flat_map ttensors [b; a])) by (cbn [flat_map]; rewrite app_nil_r; apply (consistent_incl _ (ttensors a ++ ttensors b)); [intros x; rewrite !in_app_iff; tauto|exact CN]).
    assert (Q1 : fold_left (fun c t => Qcmult c (tcoeff t)) [a; b] sc = Qcmult sc (Qcmult (tcoeff a) (tcoeff b))) by (cbn [fold_left]; ring).
    assert (Q2 : fold_left (fun c t => Qcmult c (tcoeff t)) [b; a] (Qcopp sc) = Qcmult (Qc_of_Z (-1)) (Qcmult sc (Qcmult (tcoeff a) (tcoeff b)))).
    { cbn [fold_left]. change (-1)%Z with (- (1))%Z. rewrite (Qc_of_Z_opp' 1). change (Qc_of_Z 1) with (Q2Qc 1). ring. }
    pose proof (visible_sign (-1) _ (or_intror eq_refl) VC) as VC2.
    assert (F1 : filter (fun t => negb (op_is_empty (tsq t))) [a; b] = [a; b]) by (cbn [filter]; rewrite Ea, Eb; reflexivity).
    assert (F2 : filter (fun t => negb (op_is_empty (tsq t))) [b; a] = [b; a]) by (cbn [filter]; rewrite Ea, Eb; reflexivity).
    destruct (contract_value A S v w1 [a; b] max_cu max_o min_o sc fc eh n hermitian oa) as (rAB & P1 & R1 & W1 & HP1 & _ & V1); auto.
    { constructor; [constructor; [exact AP|constructor]|constructor; [constructor|constructor]]. }
    { rewrite F1. auto. } { cbv zeta. rewrite Q1. exact VC. }
    destruct (contract_value A S v w2 [b; a] max_cu max_o min_o (Qcopp sc) fc eh n hermitian ob) as (rBA & P2 & R2 & W2 & HP2 & _ & V2); auto.
    { constructor; [constructor; [|constructor]|constructor; [constructor|constructor]]. intros i Hb Ha. exact (AP i Ha Hb). }
    { rewrite F2. auto. } { cbv zeta. rewrite Q2. exact VC2. }
    rewrite F1 in *. rewrite F2 in *. rewrite Q1 in V1. rewrite Q2 in V2. cbn [map] in R1, R2, W1, W2, HP1, HP2.
    assert (L1 : legs_fit [a; b] rAB).
    { intros z ds sq Hin. split; [destruct (result_legs _ eh P1 _ _ _ rAB z ds sq (fun s Hs => proj1 (HP1 s Hs)) W1 Hin) as (Q & _); exact Q|exact (entry_shapes _ eh P1 _ _ _ rAB z ds sq (fun s Hs => proj1 (HP1 s Hs)) W1 Hin)]. }
    assert (L2 : legs_fit [b; a] rBA).
    { intros z ds sq Hin. split; [destruct (result_legs _ eh P2 _ _ _ rBA z ds sq (fun s Hs => proj1 (HP2 s Hs)) W2 Hin) as (Q & _); exact Q|exact (entry_shapes _ eh P2 _ _ _ rBA z ds sq (fun s Hs => proj1 (HP2 s Hs)) W2 Hin)]. }
    exists rAB, rBA. split; [exact R1|]. split; [exact R2|]. split; [exact L1|]. split; [exact L2|].
    (* the two sums are combined *)
    set (c := Qcmult sc (Qcmult (tcoeff a) (tcoeff b))) in *. pose proof (visible_abs c VC) as HC.
    assert (HT : forall t, In t [a; b] -> ttype t = SpinOrbital) by (intros t [<-|[<-|[]]]; assumption).
    assert (HT' : forall t, In t [b; a] -> ttype t = SpinOrbital) by (intros t [<-|[<-|[]]]; assumption).
    assert (G : Forall (good (ttensors a ++ ttensors b) c) (oa ++ ob)).
    { apply Forall_app. split.
      - pose proof (contract_good w1 [a; b] max_cu max_o min_o sc fc eh n hermitian oa U1 C1) as G. cbv zeta in G. rewrite Q1 in G. specialize (G HC HT E1). eapply Forall_impl; [|exact G]. intros t [K1 K2]. split; [|exact K2]. revert K1. apply clean_incl. cbn [flat_map]. rewrite app_nil_r. apply incl_refl.
      - pose proof (contract_good w2 [b; a] max_cu max_o min_o (Qcopp sc) fc eh n hermitian ob U2 C2) as G. cbv zeta in G. rewrite Q2 in G. specialize (G (visible_abs _ VC2) HT' E2). eapply Forall_impl; [|exact G]. intros t [K1 K2]. split; [revert K1; apply clean_incl; cbn [flat_map]; rewrite app_nil_r; intros x; rewrite !in_app_iff; tauto|].
        destruct K2 as [z K2]. exists (z * -1)%Z. rewrite K2, Qc_of_Z_mul. ring. }
    destruct (good_combine _ CN _ HC (oa ++ ob) G) as (out' & EO & GO & SO). rewrite H in EO. injection EO as <-.
    rewrite (same_sums_values A S v _ out (oa ++ ob) CN (goods_clean _ _ _ GO) (goods_clean _ _ _ G) SO). rewrite map_app, (asum_app A), V1, V2.
    rewrite (contracted_swapped a b rBA L2), inj_mul. unfold contracted_value. cbn [flat_map]. rewrite app_nil_r.
    rewrite (sum_over_ext A S (all_indices [a; b]) (fun e => (_ * (_ - _))%alg) (fun e => (aprod (map (tensor_value v e) (ttensors a ++ ttensors b)) * result_value (at_orbitals v e) rAB - aprod (map (tensor_value v e) (ttensors a ++ ttensors b)) * result_value (at_orbitals v e) rBA)%alg)); [|intros e _; ring|apply NoDup_nodup].
    rewrite sum_over_minus. assert (M1 : @inj A (Qc_of_Z (-1)) = (- q1)%alg).
    { assert (Z : (@inj A (Qc_of_Z (-1)) + inj (Q2Qc 1))%alg = q0) by (rewrite <- inj_add; rewrite <- (inj_0 A); f_equal; apply Qc_is_canon; reflexivity). rewrite inj_one in Z. set (x := @inj A (Qc_of_Z (-1))) in *. transitivity ((x + q1) - @q1 A)%alg; [ring|]. rewrite Z. ring. }
    rewrite M1. ring.
  Qed.

  Lemma swapped_op a b : Permutation (all_indices [b; a]) (all_indices [a; b]).
  Proof. apply NoDup_Permutation; [apply NoDup_nodup|apply NoDup_nodup|intros i; apply swapped_indices]. Qed.
  (** an empty operator: the two products cancel *)
  Lemma commutator_scalar w1 w2 a b max_cu max_o min_o sc fc eh n hermitian out :
    unordered w1 -> unordered w2 -> standard a -> standard b -> consistent_names (ttensors a ++ ttensors b) ->
    (op_is_empty (tsq a) || op_is_empty (tsq b) = true) -> zero_or_visible (Qcmult sc (Qcmult (tcoeff a) (tcoeff b))) ->
    single_commutator w1 w2 a b max_cu max_o min_o sc fc eh n hermitian = Ok out -> asum (map (term_value S v) out) = q0.
  Proof.
    intros U1 U2 Sa Sb CN E VC H. unfold single_commutator in H. rewrite E in H. destruct fc; cbn [andb] in H; [injection H as <-; reflexivity|].
    destruct (contract_terms w1 _ _ _ _ _ _ _ _ _) as [oa|] eqn:E1; [|discriminate]. cbn [pybind] in H. destruct (contract_terms w2 _ _ _ _ _ _ _ _ _) as [ob|] eqn:E2; [|discriminate]. cbn [pybind] in H.
    assert (Ta : ttype a = SpinOrbital) by (apply standard_type, Sa).
    assert (Tb : ttype b = SpinOrbital) by (apply standard_type, Sb).
    assert (C1 : consistent_names (flat_map ttensors [a; b])) by (cbn [flat_map]; rewrite app_nil_r; exact CN).
    assert (C2 : consistent_names (flat_map ttensors [b; a])) by (cbn [flat_map]; rewrite app_nil_r; apply (consistent_incl _ (ttensors a ++ ttensors b)); [intros x; rewrite !in_app_iff; tauto|exact CN]).
    assert (Q1 : fold_left (fun c t => Qcmult c (tcoeff t)) [a; b] sc = Qcmult sc (Qcmult (tcoeff a) (tcoeff b))) by (cbn [fold_left]; ring).
    assert (Q2 : fold_left (fun c t => Qcmult c (tcoeff t)) [b; a] (Qcopp sc) = Qcmult (Qc_of_Z (-1)) (Qcmult sc (Qcmult (tcoeff a) (tcoeff b)))).
    { cbn [fold_left]. change (-1)%Z with (- (1))%Z. rewrite (Qc_of_Z_opp' 1). change (Qc_of_Z 1) with (Q2Qc 1). ring. }
    pose proof (visible_sign (-1) _ (or_intror eq_refl) VC) as VC2.
    assert (L1 : length (filter (fun t => negb (op_is_empty (tsq t))) [a; b]) <= 1) by (clear -E; revert E; cbn [filter]; destruct (op_is_empty (tsq a)), (op_is_empty (tsq b)); cbn; intros E; try discriminate; lia).
    assert (L2 : length (filter (fun t => negb (op_is_empty (tsq t))) [b; a]) <= 1) by (clear -E; revert E; cbn [filter]; destruct (op_is_empty (tsq a)), (op_is_empty (tsq b)); cbn; intros E; try discriminate; lia).
    assert (WO : whole_op [b; a] = whole_op [a; b]) by (clear -E; revert E; unfold whole_op; cbn [filter]; destruct (op_is_empty (tsq a)), (op_is_empty (tsq b)); cbn; intros E; try discriminate; reflexivity).
    assert (V1 := contract_value_single A S v w1 [a; b] max_cu max_o min_o sc false eh n hermitian oa (Forall_cons _ Sa (Forall_cons _ Sb (Forall_nil _))) L1 E1).
    assert (V2 := contract_value_single A S v w2 [b; a] max_cu max_o min_o (Qcopp sc) false eh n hermitian ob (Forall_cons _ Sb (Forall_cons _ Sa (Forall_nil _))) L2 E2).
    rewrite Q1 in V1. rewrite Q2, WO in V2. set (c := Qcmult sc (Qcmult (tcoeff a) (tcoeff b))) in *. pose proof (visible_abs c VC) as HC.
    assert (HT : forall t, In t [a; b] -> ttype t = SpinOrbital) by (intros t [<-|[<-|[]]]; assumption).
    assert (HT' : forall t, In t [b; a] -> ttype t = SpinOrbital) by (intros t [<-|[<-|[]]]; assumption).
    assert (G : Forall (good (ttensors a ++ ttensors b) c) (oa ++ ob)).
    { apply Forall_app. split.
      - pose proof (contract_good w1 [a; b] max_cu max_o min_o sc false eh n hermitian oa U1 C1) as G. cbv zeta in G. rewrite Q1 in G. specialize (G HC HT E1). eapply Forall_impl; [|exact G]. intros t [K1 K2]. split; [|exact K2]. revert K1. apply clean_incl. cbn [flat_map]. rewrite app_nil_r. apply incl_refl.
      - pose proof (contract_good w2 [b; a] max_cu max_o min_o (Qcopp sc) false eh n hermitian ob U2 C2) as G. cbv zeta in G. rewrite Q2 in G. specialize (G (visible_abs _ VC2) HT' E2). eapply Forall_impl; [|exact G]. intros t [K1 K2]. split; [revert K1; apply clean_incl; cbn [flat_map]; rewrite app_nil_r; intros x; rewrite !in_app_iff; tauto|].
        destruct K2 as [z K2]. exists (z * -1)%Z. rewrite K2, Qc_of_Z_mul. ring. }
    destruct (good_combine _ CN _ HC (oa ++ ob) G) as (out' & EO & GO & SO). rewrite H in EO. injection EO as <-.
    rewrite (same_sums_values A S v _ out (oa ++ ob) CN (goods_clean _ _ _ GO) (goods_clean _ _ _ G) SO). rewrite map_app, (asum_app A), V1, V2, inj_mul.
    assert (M1 : @inj A (Qc_of_Z (-1)) = (- q1)%alg).
    { assert (Z : (@inj A (Qc_of_Z (-1)) + inj (Q2Qc 1))%alg = q0) by (rewrite <- inj_add; rewrite <- (inj_0 A); f_equal; apply Qc_is_canon; reflexivity). rewrite inj_one in Z. set (x := @inj A (Qc_of_Z (-1))) in *. transitivity ((x + q1) - @q1 A)%alg; [ring|]. rewrite Z. ring. }
    rewrite M1.
    assert (ES : sum_over S (all_indices [b; a]) (fun e => (aprod (map (tensor_value v e) (flat_map ttensors [b; a])) * op_value v e (whole_op [a; b]))%alg) =
                 sum_over S (all_indices [a; b]) (fun e => (aprod (map (tensor_value v e) (flat_map ttensors [a; b])) * op_value v e (whole_op [a; b]))%alg)).
    { rewrite (sum_over_same A S _ (all_indices [a; b])); [|apply NoDup_nodup|apply NoDup_nodup|intros i; apply swapped_indices|].
      - apply sum_over_ext; [|apply NoDup_nodup]. intros e _. f_equal. apply aprod_perm, Permutation_map. cbn [flat_map]. rewrite !app_nil_r. apply Permutation_app_comm.
      - intros e e' He. assert (HI : forall i, In i (flat_map (fun t => op_indices (tsq t)) [b; a] ++ flat_map tensor_indices (flat_map ttensors [b; a])) -> e i = e' i).
        { intros i Hi. apply He. unfold all_indices. apply nodup_In. exact (Permutation_in _ (Permutation_sym (all_perm [b; a])) Hi). }
        f_equal; [f_equal; apply map_ext_in; intros x Hx; apply tensor_value_ext; intros i Hi; apply HI; apply in_or_app; right; apply in_flat_map; exists x; auto|].
        rewrite <- WO. pose proof (whole_indices [b; a] L2) as WI. unfold op_value. f_equal; apply map_ext_in; intros i Hi; apply HI; apply in_or_app; left; rewrite WI; unfold op_indices; apply in_or_app; auto. }
    rewrite ES. ring.
  Qed.

  (** dropping the disconnected contractions does not change the commutator *)
  Theorem for_commutator_value w1 w2 w1' w2' a b max_cu max_o min_o sc eh n n' hermitian hermitian' out out' :
    (hermitian = true -> hermitian_values v) -> (hermitian' = true -> hermitian_values v) ->
    unordered w1 -> unordered w2 -> (forall l, Permutation (w_iter w1 l) l) -> (forall l, Permutation (w_iter w2 l) l) -> admissible (w_sympy w1) -> admissible (w_sympy w2) ->
    unordered w1' -> unordered w2' -> (forall l, Permutation (w_iter w1' l) l) -> (forall l, Permutation (w_iter w2' l) l) -> admissible (w_sympy w1') -> admissible (w_sympy w2') ->
    standard a -> standard b -> apart_terms a b -> consistent_names (ttensors a ++ ttensors b) -> zero_or_visible (Qcmult sc (Qcmult (tcoeff a) (tcoeff b))) ->
    single_commutator w1 w2 a b max_cu max_o min_o sc true eh n hermitian = Ok out ->
    single_commutator w1' w2' a b max_cu max_o min_o sc false eh n' hermitian' = Ok out' ->
    asum (map (term_value S v) out) = asum (map (term_value S v) out').
  Proof.
    intros HS HS' U1 U2 I1 I2 AD1 AD2 U1' U2' I1' I2' AD1' AD2' Sa Sb AP CN VC H H'.
    destruct (op_is_empty (tsq a) || op_is_empty (tsq b)) eqn:E.
    { rewrite (commutator_scalar w1 w2 a b max_cu max_o min_o sc true eh n hermitian out) by assumption. symmetry. apply (commutator_scalar w1' w2' a b max_cu max_o min_o sc false eh n' hermitian' out'); assumption. }
    apply orb_false_iff in E as [Ea Eb].
    destruct (commutator_value w1 w2 a b max_cu max_o min_o sc true eh n hermitian out) as (cAB & cBA & R1 & R2 & L1 & L2 & V); try assumption.
    destruct (commutator_value w1' w2' a b max_cu max_o min_o sc false eh n' hermitian' out') as (gAB & gBA & R1' & R2' & L1' & L2' & V'); try assumption.
    rewrite V, V'. f_equal. apply sum_over_ext; [|apply NoDup_nodup]. intros e He. f_equal.
    assert (He' : forall i, In i (all_indices [b; a]) -> In (e i) (orbitals S i)) by (intros i Hi; apply He, swapped_indices, Hi).
    rewrite <- (without_result [a; b] cAB e L1 He), <- (without_result [b; a] cBA e L2 He'), <- (without_result [a; b] gAB e L1' He), <- (without_result [b; a] gBA e L2' He').
    assert (Hal : Forall op_alpha [tsq a; tsq b]) by (constructor; [apply st_alpha, Sa|constructor; [apply st_alpha, Sb|constructor]]).
    assert (D : distinct_legs [tsq a; tsq b]).
    { pose proof (standard_distinct [a; b]) as D. cbn [filter] in D. rewrite Ea, Eb in D. apply D; [constructor; [exact Sa|constructor; [exact Sb|constructor]]|]. constructor; [constructor; [exact AP|constructor]|constructor; [constructor|constructor]]. }
    destruct (commutator_cancel A (without_holes e) (w_pick w1') (w_pick w2') (w_pick_connected w1) (w_pick_connected w2) (w_iter w1') (tsq a) (tsq b) max_cu max_o min_o eh) as (g1 & g2 & c1 & c2 & G1 & G2 & K1 & K2 & EQ); auto.
    { apply without_holes_ok. } { apply without_antisymmetric. } { exists (length (cre (tsq a))). rewrite (st_balanced _ Sa). lia. }
    unfold compute_operator_contractions in R1, R2, R1', R2'. rewrite R1 in K1. injection K1 as <-. rewrite R2 in K2. injection K2 as <-. rewrite R1' in G1. injection G1 as <-.
    assert (Hal' : Forall op_alpha [tsq b; tsq a]) by (constructor; [apply st_alpha, Sb|constructor; [apply st_alpha, Sa|constructor]]).
    assert (D' : distinct_legs [tsq b; tsq a]) by (apply distinct_two, D).
    assert (EG : result_value (without_holes e) g2 = result_value (without_holes e) gBA).
    { destruct (general_driver_ok (w_pick w2') (w_iter w1') [tsq b; tsq a] max_cu max_o min_o eh Hal' I1' D') as (r & Er & W). rewrite G2 in Er. injection Er as <-.
      destruct (general_driver_ok (w_pick w2') (w_iter w2') [tsq b; tsq a] max_cu max_o min_o eh Hal' I2' D') as (r' & Er' & W'). rewrite R2' in Er'. injection Er' as <-.
      eapply wick_sum_value; [apply without_holes_ok|exact D'| |exact W|exact W']. intros s Hs. eapply wick_set_from; eassumption. }
    rewrite <- EG. symmetry. exact EQ.
  Qed.
  Lemma wick_fit terms eh (P : list econ -> Prop) K lo hi r : (forall s, P s -> wick_set (map tsq terms) K lo hi s) -> wick_sum (map tsq terms) eh P r -> legs_fit terms r.
  Proof.
    intros HP W z ds sq Hin. split; [destruct (result_legs _ eh P _ _ _ r z ds sq HP W Hin) as (Q & _); exact Q|exact (entry_shapes _ eh P _ _ _ r z ds sq HP W Hin)].
  Qed.
  (** whatever the value of for_commutator: the difference of the two full expansions *)
  Theorem commutator_full w1 w2 a b max_cu max_o min_o sc fc eh n hermitian out eh1 eh2 rAB rBA :
    (hermitian = true -> hermitian_values v) ->
    unordered w1 -> unordered w2 -> (forall l, Permutation (w_iter w1 l) l) -> (forall l, Permutation (w_iter w2 l) l) -> admissible (w_sympy w1) -> admissible (w_sympy w2) ->
    standard a -> standard b -> apart_terms a b -> consistent_names (ttensors a ++ ttensors b) ->
    op_is_empty (tsq a) = false -> op_is_empty (tsq b) = false -> zero_or_visible (Qcmult sc (Qcmult (tcoeff a) (tcoeff b))) ->
    single_commutator w1 w2 a b max_cu max_o min_o sc fc eh n hermitian = Ok out ->
    wick_sum [tsq a; tsq b] eh1 (wick_set [tsq a; tsq b] (cumulant_level [tsq a; tsq b] max_cu) min_o max_o) rAB ->
    wick_sum [tsq b; tsq a] eh2 (wick_set [tsq b; tsq a] (cumulant_level [tsq b; tsq a] max_cu) min_o max_o) rBA ->
    asum (map (term_value S v) out) = (inj (Qcmult sc (Qcmult (tcoeff a) (tcoeff b))) * (contracted_value S v [a; b] rAB - contracted_value S v [b; a] rBA))%alg.
  Proof.
    intros HS U1 U2 I1 I2 AD1 AD2 Sa Sb AP CN Ea Eb VC H W1 W2.
    destruct (commutator_value w1 w2 a b max_cu max_o min_o sc fc eh n hermitian out) as (cAB & cBA & R1 & R2 & L1 & L2 & V); try assumption.
    rewrite V. f_equal. clear V H.
    assert (M1 : legs_fit [a; b] rAB) by (apply (wick_fit [a; b] eh1 _ _ _ _ rAB (fun s Hs => Hs) W1)).
    assert (M2 : legs_fit [b; a] rBA) by (apply (wick_fit [b; a] eh2 _ _ _ _ rBA (fun s Hs => Hs) W2)).
    rewrite (contracted_swapped a b rBA M2). unfold contracted_value. rewrite <- sum_over_minus. apply sum_over_ext; [|apply NoDup_nodup]. intros e He.
    cbn [flat_map]. rewrite app_nil_r. transitivity (aprod (map (tensor_value v e) (ttensors a ++ ttensors b)) * (result_value (at_orbitals v e) rAB - result_value (at_orbitals v e) rBA))%alg; [|ring]. f_equal.
    assert (He' : forall i, In i (all_indices [b; a]) -> In (e i) (orbitals S i)) by (intros i Hi; apply He, swapped_indices, Hi).
    rewrite <- (without_result [a; b] cAB e L1 He), <- (without_result [b; a] cBA e L2 He'), <- (without_result [a; b] rAB e M1 He), <- (without_result [b; a] rBA e M2 He').
    assert (Hal : Forall op_alpha [tsq a; tsq b]) by (constructor; [apply st_alpha, Sa|constructor; [apply st_alpha, Sb|constructor]]).
    assert (D : distinct_legs [tsq a; tsq b]).
    { pose proof (standard_distinct [a; b]) as D. cbn [filter] in D. rewrite Ea, Eb in D. apply D; [constructor; [exact Sa|constructor; [exact Sb|constructor]]|]. constructor; [constructor; [exact AP|constructor]|constructor; [constructor|constructor]]. }
    assert (Hal' : Forall op_alpha [tsq b; tsq a]) by (constructor; [apply st_alpha, Sb|constructor; [apply st_alpha, Sa|constructor]]).
    assert (D' : distinct_legs [tsq b; tsq a]) by (apply distinct_two, D).
    destruct (commutator_cancel A (without_holes e) (w_pick w1) (w_pick w2) (w_pick_connected w1) (w_pick_connected w2) (w_iter w1) (tsq a) (tsq b) max_cu max_o min_o eh) as (g1 & g2 & c1 & c2 & G1 & G2 & K1 & K2 & EQ); auto.
    { apply without_holes_ok. } { apply without_antisymmetric. } { exists (length (cre (tsq a))). rewrite (st_balanced _ Sa). lia. }
    destruct (general_driver_ok (w_pick w1) (w_iter w1) [tsq a; tsq b] max_cu max_o min_o eh Hal I1 D) as (r & Er & X1). rewrite G1 in Er. injection Er as <-.
    destruct (general_driver_ok (w_pick w2) (w_iter w1) [tsq b; tsq a] max_cu max_o min_o eh Hal' I1 D') as (r & Er & X2). rewrite G2 in Er. injection Er as <-.
    assert (E1 : result_value (without_holes e) g1 = result_value (without_holes e) rAB) by (eapply wick_sum_value; [apply without_holes_ok|exact D| |exact X1|exact W1]; intros s Hs; eapply wick_set_from; eassumption).
    assert (E2 : result_value (without_holes e) g2 = result_value (without_holes e) rBA) by (eapply wick_sum_value; [apply without_holes_ok|exact D'| |exact X2|exact W2]; intros s Hs; eapply wick_set_from; eassumption).
    rewrite <- E1, <- E2. unfold compute_operator_contractions in R1, R2. destruct fc.
    - rewrite R1 in K1. injection K1 as <-. rewrite R2 in K2. injection K2 as <-. symmetry. exact EQ.
    - rewrite R1 in G1. injection G1 as <-. f_equal.
      destruct (general_driver_ok (w_pick w2) (w_iter w2) [tsq b; tsq a] max_cu max_o min_o eh Hal' I2 D') as (r' & Er' & X'). rewrite R2 in Er'. injection Er' as <-.
      eapply wick_sum_value; [apply without_holes_ok|exact D'| |exact X'|exact X2]. intros s Hs. eapply wick_set_from; eassumption.
  Qed.
  (** such expansions exist *)
  Lemma expansions_exist a b max_cu max_o min_o eh : standard a -> standard b -> apart_terms a b -> op_is_empty (tsq a) = false -> op_is_empty (tsq b) = false ->
    exists r, wick_sum [tsq a; tsq b] eh (wick_set [tsq a; tsq b] (cumulant_level [tsq a; tsq b] max_cu) min_o max_o) r.
  Proof.
    intros Sa Sb AP Ea Eb.
    assert (Hal : Forall op_alpha [tsq a; tsq b]) by (constructor; [apply st_alpha, Sa|constructor; [apply st_alpha, Sb|constructor]]).
    assert (D : distinct_legs [tsq a; tsq b]).
    { pose proof (standard_distinct [a; b]) as D. cbn [filter] in D. rewrite Ea, Eb in D. apply D; [constructor; [exact Sa|constructor; [exact Sb|constructor]]|]. constructor; [constructor; [exact AP|constructor]|constructor; [constructor|constructor]]. }
    destruct (general_driver_ok (fun _ _ => 0) (fun l => l) [tsq a; tsq b] max_cu max_o min_o eh Hal (fun l => Permutation_refl l) D) as (r & _ & W). exists r. exact W.
  Qed.
End Commutator.

(** ** The operators of the package *)
Lemma one_tensor_standard x o c t : make_term SpinOrbital [x] o c = Ok t -> is_density x = false -> valid_tensor x -> NoDup (cre o ++ ann o) -> op_alpha o -> length (cre o) = length (ann o) ->
  (forall i, In i (tupper x) -> ~ In i (tlower x)) -> standard t.
Proof.
  intros M ND V N AL B DX. destruct (make_term_fields _ _ _ _ _ M) as (F1 & F2 & _ & F4 & F5 & _). apply Permutation_sym, Permutation_length_1_inv in F2. constructor; rewrite ?F4, ?F2.
  - rewrite <- F5 in M. eauto.
  - intros i [[H1 H2]|(y & Hy & H1 & H2)]; [exact (nodup_sides _ _ _ N H1 H2)|]. destruct Hy as [<-|[]]. exact (DX i H1 H2).
  - cbn [filter]. rewrite ND. cbn [flat_map]. rewrite app_nil_r. exact N.
  - exact AL.
  - constructor; [exact V|constructor].
  - intros y i [<-|[]] C. unfold is_density in ND. rewrite C in ND. discriminate.
  - exact B.
Qed.
Lemma is_range_alpha l s k : lbeta l = false -> Forall alpha (is_range l s k).
Proof. intros E. apply Forall_forall. intros i Hi. rewrite <- range_is in Hi. apply indices_range_in in Hi as [Q _]. unfold alpha. rewrite ?Q; auto. Qed.
Lemma is_range_nodup l s k : NoDup (is_range l s k).
Proof. rewrite <- range_is. apply indices_range_nodup. Qed.
Lemma is_range_in l s k i : In i (is_range l s k) <-> fst i = l /\ s <= snd i < s + k.
Proof. rewrite <- range_is, indices_range_in. tauto. Qed.
Lemma is_range_length l s k : length (is_range l s k) = k.
Proof. rewrite <- range_is, indices_range_length. reflexivity. Qed.
Lemma hamiltonian_standard k start t : hamiltonian_operator k start SpinOrbital = Ok t -> standard t.
Proof.
  intros H. destruct (hamiltonian_ok k start SpinOrbital) as (t' & H' & _ & _ & E3 & E4 & _). rewrite H in H'. injection H' as <-. unfold hamiltonian_operator in H. cbv zeta in H.
  destruct (make_tensor _ _ _ _ _ _) as [x|] eqn:Ex; [|discriminate]. cbn [pybind] in H. destruct (make_typed _ _) as [c|]; [|discriminate]. cbn [pybind] in H. destruct (make_typed _ _) as [a|]; [|discriminate]. cbn [pybind] in H.
  destruct (make_term_fields _ _ _ _ _ H) as (_ & F2 & _ & F4 & _). rewrite E3 in F2. apply Permutation_length_1_inv in F2. injection F2 as ->. rewrite E4 in F4. rewrite <- F4 in H.
  assert (V : valid_tensor (Ten THamiltonian SpinOrbital "H" 0 (is_range (Lab false Sg) (start + k) k) (is_range (Lab false Sg) start k))).
  { unfold make_tensor in Ex. repeat (destruct (make_typed _ _) in Ex; [|discriminate]; cbn [pybind] in Ex). unfold valid_tensor. pose proof (check_tensor_ok _ _ Ex) as Q. rewrite <- Q in Ex. exact Ex. }
  apply (one_tensor_standard _ _ _ _ H); [reflexivity|exact V|..].
  - cbn [cre ann]. apply NoDup_app_iff. split; [apply is_range_nodup|]. split; [apply is_range_nodup|]. intros i H1 H2. apply is_range_in in H1, H2. lia.
  - split; apply is_range_alpha; reflexivity.
  - cbn [cre ann]. rewrite !is_range_length. reflexivity.
  - cbn [tupper tlower]. intros i H1 H2. apply is_range_in in H1, H2. lia.
Qed.
Lemma cluster_standard k start ex name sc hl pl t : lbeta hl = false -> lbeta pl = false -> hl <> pl -> cluster_operator k start ex name sc hl pl SpinOrbital = Ok t -> standard t.
Proof.
  intros Bh Bp NE H. destruct (cluster_ok _ _ _ _ _ _ _ _ _ H) as (_ & _ & E3 & E4 & _). unfold cluster_operator in H. cbv zeta in H. destruct (if ex then _ else _) as [a0 b0].
  destruct (make_tensor _ _ _ _ _ _) as [x|] eqn:Ex; [|discriminate]. cbn [pybind] in H. destruct (make_typed _ _) as [c|]; [|discriminate]. cbn [pybind] in H. destruct (make_typed _ _) as [a|]; [|discriminate]. cbn [pybind] in H.
  destruct (make_term_fields _ _ _ _ _ H) as (_ & F2 & _ & F4 & _). rewrite E3 in F2. apply Permutation_length_1_inv in F2. injection F2 as ->. rewrite E4 in F4. rewrite <- F4 in H.
  assert (V : valid_tensor (Ten TCluster SpinOrbital name 1 (is_range hl start k) (is_range pl start k))).
  { unfold make_tensor in Ex. repeat (destruct (make_typed _ _) in Ex; [|discriminate]; cbn [pybind] in Ex). unfold valid_tensor. pose proof (check_tensor_ok _ _ Ex) as Q. rewrite <- Q in Ex. exact Ex. }
  apply (one_tensor_standard _ _ _ _ H); [reflexivity|exact V|..].
  - destruct ex; cbn [cre ann]; (apply NoDup_app_iff; split; [apply is_range_nodup|]; split; [apply is_range_nodup|]; intros i H1 H2; apply is_range_in in H1, H2; destruct H1 as [H1 _], H2 as [H2 _]; congruence).
  - destruct ex; split; apply is_range_alpha; assumption.
  - destruct ex; cbn [cre ann]; rewrite !is_range_length; reflexivity.
  - cbn [tupper tlower]. intros i H1 H2. apply is_range_in in H1, H2. destruct H1 as [H1 _], H2 as [H2 _]. congruence.
Qed.
