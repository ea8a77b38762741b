(** From values in the extended algebra to the operators that terms stand for. *)
From Coq Require Import Ascii String ZArith QArith Qcanon Ring_theory Ring Lia Bool Sorting.Sorted.
From Verif Require Import PyBase OrderSpec OrderProofs ParitySpec ParityProofs SpaceModel IndicesModel IndicesProofs IterProofs ElemModel ElemSpec ElemProofs MacroModel CompatSpec ConnectedProofs BacktrackProofs CumulantProofs HalfProofs WickModel WickSpec WickProofs DriverProofs
  TermModel BchSpec ValueSpec ValueProofs TermSpec SumProofs SymmetrySpec CombineModel PropWick ContractSpec ContractValue FamilySpec FamilyProofs FamilySets FockSpec ExtensionProofs FockProofs FockWick FockValue PropContract.
Local Close Scope Q_scope.
Local Close Scope Qc_scope.
Local Open Scope nat_scope.
Local Notation length := List.length.

Lemma nodup_app_apart {X} (dec : forall x y : X, {x = y} + {x <> y}) l m : (forall x, In x l -> ~ In x m) -> nodup dec (l ++ m) = nodup dec l ++ nodup dec m.
Proof.
  induction l as [|x l IH]; intros H; [reflexivity|]. cbn [app nodup]. assert (IH' : nodup dec (l ++ m) = nodup dec l ++ nodup dec m) by (apply IH; intros y Hy; apply H; right; exact Hy).
  destruct (in_dec dec x (l ++ m)) as [Q|Q], (in_dec dec x l) as [Q'|Q']; try exact IH'.
  - exfalso. apply in_app_or in Q as [Q|Q]; [contradiction|]. apply (H x (or_introl eq_refl) Q).
  - exfalso. apply Q, in_or_app. left. exact Q'.
  - cbn [app]. f_equal. exact IH'.
Qed.
Lemma iproduct_app {X} (ls ms : list (list X)) : iproduct (ls ++ ms) = flat_map (fun a => map (app a) (iproduct ms)) (iproduct ls).
Proof.
  induction ls as [|l ls IH]; cbn [app iproduct flat_map]; [rewrite app_nil_r, map_id; reflexivity|]. rewrite IH. induction l as [|x l IHl]; [reflexivity|]. cbn [flat_map]. rewrite flat_map_app, <- IHl. f_equal. clear.
  induction (iproduct ls) as [|a L IH]; [reflexivity|]. cbn [flat_map map]. rewrite map_app, map_map, IH. reflexivity.
Qed.
Lemma iproduct_length {X} (ls : list (list X)) a : In a (iproduct ls) -> length a = length ls.
Proof.
  revert a. induction ls as [|l ls IH]; intros a; cbn [iproduct]; [intros [<-|[]]; reflexivity|]. intros H. apply in_flat_map in H as (x & _ & H). apply in_map_iff in H as (b & <- & H). cbn. f_equal. apply IH, H.
Qed.
Lemma env_left I J a b i : length a = length I -> In i I -> env (I ++ J) (a ++ b) i = env I a i.
Proof.
  unfold env. revert a. induction I as [|j I IH]; intros [|p a] L Hi; try discriminate; [destruct Hi|]. cbn [app combine dict_get]. destruct (idx_eqb i j) eqn:E; [reflexivity|]. injection L as L. apply IH; [exact L|]. destruct Hi as [->|Hi]; [|exact Hi]. rewrite idx_eqb_refl in E. discriminate.
Qed.
Lemma env_right I J a b i : length a = length I -> ~ In i I -> env (I ++ J) (a ++ b) i = env J b i.
Proof.
  unfold env. revert a. induction I as [|j I IH]; intros [|p a] L Hi; try discriminate; [reflexivity|]. cbn [app combine dict_get]. destruct (idx_eqb i j) eqn:E; [apply idx_eqb_eq in E; subst; exfalso; apply Hi; left; reflexivity|]. injection L as L. apply IH; [exact L|]. intros Q. apply Hi. right. exact Q.
Qed.
Section NSums.
  Context {A : qalg} (B : algebra_over A).
  Lemma nsum_cons (x : B) l : nsum (x :: l) = nadd x (nsum l). Proof. reflexivity. Qed.
  Lemma nsum_app (l m : list B) : nsum (l ++ m) = nadd (nsum l) (nsum m).
  Proof. induction l as [|x l IH]; [cbn [app]; symmetry; apply nadd_0|]. cbn [app]. rewrite !nsum_cons, IH. apply nadd_assoc. Qed.
  Lemma nsum_flat {Y Z} (f : Z -> B) (g : Y -> list Z) l : nsum (map f (flat_map g l)) = nsum (map (fun y => nsum (map f (g y))) l).
  Proof. induction l as [|y l IH]; [reflexivity|]. cbn [flat_map map]. rewrite map_app, nsum_app, nsum_cons, IH. reflexivity. Qed.
  Lemma nsum_mul {Y Z} (f : Y -> B) (g : Z -> B) l m : nmul (nsum (map f l)) (nsum (map g m)) = nsum (map (fun a => nsum (map (fun b => nmul (f a) (g b)) m)) l).
  Proof.
    induction l as [|a l IH]; [apply nmul_0l|]. cbn [map]. rewrite !nsum_cons, nmul_addl, IH. f_equal. rewrite (linear_nsum B (fun x => nmul (f a) x)) by apply linear_left. rewrite map_map. reflexivity.
  Qed.
End NSums.

Section Terms.
  Context {A : qalg} (B : fermions A) (S : system) (v : tvaluation A).
  Add Ring alg_ring37 : (q_ring A).
  Local Notation E := (extension B).
  Add Ring alg_ring38 : (q_ring E).
  Local Notation N := (normal_product B v).
  Local Notation V := (lift B v).
  Definition own (t : term) : list idx := nodup idx_eq_dec (content_indices (ttensors t) (tsq t)).
  Definition body (t : term) : B :=
    nsum (map (fun a => scal (aprod (map (tensor_value v (env (own t) a)) (ttensors t))) (N (op_string (env (own t) a) (tsq t)))) (assignments S (own t))).
  Lemma operator_body t : term_operator B v S t = nscal (tcoeff t) (body t). Proof. reflexivity. Qed.
  Lemma op_string_ext e e' o : (forall i, In i (op_indices o) -> e i = e' i) -> op_string e o = op_string e' o.
  Proof. intros H. unfold op_string. f_equal; apply map_ext_in; intros i Hi; f_equal; apply H; unfold op_indices; apply in_or_app; [left; exact Hi|right; apply in_rev; exact Hi]. Qed.
  (** the lifted valuation satisfies the hypotheses on valuations *)
  Context (MB : norb S <= modes B) (PH : physical S v) (AT : antisymmetric_tensors v).
  Lemma lift_physical : physical S V.
  Proof.
    constructor; cbn [lift vtensor].
    - intros n p q. rewrite (ph_kronecker _ _ PH). destruct (p =? q); reflexivity.
    - intros n p q H. rewrite (ph_one_virtual _ _ PH n p q H). reflexivity.
    - intros n p q H. rewrite (ph_one_core _ _ PH n p q H). destruct (p =? q); reflexivity.
    - intros n ps qs L H. rewrite (ph_higher _ _ PH n ps qs L H). reflexivity.
  Qed.
  Lemma in_modes_swap p x y q : in_modes B (p ++ x :: y :: q) = in_modes B (p ++ y :: x :: q).
  Proof. unfold in_modes. rewrite !forallb_app. cbn [forallb]. f_equal. rewrite !andb_assoc, (andb_comm (x <? _)). reflexivity. Qed.
  Lemma lift_antisymmetric : antisymmetric V.
  Proof.
    destruct AT as [AU AL]. pose proof (normal_alternates B v (AU TCumulant) (AL TCumulant)) as NA. constructor; cbn [lift vtensor voper].
    - intros c n l p x y q. rewrite <- emb_opp. f_equal. apply AU.
    - intros c n u p x y q. rewrite <- emb_opp. f_equal. apply AL.
    - intros l p x y q. cbv beta. rewrite <- !app_assoc. cbn [app]. rewrite in_modes_swap. destruct (in_modes B _) eqn:M; [|ring]. rewrite !map_app. cbn [map]. rewrite <- !app_assoc. cbn [app].
      unfold in_modes in M. rewrite forallb_app in M. cbn [forallb] in M. rewrite !andb_true_iff, !Nat.ltb_lt in M. apply NA; unfold mode; cbn [snd]; tauto.
    - intros u p x y q. cbv beta. rewrite !app_assoc. rewrite in_modes_swap. destruct (in_modes B _) eqn:M; [|ring]. rewrite !rev_app_distr. cbn [rev]. rewrite <- !app_assoc. cbn [app]. rewrite !map_app. cbn [map]. rewrite !app_assoc.
      unfold in_modes in M. rewrite forallb_app in M. cbn [forallb] in M. rewrite !andb_true_iff, !Nat.ltb_lt in M. apply NA; unfold mode; cbn [snd]; tauto.
  Qed.
  Lemma lift_holes : hole_values v -> hole_values V.
  Proof. intros H p q. cbn [lift vtensor]. rewrite H. apply emb_sub. Qed.
  Lemma lift_no_active : no_active_amplitudes S v -> no_active_amplitudes S V.
  Proof. intros H n ps qs Q. cbn [lift vtensor]. rewrite (H n ps qs Q). reflexivity. Qed.
  Lemma lift_hermitian : hermitian_values v -> hermitian_values V.
  Proof. intros H c n u l. cbn [lift vtensor]. rewrite (H c n u l). reflexivity. Qed.
  Lemma env_mode I a i : In a (assignments S I) -> NoDup I -> In i I -> env I a i < modes B.
  Proof.
    intros H ND Hi. apply (in_assignments S I a ND) in H as (f & -> & F). assert (Q : env I (map f I) i = f i).
    { unfold env. clear - Hi. induction I as [|j I IH]; [destruct Hi|]. cbn [map combine dict_get]. destruct (idx_eqb i j) eqn:Q; [apply idx_eqb_eq in Q; subst; reflexivity|]. apply IH. destruct Hi as [->|Hi]; [rewrite idx_eqb_refl in Q; discriminate|exact Hi]. }
    rewrite Q. specialize (F i Hi). apply orbitals_in in F as [F _]. lia.
  Qed.
  (** the value of a term is the operator it stands for *)
  Lemma term_lift t : term_value S V t = oper B (term_operator B v S t).
  Proof.
    rewrite operator_body, oper_nscal. unfold term_value, content_value, sum_over, body. f_equal. rewrite oper_nsum, map_map. f_equal. apply map_ext_in. intros a Ha. unfold integrand. rewrite oper_scal, emb_aprod, map_map. f_equal.
    apply lift_op. intros i Hi. apply (env_mode _ _ i Ha); [apply NoDup_nodup|]. apply nodup_In. unfold content_indices. apply in_or_app. left. exact Hi.
  Qed.
  Lemma list_lift l : asum (map (term_value S V) l) = oper B (list_operator B v S l).
  Proof. unfold list_operator. rewrite oper_nsum, map_map. f_equal. apply map_ext. apply term_lift. Qed.
  (** the sum over all indices is the product of the sums over the indices of each term *)
  Lemma own_all t terms : (forall i t', In t' terms -> In i (content_indices (ttensors t) (tsq t)) -> ~ In i (content_indices (ttensors t') (tsq t'))) -> all_indices (t :: terms) = own t ++ all_indices terms.
  Proof. intros H. unfold all_indices, own. cbn [flat_map]. apply nodup_app_apart. intros i Hi Q. apply in_flat_map in Q as (t' & Ht & Q). exact (H i t' Ht Hi Q). Qed.
  Definition separate (terms : list term) : Prop := ForallOrdPairs (fun t t' => forall i, In i (content_indices (ttensors t) (tsq t)) -> ~ In i (content_indices (ttensors t') (tsq t'))) terms.
  Definition joint (terms : list term) (e : idx -> nat) : B := scal (aprod (map (tensor_value v e) (flat_map ttensors terms))) (nprod (map (fun t => N (op_string e (tsq t))) terms)).
  Lemma joint_ext terms e e' : (forall i, In i (all_indices terms) -> e i = e' i) -> joint terms e = joint terms e'.
  Proof.
    intros H. assert (HC : forall t i, In t terms -> In i (content_indices (ttensors t) (tsq t)) -> e i = e' i) by (intros t i Ht Hi; apply H, nodup_In, in_flat_map; exists t; auto). unfold joint. f_equal.
    - f_equal. apply map_ext_in. intros x Hx. apply in_flat_map in Hx as (t & Ht & Hx). apply tensor_value_ext. intros i Hi. apply (HC t i Ht). unfold content_indices. apply in_or_app. right. apply in_flat_map. exists x. auto.
    - f_equal. apply map_ext_in. intros t Ht. f_equal. apply op_string_ext. intros i Hi. apply (HC t i Ht). unfold content_indices. apply in_or_app. left. exact Hi.
  Qed.
  Lemma joint_product terms : separate terms -> nsum (map (fun a => joint terms (env (all_indices terms) a)) (assignments S (all_indices terms))) = nprod (map body terms).
  Proof.
    induction terms as [|t terms IH]; intros SP.
    - cbn. unfold joint. cbn. rewrite scal_1. apply nadd_0r.
    - inversion SP as [|? ? S1 S2]; subst. rewrite Forall_forall in S1. cbn [map]. change (nprod (body t :: map body terms)) with (nmul (body t) (nprod (map body terms))). rewrite <- (IH S2). unfold body. rewrite nsum_mul.
      rewrite own_all by (intros i t' Ht Hi; exact (S1 t' Ht i Hi)). unfold assignments. rewrite map_app, iproduct_app, nsum_flat. f_equal. apply map_ext_in. intros a Ha. rewrite map_map. f_equal. apply map_ext_in. intros b _.
      apply iproduct_length in Ha. rewrite map_length in Ha.
      rewrite scal_mull. unfold joint at 1. cbn [flat_map map]. rewrite map_app, (aprod_app A). change (nprod (?x :: ?l)) with (nmul x (nprod l)).
      assert (X1 : forall i, In i (content_indices (ttensors t) (tsq t)) -> env (own t ++ all_indices terms) (a ++ b) i = env (own t) a i) by (intros i Hi; apply env_left; [exact Ha|apply nodup_In, Hi]).
      assert (X2 : forall i, In i (all_indices terms) -> env (own t ++ all_indices terms) (a ++ b) i = env (all_indices terms) b i).
      { intros i Hi. apply env_right; [exact Ha|]. intros Q. apply nodup_In in Q, Hi. apply in_flat_map in Hi as (t' & Ht & Hi). exact (S1 t' Ht i Q Hi). }
      pose proof (joint_ext terms _ _ X2) as JX. unfold joint in JX.
      rewrite (map_ext_in (tensor_value v (env (own t ++ all_indices terms) (a ++ b))) (tensor_value v (env (own t) a)) (ttensors t)) by (intros x Hx; apply tensor_value_ext; intros i Hi; apply X1; unfold content_indices; apply in_or_app; right; apply in_flat_map; exists x; auto).
      rewrite (op_string_ext _ (env (own t) a) (tsq t)) by (intros i Hi; apply X1; unfold content_indices; apply in_or_app; left; exact Hi).
      rewrite scal_mul. f_equal. rewrite <- scal_mulr. f_equal. exact JX.
  Qed.
  (** cumulants of higher rank than the level of the code are zero *)
  Lemma cumulant_limit ops max_cu : distinct_legs ops -> no_cumulants_above max_cu v -> forall (e : idx -> nat) g, subseq g (tagged_string ops) -> 2 <= length (cres g) -> cumulant_level ops max_cu < length (cres g) -> length (cres g) = length (anns g) ->
    forallb (fun x : tleg => active_like (snd (snd x))) g = true -> forall qs, vtensor v TCumulant "L" (map e (map snd (cres g))) qs = q0.
  Proof.
    intros D NC e g H L2 LK LE F qs. rewrite forallb_forall in F. pose proof (subseq_incl _ _ H) as IW.
    assert (C : length (cres g) <= n_noncv cre ops).
    { assert (Q : subseq (cres g) (cre_legs ops)) by (unfold cre_legs; rewrite legs_filter; apply subseq_into_filter; [apply cres_sub, H|intros [n i] Hn; apply in_cres in Hn; exact (F _ Hn)]).
      apply subseq_length in Q. unfold cre_legs in Q. rewrite <- (map_length snd (legs _)), snd_legs in Q. unfold n_noncv. rewrite flat_map_concat_map. exact Q. }
    assert (C' : length (anns g) <= n_noncv ann ops).
    { assert (Q : subseq (lowers ops g) (ann_legs ops)) by (unfold ann_legs; rewrite legs_filter; apply subseq_into_filter; [apply subseq_filter|intros [n i] Hn; apply (in_lowers ops g n i IW) in Hn; exact (F _ Hn)]).
      apply subseq_length in Q. unfold ann_legs in Q. rewrite <- (map_length snd (legs _)), snd_legs in Q. unfold n_noncv. rewrite flat_map_concat_map. rewrite <- (Permutation_length (lowers_perm ops D g H)). exact Q. }
    unfold cumulant_level in LK. destruct ((1 <=? max_cu) && (max_cu <=? _))%Z eqn:Q; [|lia]. apply andb_true_iff in Q as [Q1 Q2]. apply NC; [lia|]. rewrite !map_length. lia.
  Qed.
  Lemma nprod_proper (f : op -> B) terms : (forall o, op_is_empty o = true -> f o = n1) -> nprod (map f (proper_ops terms)) = nprod (map (fun t => f (tsq t)) terms).
  Proof.
    intros H. unfold proper_ops. induction terms as [|t l IH]; [reflexivity|]. cbn [filter map]. change (nprod (?x :: ?m)) with (nmul x (nprod m)). rewrite <- IH. destruct (op_is_empty (tsq t)) eqn:Q; cbn [negb map]; [rewrite (H _ Q); symmetry; apply nmul_1l|reflexivity].
  Qed.
  Lemma empty_string e o : op_is_empty o = true -> N (op_string e o) = n1.
  Proof. intros H. unfold op_is_empty in H. unfold op_string. destruct (cre o), (ann o); try discriminate. apply normal_nil. Qed.
  Lemma leg_index terms l : In l (written_string (map tsq terms)) -> In (snd l) (all_indices terms).
  Proof.
    intros H. apply nodup_In. unfold written_string in H. apply in_flat_map in H as (o & Ho & H). apply in_map_iff in Ho as (t & <- & Ht). apply in_flat_map. exists t. split; [exact Ht|]. unfold content_indices. apply in_or_app. left. unfold op_indices. unfold open_string in H.
    apply in_app_or in H as [H|H]; apply in_map_iff in H as (i & <- & H); apply in_or_app; [left; exact H|right; apply in_rev; exact H].
  Qed.
  Lemma standard_separate terms : Forall standard terms -> ForallOrdPairs apart_terms terms -> separate terms.
  Proof.
    intros ST AP. unfold separate. induction AP as [|t l A1 A2 IH]; constructor; inversion ST as [|? ? S1 S2]; subst; [|apply IH, S2]. rewrite Forall_forall in *. intros t' Ht i H1 H2. apply (A1 t' Ht i); apply standard_indices; auto.
  Qed.
  Definition factors (terms : list term) : nat := length (written_string (map tsq terms)).
  Theorem contracted_operator terms T eh result max_cu lo hi : hole_values v -> no_cumulants_above max_cu v -> Forall standard terms -> ForallOrdPairs apart_terms terms -> keeps B v lo hi (factors terms) T ->
    wick_sum (proper_ops terms) eh (wick_set (proper_ops terms) (cumulant_level (proper_ops terms) max_cu) lo hi) result -> contracted_value S V terms result = oper B (T (nprod (map body terms))).
  Proof.
    intros HV NC ST AP KP WS. pose proof (standard_distinct terms ST AP) as D. fold (proper_ops terms) in D. pose proof (standard_alpha terms ST) as OA. fold (proper_ops terms) in OA.
    assert (WE : written_string (proper_ops terms) = written_string (map tsq terms)) by apply filter_empty_ops.
    assert (LT : linear B T) by (split; apply KP).
    assert (FIT : legs_fit terms result).
    { intros z ds sq Hin. split; [destruct (result_legs _ eh _ _ _ _ result z ds sq (fun s Hs => Hs) WS Hin) as (Q & _); rewrite <- WE; exact Q|exact (entry_shapes _ eh _ _ _ _ result z ds sq (fun s Hs => Hs) WS Hin)]. }
    rewrite <- joint_product by (apply standard_separate; assumption). rewrite (linear_nsum B T _ LT), map_map, oper_nsum, map_map. unfold contracted_value.
    rewrite (sum_over_ext E S (all_indices terms) _ (fun e => oper B (T (joint terms e)))); [reflexivity| |apply NoDup_nodup].
    intros e He. rewrite <- (without_result E S V lift_physical (lift_holes HV) terms result e FIT He).
    rewrite (result_operator B S v PH (proj1 AT TCumulant) (proj2 AT TCumulant) MB (proper_ops terms) D OA (cumulant_level (proper_ops terms) max_cu) lo hi e) with (T := T) (eh := eh).
    - unfold joint. rewrite (proj2 LT), oper_scal, emb_aprod, map_map. f_equal. f_equal. f_equal. apply (nprod_proper (fun o => N (op_string e o))). intros o Ho. apply empty_string, Ho.
    - intros l Hl. rewrite WE in Hl. apply He, leg_index, Hl.
    - exact (cumulant_limit (proper_ops terms) max_cu D NC e).
    - split; [exact LT|]. intros w Mw Lw. rewrite WE in Lw. unfold in_range. destruct ((lo <=? Z.of_nat (length w)) && (Z.of_nat (length w) <=? hi))%Z eqn:Q; [apply (keeps_inside _ _ _ _ _ _ KP w Mw Lw)|apply (keeps_outside _ _ _ _ _ _ KP w Mw Lw)]; lia.
    - exact WS.
  Qed.
  Lemma nscal_mul c d (x : B) : nscal c (nscal d x) = nscal (Qcmult c d) x.
  Proof. rewrite <- !scal_inj, <- scal_mul, inj_mul. reflexivity. Qed.
  Lemma nscal_nmul c (x y : B) : nmul (nscal c x) y = nscal c (nmul x y).
  Proof. rewrite <- !scal_inj. apply scal_mull. Qed.
  Lemma nmul_nscal c (x y : B) : nmul x (nscal c y) = nscal c (nmul x y).
  Proof. rewrite <- !scal_inj. apply scal_mulr. Qed.
  Lemma total_operator sc terms : nscal (total_coeff sc terms) (nprod (map body terms)) = nscal sc (nprod (map (term_operator B v S) terms)).
  Proof.
    unfold total_coeff. revert sc. induction terms as [|t l IH]; intros sc; [reflexivity|]. cbn [fold_left map]. change (nprod (?x :: ?m)) with (nmul x (nprod m)). rewrite <- nmul_nscal, IH, nmul_nscal, operator_body, nscal_nmul, nscal_mul. reflexivity.
  Qed.
End Terms.
