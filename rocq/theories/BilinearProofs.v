(** Proofs for C90: commutators are antisymmetric, additive and homogeneous term by term. *)
From Coq Require Import Ascii String ZArith QArith Qcanon Sorting.Sorted Lia.
From Verif Require Import PyBase OrderSpec OrderProofs SpaceModel IndexModel IndicesModel IterProofs IndicesProofs ElemModel MacroModel WickModel TermModel ValueSpec ValueProofs TermSpec TermProofs RenameProofs
  SymmetryModel CombineModel CombineSpec TextProofs CombineProofs CombineValue ScheduleProofs PropSimplify.
Local Close Scope Q_scope.
Local Close Scope Qc_scope.
Local Open Scope nat_scope.
Local Notation length := List.length.

Definition visible (c : Qc) : Prop := c = Q2Qc 0 \/ Qcle tiny (Qc_abs c).
Lemma multiple_trans c d q : multiple c d -> multiple d q -> multiple c q.
Proof. intros M [z ->]. apply multiple_scale, M. Qed.
Lemma multiple_self c : multiple c c.
Proof. exists 1%Z. change (Qc_of_Z 1) with (Q2Qc 1). ring. Qed.
Lemma multiple_opp c q : multiple c q -> multiple c (Qcopp q).
Proof. intros [z ->]. exists (- z)%Z. rewrite Qc_of_Z_opp'. ring. Qed.
Lemma good_weaken tensors tensors' c d t : incl tensors tensors' -> multiple d c -> good tensors c t -> good tensors' d t.
Proof. intros I M [G H]. split; [eapply clean_incl; eassumption|eapply multiple_trans; eassumption]. Qed.

(** ** What is returned is made of the known tensors, with multiples of the common factor *)
Lemma contract_good w terms max_cu max_o min_o sc fc eh n h out : unordered w -> consistent_names (flat_map ttensors terms) ->
  (let c := fold_left (fun c t => Qcmult c (tcoeff t)) terms sc in visible c) -> (forall t, In t terms -> ttype t = SpinOrbital) ->
  contract_terms w terms max_cu max_o min_o sc fc eh n h = Ok out -> Forall (good (flat_map ttensors terms) (fold_left (fun c t => Qcmult c (tcoeff t)) terms sc)) out.
Proof.
  intros U CN HC HT H. pose proof (contract_clean w terms max_cu max_o min_o sc fc eh n h out U CN HC HT H) as G.
  unfold contract_terms in H. destruct terms as [|t0 terms]; [discriminate|]. set (ts := t0 :: terms) in *. clearbody ts. cbv zeta in *.
  destruct (filter (fun t => negb (op_is_empty (tsq t))) ts) as [|t1 [|t2 tc]] eqn:F.
  - destruct (make_term _ _ _ _) as [t|] eqn:M; [|discriminate]. cbn [pybind] in H. injection H as <-. inversion G as [|? ? G1 _]; subst. constructor; [|constructor]. split; [exact G1|]. destruct (make_term_fields _ _ _ _ _ M) as (_ & _ & _ & _ & -> & _). apply multiple_self.
  - destruct (make_term _ _ _ _) as [t|] eqn:M; [|discriminate]. cbn [pybind] in H. injection H as <-. inversion G as [|? ? G1 _]; subst. constructor; [|constructor]. split; [exact G1|]. destruct (make_term_fields _ _ _ _ _ M) as (_ & _ & _ & _ & -> & _). apply multiple_self.
  - destruct (forallb _ (t1 :: t2 :: tc)); [|discriminate]. destruct (compute_operator_contractions _ _ _ _ _ _ _ _ _) as [batches|]; [|discriminate]. cbn [pybind] in *. destruct (batch_loop w _ _ _ _ _ _ _ _ _ _) as [fin|] eqn:E; [|discriminate]. cbn [pybind] in H.
    destruct (loop_fails _ _ _ _ _ _ _ _ _ _ _ _ E) as [rs R]. cbn [app] in R.
    destruct (loop_ok w U _ CN _ HC h (Nat.min n (w_cpus w)) (batch_size_of (Nat.min n (w_cpus w))) batches 0 0 [] [] rs) as (fin1 & E1 & G1 & SS1); [constructor|exact R|]. rewrite E in E1. injection E1 as <-.
    destruct (good_combine _ CN _ HC fin G1) as (out' & EO & GO & _). rewrite H in EO. injection EO as <-. exact GO.
Qed.

Section Commutators.
  Context (tensors : list tensor) (CN : consistent_names tensors) (unit : Qc) (VU : visible unit).
  (** the common factor of the pair is a multiple of the unit *)
  Definition fits (sc : Qc) (a b : term) : Prop :=
    ttype a = SpinOrbital /\ ttype b = SpinOrbital /\ incl (ttensors a ++ ttensors b) tensors /\ multiple unit (Qcmult sc (Qcmult (tcoeff a) (tcoeff b))).
  Lemma fits_swap sc a b : fits sc a b -> fits (Qcopp sc) b a.
  Proof.
    intros (T1 & T2 & I & M). split; [exact T2|]. split; [exact T1|]. split; [intros x Hx; apply I; rewrite in_app_iff in *; tauto|].
    replace (Qcmult (Qcopp sc) (Qcmult (tcoeff b) (tcoeff a))) with (Qcopp (Qcmult sc (Qcmult (tcoeff a) (tcoeff b)))) by ring. apply multiple_opp, M.
  Qed.
  Lemma contract_fits w sc a b max_cu max_o min_o fc eh n h out : unordered w -> fits sc a b ->
    contract_terms w [a; b] max_cu max_o min_o sc fc eh n h = Ok out -> Forall (good tensors unit) out.
  Proof.
    intros U (T1 & T2 & I & M) H. assert (I2 : incl (flat_map ttensors [a; b]) tensors) by (cbn [flat_map]; rewrite app_nil_r; exact I).
    assert (E : fold_left (fun c t => Qcmult c (tcoeff t)) [a; b] sc = Qcmult sc (Qcmult (tcoeff a) (tcoeff b))) by (cbn [fold_left]; ring).
    eapply Forall_impl; [intros t; apply (good_weaken _ tensors (fold_left (fun c t => Qcmult c (tcoeff t)) [a; b] sc) unit t I2); rewrite E; exact M|].
    refine (contract_good w [a; b] max_cu max_o min_o sc fc eh n h out U (consistent_incl _ _ I2 CN) _ _ H); [cbv zeta; rewrite E; exact (multiple_not_tiny unit _ VU M)|intros t [<-|[<-|[]]]; assumption].
  Qed.
  Lemma commutator_good w1 w2 sc a b max_cu max_o min_o fc eh n h out : unordered w1 -> unordered w2 -> fits sc a b ->
    single_commutator w1 w2 a b max_cu max_o min_o sc fc eh n h = Ok out -> Forall (good tensors unit) out.
  Proof.
    intros U1 U2 F H. unfold single_commutator in H. destruct (fc && _); [injection H as <-; constructor|].
    destruct (contract_terms w1 _ _ _ _ _ _ _ _ _) as [oa|] eqn:Ea; [|discriminate]. cbn [pybind] in H. destruct (contract_terms w2 _ _ _ _ _ _ _ _ _) as [ob|] eqn:Eb; [|discriminate]. cbn [pybind] in H.
    assert (G : Forall (good tensors unit) (oa ++ ob)) by (apply Forall_app; split; [exact (contract_fits _ _ _ _ _ _ _ _ _ _ _ _ U1 F Ea)|exact (contract_fits _ _ _ _ _ _ _ _ _ _ _ _ U2 (fits_swap _ _ _ F) Eb)]).
    destruct (good_combine _ CN _ VU _ G) as (out' & E & GO & _). rewrite H in E. injection E as <-. exact GO.
  Qed.

  (** two lists with the same sums are combined to the same terms *)
  Lemma combine_alike l l' out : Forall (good tensors unit) l -> Forall (good tensors unit) l' -> same_sums l l' -> combine_terms l = Ok out ->
    exists out', combine_terms l' = Ok out' /\ map view out' = map view out.
  Proof.
    intros G G' SS H. destruct (good_combine _ CN _ VU l' G') as (out' & E & _ & _). exists out'. split; [exact E|]. symmetry.
    assert (GA : Forall (good tensors unit) (l ++ l')) by (apply Forall_app; auto).
    apply (combine_same l l'); [eapply goods_plain; eassumption|eapply good_uniform; eassumption|exact SS|exact H|exact E].
  Qed.
End Commutators.

Lemma fits_self sc a b : ttype a = SpinOrbital -> ttype b = SpinOrbital -> fits (ttensors a ++ ttensors b) (Qcmult sc (Qcmult (tcoeff a) (tcoeff b))) sc a b.
Proof. intros T1 T2. split; [exact T1|]. split; [exact T2|]. split; [apply incl_refl|apply multiple_self]. Qed.

(** ** Exchange of the two arguments *)
Lemma commutator_swap w1 w2 w1' w2' a b max_cu max_o min_o sc fc eh n n' h out :
  same_worlds w1 w2' -> same_worlds w2 w1' -> consistent_names (ttensors a ++ ttensors b) -> ttype a = SpinOrbital -> ttype b = SpinOrbital ->
  visible (Qcmult sc (Qcmult (tcoeff a) (tcoeff b))) ->
  single_commutator w1 w2 a b max_cu max_o min_o sc fc eh n h = Ok out ->
  exists out', single_commutator w1' w2' b a max_cu max_o min_o (Qcopp sc) fc eh n' h = Ok out' /\ map view out' = map view out.
Proof.
  intros (S1 & U1 & U1') (S2 & U2 & U2') CN Ta Tb HC H. unfold single_commutator in *. rewrite (orb_comm (op_is_empty (tsq b))). destruct (fc && _); [injection H as <-; exists []; auto|].
  destruct (contract_terms w1 _ _ _ _ _ _ _ _ _) as [oa|] eqn:Ea; [|discriminate]. cbn [pybind] in H. destruct (contract_terms w2 _ _ _ _ _ _ _ _ _) as [ob|] eqn:Eb; [|discriminate]. cbn [pybind] in H.
  pose proof (fits_self sc a b Ta Tb) as F. pose proof (fits_swap _ _ _ _ _ F) as F'.
  assert (C1 : consistent_names (flat_map ttensors [a; b])) by (cbn [flat_map]; rewrite app_nil_r; exact CN).
  assert (C2 : consistent_names (flat_map ttensors [b; a])) by (cbn [flat_map]; rewrite app_nil_r; apply (consistent_incl _ (ttensors a ++ ttensors b)); [intros x; rewrite !in_app_iff; tauto|exact CN]).
  assert (H1 : visible (fold_left (fun c t => Qcmult c (tcoeff t)) [a; b] sc)).
  { cbn [fold_left]. replace (Qcmult (Qcmult sc (tcoeff a)) (tcoeff b)) with (Qcmult sc (Qcmult (tcoeff a) (tcoeff b))) by ring. exact HC. }
  assert (H2 : visible (fold_left (fun c t => Qcmult c (tcoeff t)) [b; a] (Qcopp sc))).
  { cbn [fold_left]. apply (multiple_not_tiny _ _ HC). replace (Qcmult (Qcmult (Qcopp sc) (tcoeff b)) (tcoeff a)) with (Qcopp (Qcmult sc (Qcmult (tcoeff a) (tcoeff b)))) by ring. apply multiple_opp, multiple_self. }
  destruct (schedule_ok w1 w2' _ _ _ _ _ _ _ _ n' _ _ S1 U1 U1' C1 H1 Ea) as (oa' & Ea' & Va). destruct (schedule_ok w2 w1' _ _ _ _ _ _ _ _ n' _ _ S2 U2 U2' C2 H2 Eb) as (ob' & Eb' & Vb).
  rewrite Eb'. cbn [pybind]. rewrite Qcopp_involutive, Ea'. cbn [pybind].
  pose proof (contract_fits _ CN _ HC _ _ _ _ _ _ _ _ _ _ _ _ U1 F Ea) as Ga. pose proof (contract_fits _ CN _ HC _ _ _ _ _ _ _ _ _ _ _ _ U2 F' Eb) as Gb.
  pose proof (contract_fits _ CN _ HC _ _ _ _ _ _ _ _ _ _ _ _ U1' F Ea') as Ga'. pose proof (contract_fits _ CN _ HC _ _ _ _ _ _ _ _ _ _ _ _ U2' F' Eb') as Gb'.
  apply (combine_alike _ CN _ HC (oa ++ ob) (ob' ++ oa') out); [apply Forall_app; auto|apply Forall_app; auto| |exact H].
  intros k. rewrite !tot_app, (view_sums _ _ Va k), (view_sums _ _ Vb k). ring.
Qed.

(** ** Lists of terms *)
Definition val {X} (r : pyres (list X)) : list X := match r with Ok l => l | Raise _ => [] end.
Lemma pymap_val {X Y} (f : X -> pyres (list Y)) l r : pymap f l = Ok r <-> (forall x, In x l -> exists y, f x = Ok y) /\ r = map (fun x => val (f x)) l.
Proof.
  revert r. induction l as [|x l IH]; intros r; cbn [pymap map].
  - split; [intros H; injection H as <-; split; [intros x []|reflexivity]|intros [_ ->]; reflexivity].
  - split.
    + destruct (f x) as [y|] eqn:E; [|discriminate]. cbn [pybind]. destruct (pymap f l) as [ys|] eqn:El; [|discriminate]. cbn [pybind]. intros H. injection H as <-. destruct (proj1 (IH ys) eq_refl) as [A ->]. split; [intros z [<-|Hz]; [eauto|apply A, Hz]|reflexivity].
    + intros [A ->]. destruct (A x (or_introl eq_refl)) as [y E]. rewrite E. cbn [pybind val]. rewrite (proj2 (IH (map (fun x => val (f x)) l))); [reflexivity|]. split; [intros z Hz; apply A; right; exact Hz|reflexivity].
Qed.
Definition all_pairs (sc : term -> term -> pyres (list term)) (ls rs : list term) : list term := flat_map (fun a => flat_map (fun b => val (sc a b)) rs) ls.
Lemma linear_iff sc ls rs out : linear_commutator sc ls rs = Ok out <->
  (forall a b, In a ls -> In b rs -> exists o, sc a b = Ok o) /\ combine_terms (all_pairs sc ls rs) = Ok out.
Proof.
  unfold linear_commutator. assert (E : forall a, (exists o, pybind (pymap (fun right => sc a right) rs) (fun ls => Ok (concat ls)) = Ok o) <-> forall b, In b rs -> exists o, sc a b = Ok o).
  { intros a. split.
    - intros [o H]. destruct (pymap _ rs) as [r|] eqn:Er; [|discriminate]. apply pymap_val in Er as [A _]. exact A.
    - intros A. rewrite (proj2 (pymap_val (fun right => sc a right) rs _) (conj A eq_refl)). cbn [pybind]. eauto. }
  assert (V : forall a, (forall b, In b rs -> exists o, sc a b = Ok o) -> val (pybind (pymap (fun right => sc a right) rs) (fun ls => Ok (concat ls))) = flat_map (fun b => val (sc a b)) rs).
  { intros a A. rewrite (proj2 (pymap_val (fun right => sc a right) rs _) (conj A eq_refl)). cbn [pybind val]. symmetry. apply flat_map_concat_map. }
  assert (VV : (forall a b, In a ls -> In b rs -> exists o, sc a b = Ok o) -> concat (map (fun x => val (pybind (pymap (fun right => sc x right) rs) (fun ls => Ok (concat ls)))) ls) = all_pairs sc ls rs).
  { intros A. unfold all_pairs. rewrite flat_map_concat_map. f_equal. apply map_ext_in. intros a Ha. apply V. intros b Hb. apply A; assumption. }
  split.
  - match goal with |- pybind ?p _ = _ -> _ => destruct p as [r|] eqn:Er end; [|discriminate]. cbn [pybind]. apply pymap_val in Er as [A ->]. assert (A' : forall a b, In a ls -> In b rs -> exists o, sc a b = Ok o) by (intros a b Ha Hb; exact (proj1 (E a) (A a Ha) b Hb)).
    rewrite (VV A'). auto.
  - intros [A H]. match goal with |- pybind (pymap ?f ls) _ = _ => rewrite (proj2 (pymap_val f ls _) (conj (fun a Ha => proj2 (E a) (fun b => A a b Ha)) eq_refl)) end. cbn [pybind]. rewrite (VV A). exact H.
Qed.
Lemma flat_perm {X Y} (f g : X -> list Y) l l' : Permutation l l' -> (forall x, Permutation (f x) (g x)) -> Permutation (flat_map f l) (flat_map g l').
Proof.
  intros P H. induction P as [|x l l' _ IH|x y l|l l' l'' _ IH _ IH']; cbn [flat_map].
  - constructor.
  - apply Permutation_app; [apply H|exact IH].
  - rewrite !app_assoc. apply Permutation_app; [|induction l as [|z l IHl]; cbn [flat_map]; [constructor|apply Permutation_app; [apply H|exact IHl]]]. rewrite Permutation_app_comm. apply Permutation_app; apply H.
  - rewrite IH. etransitivity; [|exact IH']. clear -H. induction l' as [|z l IHl]; cbn [flat_map]; [constructor|]. apply Permutation_app; [symmetry; apply H|exact IHl].
Qed.
Lemma pairs_perm sc ls rs ls' rs' : Permutation ls ls' -> Permutation rs rs' -> Permutation (all_pairs sc ls rs) (all_pairs sc ls' rs').
Proof. intros P Q. apply flat_perm; [exact P|]. intros a. apply flat_perm; [exact Q|reflexivity]. Qed.
Lemma pairs_left sc ls ls' rs : all_pairs sc (ls ++ ls') rs = all_pairs sc ls rs ++ all_pairs sc ls' rs.
Proof. apply flat_map_app. Qed.
Lemma pairs_right sc ls rs rs' : Permutation (all_pairs sc ls (rs ++ rs')) (all_pairs sc ls rs ++ all_pairs sc ls rs').
Proof.
  unfold all_pairs. induction ls as [|a ls IH]; cbn [flat_map]; [constructor|]. rewrite flat_map_app, IH, !app_assoc. apply Permutation_app_tail. rewrite <- !app_assoc. apply Permutation_app_head. apply Permutation_app_comm.
Qed.
Lemma pairs_forall P sc ls rs : (forall a b o, In a ls -> In b rs -> sc a b = Ok o -> Forall P o) -> Forall P (all_pairs sc ls rs).
Proof.
  intros H. apply Forall_forall. intros t I. apply in_flat_map in I as (a & Ha & I). apply in_flat_map in I as (b & Hb & I). destruct (sc a b) as [o|] eqn:E; [|destruct I]. specialize (H a b o Ha Hb E). rewrite Forall_forall in H. apply H, I.
Qed.

(** ** Multiplication of all coefficients by a number *)
Definition times (q : Qc) (t : term) : term := set_coeff t (Qcmult q (tcoeff t)).
Lemma labels_times q t : labels (times q t) = labels t.
Proof. reflexivity. Qed.
Lemma tot_times q k l : tot k (map (times q) l) = Qcmult q (tot k l).
Proof.
  unfold tot, with_labels, Qc_total. induction l as [|t l IH]; [cbn; ring|]. cbn [map filter]. rewrite labels_times. destruct (labels_dec (labels t) k); [|exact IH]. cbn [map fold_right tcoeff times set_coeff] in *. rewrite IH. ring.
Qed.
Lemma simplify_times q core ra t s : simplify core ra t = Ok s -> simplify core ra (times q t) = Ok (times q s).
Proof.
  destruct t as [ty xs o c is nx dg]. unfold times, simplify. cbn [set_coeff ttype ttensors tsq tcoeff tindices tnext tdiag].
  repeat match goal with |- pybind ?p _ = Ok _ -> _ => let E := fresh in destruct p as [?|] eqn:E; [|discriminate]; cbn [pybind] | |- (let '(_, _) := ?p in _) = Ok _ -> _ => destruct p as [? ?] end.
  match goal with |- (if ?b then _ else _) = _ -> _ => destruct b end.
  - intros HH. injection HH as <-. unfold void_term. cbn [set_coeff ttype ttensors tsq tcoeff tindices tnext tdiag]. rewrite Qcmult_0_r. reflexivity.
  - repeat match goal with |- pybind ?p _ = Ok _ -> _ => let E := fresh in destruct p as [?|] eqn:E; [|discriminate]; cbn [pybind] end. intros HH. injection HH as <-. reflexivity.
Qed.
Lemma make_times ty xs o c c' t : make_term ty xs o c = Ok t -> make_term ty xs o c' = Ok (set_coeff t c').
Proof.
  unfold make_term. destruct (forallb _ xs); [|discriminate]. cbv zeta. destruct (existsb _ _); [discriminate|]. destruct (existsb _ _); [discriminate|]. intros H. injection H as <-. reflexivity.
Qed.
Lemma canonicalize_times q sympy core ra h t u : is_void_coeff (Qcmult q (tcoeff t)) = is_void_coeff (tcoeff t) -> canonicalize_sympy sympy core ra h t = Ok u -> canonicalize_sympy sympy core ra h (times q t) = Ok (times q u).
Proof.
  intros V H. unfold canonicalize_sympy in *. destruct (simplify core ra t) as [s|] eqn:E; [|discriminate]. rewrite (simplify_times q core ra t s E). cbn [pybind] in *. destruct (simplify_type _ _ _ _ E) as [_ C].
  assert (VS : is_void (times q s) = is_void s). { unfold is_void, times. cbn [tcoeff set_coeff]. destruct C as [-> | ->]; [exact V|]. rewrite Qcmult_0_r. reflexivity. }
  rewrite VS. destruct (is_void s).
  - injection H as <-. unfold times, void, void_term. cbn [set_coeff ttype ttensors tsq tcoeff tindices tnext tdiag]. rewrite Qcmult_0_r. reflexivity.
  - destruct s as [ty xs o c is nx dg]. unfold times in *. cbv zeta in *. cbn [set_coeff ttype ttensors tsq tcoeff tindices tnext tdiag] in *.
    change (minimal_indices (set_coeff (MkTerm ty xs o c is nx dg) (Qcmult q c))) with (minimal_indices (MkTerm ty xs o c is nx dg)).
    repeat match type of H with pybind ?p _ = Ok _ => let E := fresh in destruct p as [?|] eqn:E; [|discriminate]; cbn [pybind] in *| match ?a with Some _ => _ | None => _ end = _ => destruct a; [|discriminate] end.
    match goal with |- make_term _ _ _ ?d = _ => rewrite (make_times _ _ _ _ d _ H) end. f_equal. destruct (make_term_fields _ _ _ _ _ H) as (_ & _ & _ & _ & F5 & _). rewrite F5. f_equal. ring.
Qed.

Lemma combine_fixed l : Forall plain l -> NoDup (map labels l) -> Forall (fun t => is_void t = false) l -> (forall t t', In t l -> In t' l -> ttype t = ttype t') -> le_sorted term_ord l -> combine_terms l = Ok l.
Proof.
  intros PO D NV TY SO. assert (K : kept l = l).
  { unfold kept. rewrite collect_gather. destruct (gather_spec hash_term tcoeff l) as (_ & _ & I3 & _).
    assert (N : NoDup (map hash_term l)).
    { clear - D PO. induction l as [|t out IH]; cbn [map] in *; [constructor|]. inversion D as [|? ? D1 D2]; subst. inversion PO as [|? ? P1 P2]; subst. constructor; [|apply IH; assumption].
      intros Q. apply in_map_iff in Q as (u & Q & Hu). apply D1. apply in_map_iff. exists u. split; [|exact Hu]. rewrite Forall_forall in P2. apply hash_labels; auto. }
    pose proof (gather_nodup hash_term tcoeff l N) as G. destruct (gather hash_term tcoeff l) as [items coeffs]. cbn [fst snd] in *. subst items. rewrite map_map. cbn [fst snd].
    assert (M : map (fun t => set_coeff t (Qc_sum (dict_list text_eqb (hash_term t) coeffs))) l = l).
    { transitivity (map (fun t : term => t) l); [|apply map_id]. apply map_ext_in. intros t Ht. rewrite Qc_sum_total, I3, (named_with l PO t Ht). change (Qc_total (map tcoeff (with_labels (labels t) l))) with (tot (labels t) l).
      rewrite (tot_one (labels t) l t D Ht eq_refl). apply set_coeff_same. }
    rewrite M. clear - NV. induction NV as [|t l V _ IH]; [reflexivity|]. cbn [filter]. rewrite V. cbn [negb]. f_equal. exact IH. }
  rewrite combine_kept, K. unfold sorted_terms. rewrite (proj2 (same_types_iff l) TY). rewrite (sort_sorted_id term_ord term_lawful l SO). reflexivity.
Qed.
(** the coefficients decide only between terms with the same labels *)
Lemma le_times q a b : labels a <> labels b -> ple term_ord a b = true -> ple term_ord (times q a) (times q b) = true.
Proof.
  intros N. unfold term_ord, times. cbn [ple key_ord pair_ord]. unfold pair_op, term_key. cbn [fst snd set_coeff tsq ttensors tcoeff].
  destruct (peq op_ord (tsq a) (tsq b)) eqn:E1; [|auto]. destruct (peq nat_ord _ _); [|auto]. destruct (peq (list_ord tensor_ord) (ttensors a) (ttensors b)) eqn:E3; [|auto].
  exfalso. apply N. apply op_ext in E1. apply list_eq_labels in E3. unfold labels. congruence.
Qed.
Lemma sorted_times q l : NoDup (map labels l) -> le_sorted term_ord l -> le_sorted term_ord (map (times q) l).
Proof.
  intros D S. unfold le_sorted in *. induction S as [|t l S IH F]; cbn [map] in *; [constructor|]. inversion D as [|? ? D1 D2]; subst. constructor; [apply IH, D2|].
  rewrite Forall_forall in *. intros u Hu. apply in_map_iff in Hu as (x & <- & Hx). apply le_times; [|apply F, Hx]. intros E. apply D1. rewrite E. apply in_map, Hx.
Qed.

Section Times.
  Context (tensors : list tensor) (CN : consistent_names tensors) (unit q : Qc) (VU : unit = Q2Qc 0 \/ (Qcle tiny (Qc_abs unit) /\ Qcle tiny (Qc_abs (Qcmult q unit)))).
  Lemma unit_visible : visible unit.
  Proof. destruct VU as [H|[H _]]; [left|right]; exact H. Qed.
  Lemma times_visible : visible (Qcmult q unit).
  Proof. destruct VU as [->|[_ H]]; [left; ring|right; exact H]. Qed.
  Lemma multiple_times c : multiple unit c -> multiple (Qcmult q unit) (Qcmult q c).
  Proof. intros [z ->]. exists z. ring. Qed.
  Lemma void_0 : is_void_coeff (Q2Qc 0) = true.
  Proof. reflexivity. Qed.
  Lemma factor_0 c : multiple unit c -> Qcmult q c = Q2Qc 0 -> c = Q2Qc 0.
  Proof.
    intros [z ->] E. destruct VU as [->|[_ V]]; [ring|]. destruct (Qc_eq_dec (Qcmult (Qc_of_Z z) unit) (Q2Qc 0)) as [E0|E0]; [exact E0|]. exfalso. apply Qcmult_integral in E as [E|E]; [|contradiction].
    rewrite E in V. replace (Qcmult (Q2Qc 0) unit) with (Q2Qc 0) in V by ring. apply is_void_coeff_false in V. discriminate.
  Qed.
  Lemma void_times c : multiple unit c -> is_void_coeff (Qcmult q c) = is_void_coeff c.
  Proof.
    intros M. destruct (multiple_not_tiny _ _ times_visible (multiple_times c M)) as [E|E].
    - rewrite (factor_0 c M E). replace (Qcmult q (Q2Qc 0)) with (Q2Qc 0) by ring. reflexivity.
    - rewrite (proj2 (is_void_coeff_false _) E). symmetry. destruct (multiple_not_tiny _ _ unit_visible M) as [E'|E']; [|apply is_void_coeff_false, E'].
      exfalso. rewrite E' in E. replace (Qcmult q (Q2Qc 0)) with (Q2Qc 0) in E by ring. apply is_void_coeff_false in E. discriminate.
  Qed.
  Lemma good_times t : good tensors unit t -> good tensors (Qcmult q unit) (times q t).
  Proof. intros [G M]. split; [exact G|]. apply multiple_times, M. Qed.
  (** lists whose sums are multiplied by q are combined to terms whose coefficients are multiplied by q *)
  Lemma combine_times l l' out : Forall (good tensors unit) l -> Forall (good tensors (Qcmult q unit)) l' -> (forall k, tot k l' = Qcmult q (tot k l)) -> combine_terms l = Ok out ->
    exists out', combine_terms l' = Ok out' /\ map view out' = map view (map (times q) out).
  Proof.
    intros G G' HS H. destruct (good_combine _ CN _ unit_visible l G) as (out0 & E0 & GO & SO). rewrite H in E0. injection E0 as <-. pose proof (combine_combined l out (goods_plain _ CN _ _ G) H) as C.
    assert (GT : Forall (good tensors (Qcmult q unit)) (map (times q) out)).
    { apply Forall_forall. intros t I. apply in_map_iff in I as (u & <- & I). apply good_times. rewrite Forall_forall in GO. apply GO, I. }
    apply (combine_alike _ CN _ times_visible (map (times q) out) l' (map (times q) out)); [exact GT|exact G'|intros k; rewrite tot_times, SO, HS; reflexivity|].
    apply combine_fixed; [eapply goods_plain; eassumption|rewrite map_map; exact (cb_distinct _ _ C)| |eapply good_uniform; eassumption|apply sorted_times; [exact (cb_distinct _ _ C)|exact (cb_sorted _ _ C)]].
    apply Forall_forall. intros t I. apply in_map_iff in I as (u & <- & I). unfold is_void, times. cbn [tcoeff set_coeff]. rewrite Forall_forall in GO. rewrite void_times by apply (GO u I).
    destruct (cb_source _ _ C u I) as (l1 & t0 & l2 & _ & _ & -> & V). cbn [tcoeff set_coeff]. apply is_void_coeff_false, V.
  Qed.
End Times.

Lemma fold_times q terms sc : fold_left (fun c t => Qcmult c (tcoeff t)) terms (Qcmult q sc) = Qcmult q (fold_left (fun c t => Qcmult c (tcoeff t)) terms sc).
Proof. revert sc. induction terms as [|t terms IH]; intros sc; cbn [fold_left]; [reflexivity|]. rewrite <- IH. f_equal. ring. Qed.
Lemma view_times q l l' : map view l = map view l' -> map view (map (times q) l) = map view (map (times q) l').
Proof.
  revert l'. induction l as [|t l IH]; intros [|t' l'] E; try discriminate; [reflexivity|]. cbn [map] in *. assert (E1 : view t = view t') by congruence. rewrite (IH l') by congruence. f_equal.
  unfold view, times in *. cbn [ttype ttensors tsq tcoeff set_coeff]. congruence.
Qed.
Lemma contract_times q w w' terms max_cu max_o min_o sc fc eh n n' h out : same_worlds w w' -> consistent_names (flat_map ttensors terms) -> (forall t, In t terms -> ttype t = SpinOrbital) ->
  (let c := fold_left (fun c t => Qcmult c (tcoeff t)) terms sc in c = Q2Qc 0 \/ (Qcle tiny (Qc_abs c) /\ Qcle tiny (Qc_abs (Qcmult q c)))) ->
  contract_terms w terms max_cu max_o min_o sc fc eh n h = Ok out ->
  exists out', contract_terms w' terms max_cu max_o min_o (Qcmult q sc) fc eh n' h = Ok out' /\ map view out' = map view (map (times q) out).
Proof.
  intros (SW & U & U') CN HT HC H. unfold contract_terms in *. destruct terms as [|t0 terms]; [discriminate|]. set (ts := t0 :: terms) in *. clearbody ts. cbv zeta in *. rewrite fold_times. set (c := fold_left (fun c t => Qcmult c (tcoeff t)) ts sc) in *. clearbody c.
  assert (ONE : forall ty o t, make_term ty (flat_map ttensors ts) o c = Ok t -> exists out', pybind (make_term ty (flat_map ttensors ts) o (Qcmult q c)) (fun t => Ok [t]) = Ok out' /\ map view out' = map view (map (times q) [t])).
  { intros ty o t M. rewrite (make_times _ _ _ _ (Qcmult q c) _ M). cbn [pybind]. eexists. split; [reflexivity|]. destruct (make_term_fields _ _ _ _ _ M) as (_ & _ & _ & _ & F5 & _). unfold times. cbn [map]. rewrite F5. reflexivity. }
  destruct (filter (fun t => negb (op_is_empty (tsq t))) ts) as [|t1 [|t2 tc]].
  1-2: destruct (make_term _ _ _ c) as [t|] eqn:M; [|discriminate]; cbn [pybind] in H; injection H as <-; exact (ONE _ _ _ M).
  destruct (forallb _ (t1 :: t2 :: tc)); [|discriminate]. pose proof SW as (S1 & S2 & S3 & S4). rewrite <- S2, <- S3, <- S4.
  destruct (compute_operator_contractions _ _ _ _ _ _ _ _ _) as [batches|]; [|discriminate]. cbn [pybind] in *.
  destruct (batch_loop w _ _ _ _ _ _ _ _ _ _) as [fin|] eqn:E; [|discriminate]. cbn [pybind] in H.
  destruct (loop_fails _ _ _ _ _ _ _ _ _ _ _ _ E) as [rs R]. cbn [app] in R.
  destruct (loop_ok w U _ CN _ (unit_visible c q HC) h (Nat.min n (w_cpus w)) (batch_size_of (Nat.min n (w_cpus w))) batches 0 0 [] [] rs) as (fin1 & E1 & G1 & SS1); [constructor|exact R|]. rewrite E in E1. injection E1 as <-.
  assert (R' : pymap (canonicalize_contraction w' (flat_map ttensors ts) (Qcmult q c) h) (concat batches) = Ok (map (times q) rs)).
  { clear SS1. revert rs R. generalize (concat batches) as es. induction es as [|e es IH]; intros rs R; cbn [pymap] in *; [injection R as <-; reflexivity|].
    destruct (canonicalize_contraction w _ _ _ e) as [t|] eqn:Ee; [|discriminate]. cbn [pybind] in R. destruct (pymap _ es) as [rs'|]; [|discriminate]. cbn [pybind] in R. injection R as <-.
    rewrite (IH rs' eq_refl).
    cbn [map]. destruct e as [[z ds] o]. unfold canonicalize_contraction in *. rewrite <- S1. destruct (make_term _ _ _ _) as [t'|] eqn:M; [|discriminate]. cbn [pybind] in Ee.
    rewrite (make_times _ _ _ _ (Qcmult (Qc_of_Z z) (Qcmult q c)) _ M). cbn [pybind]. destruct (make_term_fields _ _ _ _ _ M) as (_ & _ & _ & _ & F5 & _).
    assert (ET : set_coeff t' (Qcmult (Qc_of_Z z) (Qcmult q c)) = times q t') by (unfold times; rewrite F5; f_equal; ring). rewrite ET.
    rewrite (canonicalize_times q _ _ _ _ _ _ ltac:(rewrite F5; apply (void_times c q HC); exists z; reflexivity) Ee). reflexivity. }
  destruct (loop_ok w' U' _ CN _ (times_visible c q HC) h (Nat.min n' (w_cpus w')) (batch_size_of (Nat.min n' (w_cpus w'))) batches 0 0 [] [] (map (times q) rs)) as (fin' & E' & G' & SS'); [constructor|exact R'|]. rewrite E'. cbn [pybind].
  apply (combine_times _ CN c q HC fin fin' out G1 G'); [|exact H]. intros k. rewrite SS', SS1. cbn [app]. apply tot_times.
Qed.
Lemma commutator_times q w1 w2 w1' w2' a b max_cu max_o min_o sc fc eh n n' h out :
  same_worlds w1 w1' -> same_worlds w2 w2' -> consistent_names (ttensors a ++ ttensors b) -> ttype a = SpinOrbital -> ttype b = SpinOrbital ->
  (let c := Qcmult sc (Qcmult (tcoeff a) (tcoeff b)) in c = Q2Qc 0 \/ (Qcle tiny (Qc_abs c) /\ Qcle tiny (Qc_abs (Qcmult q c)))) ->
  single_commutator w1 w2 a b max_cu max_o min_o sc fc eh n h = Ok out ->
  exists out', single_commutator w1' w2' a b max_cu max_o min_o (Qcmult q sc) fc eh n' h = Ok out' /\ map view out' = map view (map (times q) out).
Proof.
  intros W1 W2 CN Ta Tb HC H. cbv zeta in HC. set (c := Qcmult sc (Qcmult (tcoeff a) (tcoeff b))) in *. pose proof W1 as (_ & U1 & U1'). pose proof W2 as (_ & U2 & U2').
  unfold single_commutator in *. destruct (fc && _); [injection H as <-; exists []; auto|].
  destruct (contract_terms w1 _ _ _ _ _ _ _ _ _) as [oa|] eqn:Ea; [|discriminate]. cbn [pybind] in H. destruct (contract_terms w2 _ _ _ _ _ _ _ _ _) as [ob|] eqn:Eb; [|discriminate]. cbn [pybind] in H.
  pose proof (fits_self sc a b Ta Tb) as F. fold c in F. pose proof (fits_swap _ _ _ _ _ F) as F'.
  assert (C1 : consistent_names (flat_map ttensors [a; b])) by (cbn [flat_map]; rewrite app_nil_r; exact CN).
  assert (C2 : consistent_names (flat_map ttensors [b; a])) by (cbn [flat_map]; rewrite app_nil_r; apply (consistent_incl _ (ttensors a ++ ttensors b)); [intros x; rewrite !in_app_iff; tauto|exact CN]).
  assert (E1 : fold_left (fun c t => Qcmult c (tcoeff t)) [a; b] sc = c) by (unfold c; cbn [fold_left]; ring).
  assert (E2 : fold_left (fun c t => Qcmult c (tcoeff t)) [b; a] (Qcopp sc) = Qcopp c) by (unfold c; cbn [fold_left]; ring).
  assert (HC2 : Qcopp c = Q2Qc 0 \/ (Qcle tiny (Qc_abs (Qcopp c)) /\ Qcle tiny (Qc_abs (Qcmult q (Qcopp c))))).
  { destruct HC as [->|[V1 V2]]; [left; reflexivity|]. assert (O : forall d, Qcle tiny (Qc_abs d) -> Qcle tiny (Qc_abs (Qcopp d))).
    { intros d V. destruct (multiple_not_tiny d (Qcopp d) (or_intror V)) as [E|E]; [apply multiple_opp, multiple_self| |exact E]. exfalso. assert (D : d = Q2Qc 0) by (rewrite <- (Qcopp_involutive d), E; reflexivity). rewrite D in V. apply is_void_coeff_false in V. discriminate. }
    right. split; [apply O, V1|]. replace (Qcmult q (Qcopp c)) with (Qcopp (Qcmult q c)) by ring. apply O, V2. }
  assert (T1 : forall t, In t [a; b] -> ttype t = SpinOrbital) by (intros t [<-|[<-|[]]]; assumption). assert (T2 : forall t, In t [b; a] -> ttype t = SpinOrbital) by (intros t [<-|[<-|[]]]; assumption).
  destruct (contract_times q w1 w1' [a; b] max_cu max_o min_o sc fc eh n n' h oa W1 C1 T1) as (oa' & Ea' & Va); [cbv zeta; rewrite E1; exact HC|exact Ea|].
  destruct (contract_times q w2 w2' [b; a] max_cu max_o min_o (Qcopp sc) fc eh n n' h ob W2 C2 T2) as (ob' & Eb' & Vb); [cbv zeta; rewrite E2; exact HC2|exact Eb|].
  rewrite Ea'. cbn [pybind]. replace (Qcopp (Qcmult q sc)) with (Qcmult q (Qcopp sc)) by ring. rewrite Eb'. cbn [pybind].
  pose proof (unit_visible c q HC) as VC. pose proof (times_visible c q HC) as VT.
  assert (FT : fits (ttensors a ++ ttensors b) (Qcmult q c) (Qcmult q sc) a b) by (replace (Qcmult q c) with (Qcmult (Qcmult q sc) (Qcmult (tcoeff a) (tcoeff b))) by (unfold c; ring); apply fits_self; assumption).
  assert (FT' : fits (ttensors a ++ ttensors b) (Qcmult q c) (Qcmult q (Qcopp sc)) b a) by (replace (Qcmult q (Qcopp sc)) with (Qcopp (Qcmult q sc)) by ring; apply fits_swap, FT).
  apply (combine_times (ttensors a ++ ttensors b) CN c q HC (oa ++ ob) (oa' ++ ob') out); [| | |exact H].
  - apply Forall_app. split; [exact (contract_fits _ CN _ VC _ _ _ _ _ _ _ _ _ _ _ _ U1 F Ea)|exact (contract_fits _ CN _ VC _ _ _ _ _ _ _ _ _ _ _ _ U2 F' Eb)].
  - apply Forall_app. split; [exact (contract_fits _ CN _ VT _ _ _ _ _ _ _ _ _ _ _ _ U1' FT Ea')|exact (contract_fits _ CN _ VT _ _ _ _ _ _ _ _ _ _ _ _ U2' FT' Eb')].
  - intros k. rewrite !tot_app, (view_sums _ _ Va k), (view_sums _ _ Vb k), !tot_times. ring.
Qed.

(** ** Sums over pairs *)
Lemma pairs_flip f ls rs : Permutation (all_pairs f ls rs) (all_pairs (fun b a => f a b) rs ls).
Proof.
  induction ls as [|a ls IH]; cbn [all_pairs flat_map].
  - unfold all_pairs. induction rs as [|b rs IH]; [constructor|exact IH].
  - change (a :: ls) with ([a] ++ ls). rewrite pairs_right. unfold all_pairs in *. apply Permutation_app; [|exact IH]. cbn [flat_map]. clear. induction rs as [|b rs IH]; cbn [flat_map]; [constructor|]. rewrite app_nil_r. apply Permutation_app_head, IH.
Qed.
Lemma pairs_sums q k f g ls rs : (forall a b, In a ls -> In b rs -> tot k (val (f a b)) = Qcmult q (tot k (val (g a b)))) -> tot k (all_pairs f ls rs) = Qcmult q (tot k (all_pairs g ls rs)).
Proof.
  intros H. unfold all_pairs. induction ls as [|a ls IH]; cbn [flat_map]; [cbn; ring|]. rewrite !tot_app, IH by (intros; apply H; [right|]; assumption).
  assert (E : tot k (flat_map (fun b => val (f a b)) rs) = Qcmult q (tot k (flat_map (fun b => val (g a b)) rs))).
  { clear IH. assert (H' : forall b, In b rs -> tot k (val (f a b)) = Qcmult q (tot k (val (g a b)))) by (intros; apply H; [left; reflexivity|assumption]). clear H. induction rs as [|b rs IH]; cbn [flat_map]; [cbn; ring|]. rewrite !tot_app, IH by (intros; apply H'; right; assumption). rewrite H' by (left; reflexivity). ring. }
  rewrite E. ring.
Qed.
