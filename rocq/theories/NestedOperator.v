(** The products contracted by nested_commutator_cc and what their sum stands for. *)
From Coq Require Import Ascii String ZArith QArith Qcanon Ring_theory Ring Lia Bool Sorting.Sorted.
From Verif Require Import PyBase OrderSpec OrderProofs ParitySpec SpaceModel IndexModel IndicesModel IndicesProofs IterProofs ElemModel ElemSpec MacroModel CompatSpec WickModel WickSpec WickProofs
  TermModel BchSpec ValueSpec ValueProofs TermSpec SumProofs SymmetrySpec CombineModel BchModel CombineSpec PropWick ContractSpec ContractValue FamilySpec FamilyProofs FockSpec ExtensionProofs FockProofs FockValue FockTerms PropSchedule PropContract PropFock PropOperator
  OperatorProofs SpaceProofs LevelSpec BchLoop ScheduleProofs SeriesSpec ClosureProofs LevelProofs SeriesProofs PropLevels PropBch SeriesOperator.
Local Close Scope Q_scope.
Local Close Scope Qc_scope.
Local Open Scope nat_scope.
Local Notation length := List.length.

(** ** The factors *)
Record ingredient (n : nat) (u : Qc) (t : term) : Prop := {
  ig_regular : regular t;
  ig_clean : clean series_tensors t;
  ig_units : multiple u (tcoeff t);
  ig_proper : op_is_empty (tsq t) = false;
  ig_factors : length (cre (tsq t)) + length (ann (tsq t)) <= n }.
Lemma hamiltonian_ingredient k t : k = 1 \/ k = 2 -> hamiltonian_operator k 0 SpinOrbital = Ok t -> ingredient 4 quarter t.
Proof.
  intros K H.
  assert (M : made t).
  { unfold hamiltonian_operator in H. cbv zeta in H. repeat match type of H with pybind ?e _ = Ok _ => destruct e; [cbn [pybind] in H|discriminate] end. exact (made_made _ _ _ _ H). }
  assert (C : start_check t = true /\ op_is_empty (tsq t) = false /\ length (cre (tsq t)) + length (ann (tsq t)) <= 4).
  { destruct K as [-> | ->]; vm_compute in H; injection H as <-; vm_compute; repeat split; auto with arith. }
  destruct C as (C1 & C2 & C3). destruct (checked_member t M C1) as [M1 M2 M3 M4]. constructor; assumption.
Qed.
Lemma amplitude_ingredient k start ex (sr : bool) t m : k <= m -> k <> 0 ->
  cluster_operator k start ex "T" (Q2Qc 1) (Lab false (if sr then Sc else Sh)) (Lab false (if sr then Sv else Sp)) SpinOrbital = Ok t -> ingredient (m * 2) (inv_sq m) t.
Proof.
  intros L K H. destruct (cluster_factor k start ex (Q2Qc 1) sr t m L (or_introl eq_refl) H) as [F1 F2 F3 F4 F5]. destruct (cluster_ok _ _ _ _ _ _ _ _ _ H) as (_ & _ & _ & G & _).
  constructor; try assumption; rewrite G; destruct ex; cbn [cre ann]; rewrite ?length_range; try lia; unfold op_is_empty; destruct k as [|k]; try contradiction; reflexivity.
Qed.

(** ** Numbers *)
Lemma multiple_mul a b c d : multiple a c -> multiple b d -> multiple (Qcmult a b) (Qcmult c d).
Proof. intros [x ->] [y ->]. exists (x * y)%Z. rewrite Qc_of_Z_mul. ring. Qed.
Definition numbers (ts : list term) : Qc := fold_right (fun t c => Qcmult (tcoeff t) c) (Q2Qc 1) ts.
Lemma numbers_app a b : numbers (a ++ b) = Qcmult (numbers a) (numbers b).
Proof. induction a as [|t a IH]; [symmetry; apply Qcmult_1_l|]. cbn [app]. change (Qcmult (tcoeff t) (numbers (a ++ b)) = Qcmult (Qcmult (tcoeff t) (numbers a)) (numbers b)). rewrite IH. ring. Qed.
Lemma total_numbers sc ts : total_coeff sc ts = Qcmult sc (numbers ts).
Proof.
  unfold total_coeff. revert sc. induction ts as [|t ts IH]; intros sc; cbn [fold_left]; [symmetry; apply Qcmult_1_r|]. rewrite IH. change (numbers (t :: ts)) with (Qcmult (tcoeff t) (numbers ts)). ring.
Qed.
Fixpoint powers_of (u : Qc) (n : nat) : Qc := match n with 0 => Q2Qc 1 | Datatypes.S k => Qcmult u (powers_of u k) end.
Lemma powers_of_add u a b : powers_of u (a + b) = Qcmult (powers_of u a) (powers_of u b).
Proof. induction a as [|a IH]; [symmetry; apply Qcmult_1_l|]. cbn [Nat.add powers_of]. rewrite IH. ring. Qed.
Lemma numbers_units n u ts : Forall (ingredient n u) ts -> multiple (powers_of u (length ts)) (numbers ts).
Proof.
  induction 1 as [|t ts [_ _ H _ _] _ IH]; [exists 1%Z; symmetry; apply Qcmult_1_l|]. exact (multiple_mul _ _ _ _ H IH).
Qed.
Lemma unit_powers m n : series_unit m n = Qcmult (Qcinv (Qc_of_Z (Z.of_nat (fact n)))) (Qcmult quarter (powers_of (inv_sq m) n)).
Proof.
  induction n as [|n IH]; [apply Qc_is_canon; reflexivity|]. cbn [series_unit powers_of]. rewrite IH. change (fact (Datatypes.S n)) with (Datatypes.S n * fact n). rewrite Nat2Z.inj_mul, Qc_of_Z_mul. unfold inv_nat.
  pose proof (lt_O_fact n). pose proof (Qc_of_Z_nonzero (Z.of_nat (Datatypes.S n)) ltac:(lia)). pose proof (Qc_of_Z_nonzero (Z.of_nat (fact n)) ltac:(lia)). field. auto.
Qed.
Lemma factors_bound n u ts : Forall (ingredient n u) ts -> n_factors ts <= length ts * n.
Proof. induction 1 as [|t ts [_ _ _ _ H] _ IH]; [cbn; lia|]. change (n_factors (t :: ts)) with (length (cre (tsq t)) + length (ann (tsq t)) + n_factors ts). cbn [length]. lia. Qed.
Lemma n_factors_app a b : n_factors (a ++ b) = n_factors a + n_factors b.
Proof. unfold n_factors. rewrite map_app, list_sum_app. reflexivity. Qed.

(** ** One product *)
Record product_ok (m n : nat) (task : Qc * list term) : Prop := {
  po_standard : Forall standard (snd task);
  po_apart : ForallOrdPairs apart_terms (snd task);
  po_clean : Forall (clean series_tensors) (snd task);
  po_proper : length (proper_ops (snd task)) = Datatypes.S n;
  po_units : multiple (series_unit m n) (total_coeff (fst task) (snd task));
  po_factors : n_factors (snd task) <= n * (m * 2) + 4 }.
Lemma task_product levels (sr : bool) n (task : Qc * list term) : ~ In 0 levels -> length (snd task) = Datatypes.S n -> ForallOrdPairs (fun a b => forall i, In i (tindices a) -> ~ In i (tindices b)) (snd task) ->
  (exists z, fst task = Qcmult (Qcinv (Qc_of_Z (Z.of_nat (fact n)))) (Qc_of_Z z)) ->
  (exists l h r, snd task = l ++ h :: r /\ (exists k, (k = 1 \/ k = 2) /\ hamiltonian_operator k 0 SpinOrbital = Ok h) /\
    Forall (fun t => exists k start excitation, In k levels /\ cluster_operator k start excitation "T" (Q2Qc 1) (Lab false (if sr then Sc else Sh)) (Lab false (if sr then Sv else Sp)) SpinOrbital = Ok t) (l ++ r)) ->
  product_ok (list_max levels) n task.
Proof.
  intros NZ LN AP (z & EZ) (l & h & r & E & (k & K & EH) & FA). set (m := list_max levels) in *. pose proof (hamiltonian_ingredient k h K EH) as IH.
  assert (IA : Forall (ingredient (m * 2) (inv_sq m)) (l ++ r)).
  { eapply Forall_impl; [|exact FA]. intros t (j & st & ex & Hj & Ej). apply (amplitude_ingredient j st ex sr t m); [apply list_max_in, Hj|intros ->; contradiction|exact Ej]. }
  apply Forall_app in IA as [IL IR]. rewrite E in LN. rewrite app_length in LN. cbn [length] in LN.
  assert (ALL : forall P : term -> Prop, (forall q u t, ingredient q u t -> P t) -> Forall P (snd task)).
  { intros P HP. rewrite E. apply Forall_app. split; [eapply Forall_impl; [|exact IL]; intros t; apply HP|]. constructor; [exact (HP _ _ _ IH)|]. eapply Forall_impl; [|exact IR]. intros t; apply HP. }
  constructor.
  - apply ALL. intros q u t [R _ _ _ _]. apply regular_standard, R.
  - exact AP.
  - apply ALL. intros q u t [_ C _ _ _]. exact C.
  - unfold proper_ops. rewrite map_length. assert (F : forall ts, Forall (fun t => op_is_empty (tsq t) = false) ts -> filter (fun t => negb (op_is_empty (tsq t))) ts = ts) by (induction 1 as [|t ts Ht _ F]; [reflexivity|]; cbn [filter]; rewrite Ht; cbn [negb]; f_equal; exact F).
    rewrite F by (apply ALL; intros q u t [_ _ _ P _]; exact P). rewrite E, app_length. cbn [length]. lia.
  - rewrite total_numbers, E, EZ, numbers_app. cbn [numbers fold_right]. fold (numbers r). rewrite unit_powers. replace n with (length l + length r) at 2 by lia. rewrite powers_of_add.
    pose proof (numbers_units _ _ _ IL) as [a Ea]. pose proof (numbers_units _ _ _ IR) as [b Eb]. destruct IH as [_ _ [c Ec] _ _]. exists (z * (a * (b * c)))%Z. rewrite Ea, Eb, Ec, !Qc_of_Z_mul. ring.
  - rewrite E, n_factors_app. change (h :: r) with ([h] ++ r). rewrite n_factors_app. pose proof (factors_bound _ _ _ IL). pose proof (factors_bound _ _ _ IR). assert (n_factors [h] <= 4) by (unfold n_factors; cbn [map list_sum fold_right]; destruct IH as [_ _ _ _ Q]; lia). replace n with (length l + length r) by lia. lia.
Qed.

(** ** All products *)
Section Products.
  Context {A : qalg} (B : fermions A) (S : system) (v : tvaluation A).
  Context (MB : norb S <= modes B) (PH : physical S v) (NA : no_active_amplitudes S v) (AT : antisymmetric_tensors v) (HV : hole_values v).
  Context (mc mx mn : Z) (NC : no_cumulants_above mc v) (h : bool) (HS : h = true -> hermitian_values v) (eh : bool) (np : nat).
  Context (m n : nat) (Hn : 1 <= n) (BD : (4 * Z.of_nat (fact n) * Z.of_nat (fact m) ^ (2 * Z.of_nat n) <= 10 ^ 15)%Z).
  Context (T : B -> B) (KP : keeps B v mn mx (n * (m * 2) + 4) T).
  Lemma unit_visible : Qcle tiny (Qc_abs (series_unit m n)).
  Proof. rewrite unit_denominator. apply inverse_visible. split; [apply denominator_pos|]. rewrite denominator_closed. exact BD. Qed.
  Lemma list_consistent ts : Forall (clean series_tensors) ts -> consistent_names (flat_map ttensors ts).
  Proof.
    intros F. apply (clean_consistent series_tensors); [exact series_names|]. intros y Hy. apply in_flat_map in Hy as (t & Ht & Hy). rewrite Forall_forall in F. exact (proj2 (proj2 (F t Ht) y Hy)).
  Qed.
  Lemma product_good w task fc out : sound w -> product_ok m n task -> contract_terms w (snd task) mc mx mn (fst task) fc eh np h = Ok out ->
    Forall (good series_tensors (series_unit m n)) out.
  Proof.
    intros (U & _) [P1 P2 P3 P4 P5 P6] H. pose proof (multiple_visible _ _ unit_visible P5) as VC.
    pose proof (contract_good w (snd task) mc mx mn (fst task) fc eh np h out U (list_consistent _ P3)) as G. cbv zeta in G. fold (total_coeff (fst task) (snd task)) in G.
    specialize (G (visible_abs _ VC)). assert (TY : forall t, In t (snd task) -> ttype t = SpinOrbital) by (intros t Ht; rewrite Forall_forall in P3; apply (P3 t Ht)). specialize (G TY H).
    eapply Forall_impl; [|exact G]. intros t [G1 G2]. split; [|exact (multiple_trans _ _ _ P5 G2)]. revert G1. apply clean_trans.
    intros y Hy. apply in_flat_map in Hy as (x & Hx & Hy). rewrite Forall_forall in P3. exact (proj2 (proj2 (P3 x Hx) y Hy)).
  Qed.
  Lemma product_operator w task out : sound w -> product_ok m n task -> contract_terms w (snd task) mc mx mn (fst task) false eh np h = Ok out ->
    list_operator B v S out = nscal (fst task) (T (nprod (map (term_operator B v S) (snd task)))).
  Proof.
    intros SW [P1 P2 P3 P4 P5 P6] H. pose proof (multiple_visible _ _ unit_visible P5) as VC.
    apply (C74_product A B S v w (snd task) mc mx mn (fst task) eh np h out T); try assumption; [apply list_consistent, P3|rewrite P4; lia|]. exact (keeps_less B v mn mx (n * (m * 2) + 4) _ T P6 KP).
  Qed.
  Lemma goods_operator l out : Forall (good series_tensors (series_unit m n)) l -> combine_terms l = Ok out -> list_operator B v S out = list_operator B v S l.
  Proof.
    intros G H. destruct (good_combine series_tensors series_names (series_unit m n) (or_intror unit_visible) l G) as (out' & E & GO & SS). rewrite H in E. injection E as <-.
    apply oper_injective. rewrite <- !(list_lift B S v MB). apply (same_sums_values (extension B) S (lift B v) series_tensors); [exact series_names|exact (goods_clean _ _ _ GO)|exact (goods_clean _ _ _ G)|exact SS].
  Qed.
  Lemma list_operator_app a b : list_operator B v S (a ++ b) = nadd (list_operator B v S a) (list_operator B v S b).
  Proof. unfold list_operator. rewrite map_app. induction a as [|t a IH]; [symmetry; apply nadd_0|]. cbn [map app]. rewrite !nsum_cons, IH. apply nadd_assoc. Qed.
  Theorem products_operator (ws : nat -> world) tasks outs out : (forall k, sound (ws k)) -> Forall (product_ok m n) tasks ->
    pymap (fun kt : nat * (Qc * list term) => contract_terms (ws (fst kt)) (snd (snd kt)) mc mx mn (fst (snd kt)) false eh np h) (positions tasks) = Ok outs -> combine_terms (concat outs) = Ok out ->
    list_operator B v S out = T (nsum (map (fun task => nscal (fst task) (nprod (map (term_operator B v S) (snd task)))) tasks)).
  Proof.
    intros SW F E C. pose proof (keeps_linear B v _ _ _ _ KP) as LT. apply pymap_results in E. rewrite <- (positions_snd tasks) in F |- *. apply Forall_map in F.
    assert (G : Forall (good series_tensors (series_unit m n)) (concat outs)).
    { clear C. induction E as [|kt o ts outs E _ IH]; [constructor|]. cbn [concat]. apply Forall_app. split; [|exact (IH (Forall_inv_tail F))]. exact (product_good _ _ _ _ (SW (fst kt)) (Forall_inv F) E). }
    rewrite (goods_operator _ _ G C). clear C G. rewrite (linear_nsum B T _ LT), !map_map. induction E as [|kt o ts outs E _ IH]; [reflexivity|]. cbn [concat map]. rewrite list_operator_app, nsum_cons, (IH (Forall_inv_tail F)). f_equal.
    rewrite (linear_nscal B T) by exact LT. exact (product_operator _ _ _ (SW (fst kt)) (Forall_inv F) E).
  Qed.
End Products.
