(** C75 for the default arguments of nested_commutator_cc: up to two commutators, the connected contractions are enough. *)
From Coq Require Import Ascii String ZArith QArith Qcanon Ring_theory Ring Lia Bool Sorting.Sorted.
From Verif Require Import PyBase OrderSpec OrderProofs ParitySpec SpaceModel IndexModel IndicesModel IndicesProofs IterProofs ElemModel ElemSpec MacroModel CompatSpec WickModel WickSpec WickProofs
  TermModel BchSpec ValueSpec ValueProofs TermSpec SumProofs SymmetrySpec CombineModel BchModel CombineSpec PropWick ContractSpec ContractValue FamilySpec FamilyProofs FockSpec ExtensionProofs FockProofs FockValue FockTerms PropSchedule PropContract PropFock PropOperator
  OperatorProofs SpaceProofs LevelSpec BchLoop ScheduleProofs SeriesSpec ClosureProofs LevelProofs SeriesProofs PropLevels PropBch SeriesOperator NestedOperator PropSeries BchProofs TaskProofs ConnectedWords ConnectedTerms.
Local Close Scope Q_scope.
Local Close Scope Qc_scope.
Local Open Scope nat_scope.
Local Notation length := List.length.

Section Products.
  Context {A : qalg} (B : fermions A) (S : system) (v : tvaluation A).
  Context (MB : norb S <= modes B) (PH : physical S v) (NA : no_active_amplitudes S v) (AT : antisymmetric_tensors v) (HV : hole_values v).
  Context (mc mx mn : Z) (NC : no_cumulants_above mc v) (h : bool) (HS : h = true -> hermitian_values v) (eh : bool) (np : nat).
  Context (m n : nat) (Hn : 1 <= n <= 2) (BD : (4 * Z.of_nat (fact n) * Z.of_nat (fact m) ^ (2 * Z.of_nat n) <= 10 ^ 15)%Z).
  Context (T : B -> B) (KP : keeps B v mn mx (n * (m * 2) + 4) T).
  Local Notation E := (extension B).
  Add Ring alg_ring98 : (q_ring E).
  Local Notation V := (lift B v).
  Lemma all_proper terms : length (proper_ops terms) = length terms -> proper_ops terms = map tsq terms.
  Proof.
    unfold proper_ops. rewrite map_length. intros L. f_equal. induction terms as [|t l IH]; [reflexivity|]. cbn [filter] in *. destruct (negb (op_is_empty (tsq t))); [f_equal; apply IH; cbn in L; lia|]. exfalso. assert (Q : forall l : list term, length (filter (fun t => negb (op_is_empty (tsq t))) l) <= length l) by (clear; induction l as [|t l IH]; cbn [filter]; [lia|]; destruct (negb _); cbn [length]; lia). specialize (Q l). cbn [length] in L. lia.
  Qed.
  Lemma product_lost w task out : sound w -> product_ok m n task -> length (snd task) = Datatypes.S n -> contract_terms w (snd task) mc mx mn (fst task) true eh np h = Ok out ->
    asum (map (term_value S V) out) = (oper B (T (nscal (fst task) (nprod (map (term_operator B v S) (snd task))))) - inj (fst task) * multi B S v (snd task) (ConnectedForms.drop B v mn mx))%alg.
  Proof.
    intros SW [P1 P2 P3 P4 P5 P6] LN H. pose proof (multiple_visible _ _ (unit_visible m n BD) P5) as VC. pose proof (keeps_linear B v _ _ _ _ KP) as LT.
    assert (PO : proper_ops (snd task) = map tsq (snd task)) by (apply all_proper; lia).
    destruct (C62_connected_value E S V w (snd task) mc mx mn (fst task) eh np h out (lift_physical B S v PH) (lift_no_active B S v NA) (lift_antisymmetric B v AT) (fun Q => lift_hermitian B v (HS Q)) SW P1 P2 (list_consistent _ P3) ltac:(lia) VC H) as (r & W & EV).
    assert (KF : keeps B v mn mx (factors (snd task)) T) by (rewrite <- n_factors_written; exact (keeps_less B v mn mx (n * (m * 2) + 4) _ T P6 KP)).
    rewrite EV. rewrite (contracted_connected B S v MB PH AT (snd task) T eh r mc mn mx HV NC P1 P2 KF PO ltac:(lia) W).
    rewrite <- (total_operator B S v), (linear_nscal B T) by exact LT. rewrite oper_nscal. rewrite <- (lost_multi B S v mn mx) by (apply standard_separate; assumption). rewrite total_numbers, (inj_mul E). ring.
  Qed.
  Theorem connected_products (ws : nat -> world) tasks outs out p hole particle order_words :
    (forall k, sound (ws k)) -> Forall (product_ok m n) tasks -> Forall (fun task => length (snd task) = Datatypes.S n) tasks ->
    hole <> particle -> lbeta hole = false -> lbeta particle = false -> hole <> Lab false Sg -> particle <> Lab false Sg ->
    Permutation p order_words -> wsum E (fun w => wform B S v hole particle w (ConnectedForms.drop B v mn mx)) order_words = q0 ->
    Forall2 (fun mo task => fst task = Qcmult (inv_fact n) (Qc_of_Z (fst mo)) /\ Forall2 (fun s t => exists st, 0 <= st /\ built hole particle s st t) (snd mo) (snd task)) p tasks ->
    pymap (fun kt : nat * (Qc * list term) => contract_terms (ws (fst kt)) (snd (snd kt)) mc mx mn (fst (snd kt)) true eh np h) (positions tasks) = Ok outs -> combine_terms (concat outs) = Ok out ->
    list_operator B v S out = T (nsum (map (fun task => nscal (fst task) (nprod (map (term_operator B v S) (snd task)))) tasks)).
  Proof.
    intros SW F FL D1 D2 D3 D4 D5 PP ZW F2 E0 C. pose proof (keeps_linear B v _ _ _ _ KP) as LT. apply pymap_results in E0.
    assert (G : Forall (good series_tensors (series_unit m n)) (concat outs)).
    { clear C ZW PP F2 FL. rewrite <- (positions_snd tasks) in F. rewrite Forall_map in F. induction E0 as [|kt o ts outs E0 _ IH]; [constructor|]. cbn [concat]. apply Forall_app. split; [|exact (IH (Forall_inv_tail F))]. exact (product_good mc mx mn h eh np m n BD _ _ _ _ (SW (fst kt)) (Forall_inv F) E0). }
    rewrite (goods_operator B S v MB m n BD _ _ G C). apply oper_injective. rewrite <- (list_lift B S v MB).
    transitivity (oper B (T (nsum (map (fun task => nscal (fst task) (nprod (map (term_operator B v S) (snd task)))) tasks))) - inj (inv_fact n) * wsum E (fun w => wform B S v hole particle w (ConnectedForms.drop B v mn mx)) p)%alg.
    - clear C G ZW PP. rewrite (linear_nsum B T _ LT), oper_nsum, !map_map. unfold wsum. revert p F2. rewrite <- (positions_snd tasks) in F, FL |- *. rewrite Forall_map in F. rewrite Forall_map in FL.
      induction E0 as [|kt o ts outs E0 _ IH]; intros p F2; cbn [map] in F2; inversion F2 as [|mo ? p' ? [Q1 Q2] F2']; subst; cbn [map concat]; [change (@asum E []) with (@q0 E); ring|].
      rewrite map_app, (asum_app E), !sum_cons, (IH (Forall_inv_tail F) (Forall_inv_tail FL) p' F2'), (product_lost _ _ _ (SW (fst kt)) (Forall_inv F) (Forall_inv FL) E0).
      rewrite (multi_word B S v hole particle D1 D2 D3 D4 D5 _ _ Q2), Q1. change (inj (inv_fact n * Qc_of_Z (fst mo))%Qc) with (@inj E (Qcmult (inv_fact n) (Qc_of_Z (fst mo)))). rewrite (inj_mul E). unfold zin. change (Q2Qc (inject_Z (fst mo))) with (Qc_of_Z (fst mo)). match goal with |- (?a - ?i * ?c * ?w + (?x - ?i * ?y))%alg = _ => transitivity (a + x - i * (c * w + y))%alg; [ring|reflexivity] end.
    - rewrite (wsum_perm E _ _ _ PP), ZW. ring.
  Qed.
End Products.

(** With the default for_commutator = True the same holds for one and for two commutators: what the restriction to connected contractions
    drops from the products cancels in the sum. *)
Theorem C75_nested_default :
  forall (A : qalg) (B : fermions A) (S : system) (v : tvaluation A) ws order n levels max_cu max_n_open min_n_open expand_hole single_reference unitary n_process hermitian out T,
  norb S <= modes B -> physical S v -> no_active_amplitudes S v -> antisymmetric_tensors v -> hole_values v -> (hermitian = true -> hermitian_values v) ->
  no_cumulants_above max_cu v -> (forall k, sound (ws k)) -> (forall p, Permutation (order p) p) -> 1 <= n <= 2 -> ~ In 0 levels ->
  keeps B v min_n_open max_n_open (n * (list_max levels * 2) + 4) T ->
  (4 * Z.of_nat (fact n) * Z.of_nat (fact (list_max levels)) ^ (2 * Z.of_nat n) <= 10 ^ 15)%Z ->
  nested_commutator_cc ws order n levels max_cu max_n_open min_n_open true expand_hole single_reference unitary n_process hermitian = Ok out ->
  list_operator B v S out =
  T (nscal (Qcinv (Qc_of_Z (Z.of_nat (fact n)))) (nested n (nadd (hamiltonian_part B v S 1) (hamiltonian_part B v S 2)) (amplitude_operator B v S levels unitary single_reference))).
Proof.
  intros A B S v ws order n levels mc mx mn eh sr un np h out T MB PH NA AT HV HS NC SW PO Hn NZ KP BD H.
  destruct (nested_tasks order n levels un sr PO (proj1 Hn)) as (tasks & E & F & V & p & Pp & F2). rewrite E in H. destruct (pymap _ (positions tasks)) as [outs|] eqn:EO; [|discriminate]. cbn [pybind] in H.
  assert (G : Forall (product_ok (list_max levels) n) tasks) by (eapply Forall_impl; [|exact F]; intros task (F1 & F2' & F3 & F4); exact (task_product levels sr n task NZ F1 F2' F3 F4)).
  assert (GL : Forall (fun task => length (snd task) = Datatypes.S n) tasks) by (eapply Forall_impl; [|exact F]; intros task (F1 & _); exact F1).
  set (hl := Lab false (if sr then Sc else Sh)) in *. set (pl := Lab false (if sr then Sv else Sp)) in *. assert (D : hl <> pl) by (unfold hl, pl; destruct sr; discriminate).
  assert (D4 : hl <> Lab false Sg) by (unfold hl; destruct sr; discriminate). assert (D5 : pl <> Lab false Sg) by (unfold pl; destruct sr; discriminate).
  assert (Z0 := nothing_lost B S v MB AT hl pl eq_refl eq_refl D4 D5 mn mx levels un n Hn).
  rewrite (connected_products B S v MB PH NA AT HV mc mx mn NC h HS eh np (list_max levels) n Hn BD T KP ws tasks outs out p hl pl _ SW G GL D eq_refl eq_refl D4 D5 Pp Z0 F2 EO H).
  f_equal. rewrite (V B (term_operator B v S) (cluster_part B v S hl pl true) (cluster_part B v S hl pl false) (hamiltonian_part B v S)).
  - f_equal. f_equal. unfold amplitude_operator. fold hl pl. destruct un; [reflexivity|]. rewrite nopp_0, nadd_0r. reflexivity.
  - intros k start t Et. exact (cluster_value B S v MB k start true hl pl SpinOrbital t D Et).
  - intros k start t Et. exact (cluster_value B S v MB k start false hl pl SpinOrbital t D Et).
  - intros k t Et. exact (hamiltonian_value B S v MB k 0 SpinOrbital t Et).
Qed.
Print Assumptions C75_nested_default.
(** Two commutators for three orbitals and 8 x 8 matrices: all hypotheses hold, and the mean value is not zero. *)
Example C75_default_example :
  norb three_orbitals <= modes ex_fock /\ physical three_orbitals uncorrelated /\ no_active_amplitudes three_orbitals uncorrelated /\ antisymmetric_tensors uncorrelated /\
  hole_values uncorrelated /\ hermitian_values uncorrelated /\ no_cumulants_above 2 uncorrelated /\ sound ex_serial /\
  (4 * Z.of_nat (fact 2) * Z.of_nat (fact (list_max [1%nat])) ^ (2 * Z.of_nat 2) <= 10 ^ 15)%Z /\
  keeps ex_fock uncorrelated 0 0 (2 * (list_max [1] * 2) + 4) (fun x => scal (ex_mean x) n1) /\
  (exists out, nested_commutator_cc (fun _ => ex_serial) (fun p => p) 2 [1] 2 0 0 true true true true 1 true = Ok out /\ ex_mean (list_operator ex_fock uncorrelated three_orbitals out) = Qc_of_Z 16).
Proof.
  split; [exact (le_n 3)|]. split; [exact uncorrelated_physical|]. split; [exact half_filled_active|]. split; [exact uncorrelated_tensors|]. split; [exact half_filled_holes|]. split; [exact half_filled_hermitian|].
  split; [exact uncorrelated_cumulants|]. split; [exact serial_sound|]. split; [vm_compute; discriminate|]. split; [apply ex_keeps|].
  eexists. split; [vm_compute; reflexivity|]. apply Qc_is_canon. vm_compute. reflexivity.
Qed.
(** It is the sum that is right, not the products: X1 H1 T1 loses contractions when only the connected ones are kept. *)
Definition ex_probe (ts : list term) : Qc := ex_mean (nmul (list_operator ex_fock uncorrelated three_orbitals ts) (hamiltonian_part ex_fock uncorrelated three_orbitals 1)).
Example C75_default_sums :
  (exists out out', nested_commutator_cc (fun _ => ex_serial) (fun p => p) 2 [1] 2 2 0 true true true true 1 true = Ok out /\ nested_commutator_cc (fun _ => ex_serial) (fun p => p) 2 [1] 2 2 0 false true true true 1 true = Ok out' /\
    ex_probe out = Qc_of_Z (-18) /\ ex_probe out' = Qc_of_Z (-18)) /\
  (exists ts out out', list_of_terms (Lab false Sc) (Lab false Sv) 0 (tensor_names [X_sym 1; H_sym 1; T_sym 1]) = Ok ts /\ contract_terms ex_serial ts 2 2 0 (Q2Qc 1) true true 1 true = Ok out /\ contract_terms ex_serial ts 2 2 0 (Q2Qc 1) false true 1 true = Ok out' /\
    ex_probe out = Qc_of_Z (-28) /\ ex_probe out' = Qc_of_Z 4).
Proof.
  split.
  - eexists. eexists. split; [vm_compute; reflexivity|]. split; [vm_compute; reflexivity|]. split; apply Qc_is_canon; vm_compute; reflexivity.
  - eexists. eexists. eexists. split; [vm_compute; reflexivity|]. split; [vm_compute; reflexivity|]. split; [vm_compute; reflexivity|]. split; apply Qc_is_canon; vm_compute; reflexivity.
Qed.
