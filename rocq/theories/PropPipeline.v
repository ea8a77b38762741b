(** C85: the generated C++ code computes the commutators. *)
From Coq Require Import Ascii String ZArith QArith Qcanon Ring_theory Ring Lia Bool Sorted.
From Verif Require Import PyBase OrderSpec OrderProofs ParitySpec SpaceModel IndexModel IndicesModel IndicesProofs IterProofs ElemModel ElemSpec MacroModel CompatSpec WickModel WickSpec WickProofs
  TermModel BchSpec ValueSpec ValueProofs TermSpec SumProofs SymmetryModel SymmetrySpec CombineModel BchModel CombineSpec PropWick ContractSpec ContractValue FamilySpec FamilyProofs FockSpec ExtensionProofs FockProofs FockValue FockTerms PropSchedule PropContract PropFock PropOperator
  OperatorProofs SpaceProofs LevelSpec BchLoop ScheduleProofs SeriesSpec ClosureProofs LevelProofs SeriesProofs PropLevels PropBch SeriesOperator NestedOperator PropSeries BchProofs TaskProofs PropNested
  PermuteModel AmbitModel AmbitSpec AmbitMain PropAmbit PrintModel PrintSpec PropPrint CodeTransport PipelineSpec PipelineCode PipelineTerms PipelineLevels.
Local Close Scope Q_scope.
Local Close Scope Qc_scope.
Local Open Scope nat_scope.
Local Notation length := List.length.

(** ** C85 *)
Section Statements.
  Context {A : qalg} (B : fermions A) (S : system) (v : tvaluation A) (input : list term) (x : B).
  (** Started with arrays that hold the values of the tensors, the functions end. The arrays C0, C1, ... then hold the coefficients of [x]: the sum of the
      normal ordered operators with these coefficients is [x]. The other arrays keep their values. *)
  Definition computes (functions : text -> option (list stmt)) (main : list stmt) : Prop :=
    forall arrays, prepared v input arrays ->
    exists st results, run S functions main (Store arrays false None) = Some st /\
      (forall name, (forall n, In n (bodies input) -> name <> target_name n) -> st_arrays st name = arrays name) /\
      (forall n, In n (bodies input) -> st_arrays st (target_name n) = Some (results n)) /\
      stored_sum B v S (bodies input) results = x.
  (** The lines add the coefficients of [x] to C0, C1, ..., where a BlockedTensor temp is declared. *)
  Definition adds (prog : list stmt) : Prop :=
    forall st before, prepared v input (st_arrays st) -> st_declared st = true -> (forall n, In n (bodies input) -> st_arrays st (target_name n) = Some (before n)) ->
    exists st' results, exec_leaves S prog st = Some st' /\
      (forall name, (forall n, In n (bodies input) -> name <> target_name n) -> st_arrays st' name = st_arrays st name) /\
      (forall n, In n (bodies input) -> st_arrays st' (target_name n) = Some (results n)) /\
      stored_sum B v S (bodies input) results = nadd (stored_sum B v S (bodies input) before) x.
End Statements.

Lemma in_bodies input n : In n (bodies input) <-> exists t, In t input /\ target_of t = n.
Proof. unfold bodies. rewrite nodup_In, in_map_iff. unfold target_of. split; intros (t & H1 & H2); exists t; auto. Qed.
(** the same tensors, without operators *)
Definition tensors_only {A : qalg} (v : tvaluation A) : tvaluation A := TVal A (vtensor v) (fun _ _ => q0).
Section TensorsOnly.
  Context {A : qalg} (v : tvaluation A).
  Add Ring alg_ring101 : (q_ring A).
Lemma tensors_antisymmetric : antisymmetric_tensors v -> antisymmetric (tensors_only v).
Proof. intros [H1 H2]. constructor; [exact H1|exact H2| |]; intros l p x y q; cbn [tensors_only voper]; ring. Qed.
End TensorsOnly.
Lemma sum_split {A : ncalg} {I} (f g : I -> A) l : nsum (map (fun i => nadd (f i) (g i)) l) = nadd (nsum (map f l)) (nsum (map g l)).
Proof.
  induction l as [|i l IH]; cbn [map]; [symmetry; apply nadd_0|]. rewrite !nsum_cons, IH. rewrite <- !nadd_assoc. f_equal. rewrite !nadd_assoc. f_equal. apply nadd_comm.
Qed.

(** The functions written by save_terms_ambit_functions compute the operator that the terms stand for. *)
Theorem C85_functions :
  forall input fn ns destroy r, Forall printable input -> save_terms_ambit_functions input fn ns false destroy = Ok r ->
  exists main functions, reads_as ns fn r main functions /\
    forall (A : qalg) (B : fermions A) (S : system) (v : tvaluation A), norb S <= modes B -> antisymmetric_tensors v -> computes B S v input (list_operator B v S input) functions main.
Proof.
  intros input fn ns destroy r P H. destruct (C64_driver_value input fn ns destroy r P H) as (main & functions & RA & X). exists main, functions. split; [exact RA|]. intros A B S v MB AT arrays PR.
  destruct (X A S (tensors_only v) arrays (tensors_antisymmetric v AT) PR) as (st & R & O & V0).
  destruct (X (extension B) S (lift B v) (emb_arrays B arrays) (lift_antisymmetric B v AT) (emb_prepared B v input arrays PR)) as (st' & R' & _ & V).
  pose proof (run_emb B S functions main (Store arrays false None) (Store (emb_arrays B arrays) false None)) as G. rewrite R, R' in G. destruct G as (G & _); [split; [intros name; apply emb_arrays_image|split; [reflexivity|exact Logic.I]]|].
  exists st, (fun n => match st_arrays st (target_name n) with Some f => f | None => fun _ => q0 end). split; [exact R|]. split; [|split].
  - intros name Hn. apply O. intros t Ht. apply Hn, in_bodies. eauto.
  - intros n Hn. apply in_bodies in Hn as (t & Ht & <-). destruct (V0 t Ht) as (f & -> & _). reflexivity.
  - apply (bodies_operator B S v MB). intros n Hn. apply in_bodies in Hn as (t & Ht & <-). destruct (V t Ht) as (g & Eg & Q). specialize (G (target_name (target_of t))). rewrite Eg in G. destruct (st_arrays st (target_name (target_of t))) as [f|]; [|contradiction].
    apply oper_injective. rewrite <- (list_lift B S v MB), <- Q. symmetry. exact (stored_value B S v MB _ f g G).
Qed.
Print Assumptions C85_functions.
(** The lines printed by print_terms_ambit add it. *)
Theorem C85_printed :
  forall input, Forall printable input ->
  exists s prog, print_terms_ambit input = Ok s /\ code_lines s = map stmt_text prog /\
    forall (A : qalg) (B : fermions A) (S : system) (v : tvaluation A), norb S <= modes B -> antisymmetric_tensors v -> adds B S v input (list_operator B v S input) prog.
Proof.
  intros input P. destruct (C79_print_terms_ambit input P) as (s & prog & E & L & X). exists s, prog. split; [exact E|]. split; [exact L|]. intros A B S v MB AT st before PR D BE.
  destruct (X A S (tensors_only v) st (tensors_antisymmetric v AT) PR D) as (st1 & R & O & V0).
  set (es := Store (emb_arrays B (st_arrays st)) (st_declared st) (option_map (fun p : text * array A => (fst p, fun o => emb B (snd p o))) (st_temp st))).
  destruct (X (extension B) S (lift B v) es (lift_antisymmetric B v AT) (emb_prepared B v input (st_arrays st) PR) D) as (st' & R' & _ & V).
  pose proof (leaves_emb B S prog st es) as G. rewrite R, R' in G. destruct G as (G & _); [split; [intros name; apply emb_arrays_image|split; [reflexivity|]]; unfold es; cbn [st_temp]; destruct (st_temp st) as [[sp f]|]; cbn; [split; [reflexivity|intros o; reflexivity]|exact Logic.I]|].
  exists st1, (fun n => match st_arrays st1 (target_name n) with Some f => f | None => fun _ => q0 end). split; [exact R|]. split; [|split].
  - intros name Hn. apply O. intros t Ht. apply Hn, in_bodies. eauto.
  - intros n Hn. destruct (V0 n _ (BE n Hn)) as (f & -> & _). reflexivity.
  - rewrite <- (bodies_sum B S v MB input). unfold stored_sum. rewrite <- sum_split. f_equal. apply map_ext_in. intros n Hn. destruct (V n (fun o => emb B (before n o))) as (g & Eg & Q); [unfold es, emb_arrays; cbn [st_arrays]; rewrite (BE n Hn); reflexivity|].
    specialize (G (target_name n)). rewrite Eg in G. destruct (st_arrays st1 (target_name n)) as [f|]; [|contradiction]. apply oper_injective. rewrite oper_add, <- (list_lift B S v MB).
    rewrite <- (stored_value B S v MB n f g G), <- (stored_value B S v MB n (before n) (fun o => emb B (before n o))) by (intros o; reflexivity). exact Q.
Qed.
Print Assumptions C85_printed.

(** Every list of terms returned by bch_cc_rsc with expand_hole = True can be printed, as long as fractions are exact, and so can the list returned by nested_commutator_cc. *)
Theorem C85_series_printable :
  forall ws nested_level cluster_levels max_cu n_opens for_commutator single_reference unitary n_process hermitian outs,
  (forall i a b, sound (fst (ws i a b)) /\ sound (snd (ws i a b))) ->
  (4 * Z.of_nat (fact nested_level) * Z.of_nat (fact (list_max cluster_levels)) ^ (2 * Z.of_nat nested_level) <= 10 ^ 9)%Z ->
  bch_cc_rsc ws nested_level cluster_levels max_cu n_opens for_commutator true single_reference unitary n_process hermitian = Ok outs ->
  forall i, Forall printable (nth i outs []).
Proof. intros ws n cl cu os fc sr un np h outs WS B H. exact (bch_printable ws n cl cu os fc sr un np h outs WS B H). Qed.
Print Assumptions C85_series_printable.
Theorem C85_nested_printable :
  forall ws order n levels max_cu max_n_open min_n_open for_commutator single_reference unitary n_process hermitian out,
  (forall k, sound (ws k)) -> (forall p, Permutation (order p) p) -> 1 <= n -> ~ In 0 levels ->
  (4 * Z.of_nat (fact n) * Z.of_nat (fact (list_max levels)) ^ (2 * Z.of_nat n) <= 10 ^ 9)%Z ->
  nested_commutator_cc ws order n levels max_cu max_n_open min_n_open for_commutator true single_reference unitary n_process hermitian = Ok out ->
  Forall printable out.
Proof. intros ws order n levels mc mx mn fc sr un np h out SW PO Hn NZ BD H. exact (nested_printable ws order n levels mc mx mn fc sr un np h out SW PO Hn NZ BD H). Qed.
Print Assumptions C85_nested_printable.

(** The code for the i-th list of the series computes 1/i! times the i-fold commutator of the Hamiltonian with the cluster operator. *)
Theorem C85_series_code :
  forall ws nested_level cluster_levels max_cu n_opens for_commutator single_reference unitary n_process hermitian outs i,
  (forall i a b, sound (fst (ws i a b)) /\ sound (snd (ws i a b))) -> i <= nested_level ->
  (forall i, i < nested_level -> (fst (at_stage (0, 0) n_opens i) <= 0)%Z /\ (Z.of_nat ((i + 1) * (list_max cluster_levels * 2) + 4) <= snd (at_stage (0, 0) n_opens i))%Z) ->
  (4 * Z.of_nat (fact nested_level) * Z.of_nat (fact (list_max cluster_levels)) ^ (2 * Z.of_nat nested_level) <= 10 ^ 9)%Z ->
  bch_cc_rsc ws nested_level cluster_levels max_cu n_opens for_commutator true single_reference unitary n_process hermitian = Ok outs ->
  let input := nth i outs [] in
  let series {A} (B : fermions A) S v :=
    nscal (Qcinv (Qc_of_Z (Z.of_nat (fact i)))) (nested i (nadd (inactive_hamiltonian B v S 1) (inactive_hamiltonian B v S 2)) (amplitude_operator B v S cluster_levels unitary single_reference)) in
  (exists s prog, print_terms_ambit input = Ok s /\ code_lines s = map stmt_text prog /\
    forall (A : qalg) (B : fermions A) (S : system) (v : tvaluation A), norb S <= modes B -> physical S v -> no_active_amplitudes S v -> antisymmetric_tensors v -> hole_values v ->
      (hermitian = true -> hermitian_values v) -> (forall i, i < nested_level -> no_cumulants_above (at_stage 0%Z max_cu i) v) -> adds B S v input (series B S v) prog) /\
  (forall fn ns destroy r, save_terms_ambit_functions input fn ns false destroy = Ok r ->
    exists main functions, reads_as ns fn r main functions /\
    forall (A : qalg) (B : fermions A) (S : system) (v : tvaluation A), norb S <= modes B -> physical S v -> no_active_amplitudes S v -> antisymmetric_tensors v -> hole_values v ->
      (hermitian = true -> hermitian_values v) -> (forall i, i < nested_level -> no_cumulants_above (at_stage 0%Z max_cu i) v) -> computes B S v input (series B S v) functions main).
Proof.
  intros ws n cl cu os fc sr un np h outs i WS Hi RG BD H input series. pose proof (C85_series_printable ws n cl cu os fc sr un np h outs WS BD H i) as P. fold input in P.
  assert (BD' : (4 * Z.of_nat (fact n) * Z.of_nat (fact (list_max cl)) ^ (2 * Z.of_nat n) <= 10 ^ 15)%Z) by (etransitivity; [exact BD|vm_compute; discriminate]).
  assert (V : forall (A : qalg) (B : fermions A) (S : system) (v : tvaluation A), norb S <= modes B -> physical S v -> no_active_amplitudes S v -> antisymmetric_tensors v -> hole_values v ->
      (h = true -> hermitian_values v) -> (forall i, i < n -> no_cumulants_above (at_stage 0%Z cu i) v) -> list_operator B v S input = series A B S v).
  { intros A B S v MB PH NA AT HV HS NC. exact (C75_bch_series A B S v ws n cl cu os fc true sr un np h outs MB PH NA AT HV HS WS NC RG BD' H i Hi). }
  split.
  - destruct (C85_printed input P) as (s & prog & E & L & X). exists s, prog. split; [exact E|]. split; [exact L|]. intros A B S v MB PH NA AT HV HS NC. rewrite <- (V A B S v MB PH NA AT HV HS NC). exact (X A B S v MB AT).
  - intros fn ns destroy r E. destruct (C85_functions input fn ns destroy r P E) as (main & functions & RA & X). exists main, functions. split; [exact RA|]. intros A B S v MB PH NA AT HV HS NC. rewrite <- (V A B S v MB PH NA AT HV HS NC). exact (X A B S v MB AT).
Qed.
Print Assumptions C85_series_code.
(** The same for nested_commutator_cc, with the part T of the operator that the limits of the operators keep: the whole of it if there are no
    limits, the mean value if only closed contractions are kept. *)
Theorem C85_nested_code :
  forall ws order n levels max_cu max_n_open min_n_open for_commutator single_reference unitary n_process hermitian out,
  (forall k, sound (ws k)) -> (forall p, Permutation (order p) p) -> 1 <= n -> (for_commutator = true -> n <= 2) -> ~ In 0 levels ->
  (4 * Z.of_nat (fact n) * Z.of_nat (fact (list_max levels)) ^ (2 * Z.of_nat n) <= 10 ^ 9)%Z ->
  nested_commutator_cc ws order n levels max_cu max_n_open min_n_open for_commutator true single_reference unitary n_process hermitian = Ok out ->
  let series {A} (B : fermions A) S v :=
    nscal (Qcinv (Qc_of_Z (Z.of_nat (fact n)))) (nested n (nadd (hamiltonian_part B v S 1) (hamiltonian_part B v S 2)) (amplitude_operator B v S levels unitary single_reference)) in
  (exists s prog, print_terms_ambit out = Ok s /\ code_lines s = map stmt_text prog /\
    forall (A : qalg) (B : fermions A) (S : system) (v : tvaluation A) T, norb S <= modes B -> physical S v -> no_active_amplitudes S v -> antisymmetric_tensors v -> hole_values v ->
      (hermitian = true -> hermitian_values v) -> no_cumulants_above max_cu v -> keeps B v min_n_open max_n_open (n * (list_max levels * 2) + 4) T -> adds B S v out (T (series B S v)) prog) /\
  (forall fn ns destroy r, save_terms_ambit_functions out fn ns false destroy = Ok r ->
    exists main functions, reads_as ns fn r main functions /\
    forall (A : qalg) (B : fermions A) (S : system) (v : tvaluation A) T, norb S <= modes B -> physical S v -> no_active_amplitudes S v -> antisymmetric_tensors v -> hole_values v ->
      (hermitian = true -> hermitian_values v) -> no_cumulants_above max_cu v -> keeps B v min_n_open max_n_open (n * (list_max levels * 2) + 4) T -> computes B S v out (T (series B S v)) functions main).
Proof.
  intros ws order n levels mc mx mn fc sr un np h out SW PO Hn FC NZ BD H series. pose proof (C85_nested_printable ws order n levels mc mx mn fc sr un np h out SW PO Hn NZ BD H) as P.
  assert (BD' : (4 * Z.of_nat (fact n) * Z.of_nat (fact (list_max levels)) ^ (2 * Z.of_nat n) <= 10 ^ 15)%Z) by (etransitivity; [exact BD|vm_compute; discriminate]).
  assert (V : forall (A : qalg) (B : fermions A) (S : system) (v : tvaluation A) T, norb S <= modes B -> physical S v -> no_active_amplitudes S v -> antisymmetric_tensors v -> hole_values v ->
      (h = true -> hermitian_values v) -> no_cumulants_above mc v -> keeps B v mn mx (n * (list_max levels * 2) + 4) T -> list_operator B v S out = T (series A B S v)).
  { intros A B S v T MB PH NA AT HV HS NC KP. destruct fc.
    - exact (C75_nested_default A B S v ws order n levels mc mx mn true sr un np h out T MB PH NA AT HV HS NC SW PO (conj Hn (FC eq_refl)) NZ KP BD' H).
    - exact (C75_nested A B S v ws order n levels mc mx mn true sr un np h out T MB PH NA AT HV HS NC SW PO Hn NZ KP BD' H). }
  split.
  - destruct (C85_printed out P) as (s & prog & E & L & X). exists s, prog. split; [exact E|]. split; [exact L|]. intros A B S v T MB PH NA AT HV HS NC KP. rewrite <- (V A B S v T MB PH NA AT HV HS NC KP). exact (X A B S v MB AT).
  - intros fn ns destroy r E. destruct (C85_functions out fn ns destroy r P E) as (main & functions & RA & X). exists main, functions. split; [exact RA|]. intros A B S v T MB PH NA AT HV HS NC KP. rewrite <- (V A B S v T MB PH NA AT HV HS NC KP). exact (X A B S v MB AT).
Qed.
Print Assumptions C85_nested_code.

(** *** Example: one commutator with T1 for three orbitals, real numbers and 8 x 8 matrices *)
(** the arrays of the Hamiltonian, of the amplitudes and of the results *)
Definition ex_arrays : text -> option (array Qc_alg) := fun name =>
  let values c n o := vtensor uncorrelated c n (firstn (length o / 2) o) (skipn (length o / 2) o) in
  Some (match name with "H"%char :: _ => values THamiltonian "H"%string | "T"%char :: _ => values TCluster "T"%string | _ => fun _ => Q2Qc 0 end).
Definition ex_tensor (x : tensor) : bool :=
  (length (tupper x) =? length (tlower x)) && match tcls x with THamiltonian => (tname x =? "H")%string | TCluster => (tname x =? "T")%string | _ => false end.
Lemma ex_prepared input : forallb (fun t => forallb ex_tensor (ttensors t)) input = true -> prepared uncorrelated input ex_arrays.
Proof.
  intros H t Ht. rewrite forallb_forall in H. specialize (H t Ht). rewrite forallb_forall in H. split; [|eexists; reflexivity]. intros x Hx. specialize (H x Hx). unfold ex_tensor in H. apply andb_prop in H as [H1 H2]. apply Nat.eqb_eq in H1.
  eexists. split; [reflexivity|]. intros p q Lp Lq. unfold tensor_array, array_name. rewrite H1, Nat.eqb_refl.
  assert (G : forall a b : list nat, length a = length b -> length (a ++ b) / 2 = length a) by (intros a b Q; rewrite app_length, <- Q; replace (length a + length a) with (length a * 2) by lia; apply Nat.div_mul; discriminate).
  destruct (tcls x); try discriminate; apply String.eqb_eq in H2; rewrite H2; cbn [list_ascii_of_string app]; cbv beta iota zeta.
  - split; intros; rewrite G by congruence; rewrite firstn_app, skipn_app, Nat.sub_diag, firstn_all, skipn_all, app_nil_r; [reflexivity|]. apply half_filled_hermitian.
  - split; [|discriminate]. intros _. rewrite G by congruence. rewrite firstn_app, skipn_app, Nat.sub_diag, firstn_all, skipn_all, app_nil_r. reflexivity.
Qed.
Example C85_example :
  exists outs r, bch_cc_rsc (fun _ _ _ => (ex_serial, ex_serial)) 1 [1] (inl 2%Z) (inl (0, 6)%Z) true true true true 1 true = Ok outs /\
  save_terms_ambit_functions (nth 1 outs []) (str "comm") (str "SR") false false = Ok r /\ length (d_blocks r) = 14 /\
  (4 * Z.of_nat (fact 1) * Z.of_nat (fact (list_max [1%nat])) ^ (2 * Z.of_nat 1) <= 10 ^ 9)%Z /\
  norb three_orbitals <= modes ex_fock /\ physical three_orbitals uncorrelated /\ no_active_amplitudes three_orbitals uncorrelated /\ antisymmetric_tensors uncorrelated /\
  hole_values uncorrelated /\ hermitian_values uncorrelated /\ no_cumulants_above 2 uncorrelated /\ sound ex_serial /\ prepared uncorrelated (nth 1 outs []) ex_arrays /\
  bodies (nth 1 outs []) = [0; 1; 2] /\ ex_mean (list_operator ex_fock uncorrelated three_orbitals (nth 1 outs [])) = Qc_of_Z 4.
Proof.
  eexists. eexists. split; [vm_compute; reflexivity|]. split; [vm_compute; reflexivity|]. split; [vm_compute; reflexivity|]. split; [vm_compute; discriminate|].
  split; [exact (le_n 3)|]. split; [exact uncorrelated_physical|]. split; [exact half_filled_active|]. split; [exact uncorrelated_tensors|]. split; [exact half_filled_holes|]. split; [exact half_filled_hermitian|].
  split; [exact uncorrelated_cumulants|]. split; [exact serial_sound|]. split; [apply ex_prepared; vm_compute; reflexivity|]. split; [vm_compute; reflexivity|]. apply Qc_is_canon. vm_compute. reflexivity.
Qed.
