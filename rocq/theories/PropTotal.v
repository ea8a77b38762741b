(** C87: from the call of bch_cc_rsc to the numbers computed by the generated functions, with no step assumed to succeed. *)
From Coq Require Import Ascii String ZArith QArith Qcanon Ring_theory Ring Lia Bool Sorted.
From Verif Require Import PyBase OrderSpec OrderProofs ParitySpec SpaceModel IndexModel IndicesModel IndicesProofs IterProofs ElemModel ElemSpec MacroModel CompatSpec WickModel WickSpec WickProofs
  TermModel BchSpec ValueSpec ValueProofs TermSpec SumProofs SymmetryModel SymmetrySpec CombineModel BchModel CombineSpec PropWick ContractSpec ContractValue FamilySpec FamilyProofs FockSpec ExtensionProofs FockProofs FockValue FockTerms PropSchedule PropContract PropFock PropOperator
  OperatorProofs SpaceProofs LevelSpec BchLoop ScheduleProofs SeriesSpec ClosureProofs LevelProofs SeriesProofs PropLevels PropBch SeriesOperator NestedOperator PropSeries BchProofs TaskProofs PropNested
  PermuteModel AmbitModel AmbitSpec AmbitMain PropAmbit PrintModel PrintSpec PropPrint CodeTransport PipelineSpec PipelineCode PipelineTerms PipelineLevels SingleProofs PropContractReturn PropPipeline PropWritten.
Local Close Scope Q_scope.
Local Close Scope Qc_scope.
Local Open Scope nat_scope.
Local Notation length := List.length.

(** ** C87 *)
(** With the single-reference operators every step succeeds: the series is computed, functions are written for its i-th list, and running them
    leaves 1/i! times the i-fold commutator of the Hamiltonian with the cluster operator in the arrays. *)
Theorem C87_total :
  forall ws nested_level cluster_levels max_cu n_opens for_commutator unitary n_process hermitian,
  (forall i a b, sound (fst (ws i a b)) /\ sound (snd (ws i a b))) -> (forall i a b, answers (w_sympy (fst (ws i a b))) /\ answers (w_sympy (snd (ws i a b)))) ->
  cluster_levels <> [] -> (forall k, In k cluster_levels -> 1 <= k <= 9) -> fits_levels nested_level max_cu -> fits_levels nested_level n_opens ->
  (forall i, i < nested_level -> (fst (at_stage (0, 0) n_opens i) <= 0)%Z /\ (Z.of_nat ((i + 1) * (list_max cluster_levels * 2) + 4) <= snd (at_stage (0, 0) n_opens i))%Z) ->
  (4 * Z.of_nat (fact nested_level) * Z.of_nat (fact (list_max cluster_levels)) ^ (2 * Z.of_nat nested_level) <= 10 ^ 9)%Z ->
  exists outs, bch_cc_rsc ws nested_level cluster_levels max_cu n_opens for_commutator true true unitary n_process hermitian = Ok outs /\ length outs = nested_level + 1 /\
  forall i fn ns destroy, i <= nested_level -> i * list_max cluster_levels + 2 <= 9 ->
  exists r main functions, save_terms_ambit_functions (nth i outs []) fn ns false destroy = Ok r /\ reads_as ns fn r main functions /\
  forall (A : qalg) (B : fermions A) (S : system) (v : tvaluation A) arrays, norb S <= modes B -> physical S v -> no_active_amplitudes S v -> antisymmetric_tensors v -> hole_values v ->
    (hermitian = true -> hermitian_values v) -> (forall i, i < nested_level -> no_cumulants_above (at_stage 0%Z max_cu i) v) -> prepared v (nth i outs []) arrays ->
  exists st stored, run S functions main (Store arrays false None) = Some st /\ (forall n, In n (bodies (nth i outs [])) -> st_arrays st (target_name n) = Some (stored n)) /\
    stored_sum B v S (bodies (nth i outs [])) stored =
      nscal (Qcinv (Qc_of_Z (Z.of_nat (fact i)))) (nested i (nadd (inactive_hamiltonian B v S 1) (inactive_hamiltonian B v S 2)) (amplitude_operator B v S cluster_levels unitary true)).
Proof.
  intros ws n cl cu os fc un np h WS AN NE K F1 F2 RG BD. destruct (C73_bch_returns ws n cl cu os fc true true un np h WS AN NE) as [outs E]; [apply Forall_forall; intros k Hk; exact (proj1 (K k Hk))|exact F1|exact F2|].
  exists outs. split; [exact E|]. split.
  { assert (BD' : (4 * Z.of_nat (fact n) * Z.of_nat (fact (list_max cl)) ^ (2 * Z.of_nat n) <= 10 ^ 15)%Z) by (etransitivity; [exact BD|vm_compute; discriminate]).
    destruct (C68_bch_levels _ three_orbitals half_filled ws n cl cu os fc true true un np h outs half_filled_physical half_filled_active half_filled_antisymmetric half_filled_holes (fun _ => half_filled_hermitian) WS BD' E) as [L _]. lia. }
  intros i fn ns destroy Hi Hm. destruct (C86_series_written ws n cl cu os fc un np h outs WS K BD E i fn ns false destroy) as (_ & _ & W). destruct (W Hm) as [r Er].
  destruct (C85_series_code ws n cl cu os fc true un np h outs i WS Hi RG BD E) as [_ C]. destruct (C fn ns destroy r Er) as (main & functions & RA & X). exists r, main, functions. split; [exact Er|]. split; [exact RA|].
  intros A B S v arrays MB PH NA AT HV HS NC PR. destruct (X A B S v MB PH NA AT HV HS NC arrays PR) as (st & stored & R & _ & V & Q). exists st, stored. split; [exact R|]. split; [exact V|]. exact Q.
Qed.
Print Assumptions C87_total.
(** The operators T1 and T2 up to three commutators: the hypotheses hold, so the functions exist and compute the commutators, without running anything here. *)
Example C87_example : forall unitary hermitian fn ns destroy,
  exists outs, bch_cc_rsc (fun _ _ _ => (ex_serial, ex_serial)) 3 [1; 2] (inl 3%Z) (inl (0, 16)%Z) true true true unitary 4 hermitian = Ok outs /\ length outs = 4 /\
  forall i, i <= 3 -> exists r, save_terms_ambit_functions (nth i outs []) fn ns false destroy = Ok r.
Proof.
  intros un h fn ns destroy. destruct (C87_total (fun _ _ _ => (ex_serial, ex_serial)) 3 [1; 2] (inl 3%Z) (inl (0, 16)%Z) true un 4 h) as (outs & E & L & X).
  - intros i a b. split; exact serial_sound.
  - intros i a b. split; exact ex_answers.
  - discriminate.
  - intros k [<-|[<-|[]]]; lia.
  - exact Logic.I.
  - exact Logic.I.
  - intros i Hi. cbn. lia.
  - vm_compute. discriminate.
  - exists outs. split; [exact E|]. split; [exact L|]. intros i Hi. destruct (X i fn ns destroy Hi) as (r & main & functions & Er & _); [cbn; lia|]. exists r. exact Er.
Qed.
