(** C35: the result of contractions does not depend on the processes. *)
From Coq Require Import Ascii String ZArith QArith Qcanon Sorting.Sorted.
From Verif Require Import PyBase OrderSpec OrderProofs SpaceModel IndexModel IndicesModel IterProofs IndicesProofs ElemModel MacroModel WickModel TermModel ValueSpec ValueProofs TermSpec TermProofs
  SymmetryModel CombineModel CombineSpec TextProofs CombineProofs CombineValue ScheduleProofs PropTerm PropSimplify.
Local Close Scope Q_scope.
Local Close Scope Qc_scope.
Local Open Scope nat_scope.
Local Notation length := List.length.

(** C35. Two runs of contract_terms that differ in the number of processes asked for, the number of processors and the order in
    which the workers finish: if one succeeds, so does the other, with the same terms and coefficients in the same order. The
    number of processes also decides where the list of contractions is cut into batches and combined on the way. Asked for: a
    tensor name stands for one kind of tensor; the common factor is zero or at least 1e-15. *)
Theorem C35_contract_terms_schedule :
  forall w w' terms max_cu max_n_open min_n_open scale_factor for_commutator expand_hole n_process n_process' hermitian out,
  same_but_scheduling w w' -> unordered w -> unordered w' -> consistent_names (flat_map ttensors terms) ->
  (let c := fold_left (fun c t => Qcmult c (tcoeff t)) terms scale_factor in c = Q2Qc 0 \/ Qcle tiny (Qc_abs c)) ->
  contract_terms w terms max_cu max_n_open min_n_open scale_factor for_commutator expand_hole n_process hermitian = Ok out ->
  exists out', contract_terms w' terms max_cu max_n_open min_n_open scale_factor for_commutator expand_hole n_process' hermitian = Ok out' /\ map view out' = map view out.
Proof. exact schedule_ok. Qed.
Print Assumptions C35_contract_terms_schedule.

Theorem C35_commutator_schedule :
  forall w1 w2 w1' w2' a b max_cu max_n_open min_n_open scale_factor for_commutator expand_hole n_process n_process' hermitian out,
  same_but_scheduling w1 w1' -> unordered w1 -> unordered w1' -> same_but_scheduling w2 w2' -> unordered w2 -> unordered w2' ->
  consistent_names (ttensors a ++ ttensors b) -> ttype a = SpinOrbital -> ttype b = SpinOrbital ->
  (let c := Qcmult scale_factor (Qcmult (tcoeff a) (tcoeff b)) in c = Q2Qc 0 \/ Qcle tiny (Qc_abs c)) ->
  single_commutator w1 w2 a b max_cu max_n_open min_n_open scale_factor for_commutator expand_hole n_process hermitian = Ok out ->
  exists out', single_commutator w1' w2' a b max_cu max_n_open min_n_open scale_factor for_commutator expand_hole n_process' hermitian = Ok out' /\ map view out' = map view out.
Proof.
  intros. destruct (commutator_ok w1 w2 w1' w2' a b max_cu max_n_open min_n_open scale_factor for_commutator expand_hole n_process n_process' hermitian out) as (out' & E & V & _); try assumption; [repeat split; try assumption; apply H|repeat split; try assumption; apply H2|]. eauto.
Qed.
Print Assumptions C35_commutator_schedule.

(** The commutator of two lists of terms, each pair with its own processes and orders of workers *)
Theorem C35_linear_commutator_schedule :
  forall (ws ws' : term -> term -> world * world) ls rs max_cu max_n_open min_n_open scale_factor for_commutator expand_hole n_process n_process' hermitian out,
  (forall a b, same_but_scheduling (fst (ws a b)) (fst (ws' a b)) /\ unordered (fst (ws a b)) /\ unordered (fst (ws' a b))) ->
  (forall a b, same_but_scheduling (snd (ws a b)) (snd (ws' a b)) /\ unordered (snd (ws a b)) /\ unordered (snd (ws' a b))) ->
  consistent_names (flat_map ttensors (ls ++ rs)) -> (forall t, In t (ls ++ rs) -> ttype t = SpinOrbital) ->
  (forall a b, In a ls -> In b rs -> let c := Qcmult scale_factor (Qcmult (tcoeff a) (tcoeff b)) in c = Q2Qc 0 \/ Qcle tiny (Qc_abs c)) ->
  let run (ws : term -> term -> world * world) n :=
    linear_commutator (fun a b => single_commutator (fst (ws a b)) (snd (ws a b)) a b max_cu max_n_open min_n_open scale_factor for_commutator expand_hole n hermitian) ls rs in
  run ws n_process = Ok out -> exists out', run ws' n_process' = Ok out' /\ map view out' = map view out.
Proof.
  intros ws ws' ls rs max_cu max_o min_o sf fc eh n n' h out S1 S2 CN HT HC run H. unfold run in *.
  assert (I : forall a b, In a ls -> In b rs -> incl (ttensors a ++ ttensors b) (flat_map ttensors (ls ++ rs))).
  { intros a b Ia Ib x X. apply in_flat_map. apply in_app_or in X as [X|X]; [exists a|exists b]; (split; [apply in_or_app; auto|exact X]). }
  destruct (linear_ok (fun a b => single_commutator (fst (ws a b)) (snd (ws a b)) a b max_cu max_o min_o sf fc eh n h) (fun a b => single_commutator (fst (ws' a b)) (snd (ws' a b)) a b max_cu max_o min_o sf fc eh n' h) (flat_map ttensors (ls ++ rs)) ls rs out CN) with (2 := H) as (out' & E & V & _); [|eauto].
  intros a b Ia Ib o Eo. destruct (commutator_ok (fst (ws a b)) (snd (ws a b)) (fst (ws' a b)) (snd (ws' a b)) a b max_cu max_o min_o sf fc eh n n' h o) as (o' & E & V & G); [apply S1|apply S2|apply (consistent_incl _ _ (I a b Ia Ib) CN)|apply HT, in_or_app; auto|apply HT, in_or_app; auto|apply HC; assumption|exact Eo|].
  exists o'. split; [exact E|]. split; [exact V|]. eapply Forall_impl; [|exact G]. intros t. apply clean_incl, I; assumption.
Qed.
Print Assumptions C35_linear_commutator_schedule.

(** Example: [H, T] for the one-body Hamiltonian and singles, by one process and by four whose results arrive backwards. SymPy
    returns what it is given. *)
Definition ex_world (cpus : nat) (sched : nat -> list term -> list term) : world :=
  World (fun g _ _ => Ok (Some g)) (fun _ l => hd 0 l) (fun _ _ l => hd 0 l) (fun l => l) cpus sched.
Definition ex_serial := ex_world 1 (fun _ l => l).
Definition ex_parallel := ex_world 8 (fun _ l => rev l).
Definition ex_left : term := MkTerm SpinOrbital [Ten THamiltonian SpinOrbital "H" 0 [xi Sg 0] [xi Sg 1]] (Op [xi Sg 1] [xi Sg 0]) (Q2Qc 1) [xi Sg 0; xi Sg 1] (fun _ => 2) [].
Definition ex_right : term := MkTerm SpinOrbital [Ten TCluster SpinOrbital "T" 1 [xi Sp 0] [xi Sh 0]] (Op [xi Sh 0] [xi Sp 0]) (Q2Qc 1) [xi Sp 0; xi Sh 0] (fun _ => 1) [].
Example C35_example :
  same_but_scheduling ex_serial ex_parallel /\ unordered ex_serial /\ unordered ex_parallel /\
  consistent_names (ttensors ex_left ++ ttensors ex_right) /\
  exists out out', single_commutator ex_serial ex_serial ex_left ex_right 3 6 0 (Q2Qc 1) true true 1 true = Ok out /\
    single_commutator ex_parallel ex_parallel ex_left ex_right 3 6 0 (Q2Qc 1) true true 4 true = Ok out' /\
    map view out' = map view out /\ length out = 4.
Proof.
  split; [repeat split|]. split; [intros k l; reflexivity|]. split; [intros k l; symmetry; apply Permutation_rev|]. split.
  - split; [repeat constructor; intros H; cbn in H; intuition discriminate|]. intros x y X Y E. cbn in X, Y. intuition (subst; cbn in *; try discriminate; auto).
  - do 2 eexists. split; [vm_compute; reflexivity|]. split; [vm_compute; reflexivity|]. split; [reflexivity|reflexivity].
Qed.
