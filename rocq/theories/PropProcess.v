(** C94: n_process below one. *)
From Coq Require Import Ascii String ZArith QArith Qcanon Lia.
From Verif Require Import PyBase SpaceModel IndexModel IndicesModel ElemModel MacroModel WickModel TermModel SymmetryModel CombineModel CombineSpec CombineProofs ScheduleProofs ProcessModel PropTerm PropSchedule.
Local Close Scope Q_scope.
Local Close Scope Qc_scope.
Local Open Scope nat_scope.
Local Notation length := List.length.

(** at least two of the terms carry operators *)
Definition two_operators (terms : list term) : Prop := 2 <= length (filter (fun t => negb (op_is_empty (tsq t))) terms).

Lemma loop_positive w n bs tensors coeff h batches : (1 <= n)%Z -> forall k count cons out,
  batch_loop_at w k n (Z.of_nat bs) tensors coeff h batches count cons out = batch_loop w k (Z.to_nat n) bs tensors coeff h batches count cons out.
Proof.
  intros N. assert (C : forall k cons s, canonicalize_batch_at w k n cons tensors coeff s h = canonicalize_contractions_batch w k (Z.to_nat n) cons tensors coeff s h).
  { intros k [|e cons] s; [reflexivity|]. unfold canonicalize_batch_at. destruct (Z.ltb_spec n 1); [lia|reflexivity]. }
  induction batches as [|b bt IH]; intros k count cons out; cbn [batch_loop_at batch_loop]; rewrite C; [reflexivity|]. rewrite IH.
  replace (Z.of_nat (count + List.length b) <? Z.of_nat bs)%Z with (count + List.length b <? bs) by (apply eq_true_iff_eq; rewrite Nat.ltb_lt, Z.ltb_lt; lia).
  destruct (_ <? _); [reflexivity|]. destruct (canonicalize_contractions_batch _ _ _ _ _ _ _ _); [|reflexivity]. cbn [pybind]. apply IH.
Qed.
Lemma loop_negative w n bs tensors coeff h batches : (n < 1)%Z -> forall k count cons out,
  batch_loop_at w k n bs tensors coeff h batches count cons out = match cons ++ concat batches with [] => Ok out | _ => Raise ValueError end.
Proof.
  intros N. induction batches as [|b bt IH]; intros k count cons out; cbn [batch_loop_at concat].
  - rewrite app_nil_r. unfold canonicalize_batch_at. destruct (Z.ltb_spec n 1); [|lia]. destruct cons; [cbn; rewrite app_nil_r; reflexivity|reflexivity].
  - rewrite app_assoc. destruct (_ <? _)%Z; [apply IH|]. unfold canonicalize_batch_at. destruct (Z.ltb_spec n 1); [|lia]. destruct (cons ++ b) as [|e l]; [|reflexivity]. cbn [pybind]. rewrite IH, app_nil_r. reflexivity.
Qed.
Lemma loop_nothing w n bs tensors coeff h batches : concat batches = [] -> forall k count out,
  batch_loop w k n bs tensors coeff h batches count [] out = Ok out.
Proof.
  induction batches as [|b bt IH]; intros E k count out; cbn [batch_loop].
  - cbn. rewrite app_nil_r. reflexivity.
  - cbn [concat] in E. apply app_eq_nil in E as [-> E]. cbn [app]. rewrite (IH E). destruct (_ <? _); [reflexivity|]. cbn [canonicalize_contractions_batch pybind]. rewrite app_nil_r. apply (IH E).
Qed.

(** From one process on it is the function of the other theorems. *)
Theorem C94_positive : forall w terms max_cu max_n_open min_n_open scale_factor for_commutator expand_hole n_process hermitian,
  1 <= w_cpus w -> (1 <= n_process)%Z ->
  contract_terms_at w terms max_cu max_n_open min_n_open scale_factor for_commutator expand_hole n_process hermitian =
  Does (contract_terms w terms max_cu max_n_open min_n_open scale_factor for_commutator expand_hole (Z.to_nat n_process) hermitian).
Proof.
  intros w ts mc mx mn s fc eh n h Hc Hn. unfold contract_terms_at, contract_terms. destruct ts as [|t0 ts]; [reflexivity|]. destruct (filter _ (t0 :: ts)) as [|t1 [|t2 l]]; try reflexivity.
  destruct (Z.eqb_spec (Z.min n (Z.of_nat (w_cpus w))) 0); [lia|]. destruct (forallb _ _); [|reflexivity]. f_equal. destruct (compute_operator_contractions _ _ _ _ _ _ _ _ _) as [bs|]; [|reflexivity]. cbn [pybind]. f_equal.
  assert (E : Z.to_nat (Z.min n (Z.of_nat (w_cpus w))) = Nat.min (Z.to_nat n) (w_cpus w)) by lia.
  replace (10000 * Z.max 1 (Z.min n (Z.of_nat (w_cpus w)) / 2))%Z with (Z.of_nat (batch_size_of (Nat.min (Z.to_nat n) (w_cpus w)))).
  - rewrite loop_positive by lia. rewrite E. reflexivity.
  - unfold batch_size_of. rewrite <- E. rewrite Nat2Z.inj_mul, Nat2Z.inj_max, Nat2Z.inj_div, Z2Nat.id by lia. reflexivity.
Qed.
Print Assumptions C94_positive.

(** With n_process=0, a contraction of two or more operators divides by zero, whatever the other arguments. *)
Theorem C94_zero : forall w terms max_cu max_n_open min_n_open scale_factor for_commutator expand_hole hermitian, two_operators terms ->
  contract_terms_at w terms max_cu max_n_open min_n_open scale_factor for_commutator expand_hole 0 hermitian = DividesByZero.
Proof.
  intros w ts mc mx mn s fc eh h T. unfold two_operators in T. unfold contract_terms_at. destruct ts as [|t0 ts]; [cbn in T; lia|]. destruct (filter _ (t0 :: ts)) as [|t1 [|t2 l]]; [cbn in T; lia|cbn in T; lia|].
  replace (Z.min 0 (Z.of_nat (w_cpus w)) =? 0)%Z with true; [reflexivity|]. symmetry. apply Z.eqb_eq. lia.
Qed.
Print Assumptions C94_zero.

(** With a negative n_process, a contraction that has a result raises ValueError. *)
Theorem C94_negative : forall w terms max_cu max_n_open min_n_open scale_factor for_commutator expand_hole n_process m hermitian out,
  (n_process < 0)%Z -> two_operators terms ->
  contract_terms w terms max_cu max_n_open min_n_open scale_factor for_commutator expand_hole m hermitian = Ok out -> out <> [] ->
  contract_terms_at w terms max_cu max_n_open min_n_open scale_factor for_commutator expand_hole n_process hermitian = Does (Raise ValueError).
Proof.
  intros w ts mc mx mn s fc eh n m h out N T H NE. unfold two_operators in T. unfold contract_terms_at, contract_terms in *. destruct ts as [|t0 ts]; [cbn in T; lia|]. destruct (filter _ (t0 :: ts)) as [|t1 [|t2 l]]; [cbn in T; lia|cbn in T; lia|].
  destruct (Z.eqb_spec (Z.min n (Z.of_nat (w_cpus w))) 0); [lia|]. destruct (forallb _ _); [|discriminate]. f_equal. destruct (compute_operator_contractions _ _ _ _ _ _ _ _ _) as [bs|]; [|discriminate]. cbn [pybind] in *.
  rewrite loop_negative by lia. cbn [app]. destruct (concat bs) eqn:E; [|reflexivity]. rewrite (loop_nothing _ _ _ _ _ _ _ E) in H. cbn in H. congruence.
Qed.
Print Assumptions C94_negative.

(** Whatever the number, what is returned is the result for every other number of processes: nothing is lost silently. *)
Theorem C94_never_wrong : forall w terms max_cu max_n_open min_n_open scale_factor for_commutator expand_hole n_process m hermitian out,
  (n_process < 1)%Z ->
  contract_terms_at w terms max_cu max_n_open min_n_open scale_factor for_commutator expand_hole n_process hermitian = Does (Ok out) ->
  contract_terms w terms max_cu max_n_open min_n_open scale_factor for_commutator expand_hole m hermitian = Ok out.
Proof.
  intros w ts mc mx mn s fc eh n m h out N H. unfold contract_terms_at, contract_terms in *. destruct ts as [|t0 ts]; [discriminate|]. destruct (filter _ (t0 :: ts)) as [|t1 [|t2 l]]; [congruence|congruence|].
  destruct (Z.eqb_spec (Z.min n (Z.of_nat (w_cpus w))) 0); [discriminate|]. destruct (forallb _ _); [|discriminate]. assert (H' := f_equal (fun o => match o with Does r => r | DividesByZero => Ok [] end) H). cbn beta iota in H'. clear H.
  destruct (compute_operator_contractions _ _ _ _ _ _ _ _ _) as [bs|]; [|discriminate]. cbn [pybind] in *. rewrite loop_negative in H' by lia. cbn [app] in H'. destruct (concat bs) eqn:E; [|discriminate]. rewrite (loop_nothing _ _ _ _ _ _ _ E). exact H'.
Qed.
Print Assumptions C94_never_wrong.

(** A commutator of two operators with n_process=0 divides by zero; from one process on it is the function of the other theorems. *)
Theorem C94_commutator_zero : forall w1 w2 left right max_cu max_n_open min_n_open scale_factor for_commutator expand_hole hermitian,
  op_is_empty (tsq left) = false -> op_is_empty (tsq right) = false ->
  single_commutator_at w1 w2 left right max_cu max_n_open min_n_open scale_factor for_commutator expand_hole 0 hermitian = DividesByZero.
Proof.
  intros w1 w2 l r mc mx mn s fc eh h L R. unfold single_commutator_at. rewrite L, R, andb_false_r, C94_zero; [reflexivity|]. unfold two_operators. cbn [filter]. rewrite L, R. cbn. lia.
Qed.
Print Assumptions C94_commutator_zero.
Theorem C94_commutator_positive : forall w1 w2 left right max_cu max_n_open min_n_open scale_factor for_commutator expand_hole n_process hermitian,
  1 <= w_cpus w1 -> 1 <= w_cpus w2 -> (1 <= n_process)%Z ->
  single_commutator_at w1 w2 left right max_cu max_n_open min_n_open scale_factor for_commutator expand_hole n_process hermitian =
  Does (single_commutator w1 w2 left right max_cu max_n_open min_n_open scale_factor for_commutator expand_hole (Z.to_nat n_process) hermitian).
Proof.
  intros w1 w2 l r mc mx mn s fc eh n h C1 C2 N. unfold single_commutator_at, single_commutator. destruct (_ && _)%bool; [reflexivity|]. rewrite !C94_positive by assumption. destruct (contract_terms w1 _ _ _ _ _ _ _ _ _); [|reflexivity]. cbn [then_do pybind]. destruct (contract_terms w2 _ _ _ _ _ _ _ _ _); reflexivity.
Qed.
Print Assumptions C94_commutator_positive.
Theorem C94_commutator_never_wrong : forall w1 w2 left right max_cu max_n_open min_n_open scale_factor for_commutator expand_hole n_process m hermitian out,
  (n_process < 1)%Z ->
  single_commutator_at w1 w2 left right max_cu max_n_open min_n_open scale_factor for_commutator expand_hole n_process hermitian = Does (Ok out) ->
  single_commutator w1 w2 left right max_cu max_n_open min_n_open scale_factor for_commutator expand_hole m hermitian = Ok out.
Proof.
  intros w1 w2 l r mc mx mn s fc eh n m h out N H. unfold single_commutator_at, single_commutator in *. destruct (_ && _)%bool; [congruence|].
  destruct (contract_terms_at w1 _ _ _ _ _ _ _ _ _) as [[a|]|] eqn:E1; try discriminate. cbn [then_do] in H. destruct (contract_terms_at w2 _ _ _ _ _ _ _ _ _) as [[b|]|] eqn:E2; try discriminate. cbn [then_do] in H.
  rewrite (C94_never_wrong _ _ _ _ _ _ _ _ _ m _ _ N E1), (C94_never_wrong _ _ _ _ _ _ _ _ _ m _ _ N E2). cbn [pybind]. congruence.
Qed.
Print Assumptions C94_commutator_never_wrong.

(** A commutator that has a result raises ValueError with a negative n_process. *)
Lemma negative_cases w terms mc mx mn s fc eh n m h out : (n < 0)%Z -> contract_terms w terms mc mx mn s fc eh m h = Ok out ->
  contract_terms_at w terms mc mx mn s fc eh n h = Does (Ok out) \/ contract_terms_at w terms mc mx mn s fc eh n h = Does (Raise ValueError).
Proof.
  intros N H. unfold contract_terms_at, contract_terms in *. destruct terms as [|t0 ts]; [discriminate|]. destruct (filter _ (t0 :: ts)) as [|t1 [|t2 l]]; [left; rewrite H; reflexivity|left; rewrite H; reflexivity|].
  destruct (Z.eqb_spec (Z.min n (Z.of_nat (w_cpus w))) 0); [lia|]. destruct (forallb _ _); [|discriminate]. destruct (compute_operator_contractions _ _ _ _ _ _ _ _ _) as [bs|]; [|discriminate]. cbn [pybind] in *.
  rewrite loop_negative by lia. cbn [app]. destruct (concat bs) eqn:E; [|right; reflexivity]. rewrite (loop_nothing _ _ _ _ _ _ _ E) in H. left. cbn [pybind] in *. rewrite H. reflexivity.
Qed.
Theorem C94_commutator_negative : forall w1 w2 left right max_cu max_n_open min_n_open scale_factor for_commutator expand_hole n_process m hermitian out,
  (n_process < 0)%Z -> op_is_empty (tsq left) = false -> op_is_empty (tsq right) = false ->
  single_commutator w1 w2 left right max_cu max_n_open min_n_open scale_factor for_commutator expand_hole m hermitian = Ok out -> out <> [] ->
  single_commutator_at w1 w2 left right max_cu max_n_open min_n_open scale_factor for_commutator expand_hole n_process hermitian = Does (Raise ValueError).
Proof.
  intros w1 w2 l r mc mx mn s fc eh n m h out N L R H NE. unfold single_commutator_at, single_commutator in *. rewrite L, R, andb_false_r in *. cbn [orb] in *.
  assert (T1 : two_operators [l; r]) by (unfold two_operators; cbn [filter]; rewrite L, R; cbn; lia). assert (T2 : two_operators [r; l]) by (unfold two_operators; cbn [filter]; rewrite L, R; cbn; lia).
  destruct (contract_terms w1 _ _ _ _ _ _ _ _ _) as [a|] eqn:E1; [|discriminate]. cbn [pybind] in H. destruct (contract_terms w2 _ _ _ _ _ _ _ _ _) as [b|] eqn:E2; [|discriminate]. cbn [pybind] in H.
  destruct a as [|x a]; [|rewrite (C94_negative _ _ _ _ _ _ _ _ _ _ _ _ N T1 E1) by discriminate; reflexivity].
  destruct b as [|x b]; [exfalso; apply NE; cbn in H; congruence|].
  destruct (negative_cases _ _ _ _ _ _ _ _ n _ _ _ N E1) as [-> | ->]; [|reflexivity]. cbn [then_do]. rewrite (C94_negative _ _ _ _ _ _ _ _ _ _ _ _ N T2 E2) by discriminate. reflexivity.
Qed.
Print Assumptions C94_commutator_negative.

(** Example: H and T of one body; the contractions give terms with one process, a division by zero with 0 and a ValueError with -2,
    and with no operators to contract every number returns. *)
Example C94_example :
  two_operators [ex_left; ex_right] /\ 1 <= w_cpus ex_parallel /\
  (exists out, contract_terms ex_parallel [ex_left; ex_right] 2 4 0 (Q2Qc 1) false true 1 true = Ok out /\ out <> []) /\
  contract_terms_at ex_parallel [ex_left; ex_right] 2 4 0 (Q2Qc 1) false true (-2) true = Does (Raise ValueError) /\
  single_commutator_at ex_parallel ex_parallel ex_left ex_right 2 4 0 (Q2Qc 1) true true 0 true = DividesByZero /\
  op_is_empty (tsq ex_left) = false /\ op_is_empty (tsq ex_right) = false /\ (exists out, single_commutator ex_parallel ex_parallel ex_left ex_right 2 4 0 (Q2Qc 1) true true 1 true = Ok out /\ out <> []) /\
  (exists out, contract_terms_at ex_parallel [ex_left] 2 4 0 (Q2Qc 1) false true 0 true = Does (Ok out) /\ length out = 1) /\
  contract_terms_at ex_parallel [ex_left; ex_right] 2 8 6 (Q2Qc 1) false true (-2) true = Does (Ok []).
Proof.
  split; [unfold two_operators; cbn; lia|]. split; [cbn; lia|]. split; [eexists; split; [vm_compute; reflexivity|discriminate]|].
  split; [vm_compute; reflexivity|]. split; [vm_compute; reflexivity|]. split; [reflexivity|]. split; [reflexivity|]. split; [eexists; split; [vm_compute; reflexivity|discriminate]|]. split; [eexists; split; vm_compute; reflexivity|]. vm_compute. reflexivity.
Qed.
