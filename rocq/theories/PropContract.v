(** C62, C63: the values of contracted terms and of commutators. *)
From Coq Require Import Ascii String ZArith QArith Qcanon.
From Verif Require Import PyBase OrderSpec OrderProofs SpaceModel IndexModel IndicesModel IterProofs IndicesProofs ElemModel ElemSpec MacroModel CompatSpec WickModel WickSpec WickProofs ValueSpec ValueProofs
  TermModel TermSpec SumProofs TermProofs OperatorProofs SymmetryModel SymmetrySpec CombineModel CombineSpec CombineProofs CombineValue ScheduleProofs PropTerm PropSimplify PropCanon PropSchedule ContractSpec ContractValue.
Local Close Scope Q_scope.
Local Close Scope Qc_scope.
Local Open Scope nat_scope.
Local Notation length := List.length.

(** the product of the coefficients and the scale factor *)
Definition total_coeff (sc : Qc) (terms : list term) : Qc := fold_left (fun c t => Qcmult c (tcoeff t)) terms sc.
(** the operators that are not empty *)
Definition proper_ops (terms : list term) : list op := map tsq (filter (fun t => negb (op_is_empty (tsq t))) terms).
(** what the worlds have to satisfy *)
Definition sound (w : world) : Prop := unordered w /\ (forall l, Permutation (w_iter w l) l) /\ admissible (w_sympy w).

Lemma wick_sum_ext ops eh (P P' : list econ -> Prop) r : (forall s, P s <-> P' s) -> wick_sum ops eh P r -> wick_sum ops eh P' r.
Proof.
  intros E (sets & blocks & (L1 & L2 & L3) & F & C). exists sets, blocks. split; [|auto]. split; [intros y Hy; destruct (L1 y Hy); split; [assumption|apply E; assumption]|]. split; [|exact L3].
  intros s N Hs. apply L2; [exact N|apply E, Hs].
Qed.

(** ** C62 *)
(** At least two proper operators: the terms returned have together the value of the Wick expansion of the product, that is of the
    sum over all sets of elementary contractions that leave min_o to max_o legs open, for all values of the tensors that are
    antisymmetric and respect the occupation of the orbitals. *)
Theorem C62_product_value :
  forall (A : qalg) (S : system) (v : tvaluation A) w terms max_cu max_o min_o sc eh n hermitian out,
  physical S v -> no_active_amplitudes S v -> antisymmetric v -> (hermitian = true -> hermitian_values v) -> sound w ->
  Forall standard terms -> ForallOrdPairs apart_terms terms -> consistent_names (flat_map ttensors terms) ->
  2 <= length (proper_ops terms) -> zero_or_visible (total_coeff sc terms) ->
  contract_terms w terms max_cu max_o min_o sc false eh n hermitian = Ok out ->
  exists result, wick_sum (proper_ops terms) eh (wick_set (proper_ops terms) (cumulant_level (proper_ops terms) max_cu) min_o max_o) result /\
    asum (map (term_value S v) out) = (inj (total_coeff sc terms) * contracted_value S v terms result)%alg.
Proof.
  intros A S v w terms mc mx mn sc eh n h out PH NA AS HS (UN & IT & AD) ST AP CN L VC H. unfold proper_ops in L. rewrite map_length in L.
  destruct (contract_value A S v w terms mc mx mn sc false eh n h out PH NA AS HS UN IT AD ST AP CN L VC H) as (r & P & _ & W & P1 & P2 & V). exists r. split; [|exact V].
  eapply wick_sum_ext; [|exact W]. intros s. split; [intros Q; apply P1, Q|]. intros Q. apply P2; [discriminate|exact Q|discriminate].
Qed.
Print Assumptions C62_product_value.
(** For commutators (up to three operators): only the connected sets with a pair contraction. *)
Theorem C62_connected_value :
  forall (A : qalg) (S : system) (v : tvaluation A) w terms max_cu max_o min_o sc eh n hermitian out,
  physical S v -> no_active_amplitudes S v -> antisymmetric v -> (hermitian = true -> hermitian_values v) -> sound w ->
  Forall standard terms -> ForallOrdPairs apart_terms terms -> consistent_names (flat_map ttensors terms) ->
  2 <= length (proper_ops terms) <= 3 -> zero_or_visible (total_coeff sc terms) ->
  contract_terms w terms max_cu max_o min_o sc true eh n hermitian = Ok out ->
  exists result, wick_sum (proper_ops terms) eh
      (fun s => wick_set (proper_ops terms) (cumulant_level (proper_ops terms) max_cu) min_o max_o s /\ connects_ops (proper_ops terms) s /\ has_pair s) result /\
    asum (map (term_value S v) out) = (inj (total_coeff sc terms) * contracted_value S v terms result)%alg.
Proof.
  intros A S v w terms mc mx mn sc eh n h out PH NA AS HS (UN & IT & AD) ST AP CN [L L3] VC H. unfold proper_ops in L. rewrite map_length in L.
  destruct (contract_value A S v w terms mc mx mn sc true eh n h out PH NA AS HS UN IT AD ST AP CN L VC H) as (r & P & _ & W & P1 & P2 & V). exists r. split; [|exact V].
  eapply wick_sum_ext; [|exact W]. intros s. cbv beta. split.
  - intros Q. destruct (P1 s Q) as [Q1 Q2]. destruct (Q2 eq_refl) as [Q3 Q4]. auto.
  - intros (Q1 & Q2 & Q3). apply P2; [intros _; exact L3|exact Q1|auto].
Qed.
Print Assumptions C62_connected_value.
(** At most one proper operator: the plain product. *)
Theorem C62_single_operator :
  forall (A : qalg) (S : system) (v : tvaluation A) w terms max_cu max_o min_o sc fc eh n hermitian out,
  Forall standard terms -> length (proper_ops terms) <= 1 ->
  contract_terms w terms max_cu max_o min_o sc fc eh n hermitian = Ok out ->
  asum (map (term_value S v) out) = (inj (total_coeff sc terms) *
    sum_over S (all_indices terms) (fun e => (aprod (map (tensor_value v e) (flat_map ttensors terms)) * op_value v e (hd (Op [] []) (proper_ops terms)))%alg))%alg.
Proof.
  intros A S v w terms mc mx mn sc fc eh n h out ST L H. unfold proper_ops in L. rewrite map_length in L. rewrite (contract_value_single A S v w terms mc mx mn sc fc eh n h out ST L H). unfold total_coeff, proper_ops, whole_op. destruct (filter _ terms); reflexivity.
Qed.
Print Assumptions C62_single_operator.
(** The operators of the package satisfy the hypotheses on terms: Hamiltonian, excitation and de-excitation operators. *)
Theorem C62_hamiltonian_standard : forall k start t, hamiltonian_operator k start SpinOrbital = Ok t -> standard t.
Proof. exact hamiltonian_standard. Qed.
Print Assumptions C62_hamiltonian_standard.
Theorem C62_cluster_standard :
  forall k start ex name sc hl pl t, lbeta hl = false -> lbeta pl = false -> hl <> pl -> cluster_operator k start ex name sc hl pl SpinOrbital = Ok t -> standard t.
Proof. exact cluster_standard. Qed.
Print Assumptions C62_cluster_standard.

(** *** Example: orbital 0 is core, 1 active with occupation 1/2, 2 virtual *)
Definition three_orbitals : system := Sys 3 (fun p => Lab false (match p with 0 => Sc | 1 => Sa | _ => Sv end)).
Definition occupation (p q : nat) : Qc := if p =? q then match p with 0 => Q2Qc 1 | 1 => Q2Qc (1 # 2) | _ => Q2Qc 0 end else Q2Qc 0.
Definition one_body (f : nat -> nat -> Qc) (ps qs : list nat) : Qc := match ps, qs with [p], [q] => f p q | _, _ => Q2Qc 0 end.
Definition half_filled : tvaluation Qc_alg :=
  TVal Qc_alg (fun c _ => one_body (fun p q => match c with
    | TKronecker => if p =? q then Q2Qc 1 else Q2Qc 0
    | TCumulant => occupation p q
    | THole => Qcminus (if p =? q then Q2Qc 1 else Q2Qc 0) (occupation p q)
    | TCluster => if (p =? 1) && (q =? 1) then Q2Qc 0 else Qc_of_Z (Z.of_nat (p + q))
    | _ => Qc_of_Z (Z.of_nat (p * q + 1)) end))
    (fun u l => match u, l with [], [] => Q2Qc 1 | _, _ => one_body (fun p q => Qc_of_Z (Z.of_nat (p + 2 * q))) u l end).
Lemma half_filled_physical : physical three_orbitals half_filled.
Proof.
  constructor; cbn [half_filled vtensor one_body].
  - reflexivity.
  - intros _ p q H. unfold occupation. destruct (Nat.eqb_spec p q) as [<-|]; [|reflexivity]. destruct p as [|[|p]]; [destruct H; discriminate|destruct H; discriminate|reflexivity].
  - intros _ p q H. unfold occupation. destruct (Nat.eqb_spec p q) as [<-|]; [|reflexivity]. destruct p as [|[|p]]; [reflexivity|destruct H; discriminate|destruct H; discriminate].
  - intros _ [|p [|p' ps]] qs L _; [reflexivity|exfalso; apply L; reflexivity|reflexivity].
Qed.
Lemma one_body_upper f l : alternates (A := Qc_alg) (fun u => one_body f u l).
Proof. intros p x y q. destruct p as [|a [|b p]]; reflexivity. Qed.
Lemma one_body_lower f u : alternates (A := Qc_alg) (fun l => one_body f u l).
Proof. intros p x y q. unfold one_body. destruct u as [|a [|b u]]; try reflexivity. destruct p as [|a' [|b p]]; reflexivity. Qed.
Lemma half_filled_antisymmetric : antisymmetric half_filled.
Proof.
  constructor; cbn [half_filled vtensor voper].
  - intros c n l. apply one_body_upper.
  - intros c n u. apply one_body_lower.
  - intros l p x y q. destruct p as [|a [|b p]]; reflexivity.
  - intros u p x y q. destruct u as [|a [|b u]]; try reflexivity; destruct p as [|a' [|b p]]; reflexivity.
Qed.
Lemma half_filled_hermitian : hermitian_values half_filled.
Proof.
  intros c n u l. cbn [half_filled vtensor]. destruct u as [|p [|p' u]], l as [|q [|q' l]]; cbn [one_body]; try reflexivity.
  assert (O : occupation p q = occupation q p) by (unfold occupation; rewrite (Nat.eqb_sym q p); destruct (Nat.eqb_spec p q) as [<-|]; reflexivity).
  rewrite O, (Nat.eqb_sym q p), (Nat.mul_comm q p), (Nat.add_comm q p), (andb_comm (q =? 1)). reflexivity.
Qed.
Lemma half_filled_active : no_active_amplitudes three_orbitals half_filled.
Proof.
  intros n ps qs H. cbn [half_filled vtensor]. destruct ps as [|p [|p' u]], qs as [|q [|q' l]]; cbn [one_body]; try reflexivity.
  cbn in H. destruct p as [|[|p]]; try discriminate. destruct q as [|[|q]]; try discriminate. reflexivity.
Qed.
Lemma half_filled_holes : hole_values half_filled.
Proof. intros p q. reflexivity. Qed.
Lemma serial_sound : sound ex_serial.
Proof. split; [intros k l; reflexivity|]. split; [intros l; reflexivity|]. intros g ranges runs gc H. injection H as <-. constructor. Qed.

Definition the_term (r : pyres term) : term := match r with Ok t => t | Raise _ => ex_left end.
Definition ex_h : term := the_term (hamiltonian_operator 1 0 SpinOrbital).
Definition ex_t : term := the_term (cluster_operator 1 0 true "T" (Q2Qc 1) (Lab false Sh) (Lab false Sp) SpinOrbital).
Example C62_example :
  Forall standard [ex_h; ex_t] /\ ForallOrdPairs apart_terms [ex_h; ex_t] /\ consistent_names (flat_map ttensors [ex_h; ex_t]) /\
  length (proper_ops [ex_h; ex_t]) = 2 /\ total_coeff (Q2Qc 1) [ex_h; ex_t] = Q2Qc 1 /\
  (exists out, contract_terms ex_serial [ex_h; ex_t] 2 2 0 (Q2Qc 1) false true 1 true = Ok out /\ length out = 5 /\ asum (map (term_value three_orbitals half_filled) out) <> Q2Qc 0) /\
  (exists out, contract_terms ex_serial [ex_h; ex_t] 2 2 0 (Q2Qc 1) true true 1 true = Ok out /\ asum (map (term_value three_orbitals half_filled) out) <> Q2Qc 0).
Proof.
  assert (Eh : hamiltonian_operator 1 0 SpinOrbital = Ok ex_h) by reflexivity.
  assert (Et : cluster_operator 1 0 true "T" (Q2Qc 1) (Lab false Sh) (Lab false Sp) SpinOrbital = Ok ex_t) by reflexivity.
  split; [constructor; [exact (hamiltonian_standard _ _ _ Eh)|constructor; [exact (cluster_standard _ _ _ _ _ (Lab false Sh) (Lab false Sp) _ eq_refl eq_refl ltac:(discriminate) Et)|constructor]]|]. split.
  { constructor; [constructor; [|constructor]|constructor; [constructor|constructor]]. intros i H1 H2. vm_compute in H1, H2. intuition (subst; discriminate). }
  split. { split; [vm_compute; repeat constructor; intros H; cbn in H; intuition discriminate|]. intros x y X Y E. vm_compute in X, Y. intuition (subst; cbn in *; try discriminate; auto). }
  split; [reflexivity|]. split; [apply Qc_is_canon; reflexivity|]. split.
  - eexists. split; [vm_compute; reflexivity|]. split; [reflexivity|]. intros H. apply (f_equal this) in H. vm_compute in H. discriminate.
  - eexists. split; [vm_compute; reflexivity|]. intros H. apply (f_equal this) in H. vm_compute in H. discriminate.
Qed.

(** ** C63 *)
(** the full Wick expansion of the product of two terms *)
Definition expansion (a b : term) (max_cu min_o max_o : Z) (eh : bool) (r : list (list entry)) : Prop :=
  wick_sum [tsq a; tsq b] eh (wick_set [tsq a; tsq b] (cumulant_level [tsq a; tsq b] max_cu) min_o max_o) r.
(** The terms returned by single_commutator have together the value of the difference of the two full Wick expansions. This holds
    with and without for_commutator, which leaves out the contractions that are not connected or have no pair. *)
Theorem C63_commutator_value :
  forall (A : qalg) (S : system) (v : tvaluation A) w1 w2 a b max_cu max_o min_o sc fc eh n hermitian out,
  physical S v -> no_active_amplitudes S v -> antisymmetric v -> hole_values v -> (hermitian = true -> hermitian_values v) -> sound w1 -> sound w2 ->
  standard a -> standard b -> apart_terms a b -> consistent_names (ttensors a ++ ttensors b) ->
  op_is_empty (tsq a) = false -> op_is_empty (tsq b) = false -> zero_or_visible (Qcmult sc (Qcmult (tcoeff a) (tcoeff b))) ->
  single_commutator w1 w2 a b max_cu max_o min_o sc fc eh n hermitian = Ok out ->
  (exists rAB rBA, expansion a b max_cu min_o max_o true rAB /\ expansion b a max_cu min_o max_o true rBA) /\
  forall eh1 eh2 rAB rBA, expansion a b max_cu min_o max_o eh1 rAB -> expansion b a max_cu min_o max_o eh2 rBA ->
    asum (map (term_value S v) out) = (inj (Qcmult sc (Qcmult (tcoeff a) (tcoeff b))) * (contracted_value S v [a; b] rAB - contracted_value S v [b; a] rBA))%alg.
Proof.
  intros A S v w1 w2 a b mc mx mn sc fc eh n h out PH NA AS HV HS (U1 & I1 & AD1) (U2 & I2 & AD2) Sa Sb AP CN Ea Eb VC H. split.
  - destruct (expansions_exist a b mc mx mn true Sa Sb AP Ea Eb) as [r1 W1]. destruct (expansions_exist b a mc mx mn true Sb Sa (fun i Hb Ha => AP i Ha Hb) Eb Ea) as [r2 W2]. exists r1, r2. split; assumption.
  - intros eh1 eh2 rAB rBA W1 W2. exact (commutator_full A S v PH AS HV NA w1 w2 a b mc mx mn sc fc eh n h out eh1 eh2 rAB rBA HS U1 U2 I1 I2 AD1 AD2 Sa Sb AP CN Ea Eb VC H W1 W2).
Qed.
Print Assumptions C63_commutator_value.
(** With a scalar the commutator is zero. *)
Theorem C63_scalar_commutes :
  forall (A : qalg) (S : system) (v : tvaluation A) w1 w2 a b max_cu max_o min_o sc fc eh n hermitian out,
  unordered w1 -> unordered w2 -> standard a -> standard b -> consistent_names (ttensors a ++ ttensors b) ->
  (op_is_empty (tsq a) || op_is_empty (tsq b) = true) -> zero_or_visible (Qcmult sc (Qcmult (tcoeff a) (tcoeff b))) ->
  single_commutator w1 w2 a b max_cu max_o min_o sc fc eh n hermitian = Ok out -> asum (map (term_value S v) out) = q0.
Proof. intros A S v w1 w2 a b mc mx mn sc fc eh n h out U1 U2 Sa Sb CN E VC H. eapply (commutator_scalar A S v w1 w2 a b mc mx mn sc fc eh n h out); eassumption. Qed.
Print Assumptions C63_scalar_commutes.
(** The value does not depend on for_commutator, on expand_hole, on the processes, on the symmetry used in canonicalization, nor on
    the choices of the worlds. *)
Theorem C63_independent :
  forall (A : qalg) (S : system) (v : tvaluation A) w1 w2 w1' w2' a b max_cu max_o min_o sc fc fc' eh eh' n n' hermitian hermitian' out out',
  physical S v -> no_active_amplitudes S v -> antisymmetric v -> hole_values v -> (hermitian || hermitian' = true -> hermitian_values v) ->
  sound w1 -> sound w2 -> sound w1' -> sound w2' ->
  standard a -> standard b -> apart_terms a b -> consistent_names (ttensors a ++ ttensors b) -> zero_or_visible (Qcmult sc (Qcmult (tcoeff a) (tcoeff b))) ->
  single_commutator w1 w2 a b max_cu max_o min_o sc fc eh n hermitian = Ok out ->
  single_commutator w1' w2' a b max_cu max_o min_o sc fc' eh' n' hermitian' = Ok out' ->
  asum (map (term_value S v) out) = asum (map (term_value S v) out').
Proof.
  intros A S v w1 w2 w1' w2' a b mc mx mn sc fc fc' eh eh' n n' h h' out out' PH NA AS HV HS W1 W2 W1' W2' Sa Sb AP CN VC H H'.
  destruct (op_is_empty (tsq a) || op_is_empty (tsq b)) eqn:E.
  - rewrite (C63_scalar_commutes A S v w1 w2 a b mc mx mn sc fc eh n h out) by (first [assumption | apply W1 | apply W2]).
    symmetry. apply (C63_scalar_commutes A S v w1' w2' a b mc mx mn sc fc' eh' n' h' out'); (first [assumption | apply W1' | apply W2']).
  - apply orb_false_iff in E as [Ea Eb].
    destruct (C63_commutator_value A S v w1 w2 a b mc mx mn sc fc eh n h out) as [(r1 & r2 & X1 & X2) V]; try assumption. { intros ->. apply HS. reflexivity. }
    destruct (C63_commutator_value A S v w1' w2' a b mc mx mn sc fc' eh' n' h' out') as [_ V']; try assumption. { intros ->. apply HS. apply orb_true_r. }
    rewrite (V true true r1 r2 X1 X2), (V' true true r1 r2 X1 X2). reflexivity.
Qed.
Print Assumptions C63_independent.
Lemma parallel_sound : sound ex_parallel.
Proof. split; [intros k l; symmetry; apply Permutation_rev|]. split; [intros l; reflexivity|]. intros g ranges runs gc H. injection H as <-. constructor. Qed.
Example C63_example :
  standard ex_h /\ standard ex_t /\ apart_terms ex_h ex_t /\ consistent_names (ttensors ex_h ++ ttensors ex_t) /\
  op_is_empty (tsq ex_h) = false /\ op_is_empty (tsq ex_t) = false /\ Qcmult (Q2Qc 1) (Qcmult (tcoeff ex_h) (tcoeff ex_t)) = Q2Qc 1 /\
  exists out out', single_commutator ex_serial ex_serial ex_h ex_t 2 2 0 (Q2Qc 1) true true 1 true = Ok out /\
    single_commutator ex_parallel ex_parallel ex_h ex_t 2 2 0 (Q2Qc 1) false false 4 false = Ok out' /\
    length out <> length out' /\ asum (map (term_value three_orbitals half_filled) out) <> Q2Qc 0.
Proof.
  destruct C62_example as (F & O & C & _). inversion F as [|? ? F1 F2]; subst. inversion F2; subst. inversion O as [|? ? O1 O2]; subst. inversion O1; subst.
  split; [assumption|]. split; [assumption|]. split; [assumption|]. split; [cbn [flat_map] in C; rewrite app_nil_r in C; exact C|]. split; [reflexivity|]. split; [reflexivity|]. split; [apply Qc_is_canon; reflexivity|].
  eexists. eexists. split; [vm_compute; reflexivity|]. split; [vm_compute; reflexivity|]. split; [vm_compute; discriminate|]. intros H'. apply (f_equal this) in H'. vm_compute in H'. discriminate.
Qed.
