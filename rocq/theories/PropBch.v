(** C48: nested commutators of the BCH expansion. *)
From Coq Require Import Ascii String ZArith QArith Qcanon.
From Verif Require Import PyBase SpaceModel IterProofs IndicesModel ElemModel MacroModel WickModel TermModel CombineModel BchModel BchSpec BchProofs TaskProofs.
Local Close Scope Q_scope.
Local Close Scope Qc_scope.
Local Open Scope nat_scope.
Local Notation length := List.length.

(** ** C48 *)
(** In every associative algebra, the expanded expression is the n-fold commutator and given by the binomial formula, for n >= 1. *)
Theorem C48_binomial :
  forall (A : ncalg) (v : symbol -> A) (n : nat) (a b : expr), 1 <= n ->
  poly_value v (doit_expand (sympy_nested_commutator_recursive n a b)) = nested n (expr_value v a) (expr_value v b) /\
  poly_value v (doit_expand (sympy_nested_commutator_recursive n a b)) = binomial_sum n (expr_value v a) (expr_value v b).
Proof.
  intros A v n a b Hn. rewrite doit_expand_value, recursive_value by exact Hn. split; [reflexivity|apply nested_binomial].
Qed.
Print Assumptions C48_binomial.
(** The binomial coefficients written in full *)
Theorem C48_coefficients :
  forall n k, (k <= n -> (Z.abs (signed_binomial n k) * Z.of_nat (fact k * fact (n - k)) = Z.of_nat (fact n))%Z) /\
  ((0 < signed_binomial n k)%Z <-> k <= n /\ Nat.Even k) /\ ((signed_binomial n k < 0)%Z <-> k <= n /\ Nat.Odd k).
Proof.
  intros n k. unfold signed_binomial.
  assert (P : k <= n -> 0 < binomial n k) by (intros H; pose proof (binomial_fact n k H); pose proof (lt_O_fact n); destruct (binomial n k); lia).
  assert (Q : n < k -> binomial n k = 0) by apply binomial_gt. rewrite <- Nat.even_spec, <- Nat.odd_spec, <- Nat.negb_even. split.
  - intros H. rewrite <- (binomial_fact n k H), (Nat2Z.inj_mul (binomial n k)). f_equal. destruct (Nat.even k); lia.
  - destruct (le_lt_dec k n) as [H|H]; [specialize (P H)|specialize (Q H); rewrite Q]; destruct (Nat.even k); cbn [negb]; lia.
Qed.
Print Assumptions C48_coefficients.
(** Each product of symbols occurs once among the summands, with a coefficient other than zero. *)
Theorem C48_collected :
  forall n a b, let p := doit_expand (sympy_nested_commutator_recursive n a b) in NoDup (map snd p) /\ forall m, In m p -> fst m <> 0%Z.
Proof.
  intros n a b. cbv zeta. unfold doit_expand. split; [apply collected_nodup|]. intros [c w] H. apply collected_spec in H. apply H.
Qed.
Print Assumptions C48_collected.
(** Level 0 is [A, B], not A. *)
Theorem C48_level_zero_refuted :
  exists (A : ncalg) (v : symbol -> A) a b,
  poly_value v (doit_expand (sympy_nested_commutator_recursive 0 a b)) <> nested 0 (expr_value v a) (expr_value v b) /\
  poly_value v (doit_expand (sympy_nested_commutator_recursive 0 a b)) = bracket (expr_value v a) (expr_value v b).
Proof.
  exists M22, (fun s => match sy_name s with ["A"%char] => (0, 1, (0, 0))%Qc | _ => (0, 0, (1, 0))%Qc end),
    (Poly [(1%Z, [Sym ["A"%char] false])]), (Poly [(1%Z, [Sym ["B"%char] false])]). split; [|apply doit_expand_value].
  rewrite doit_expand_value. intros E. apply (f_equal (fun m : m22 => this (fst (fst m)))) in E. vm_compute in E. discriminate.
Qed.
Print Assumptions C48_level_zero_refuted.

(** nested_commutator_cc contracts a list of products of operators. Their sum, each with its factor, is 1/n! times the n-fold commutator of
    H1 + H2 with the sum of the amplitudes (minus the adjoints if unitary), whatever associative algebra the operators are read in, as long as
    their values do not depend on the numbers of the indices. In each product no index occurs in two operators; one of the factors is H1 or
    H2, the others are amplitudes of the given levels or their adjoints, and the number in front is 1/n! times an integer. *)
Theorem C48_products :
  forall (order : poly -> poly) (n : nat) (levels : list nat) (unitary single_reference : bool), (forall p, Permutation (order p) p) -> 1 <= n ->
  let hole := Lab false (if single_reference then Sc else Sh) in
  let particle := Lab false (if single_reference then Sv else Sp) in
  exists tasks : list (Qc * list term),
  (forall ws max_cu max_n_open min_n_open for_commutator expand_hole n_process hermitian,
    nested_commutator_cc ws order n levels max_cu max_n_open min_n_open for_commutator expand_hole single_reference unitary n_process hermitian =
    pybind (pymap (fun kt => contract_terms (ws (fst kt)) (snd (snd kt)) max_cu max_n_open min_n_open (fst (snd kt)) for_commutator expand_hole n_process hermitian) (positions tasks))
      (fun outs => combine_terms (concat outs))) /\
  Forall (fun task => length (snd task) = S n /\ ForallOrdPairs (fun a b => forall i, In i (tindices a) -> ~ In i (tindices b)) (snd task) /\
    (exists z, fst task = Qcmult (Qcinv (Qc_of_Z (Z.of_nat (fact n)))) (Qc_of_Z z)) /\
    exists l h r, snd task = l ++ h :: r /\ (exists k, (k = 1 \/ k = 2) /\ hamiltonian_operator k 0 SpinOrbital = Ok h) /\
      Forall (fun t => exists k start excitation, In k levels /\ cluster_operator k start excitation "T" (Q2Qc 1) hole particle SpinOrbital = Ok t) (l ++ r)) tasks /\
  (forall (A : ncalg) (val : term -> A) (T X H : nat -> A),
    (forall k start t, cluster_operator k start true "T" (Q2Qc 1) hole particle SpinOrbital = Ok t -> val t = T k) ->
    (forall k start t, cluster_operator k start false "T" (Q2Qc 1) hole particle SpinOrbital = Ok t -> val t = X k) ->
    (forall k t, hamiltonian_operator k 0 SpinOrbital = Ok t -> val t = H k) ->
    nsum (map (fun task => nscal (fst task) (nprod (map val (snd task)))) tasks) =
    nscal (Qcinv (Qc_of_Z (Z.of_nat (fact n)))) (nested n (nadd (H 1) (H 2))
      (if unitary then nadd (nsum (map T levels)) (nopp (nsum (map X levels))) else nsum (map T levels)))).
Proof. intros order n levels unitary single_reference O Hn. destruct (nested_tasks order n levels unitary single_reference O Hn) as (tasks & H1 & H2 & H3 & _). exists tasks. auto. Qed.
Print Assumptions C48_products.

(** two levels, one amplitude: H T1 T1 - 2 T1 H T1 + T1 T1 H for H1 and for H2 *)
Example C48_example :
  let s (n : string) := Sym (list_ascii_of_string n) false in
  nested_monomials (fun p => p) 2 [1] false =
  Ok [(1%Z, [s "H1"%string; s "T1"%string; s "T1"%string]); (1%Z, [s "H2"%string; s "T1"%string; s "T1"%string]); ((-2)%Z, [s "T1"%string; s "H1"%string; s "T1"%string]); ((-2)%Z, [s "T1"%string; s "H2"%string; s "T1"%string]);
      (1%Z, [s "T1"%string; s "T1"%string; s "H1"%string]); (1%Z, [s "T1"%string; s "T1"%string; s "H2"%string])] /\
  length (match nested_monomials (fun p => p) 2 [1; 2] true with Ok p => p | _ => [] end) = 96.
Proof. cbv zeta. split; [vm_compute; reflexivity|vm_compute; reflexivity]. Qed.
(** the operators are told apart by their values: amplitudes raise, their adjoints lower, the Hamiltonian counts *)
Example C48_values :
  let val (t : term) : M22 := match ttensors t, cre (tsq t) with
    | [x], i :: _ => match tcls x with THamiltonian => (1, 0, (0, Q2Qc 2))%Qc | _ => if space_eqb (lsp (fst i)) Sp then (0, 1, (0, 0))%Qc else (0, 0, (1, 0))%Qc end
    | _, _ => n0 end in
  (forall start t, cluster_operator 2 start true "T" (Q2Qc 1) (Lab false Sh) (Lab false Sp) SpinOrbital = Ok t -> val t = (0, 1, (0, 0))%Qc) /\
  (forall start t, cluster_operator 2 start false "T" (Q2Qc 1) (Lab false Sh) (Lab false Sp) SpinOrbital = Ok t -> val t = (0, 0, (1, 0))%Qc) /\
  (forall t, hamiltonian_operator 2 0 SpinOrbital = Ok t -> val t = (1, 0, (0, Q2Qc 2))%Qc).
Proof.
  cbv zeta. split; [|split].
  - intros start t E. apply OperatorProofs.cluster_ok in E. destruct E as (_ & _ & -> & -> & _). reflexivity.
  - intros start t E. apply OperatorProofs.cluster_ok in E. destruct E as (_ & _ & -> & -> & _). reflexivity.
  - intros t E. destruct (OperatorProofs.hamiltonian_ok 2 0 SpinOrbital) as (t' & E' & _ & _ & ET & ES & _). rewrite E in E'. injection E' as <-. rewrite ET, ES. reflexivity.
Qed.
