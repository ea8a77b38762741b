(** Model of the nested commutators of dsrg_generator/phys_op_contraction.py
    (recursive_single_commutator, bch_cc_rsc, sympy_nested_commutator_recursive, nested_commutator_cc). *)
From Coq Require Import Ascii String ZArith QArith Qcanon.
From Verif Require Import PyBase SpaceModel IndexModel IndicesModel ElemModel MacroModel WickModel TermModel SymmetryModel CombineModel.
Local Close Scope Q_scope.
Local Close Scope Qc_scope.
Local Open Scope nat_scope.
Local Notation length := List.length.

(** ** Recursive commutators *)
(** Term.py:173-184 [from_term] without options: the constructor is run again *)
Definition from_term (t : term) : pyres term := make_term (ttype t) (ttensors t) (tsq t) (tcoeff t).

Definition positions {A} (l : list A) : list (nat * A) := combine (seq 0 (length l)) l.
(** phys_op_contraction.py:288-298 and 350-365. [sc i a b left right] is single_commutator with the remaining arguments of
    level i, for the a-th left and the b-th right term; [copy] is applied to the terms before they are combined and before
    they become the left terms of the next level. *)
Fixpoint commutator_loop (copy : term -> pyres term) (sc : nat -> nat -> nat -> term -> term -> pyres (list term))
  (i : nat) (left_pool : list term) (rights : list (list term)) : pyres (list (list term)) :=
  match rights with
  | [] => Ok []
  | rs :: rights' =>
      pybind (pymap (fun al => pybind (pymap (fun br => sc i (fst al) (fst br) (snd al) (snd br)) (positions rs)) (fun ls => Ok (concat ls)))
                    (positions left_pool)) (fun lls =>
      pybind (pymap copy (concat lls)) (fun terms =>
      pybind (combine_terms terms) (fun out =>
      pybind (pymap copy out) (fun left_pool' =>
      pybind (commutator_loop copy sc (S i) left_pool' rights') (fun outs => Ok (out :: outs))))))
  end.

(** an argument given once for all levels or level by level *)
Definition per_level {A} (n : nat) (x : A + list A) : pyres (list A) :=
  match x with
  | inl a => Ok (repeat a n)
  | inr l => if length l =? n then Ok l else Raise ValueError
  end.
Definition at_level {A} (l : list A) (d : A) (i : nat) : A := nth (i - 1) l d.

(** the orders of sets and of the workers in the two contractions of each pair of terms *)
Definition worlds := nat -> nat -> nat -> world * world.
Definition commutator_at (ws : worlds) (levels : list Z) (opens : list (Z * Z)) (factor : nat -> Qc)
  (for_commutator expand_hole : bool) (n_process : nat) (hermitian : bool) (i a b : nat) (left right : term) : pyres (list term) :=
  let '(min_n_open, max_n_open) := at_level opens (0%Z, 0%Z) i in
  single_commutator (fst (ws i a b)) (snd (ws i a b)) left right (at_level levels 0%Z i) max_n_open min_n_open (factor i)
    for_commutator expand_hole n_process hermitian.

(** phys_op_contraction.py:249-300; the entries 1..n-1 of the dictionary. The checks of the types of the arguments are left out. *)
Definition recursive_single_commutator (ws : worlds) (terms : list term) (max_cu_levels : Z + list Z) (n_opens : (Z * Z) + list (Z * Z))
  (for_commutator expand_hole : bool) (n_process : nat) (hermitian : bool) : pyres (list (list term)) :=
  match terms with
  | t0 :: (_ :: _) as rest =>
      let n := length terms - 1 in
      pybind (per_level n max_cu_levels) (fun levels =>
      pybind (per_level n n_opens) (fun opens =>
      commutator_loop (fun t => Ok t) (commutator_at ws levels opens (fun _ => Q2Qc 1) for_commutator expand_hole n_process hermitian)
        1 [t0] (map (fun t => [t]) (tl terms))))
  | _ => Raise ValueError
  end.

(** 1.0 / i *)
Definition inv_nat (i : nat) : Qc := Qcinv (Qc_of_Z (Z.of_nat i)).
(** phys_op_contraction.py:344-348: H1 and H2 over core and virtual indices *)
Definition bch_start : pyres (list term) :=
  pybind (hamiltonian_operator 1 0 SpinOrbital) (fun h1 => pybind (expand_composite_indices true 0 h1) (fun l1 =>
  pybind (combine_terms l1) (fun c1 =>
  pybind (hamiltonian_operator 2 0 SpinOrbital) (fun h2 => pybind (expand_composite_indices true 0 h2) (fun l2 =>
  pybind (combine_terms l2) (fun c2 => Ok (c1 ++ c2))))))).
(** phys_op_contraction.py:339-341: the amplitudes of the i-th commutator, from i = 0 *)
Definition bch_amplitudes (cluster_levels : list nat) (unitary single_reference : bool) (i : nat) : pyres (list term) :=
  let max_amp := list_max cluster_levels * 2 in
  cluster_operators cluster_levels (i * max_amp + 4) unitary single_reference.
(** phys_op_contraction.py:303-367; the entries 0..nested_level of the dictionary *)
Definition bch_cc_rsc (ws : worlds) (nested_level : nat) (cluster_levels : list nat) (max_cu_levels : Z + list Z) (n_opens : (Z * Z) + list (Z * Z))
  (for_commutator expand_hole single_reference unitary : bool) (n_process : nat) (hermitian : bool) : pyres (list (list term)) :=
  pybind (per_level nested_level max_cu_levels) (fun levels =>
  pybind (per_level nested_level n_opens) (fun opens =>
  match cluster_levels with
  | [] => Raise ValueError       (* max of an empty list *)
  | _ =>
      pybind (pymap (bch_amplitudes cluster_levels unitary single_reference) (seq 0 nested_level)) (fun amps =>
      pybind bch_start (fun h =>
      pybind (commutator_loop from_term (commutator_at ws levels opens inv_nat for_commutator expand_hole n_process hermitian) 1 h amps) (fun outs =>
      Ok (h :: outs))))
  end)).

(** ** Symbolic commutators *)
(** an operator symbol of SymPy, or the adjoint of one *)
Record symbol : Set := Sym { sy_name : list ascii; sy_dagger : bool }.
Definition symbol_eqb (a b : symbol) : bool := text_eqb (sy_name a) (sy_name b) && Bool.eqb (sy_dagger a) (sy_dagger b).
Definition word := list symbol.
Fixpoint word_eqb (a b : word) : bool :=
  match a, b with
  | [], [] => true
  | x :: a', y :: b' => symbol_eqb x y && word_eqb a' b'
  | _, _ => false
  end.
(** sums of products with integer coefficients *)
Definition poly := list (Z * word).
Definition padd (p q : poly) : poly := p ++ q.
Definition pneg (p : poly) : poly := map (fun m => (- fst m, snd m)%Z) p.
Definition pmul (p q : poly) : poly := flat_map (fun m => map (fun m' => (fst m * fst m', snd m ++ snd m')%Z) q) p.
(** like terms are collected, terms with coefficient zero dropped *)
Fixpoint add_monomial (m : Z * word) (p : poly) : poly :=
  match p with
  | [] => [m]
  | m' :: p' => if word_eqb (snd m) (snd m') then ((fst m + fst m')%Z, snd m') :: p' else m' :: add_monomial m p'
  end.
Definition collected (p : poly) : poly :=
  filter (fun m => negb (fst m =? 0)%Z) (fold_left (fun acc m => add_monomial m acc) p []).

(** SymPy's Commutator objects; doit().expand() multiplies out (SymPy is trusted here; the order of the summands is arbitrary,
    see [order] below) *)
Inductive expr : Set := Poly (p : poly) | Commutator (a b : expr).
Fixpoint multiplied (e : expr) : poly :=
  match e with
  | Poly p => p
  | Commutator a b => padd (pmul (multiplied a) (multiplied b)) (pneg (pmul (multiplied b) (multiplied a)))
  end.
Definition doit_expand (e : expr) : poly := collected (multiplied e).

(** phys_op_contraction.py:370-381; the loop returns in its first step, i = level - 1 *)
Fixpoint sympy_nested_commutator_recursive (level : nat) (a b : expr) : expr :=
  match level with
  | 0 => Commutator a b
  | S 0 => Commutator a b
  | S level' => Commutator (sympy_nested_commutator_recursive level' a b) b
  end.

(** the factors of a product as SymPy stores them: equal neighbours become powers *)
Fixpoint powers (w : word) : list (symbol * nat) :=
  match w with
  | [] => []
  | x :: w' =>
      match powers w' with
      | (y, n) :: r => if symbol_eqb x y then (y, S n) :: r else (x, 1) :: (y, n) :: r
      | [] => [(x, 1)]
      end
  end.
(** phys_op_contraction.py:424-433: 'X' + str(...)[1:] for adjoints, repeated exp times *)
Definition tensor_name (s : symbol) : list ascii := if sy_dagger s then "X"%char :: tl (sy_name s) else sy_name s.
Definition tensor_names (w : word) : list (list ascii) := flat_map (fun f => repeat (tensor_name (fst f)) (snd f)) (powers w).

(** name[0], int(name[1:]); int() of other strings than digits is not modelled *)
Definition parse_name (name : list ascii) : pyres (ascii * nat) :=
  match name with
  | [] => Raise IndexError
  | c :: n => if isdigit n then Ok (c, int_of n) else Raise ValueError
  end.
(** phys_op_contraction.py:435-444 *)
Fixpoint list_of_terms (hole particle : label) (start : nat) (names : list (list ascii)) : pyres (list term) :=
  match names with
  | [] => Ok []
  | name :: names' =>
      pybind (parse_name name) (fun cn =>
      let '(real_name, n_body) := cn in
      if Ascii.eqb real_name "T" || Ascii.eqb real_name "X" then
        pybind (cluster_operator n_body start (Ascii.eqb real_name "T") "T" (Q2Qc 1) hole particle SpinOrbital) (fun t =>
        pybind (list_of_terms hole particle (start + n_body) names') (fun ts => Ok (t :: ts)))
      else
        pybind (hamiltonian_operator n_body 0 SpinOrbital) (fun t =>
        pybind (list_of_terms hole particle start names') (fun ts => Ok (t :: ts))))
  end.

(** phys_op_contraction.py:414-417 *)
Definition level_name (c : ascii) (i : nat) : list ascii := c :: decimal i.
Definition sum_of_clusters (cluster_levels : list nat) : poly := map (fun i => (1%Z, [Sym (level_name "T" i) false])) cluster_levels.
Definition sum_of_adjoints (cluster_levels : list nat) : poly := map (fun i => (1%Z, [Sym (level_name "T" i) true])) cluster_levels.
Definition sum_of_hamiltonians : poly := [(1%Z, [Sym (level_name "H" 1) false]); (1%Z, [Sym (level_name "H" 2) false])].
Definition bch_generator (cluster_levels : list nat) (unitary : bool) : poly :=
  if unitary then padd (sum_of_clusters cluster_levels) (pneg (sum_of_adjoints cluster_levels)) else sum_of_clusters cluster_levels.
(** .args of the expanded sum: its summands if there are several, none if it is zero. (The arguments of a single product would be
    its factors; this case does not occur, see C48.) *)
Definition summands (order : poly -> poly) (p : poly) : pyres poly :=
  match p with
  | [] => Ok []
  | [_] => Raise NotImplementedErr
  | _ => Ok (order p)
  end.
Definition nested_monomials (order : poly -> poly) (nested_level : nat) (cluster_levels : list nat) (unitary : bool) : pyres poly :=
  summands order (doit_expand (sympy_nested_commutator_recursive nested_level (Poly sum_of_hamiltonians) (Poly (bch_generator cluster_levels unitary)))).

(** scale_factor * int(coeff) *)
Definition inv_fact (n : nat) : Qc := Qcinv (Qc_of_Z (Z.of_nat (fact n))).
(** phys_op_contraction.py:384-450; the k-th product is contracted in the k-th world. The checks of the types are left out. *)
Definition nested_commutator_cc (ws : nat -> world) (order : poly -> poly) (nested_level : nat) (cluster_levels : list nat)
  (max_cu max_n_open min_n_open : Z) (for_commutator expand_hole single_reference unitary : bool) (n_process : nat) (hermitian : bool)
  : pyres (list term) :=
  let hole := Lab false (if single_reference then Sc else Sh) in
  let particle := Lab false (if single_reference then Sv else Sp) in
  pybind (nested_monomials order nested_level cluster_levels unitary) (fun p =>
  pybind (pymap (fun km =>
      let '(k, (coeff, w)) := km in
      pybind (list_of_terms hole particle 0 (tensor_names w)) (fun terms =>
      contract_terms (ws k) terms max_cu max_n_open min_n_open (Qcmult (inv_fact nested_level) (Qc_of_Z coeff)) for_commutator expand_hole n_process hermitian))
    (positions p)) (fun outs =>
  combine_terms (concat outs))).
