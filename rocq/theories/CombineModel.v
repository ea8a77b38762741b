(** Model of dsrg_generator/phys_op_contraction.py:26-246 (contract_terms,
    canonicalize_contractions_batch, combine_terms, single_commutator,
    cluster_operators, linear_commutator) and of Term.hash_term and the comparison of
    terms (Term.py:231-290). Progress messages are left out. *)
From Coq Require Import Ascii String ZArith QArith Qcanon.
From Verif Require Import PyBase SpaceModel IndexModel IndicesModel ElemModel MacroModel CodeModel WickModel TermModel SymmetryModel.
Local Close Scope Q_scope.
Local Close Scope Qc_scope.
Local Open Scope nat_scope.
Local Notation length := List.length.

(** ** The text of a term *)
Definition text := list ascii.
Definition text_eqb (a b : text) : bool := if list_eq_dec ascii_dec a b then true else false.
Definition sp : ascii := " "%char.
(** Index.py:78-82 *)
Definition idx_text (i : idx) : text := label_char (fst i) :: "_"%char :: "{"%char :: decimal (snd i) ++ ["}"%char].
(** Indices.py:234-243: "{{ {} }}".format(" ".join(...)) *)
Definition indices_text (l : list idx) : text := "{"%char :: sp :: join [sp] (map idx_text l) ++ [sp; "}"%char].
(** IndicesPair.py:123-128 *)
Definition pair_text (u l : list idx) : text := "^"%char :: indices_text u ++ "_"%char :: indices_text l.
(** Tensor.py:105-117 and SQOperator.py:44-56 *)
Definition tensor_text (x : tensor) : text := list_ascii_of_string (tname x) ++ pair_text (tupper x) (tlower x).
Definition op_text (o : op) : text := "a"%char :: pair_text (cre o) (ann o).
(** Term.py:276-277 *)
Definition hash_term (t : term) : text := join [sp] (map tensor_text (ttensors t)) ++ sp :: op_text (tsq t).

(** ** Comparison of terms (Term.py:231-268) *)
Definition Qc_ord : pyord Qc :=
  let lt a b := if Qclt_le_dec a b then true else false in
  let le a b := if Qclt_le_dec b a then false else true in
  PyOrd (fun a b => if Qc_eq_dec a b then true else false) lt le (fun a b => lt b a) (fun a b => le b a).
Definition op_ord : pyord op := key_ord (fun o => (cre o, ann o)) pair_indices_ord.
(** comparison_tuple *)
Definition term_key (t : term) : op * (nat * (list tensor * (Qc * Qc))) :=
  (tsq t, (length (ttensors t), (ttensors t, (Qc_abs (tcoeff t), tcoeff t)))).
Definition term_ord : pyord term :=
  key_ord term_key (pair_ord op_ord (pair_ord nat_ord (pair_ord (list_ord tensor_ord) (pair_ord Qc_ord Qc_ord)))).
(** sorted(terms): comparing operators over different index classes raises TypeError
    (IndicesPair.py:82-91), and sorting two or more terms compares terms of different classes if
    there are any. *)
Definition same_types (l : list term) : bool :=
  match l with [] => true | t :: l' => forallb (fun t' => itype_eqb (ttype t) (ttype t')) l' end.
Definition sorted_terms (l : list term) : pyres (list term) :=
  if same_types l then Ok (sort_by (plt term_ord) l) else Raise TypeError.

(** ** combine_terms (phys_op_contraction.py:130-155) *)
(** the setter of coeff (Term.py:191-198) *)
Definition set_coeff (t : term) (c : Qc) : term :=
  MkTerm (ttype t) (ttensors t) (tsq t) c (tindices t) (tnext t) (tdiag t).
Definition Qc_sum (l : list Qc) : Qc := fold_left Qcplus l (Q2Qc 0).

(** Terms are objects; combine_terms gets a list of references and writes to the objects. *)
Definition ref := nat.
Definition heap := ref -> term.
Definition heap_set (h : heap) (r : ref) (t : term) : heap := fun r' => if r' =? r then t else h r'.

(** first loop: terms_dict and terms_to_coeff *)
Definition collect (h : heap) (terms : list ref) : list (text * ref) * list (text * list Qc) :=
  fold_left (fun dc r =>
      let name := hash_term (h r) in
      (dict_set text_eqb name r (fst dc), dict_append text_eqb name (tcoeff (h r)) (snd dc)))
    terms ([], []).
(** second loop *)
Fixpoint write_coeffs (h : heap) (coeffs : list (text * list Qc)) (items : list (text * ref)) : heap * list ref :=
  match items with
  | [] => (h, [])
  | (name, r) :: items' =>
      let t := set_coeff (h r) (Qc_sum (dict_list text_eqb name coeffs)) in
      let '(h', out) := write_coeffs (heap_set h r t) coeffs items' in
      (h', if is_void t then out else r :: out)
  end.
(** sorted of references compares the objects *)
Definition combine_terms_heap (h : heap) (terms : list ref) : pyres (heap * list ref) :=
  match terms with
  | [] => Ok (h, [])
  | _ =>
      let '(items, coeffs) := collect h terms in
      let '(h', out) := write_coeffs h coeffs items in
      if same_types (map h' out) then Ok (h', sort_by (fun a b => plt term_ord (h' a) (h' b)) out) else Raise TypeError
  end.

(** The same function on values: what is returned, for callers that drop their list of terms *)
Definition collect_values (terms : list term) : list (text * term) * list (text * list Qc) :=
  fold_left (fun dc t => (dict_set text_eqb (hash_term t) t (fst dc), dict_append text_eqb (hash_term t) (tcoeff t) (snd dc)))
    terms ([], []).
Definition combine_terms (terms : list term) : pyres (list term) :=
  let '(items, coeffs) := collect_values terms in
  sorted_terms (filter (fun t => negb (is_void t))
                       (map (fun it => set_coeff (snd it) (Qc_sum (dict_list text_eqb (fst it) coeffs))) items)).

(** ** contract_terms (phys_op_contraction.py:30-127) *)
(** What is decided outside the program: SymPy's canonicalize, the order of sets, the number of
    processors, and the order in which the workers of the k-th pool finish. *)
Record world : Type := World {
  w_sympy : sympy_oracle;
  w_pick : popper;
  w_pick_connected : list (list nat) -> popper;
  w_iter : list nat -> list nat;
  w_cpus : nat;
  w_sched : nat -> list term -> list term }.

(** the tensors handed over by the contraction drivers (Tensor.py:164-170, 199-206, 242-248) *)
Definition tensor_of (d : density) : tensor :=
  match kind d with
  | KCumulant => Ten TCumulant SpinOrbital "L" 2%Z (dupper d) (dlower d)
  | KHole => Ten THole SpinOrbital "C" 2%Z (dupper d) (dlower d)
  | KKronecker => Ten TKronecker SpinOrbital "K" (-1)%Z (dupper d) (dlower d)
  end.

(** phys_op_contraction.py:26-27; canonicalize_sympy is called with its default arguments
    simplify_core_cumulant=True, remove_active_amplitudes=True (Term.py:681) *)
Definition canonicalize_contraction (w : world) (tensors : list tensor) (coeff : Qc) (hermitian : bool) (e : entry) : pyres term :=
  let '(sign, densities, o) := e in
  pybind (make_term SpinOrbital (tensors ++ map tensor_of densities) o (Qcmult (Qc_of_Z sign) coeff)) (fun t =>
  canonicalize_sympy (w_sympy w) true true hermitian t).

(** phys_op_contraction.py:100-127; k counts the pools *)
Definition canonicalize_contractions_batch (w : world) (k n_process : nat) (contractions : list entry) (tensors : list tensor)
  (coeff : Qc) (simplify hermitian : bool) : pyres (list term) :=
  match contractions with
  | [] => Ok []
  | _ =>
      pybind (pymap (canonicalize_contraction w tensors coeff hermitian) contractions) (fun results =>
      let temp := if n_process =? 1 then results else w_sched w k results in
      if simplify then combine_terms temp else Ok temp)
  end.

(** phys_op_contraction.py:77-97, the loop over the batches *)
Fixpoint batch_loop (w : world) (k n_process batch_size : nat) (tensors : list tensor) (coeff : Qc) (hermitian : bool)
  (batches : list (list entry)) (count : nat) (contractions : list entry) (out : list term) : pyres (list term) :=
  match batches with
  | [] =>
      pybind (canonicalize_contractions_batch w k n_process contractions tensors coeff false hermitian) (fun r => Ok (out ++ r))
  | batch :: batches' =>
      let count := count + length batch in
      let contractions := contractions ++ batch in
      if count <? batch_size then batch_loop w k n_process batch_size tensors coeff hermitian batches' count contractions out
      else
        pybind (canonicalize_contractions_batch w k n_process contractions tensors coeff true hermitian) (fun r =>
        batch_loop w (S k) n_process batch_size tensors coeff hermitian batches' 0 [] (out ++ r))
  end.

Definition op_is_empty (o : op) : bool := match cre o, ann o with [], [] => true | _, _ => false end.

(** batch_size = 10000 * max(1, n_process // 2), line 79 *)
Definition batch_size_of (n_process : nat) : nat := 10000 * Nat.max 1 (n_process / 2).

(** phys_op_contraction.py:30-97; n_process >= 1. The drivers refuse operators over other indices than
    spin orbitals (sqop_contraction.py:82-83). The operator of a term with an empty operator carries
    the index class of that term. *)
Definition contract_terms (w : world) (terms : list term) (max_cu max_n_open min_n_open : Z) (scale_factor : Qc)
  (for_commutator expand_hole : bool) (n_process : nat) (hermitian : bool) : pyres (list term) :=
  match terms with
  | [] => Raise ValueError
  | t0 :: _ =>
      let n_process := Nat.min n_process (w_cpus w) in
      let coeff := fold_left (fun c t => Qcmult c (tcoeff t)) terms scale_factor in
      let tensors := flat_map ttensors terms in
      let to_contract := filter (fun t => negb (op_is_empty (tsq t))) terms in
      match to_contract with
      | [] => pybind (make_term (ttype t0) tensors (tsq t0) coeff) (fun t => Ok [t])
      | [t1] => pybind (make_term (ttype t1) tensors (tsq t1) coeff) (fun t => Ok [t])
      | _ =>
          if forallb (fun t => itype_eqb (ttype t) SpinOrbital) to_contract then
            pybind (compute_operator_contractions (w_pick w) (w_pick_connected w) (w_iter w) for_commutator (map tsq to_contract)
                      max_cu max_n_open min_n_open expand_hole) (fun batches =>
            pybind (batch_loop w 0 n_process (batch_size_of n_process) tensors coeff hermitian batches 0 [] []) combine_terms)
          else Raise NotImplementedErr
      end
  end.

(** ** Commutators (phys_op_contraction.py:158-246); the two contractions have a world each *)
Definition single_commutator (w1 w2 : world) (left right : term) (max_cu max_n_open min_n_open : Z) (scale_factor : Qc)
  (for_commutator expand_hole : bool) (n_process : nat) (hermitian : bool) : pyres (list term) :=
  if for_commutator && (op_is_empty (tsq left) || op_is_empty (tsq right)) then Ok []
  else
    pybind (contract_terms w1 [left; right] max_cu max_n_open min_n_open scale_factor for_commutator expand_hole n_process hermitian) (fun a =>
    pybind (contract_terms w2 [right; left] max_cu max_n_open min_n_open (Qcopp scale_factor) for_commutator expand_hole n_process hermitian) (fun b =>
    combine_terms (a ++ b))).

(** phys_op_contraction.py:184-201 *)
Definition cluster_operators (levels : list nat) (start : nat) (unitary single_reference : bool) : pyres (list term) :=
  let h := Lab false (if single_reference then Sc else Sh) in
  let p := Lab false (if single_reference then Sv else Sp) in
  pybind (pymap (fun k => cluster_operator k start true "T" (Q2Qc 1) h p SpinOrbital) levels) (fun amps =>
  if unitary then
    pybind (pymap (fun k => cluster_operator k start false "T" (Q2Qc (-1 # 1)) h p SpinOrbital) levels) (fun damps => Ok (amps ++ damps))
  else Ok amps).

(** phys_op_contraction.py:226-246; [sc left right] is single_commutator with the remaining arguments *)
Definition linear_commutator (sc : term -> term -> pyres (list term)) (left_terms right_terms : list term) : pyres (list term) :=
  pybind (pymap (fun left => pybind (pymap (fun right => sc left right) right_terms) (fun ls => Ok (concat ls))) left_terms) (fun lls =>
  combine_terms (concat lls)).
