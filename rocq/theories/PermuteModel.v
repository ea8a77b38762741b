(** Model of the permutation formats: dsrg_generator/Indices.py:279-335 and 446-490, SQOperator.py:89-158,
    IndicesPair.py:180-219, Term.py:410-462 and phys_op_contraction.py:453-468. A generator is the list of
    what it yields; an exception raised while it runs is an exception of the whole. *)
From Coq Require Import Ascii String ZArith QArith Qcanon.
From Verif Require Import PyBase SpaceModel IndexModel IndicesModel ElemModel MacroModel TermModel SymmetryModel CombineModel.
Local Close Scope Q_scope.
Local Close Scope Qc_scope.
Local Open Scope nat_scope.
Local Notation length := List.length.

(** Indices.py:279-287; the elements of a partition are Index objects *)
Definition valid_partition (self : list idx) (part : list (list idx)) : pyres unit :=
  if forallb (fun block => forallb (fun i => mem_idx i self) block) part then Ok tt else Raise ValueError.
(** Indices.py:309-316 (spin-adapted) and 446-455 (antisymmetric) *)
Definition exist_permute_format (t : itype) (self : list idx) (part : list (list idx)) : pyres bool :=
  pybind (valid_partition self part) (fun _ =>
  Ok (itype_antisymmetric t && (if length self =? 0 then false else 1 <? length part))).
(** Indices.py:303-306, 479-482: block number i repeated len(part[i]) times *)
Definition list_index (part : list (list idx)) : list Z :=
  flat_map (fun nb => repeat (Z.of_nat (fst nb)) (length (snd nb))) (enumerate 0 part).
(** Indices.py:289-307 *)
Definition n_multiset_permutation (t : itype) (self : list idx) (part : list (list idx)) : pyres nat :=
  pybind (valid_partition self part) (fun _ =>
  pybind (exist_permute_format t self part) (fun exist =>
  if negb exist then Ok 1 else Ok (length (multiset_permutations (list_index part))))).
(** Indices.py:486-490: the inner loop; next_available counts the indices taken from each block *)
Fixpoint pick (part : list (list idx)) (next_available : list nat) (perm : list Z) : pyres (list idx) :=
  match perm with
  | [] => Ok []
  | z :: perm' =>
      let i := Z.to_nat z in
      pybind (get_item part i) (fun block =>
      pybind (get_item next_available i) (fun k =>
      pybind (get_item block k) (fun x =>
      pybind (pick part (set_nth i (k + 1) next_available) perm') (fun rest => Ok (x :: rest)))))
  end.
Fixpoint same_spins (a b : list bool) : bool :=
  match a, b with
  | [], [] => true
  | x :: a', y :: b' => Bool.eqb x y && same_spins a' b'
  | _, _ => false
  end.
(** Indices.py:327-335 and 471-495, with lists of indices where the program yields their text *)
Definition permuted_indices (t : itype) (self : list idx) (part : list (list idx)) : pyres (list (Z * list idx)) :=
  pybind (valid_partition self part) (fun _ =>
  if itype_antisymmetric t then
    let spin := map idx_beta self in
    pybind (pymap (fun perm =>
      pybind (pick part (repeat 0 (length part)) perm) (fun list_of_indices =>
      if same_spins spin (map idx_beta list_of_indices) then
        pybind (make_typed t list_of_indices) (fun permuted =>
        pybind (count_permutations self permuted) (fun n => Ok [(sgn n, list_of_indices)]))
      else Ok []))
      (multiset_permutations (list_index part))) (fun r => Ok (concat r))
  else Ok [(1%Z, self)]).
(** ",".join(map(str, list_of_indices)) *)
Definition indices_str (l : list idx) : text := join [","%char] (map (fun i => list_ascii_of_string (index_name (fst i) (snd i))) l).
Definition ambit_permute_format (t : itype) (self : list idx) (part : list (list idx)) : pyres (list (Z * text)) :=
  pybind (permuted_indices t self part) (fun r => Ok (map (fun sl => (fst sl, indices_str (snd sl))) r)).

Definition str (s : string) : text := list_ascii_of_string s.
(** Indices.py:318-325 and 457-469 *)
Definition perm_text (part : list (list idx)) : text :=
  str "{\cal P} ( " ++ join (str " / ") (map (fun indices => join [sp] (map idx_text indices)) part) ++ str " )".
Definition latex_permute_format (t : itype) (self : list idx) (part : list (list idx)) : pyres (nat * text) :=
  pybind (valid_partition self part) (fun _ =>
  if itype_antisymmetric t then
    pybind (n_multiset_permutation t self part) (fun n_perm =>
    if n_perm =? 1 then Ok (1, []) else Ok (n_perm, perm_text part))
  else Ok (1, [])).

(** ** SQOperator.py *)
(** 89-96: "or" evaluates the second only if the first is False *)
Definition op_exist_permute_format (t : itype) (o : op) (p_cre p_ann : list (list idx)) : pyres bool :=
  pybind (exist_permute_format t (cre o) p_cre) (fun b => if b then Ok true else exist_permute_format t (ann o) p_ann).
(** 98-105 *)
Definition op_n_multiset_permutation (t : itype) (o : op) (p_cre p_ann : list (list idx)) : pyres nat :=
  pybind (n_multiset_permutation t (cre o) p_cre) (fun a =>
  pybind (n_multiset_permutation t (ann o) p_ann) (fun b => Ok (a * b))).
(** 107-119 *)
Definition op_latex_permute_format (t : itype) (o : op) (p_cre p_ann : list (list idx)) : pyres (nat * text * text) :=
  if op_is_empty o then Ok (1, [], [])
  else
    pybind (latex_permute_format t (cre o) p_cre) (fun c =>
    pybind (latex_permute_format t (ann o) p_ann) (fun a =>
    let whitespace := match snd c, snd a with [], _ => [] | _, [] => [] | _, _ => [sp] end in
    Ok (fst c * fst a, snd c ++ whitespace ++ snd a, op_text o))).
(** 121-144: (sign, first, second); "first" are the annihilators unless cre_first *)
Definition permute_indices (t : itype) (o : op) (p_cre p_ann : list (list idx)) (cre_first : bool) : pyres (list (Z * list idx * list idx)) :=
  if op_is_empty o then Ok [(1%Z, [], [])]
  else
    let '(first, second, p1, p2) := if cre_first then (cre o, ann o, p_cre, p_ann) else (ann o, cre o, p_ann, p_cre) in
    pybind (permuted_indices t first p1) (fun r1 =>
    match r1 with
    | [] => Ok []
    | _ => pybind (permuted_indices t second p2) (fun r2 =>
           Ok (flat_map (fun x => map (fun y => ((fst x * fst y)%Z, snd x, snd y)) r2) r1))
    end).
(** 146-158: in a generator "return 1, ''" ends the iteration, so nothing is yielded for an empty operator *)
Definition op_ambit_permute_format (t : itype) (o : op) (p_cre p_ann : list (list idx)) (cre_first : bool) : pyres (list (Z * text)) :=
  if op_is_empty o then Ok []
  else pybind (permute_indices t o p_cre p_ann cre_first) (fun r =>
       Ok (map (fun e => let '(s, a, b) := e in (s, str "[""" ++ indices_str a ++ str "," ++ indices_str b ++ str """]")) r)).

(** ** Term.py:410-462 *)
Definition label_sort_key (s : label) : nat := priority s.
Definition split_spaces (indices : list idx) : list (list idx) :=
  let cat := append_all label_eqb (map (fun i => (fst i, i)) indices) [] in
  map (fun space => dict_list label_eqb space cat) (sort_by (fun a b => label_sort_key a <? label_sort_key b) (map fst cat)).
Definition perm_part_atomic (ops : list idx) (tensor_sets : list (list idx)) : list (list idx) :=
  match ops with
  | [] => [[]]
  | [i] => [[i]]
  | _ =>
      let processed := filter (fun l => negb (length l =? 0))
                              (map (fun s => sort_by (plt idx_ord) (filter (fun i => mem_idx i ops) s)) tensor_sets) in
      sort_by (plt (list_ord idx_ord)) (flat_map split_spaces processed)
  end.
Definition perm_partition_open (t : term) : list (list idx) * list (list idx) :=
  let tensor_sets := map (fun x => dedup (tensor_indices x)) (ttensors t) in
  (perm_part_atomic (cre (tsq t)) tensor_sets, perm_part_atomic (ann (tsq t)) tensor_sets).

(** ** phys_op_contraction.py:453-468 *)
(** "".join([i.space for i in term.sq_op.indices(False)]): annihilators first *)
Definition space_str (t : term) : text := map (fun i => label_char (fst i)) (ann (tsq t) ++ cre (tsq t)).
Definition category (t : term) : pyres (text * text) :=
  let '(p_cre, p_ann) := perm_partition_open t in
  pybind (op_latex_permute_format (ttype t) (tsq t) p_cre p_ann) (fun r => Ok (space_str t, snd (fst r))).
Definition cat_eqb (a b : text * text) : bool := text_eqb (fst a) (fst b) && text_eqb (snd a) (snd b).
Definition inner := list (text * list term).
Definition categorize_contractions (terms : list term) : pyres (list (text * inner)) :=
  pybind (pymap (fun t => pybind (category t) (fun k => Ok (k, t))) terms) (fun events =>
  let space_perm_repr := append_all cat_eqb events [] in
  let out : list (text * inner) := fold_left (fun d k => dict_set text_eqb (fst k) [(snd k, [])] d) (map fst space_perm_repr) [] in
  fold_left (fun acc kv =>
    pybind acc (fun d =>
    pybind (sorted_terms (snd kv)) (fun s =>
    pybind (dict_item text_eqb (fst (fst kv)) d) (fun row =>
    Ok (dict_set text_eqb (fst (fst kv)) (dict_set text_eqb (snd (fst kv)) s row) d)))))
    space_perm_repr (Ok out)).

(** ** IndicesPair.py:180-219 *)
Definition alphas (l : list idx) : list idx := filter (fun i => negb (idx_beta i)) l.
Definition betas (l : list idx) : list idx := filter idx_beta l.
(** 203-207 and 212-217: the spin that is expected to be more frequent comes first *)
Definition spin_ordered (alpha_major : bool) (x : list idx) : list idx * list idx :=
  let na := length (alphas x) in
  let nb := length (betas x) in
  if (alpha_major && (na <? nb)) || (negb alpha_major && (nb <? na)) then (betas x, alphas x) else (alphas x, betas x).
Definition singlet_adaptation (t : itype) (upper lower : list idx) (replacement : repl) (alpha_major : bool)
  : pyres (list (Z * list idx * list idx)) :=
  if negb (n_beta upper =? n_beta lower) then Raise ValueError
  else
    pybind (canonicalize_pair t upper lower) (fun r =>
    let '(u, l, sign) := r in
    (* spin_count, alpha_indices: only for spin-integrated indices *)
    if negb (itype_eqb t SpinIntegrated) then Raise TypeError
    else
      pybind (replace replacement (fst (spin_ordered alpha_major u) ++ snd (spin_ordered alpha_major u))) (fun i_upper =>
      if negb (length upper =? length lower) then Raise ValueError (* n_body *)
      else if length lower <? 2 then
        pybind (replace replacement l) (fun i_lower => Ok [(sign, i_upper, i_lower)])
      else
        let '(indices_1, indices_2) := spin_ordered alpha_major l in
        pymap (fun ab =>
          let '(a, b) := ab in
          let sa := sgn (inversions Nat.ltb a) in
          let sb := sgn (inversions Nat.ltb b) in
          pybind (pybind (pymap (get_item indices_1) a) (replace replacement)) (fun l1 =>
          pybind (pybind (pymap (get_item indices_2) b) (replace replacement)) (fun l2 =>
          Ok ((sa * sb * sign)%Z, i_upper, l1 ++ l2))))
          (list_prod (permutations (seq 0 (length indices_1))) (permutations (seq 0 (length indices_2)))))).
