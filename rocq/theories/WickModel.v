(** Model of the contraction drivers of dsrg_generator/sqop_contraction.py
    (403-491, 612-662, 681-769, 819-887). *)
From Verif Require Import PyBase SpaceModel IndicesModel ElemModel CodeModel MacroModel.
From Coq Require Import ZArith.

(** ** legs: the strings f"u{i.name}" (true) and f"l{i.name}" (false) of sqop_contraction.py:760-762 *)
Definition leg : Set := (bool * idx)%type.
Definition leg_eqb (a b : leg) : bool := Bool.eqb (fst a) (fst b) && idx_eqb (snd a) (snd b).
Definition mem_leg (x : leg) (l : list leg) : bool := existsb (leg_eqb x) l.

(** Sets of legs are lists without repetitions, in order of insertion. *)
Definition leg_set (l : list leg) : list leg := fold_left (fun s x => if mem_leg x s then s else s ++ [x]) l [].

(** sqop_contraction.py:758-767 *)
Definition upper_legs (o : op) : list leg := map (pair true) (cre o).
Definition lower_legs (o : op) : list leg := map (pair false) (rev (ann o)).
Definition base_order_indices (ops : list op) : list leg := flat_map (fun o => upper_legs o ++ lower_legs o) ops.
(** {v: i for i, v in enumerate(base_order_indices)} *)
Definition base_order_map (ops : list op) : list (leg * nat) :=
  fold_left (fun m iv => dict_set leg_eqb (snd iv) (fst iv) m) (enumerate 0 (base_order_indices ops)) [].
Definition upper_indices_set (ops : list op) : list leg := leg_set (flat_map upper_legs ops).
Definition lower_indices_set (ops : list op) : list leg := leg_set (flat_map lower_legs ops).

(** sympy.combinatorics.Permutation(l).inversions(): ValueError unless l is a rearrangement of
    0..len(l)-1. *)
Definition sympy_inversions (l : list nat) : pyres nat :=
  if forallb (fun k => mem_nat k l) (seq 0 (length l)) then Ok (inversions Nat.ltb l) else Raise ValueError.

(** (-1) ** Permutation([base_order_map[i] for i in order]).inversions() *)
Definition order_sign (m : list (leg * nat)) (order : list leg) : pyres Z :=
  pybind (pymap (fun x => dict_item leg_eqb x m) order) (fun ps =>
  pybind (sympy_inversions ps) (fun n => Ok (sgn n))).

(** sorted(Index(i[1:]) for i in legs) *)
Definition sorted_indices (legs : list leg) : list idx := sort_by (plt idx_ord) (map snd legs).

(** ** densities after the expansion of the holes (Tensor.py:164, 199, 244) *)
Inductive dkind : Set := KCumulant | KHole | KKronecker.
Record density : Set := Den { kind : dkind; dupper : list idx; dlower : list idx }.
Definition density_of (e : econ) : density := Den (if hole e then KHole else KCumulant) (upper e) (lower e).
Definition is_hole (d : density) : bool := match kind d with KHole => true | _ => false end.
Definition is_cumulant (d : density) : bool := match kind d with KCumulant => true | _ => false end.

(** Tensor.py:230-238 HoleDensity.expand; a hole density has one upper and one lower index *)
Definition virtual_head (l : list idx) : bool :=
  match l with i :: _ => space_eqb (lsp (fst i)) Sv | [] => false end.
Definition expand_hole_density (d : density) : list density :=
  if virtual_head (dupper d) || virtual_head (dlower d) then [Den KKronecker (dupper d) (dlower d)]
  else [Den KKronecker (dupper d) (dlower d); Den KCumulant (dupper d) (dlower d)].

(** sqop_contraction.py:869-887 *)
Definition expand_hole_densities (l : list density) : list (Z * list density) :=
  let good := filter (fun d => negb (is_hole d)) l in
  let expanded := map expand_hole_density (filter is_hole l) in
  match expanded with
  | [] => [(1%Z, l)]
  | _ => map (fun e => (sgn (length (filter is_cumulant e)), good ++ e)) (iproduct expanded)
  end.

(** A contraction returned to the caller: (sign, list_of_densities, sq_op) *)
Definition entry : Set := (Z * list density * op)%type.

(** sqop_contraction.py:632-638 and 839-843: legs of one contraction in contracted order *)
Definition contracted_order (e : econ) : list leg :=
  if hole e then map (pair false) (firstn 1 (lower e)) ++ map (pair true) (firstn 1 (upper e))
  else map (pair true) (upper e) ++ map (pair false) (rev (lower e)).

(** sqop_contraction.py:641-660 and 847-866 *)
Definition finish_composite (contractions : list econ) (n_open : Z) (expand_hole : bool)
  (order_map : list (leg * nat)) (upper_set lower_set : list leg) : pyres (list entry) :=
  let current_order := flat_map contracted_order contractions in
  pybind (if (n_open =? 0)%Z then Ok (current_order, Op [] [])
          else
            pybind (make_so (sorted_indices (filter (fun x => negb (mem_leg x current_order)) upper_set))) (fun open_upper =>
            pybind (make_so (sorted_indices (filter (fun x => negb (mem_leg x current_order)) lower_set))) (fun open_lower =>
            Ok (current_order ++ map (pair true) open_upper ++ map (pair false) (rev open_lower), Op open_upper open_lower))))
    (fun r =>
  pybind (order_sign order_map (fst r)) (fun sign =>
  let densities := map density_of contractions in
  let sign_densities := if expand_hole then expand_hole_densities densities else [(1%Z, densities)] in
  Ok (map (fun sd => ((sign * fst sd)%Z, snd sd, snd r)) sign_densities))).

(** sqop_contraction.py:819-866; [contraction] is the set of chosen positions in iteration order *)
Definition process_composite_contractions (contraction : list nat) (elementary : list econ) (n_indices : Z)
  (expand_hole : bool) (order_map : list (leg * nat)) (upper_set lower_set : list leg) : pyres (list entry) :=
  pybind (pymap (get_item elementary) contraction) (fun contractions =>
  let n_open := fold_left (fun s e => (s + Z.of_nat (length (upper e)))%Z) contractions 0%Z in
  finish_composite contractions (n_indices - 2 * n_open) expand_hole order_map upper_set lower_set).

(** sqop_contraction.py:694-708, the un-contracted term *)
Definition uncontracted (ops : list op) : pyres (list entry) :=
  pybind (make_so (sorted_indices (upper_indices_set ops))) (fun u =>
  pybind (make_so (sorted_indices (lower_indices_set ops))) (fun l =>
  pybind (order_sign (base_order_map ops) (map (pair true) u ++ map (pair false) (rev l))) (fun sign =>
  Ok [(sign, [], Op u l)]))).

(** sqop_contraction.py:681-727 (n_process = 1): the yielded batches. [pick] decides set.pop(),
    [iter] is the iteration order of the yielded sets. *)
Definition compute_general (pick : popper) (iter : list nat -> list nat) (ops : list op) (max_cu max_n_open min_n_open : Z)
  (expand_hole : bool) : pyres (list (list entry)) :=
  let max_cu_allowed := check_max_cu ops max_cu in
  let order_map := base_order_map ops in
  let n_indices := Z.of_nat (length order_map) in
  pybind (if ((min_n_open <=? n_indices) && (n_indices <=? max_n_open))%Z
          then pybind (uncontracted ops) (fun b => Ok [b]) else Ok []) (fun first =>
  let n_con := (n_indices - max_n_open, n_indices - min_n_open)%Z in
  pybind (elementary_list ops max_cu_allowed) (fun elementary =>
  let compatible := compatible_list elementary in
  let n_ele_con := length elementary in
  pybind (composite_backtrack (S n_ele_con) pick [] (seq 0 n_ele_con) [] compatible 0 elementary n_con) (fun r =>
  pybind (pymap (fun con => process_composite_contractions (iter con) elementary n_indices expand_hole order_map
                              (upper_indices_set ops) (lower_indices_set ops)) (fst (fst r))) (fun batches =>
  Ok (first ++ batches))))).

(** sqop_contraction.py:612-662 *)
Definition process_composite_categorized (pick : popper) (com_cat : list (list nat)) (E : ecc econ)
  (compatible : list (nat * list nat)) (upper_set lower_set : list leg) (order_map : list (leg * nat))
  (n_indices : Z) (expand_hole : bool) : pyres (list entry) :=
  let n_open := (n_indices - Z.of_nat (length (concat com_cat)))%Z in
  pybind (composite_contractions pick E (counter_of com_cat) compatible) (fun r =>
  pybind (pymap (fun coded_cons =>
            pybind (pymap (decode E) coded_cons) (fun contractions =>
            finish_composite contractions n_open expand_hole order_map upper_set lower_set)) (fst r))
    (fun out => Ok (concat out))).

(** sqop_contraction.py:425-475 (n_process = 1); [pick c] decides set.pop() while combination [c] is processed *)
Definition compute_connected (pick : list (list nat) -> popper) (ops : list op) (max_cu max_n_open min_n_open : Z)
  (expand_hole : bool) : pyres (list (list entry)) :=
  let max_cu_allowed := check_max_cu ops max_cu in
  let order_map := base_order_map ops in
  let n_indices := Z.of_nat (length order_map) in
  let n_con := (n_indices - max_n_open, n_indices - min_n_open)%Z in
  pybind (elementary_categorized ops max_cu_allowed) (fun elementary =>
  match elementary with
  | [] => Ok []
  | _ =>
      pybind (make_ecc elementary (elementary_sequence elementary)) (fun E =>
      pybind (compatible_categorized E) (fun compatible =>
      pybind (connected_combinations (categories E) n_con (map (fun o => Z.of_nat (length (cre o))) ops)
                (map (fun o => Z.of_nat (length (ann o))) ops)) (fun combinations =>
      pymap (fun com_cat => process_composite_categorized (pick com_cat) com_cat E compatible (upper_indices_set ops)
                              (lower_indices_set ops) order_map n_indices expand_hole) combinations)))
  end).

(** sqop_contraction.py:403-422 *)
Definition compute_operator_contractions (pick : popper) (pick_connected : list (list nat) -> popper)
  (iter : list nat -> list nat) (for_commutator : bool) (ops : list op) (max_cu max_n_open min_n_open : Z)
  (expand_hole : bool) : pyres (list (list entry)) :=
  if for_commutator then compute_connected pick_connected ops max_cu max_n_open min_n_open expand_hole
  else compute_general pick iter ops max_cu max_n_open min_n_open expand_hole.
