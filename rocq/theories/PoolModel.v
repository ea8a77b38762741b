(** The contraction drivers with several processes (sqop_contraction.py:425-492, 665-741). *)
From Coq Require Import ZArith.
From Verif Require Import PyBase SpaceModel IndicesModel ElemModel CodeModel MacroModel WickModel.
Local Open Scope nat_scope.

(** sympy.binomial of a number and an integer: 0 for negative integers *)
Fixpoint pascal (n k : nat) : nat :=
  match n, k with
  | _, 0 => 1
  | 0, S _ => 0
  | S n', S k' => pascal n' k' + pascal n' k
  end.
Definition sympy_binomial (n : nat) (k : Z) : nat := if (k <? 0)%Z then 0 else pascal n (Z.to_nat k).
(** range(from, to) *)
Definition py_range (from to : Z) : list Z := map (fun k => (from + Z.of_nat k)%Z) (seq 0 (Z.to_nat (to - from))).
(** sqop_contraction.py:675-678 *)
Definition rough_size (n_upper n_lower : nat) (max_con min_con : Z) : nat :=
  fold_left (fun s i => s + sympy_binomial n_upper i * sympy_binomial n_lower i) (py_range (min_con / 2) (max_con / 2 + 1)) 0.
(** sqop_contraction.py:665-679; int(math.sqrt(r / n)) is the integer square root of the quotient (exact arithmetic) *)
Definition estimate_batch_size (n_upper n_lower : nat) (max_con min_con : Z) (n_process : nat) : nat :=
  Nat.sqrt (rough_size n_upper n_lower max_con min_con / n_process) + 1.

(** multiprocessing.Pool(..).imap_unordered(f, tasks, chunksize): chunks of consecutive tasks, finished in the order [order] of their numbers;
    the results of a chunk stay together. CPython raises ValueError for chunk sizes below 1. *)
Fixpoint chunks {X} (fuel size : nat) (l : list X) : list (list X) :=
  match fuel, l with
  | _, [] => []
  | 0, _ => []
  | S fuel', _ => firstn size l :: chunks fuel' size (skipn size l)
  end.
Definition imap_unordered {X Y} (order : nat -> list nat) (f : X -> pyres Y) (tasks : list X) (chunksize : Z) : pyres (list Y) :=
  if (chunksize <? 1)%Z then Raise ValueError
  else
    let cs := chunks (length tasks) (Z.to_nat chunksize) tasks in
    pybind (pymap (get_item cs) (order (length cs))) (fun done => pymap f (concat done)).

(** sqop_contraction.py:681-741 with n_process > 1 *)
Definition compute_general_pool (order : nat -> list nat) (cpus n_process : nat) (batch_size : Z) (pick : popper) (iter : list nat -> list nat) (ops : list op)
  (max_cu max_n_open min_n_open : Z) (expand_hole : bool) : pyres (list (list entry)) :=
  let max_cu_allowed := check_max_cu ops max_cu in
  let order_map := base_order_map ops in
  let n_indices := Z.of_nat (length order_map) in
  pybind (if ((min_n_open <=? n_indices) && (n_indices <=? max_n_open))%Z
          then pybind (uncontracted ops) (fun b => Ok [b]) else Ok []) (fun first =>
  let n_con := (n_indices - max_n_open, n_indices - min_n_open)%Z in
  pybind (elementary_list ops max_cu_allowed) (fun elementary =>
  let compatible := compatible_list elementary in
  let n_ele_con := length elementary in
  pybind (composite_backtrack (S n_ele_con) pick [] (seq 0 n_ele_con) [] compatible 0 elementary n_con) (fun r =>
  let composite := map iter (fst (fst r)) in
  let n_process := Nat.min n_process cpus in
  let batch_size := if (batch_size =? 0)%Z
                    then Z.of_nat (estimate_batch_size (length (upper_indices_set ops)) (length (lower_indices_set ops)) (snd n_con) (fst n_con) n_process)
                    else batch_size in
  pybind (imap_unordered order (fun con => process_composite_contractions con elementary n_indices expand_hole order_map
                                             (upper_indices_set ops) (lower_indices_set ops)) composite batch_size) (fun batches =>
  Ok (first ++ batches))))).

(** sqop_contraction.py:425-492 with n_process > 1; [pick c] decides set.pop() in the process that works on the combination [c];
    int(math.sqrt(len) / n) is the quotient of the integer square root (exact arithmetic) *)
Definition compute_connected_pool (order : nat -> list nat) (cpus n_process : nat) (batch_size : Z) (pick : list (list nat) -> popper) (ops : list op)
  (max_cu max_n_open min_n_open : Z) (expand_hole : bool) : pyres (list (list entry)) :=
  let max_cu_allowed := check_max_cu ops max_cu in
  let order_map := base_order_map ops in
  let n_indices := Z.of_nat (length order_map) in
  let n_con := (n_indices - max_n_open, n_indices - min_n_open)%Z in
  pybind (elementary_categorized ops max_cu_allowed) (fun elementary =>
  match elementary with
  | [] => Ok []
  | _ =>
      pybind (make_ecc elementary (elementary_sequence elementary)) (fun E =>
      pybind (compatible_categorized E) (fun compatible =>
      pybind (connected_combinations (categories E) n_con (map (fun o => Z.of_nat (length (cre o))) ops)
                (map (fun o => Z.of_nat (length (ann o))) ops)) (fun combinations =>
      let n_process := Nat.min n_process cpus in
      let batch_size := if (batch_size =? 0)%Z then Z.of_nat (Nat.sqrt (length combinations) / n_process + 1) else batch_size in
      imap_unordered order (fun com_cat => process_composite_categorized (pick com_cat) com_cat E compatible (upper_indices_set ops)
                              (lower_indices_set ops) order_map n_indices expand_hole) combinations batch_size)))
  end).

(** sqop_contraction.py:403-422 for any number of processes from 1 *)
Definition compute_operator_contractions_pool (order : nat -> list nat) (cpus n_process : nat) (batch_size : Z) (pick : popper)
  (pick_connected : list (list nat) -> popper) (iter : list nat -> list nat) (for_commutator : bool) (ops : list op)
  (max_cu max_n_open min_n_open : Z) (expand_hole : bool) : pyres (list (list entry)) :=
  if n_process =? 1 then compute_operator_contractions pick pick_connected iter for_commutator ops max_cu max_n_open min_n_open expand_hole
  else if for_commutator then compute_connected_pool order cpus n_process batch_size pick_connected ops max_cu max_n_open min_n_open expand_hole
  else compute_general_pool order cpus n_process batch_size pick iter ops max_cu max_n_open min_n_open expand_hole.
