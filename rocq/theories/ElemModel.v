(** Model of the elementary contractions of dsrg_generator/sqop_contraction.py
    (lines 62-261). *)
From Verif Require Import PyBase SpaceModel IndicesModel PartitionModel.
From Coq Require Import ZArith.

(** A SecondQuantizedOperator with spin-orbital indices (SQOperator.py:5-40):
    creators and annihilators. The index objects of different operators are taken to be
    different objects, so the shared iteration cursor (property C06) plays no role. *)
Record op : Set := Op { cre : list idx; ann : list idx }.

(** An elementary contraction: HoleDensity (Tensor.py:199) or Cumulant (Tensor.py:164). *)
Record econ : Set := Con { hole : bool; upper : list idx; lower : list idx }.

(** defaultdict(list): d[k].append(v), d[k] for reading, d.values(). Keys are tuples of ints. *)
Fixpoint dict_append {K V} (eqk : K -> K -> bool) (k : K) (v : V) (d : list (K * list V)) : list (K * list V) :=
  match d with
  | [] => [(k, [v])]
  | (k', vs) :: d' => if eqk k k' then (k', vs ++ [v]) :: d' else (k', vs) :: dict_append eqk k v d'
  end.
Definition append_all {K V} (eqk : K -> K -> bool) (events : list (K * V)) (d : list (K * list V)) : list (K * list V) :=
  fold_left (fun d kv => dict_append eqk (fst kv) (snd kv) d) events d.
Definition dict_list {K V} (eqk : K -> K -> bool) (k : K) (d : list (K * list V)) : list V :=
  match dict_get eqk k d with Some vs => vs | None => [] end.

Fixpoint key_eqb (a b : list nat) : bool :=
  match a, b with
  | [], [] => true
  | x :: a', y :: b' => (x =? y) && key_eqb a' b'
  | _, _ => false
  end.

Definition space_is (s : space) (i : idx) : bool := label_eqb (fst i) (Lab false s).
(** [i.space in ["c", "v"]] *)
Definition core_or_virtual (i : idx) : bool := space_is Sc i || space_is Sv i.

(** sqop_contraction.py:100-114; [count_index_space(["c","v"])] is the number of c plus the
    number of v indices (Indices.py:249-261). *)
Definition count_space (s : space) (l : list idx) : Z := Z.of_nat (length (filter (space_is s) l)).
Definition check_max_cu (ops : list op) (max_cu : Z) : Z :=
  let n_valid f := fold_right Z.add 0%Z
    (map (fun o => (Z.of_nat (length (f o)) - (count_space Sc (f o) + count_space Sv (f o)))%Z) ops) in
  let max_cu_allowed := Z.max 1 (Z.min (n_valid cre) (n_valid ann)) in
  if ((max_cu <? 1) || (max_cu_allowed <? max_cu))%Z then max_cu_allowed else max_cu.

(** enumerate(l, start) *)
Fixpoint enumerate {A} (start : nat) (l : list A) : list (nat * A) :=
  match l with [] => [] | x :: l' => (start, x) :: enumerate (S start) l' end.

(** [len(space_relation[a.space] & space_relation[b.space]) != 0] *)
Definition spaces_overlap (a b : idx) : bool :=
  negb (length (inter_label (relation (fst a)) (relation (fst b))) =? 0).

(** sqop_contraction.py:129-136 and 139-146: the appended (key, contraction) pairs, in order *)
Definition pairwise_cumulants (i j : nat) (left right : op) : list (list nat * econ) :=
  flat_map (fun u =>
    if space_is Sv u then [] else
    flat_map (fun l =>
      if space_is Sv l then [] else
      if spaces_overlap u l then [([i; j], Con false [u] [l])] else []) (ann right)) (cre left).
Definition pairwise_holes (i j : nat) (left right : op) : list (list nat * econ) :=
  flat_map (fun l =>
    if space_is Sc l then [] else
    flat_map (fun u =>
      if space_is Sc u then [] else
      if spaces_overlap u l then [([j; i], Con true [u] [l])] else []) (cre right)) (ann left).

(** sqop_contraction.py:125-126: for i, left in enumerate(ops): for j, right in enumerate(ops[i+1:], i+1) *)
Fixpoint pairwise_events (i : nat) (ops : list op) : list (list nat * econ) :=
  match ops with
  | [] => []
  | o :: rest =>
      flat_map (fun jr => pairwise_cumulants i (fst jr) o (snd jr) ++ pairwise_holes i (fst jr) o (snd jr))
               (enumerate (S i) rest)
      ++ pairwise_events (S i) rest
  end.
(** sqop_contraction.py:117-148 *)
Definition elementary_pairwise (ops : list op) : list (list nat * list econ) :=
  append_all key_eqb (pairwise_events 0 ops) [].

(** sympy.utilities.iterables.multiset_permutations: every distinct ordering once, in
    increasing lexicographic order. *)
Fixpoint z_insert (x : Z) (l : list Z) : list Z :=
  match l with [] => [x] | y :: l' => if (x <=? y)%Z then x :: l else y :: z_insert x l' end.
Definition z_sort (l : list Z) : list Z := fold_right z_insert [] l.
Fixpoint remove_one (x : Z) (l : list Z) : list Z :=
  match l with [] => [] | y :: l' => if (x =? y)%Z then l' else y :: remove_one x l' end.
Fixpoint multiset_perms (fuel : nat) (l : list Z) : list (list Z) :=
  match fuel with
  | 0 => [[]]
  | S fuel' =>
      match l with
      | [] => [[]]
      | _ => flat_map (fun k => map (cons k) (multiset_perms fuel' (remove_one k l))) (nodup Z.eq_dec (z_sort l))
      end
  end.
Definition multiset_permutations (l : list Z) : list (list Z) := multiset_perms (length l) l.

(** sqop_contraction.py:237-238: {n_leg: list(combinations(range(size), n_leg)) for 1 <= n_leg <= min(max_cu, size)} *)
Definition sub_index (max_cu size : nat) (n_leg : Z) : pyres (list (list nat)) :=
  if ((1 <=? n_leg) && (n_leg <=? Z.of_nat (min max_cu size)))%Z
  then Ok (combinations (seq 0 size) (Z.to_nat n_leg)) else Raise KeyError.

Definition get_item {A} (l : list A) (k : nat) : pyres A :=
  match nth_error l k with Some x => Ok x | None => Raise IndexError end.

(** sqop_contraction.py:250-259, for one (leg_part, macro_ops) *)
Definition half_micro (pure : list (list idx)) (max_cu : nat) (leg_part : list Z) (macro_ops : list nat)
  : pyres (list (list (nat * nat))) :=
  pybind (pymap (fun p => pybind (get_item pure (fst p)) (fun o => Ok (Z.of_nat (length o) <? snd p)%Z))
                (combine macro_ops leg_part)) (fun too_small =>
  if existsb (fun b => b) too_small then Ok []
  else
    pybind (pymap (fun p => pybind (get_item pure (fst p)) (fun o => sub_index max_cu (length o) (snd p)))
                  (combine macro_ops leg_part)) (fun subs =>
    Ok (map (fun micro_ops_pro =>
               flat_map (fun q => map (pair (fst q)) (snd q)) (combine macro_ops micro_ops_pro))
            (iproduct subs)))).

(** sqop_contraction.py:240-259 for one unique partition: pairs (cu_level, choice) *)
Definition half_partition (pure : list (list idx)) (max_cu : nat) (part : list Z)
  : pyres (list (nat * list (nat * nat))) :=
  pybind (pymap (fun leg_part =>
            pybind (pymap (half_micro pure max_cu leg_part) (combinations (seq 0 (length pure)) (length part)))
                   (fun r => Ok (concat r)))
          (multiset_permutations part))
    (fun r => Ok (map (pair (Z.to_nat (fold_right Z.add 0%Z part))) (concat r))).

(** range(2, max_cu + 1) *)
Definition cu_levels (max_cu : nat) : list nat := seq 2 (max_cu - 1).

(** sqop_contraction.py:194-261; results is a dictionary {level: choices} *)
Definition half_cumulant (pure : list (list idx)) (max_cu : nat)
  : pyres (list (nat * list (list (nat * nat)))) :=
  pybind (pymap (fun k => pybind (integer_partition k) (fun ps =>
            Ok (filter (fun part => length part <=? length pure) ps))) (cu_levels max_cu)) (fun unique_partitions =>
  pybind (pymap (half_partition pure max_cu) (concat unique_partitions)) (fun events =>
  Ok (append_all Nat.eqb (concat events) (map (fun k => (k, [])) (cu_levels max_cu))))).

(** d[k] on a plain dictionary *)
Definition dict_item {K V} (eqk : K -> K -> bool) (k : K) (d : list (K * V)) : pyres V :=
  match dict_get eqk k d with Some v => Ok v | None => Raise KeyError end.

(** [l.count(l[0]) == len(l)] *)
Definition all_same (l : list nat) : pyres bool :=
  match l with
  | [] => Raise IndexError
  | x :: _ => Ok (length (filter (Nat.eqb x) l) =? length l)
  end.

(** [pure_list[i_macro][i_micro]] *)
Definition leg_index (pure : list (list idx)) (leg : nat * nat) : pyres idx :=
  pybind (get_item pure (fst leg)) (fun o => get_item o (snd leg)).

(** IndicesSpinOrbital(l) (Indices.py:109-113, 497-506) on canonical indices *)
Definition make_so (l : list idx) : pyres (list idx) :=
  if nodup_idx l then (if existsb idx_beta l then Raise ValueError else Ok l) else Raise ValueError.
(** sqop_contraction.py:173-189, one pair (cre, ann) of choices; the Cumulant built in line 189
    checks its indices *)
Definition cumulant_event (cre_list ann_list : list (list idx)) (c a : list (nat * nat))
  : pyres (list (list nat * econ)) :=
  let i_cre := map fst c in
  let i_ann := map fst a in
  pybind (all_same i_cre) (fun same_cre =>
  pybind (pymap (leg_index cre_list) c) (fun cre_indices =>
  pybind (all_same i_ann) (fun same_ann =>
  if same_cre && same_ann && (hd 0 i_cre =? hd 0 i_ann) then Ok []
  else pybind (pymap (leg_index ann_list) a) (fun ann_indices =>
       pybind (make_so cre_indices) (fun u =>
       pybind (make_so ann_indices) (fun l =>
       Ok [(i_cre ++ i_ann, Con false u l)])))))).

(** sqop_contraction.py:160-191 *)
Definition cumulant_events (ops : list op) (max_cu : nat) : pyres (list (list nat * econ)) :=
  let cre_list := map (fun o => filter (fun i => negb (core_or_virtual i)) (cre o)) ops in
  let ann_list := map (fun o => filter (fun i => negb (core_or_virtual i)) (ann o)) ops in
  pybind (half_cumulant ann_list max_cu) (fun ann_results =>
  pybind (half_cumulant cre_list max_cu) (fun cre_results =>
  pybind (pymap (fun k =>
            pybind (dict_item Nat.eqb k cre_results) (fun cs =>
            pybind (pymap (fun c =>
                      pybind (dict_item Nat.eqb k ann_results) (fun as_ =>
                      pybind (pymap (cumulant_event cre_list ann_list c) as_) (fun r => Ok (concat r)))) cs)
                   (fun r => Ok (concat r)))) (cu_levels max_cu))
         (fun r => Ok (concat r)))).
Definition elementary_cumulant (ops : list op) (max_cu : nat) : pyres (list (list nat * list econ)) :=
  pybind (cumulant_events ops max_cu) (fun ev => Ok (append_all key_eqb ev [])).

(** d.update(other) *)
Definition dict_update {K V} (eqk : K -> K -> bool) (d other : list (K * V)) : list (K * V) :=
  fold_left (fun d kv => dict_set eqk (fst kv) (snd kv) d) other d.

(** sqop_contraction.py:72-97 (the type checks of lines 79-88 are the types here) *)
Definition elementary_categorized (ops : list op) (max_cu : Z) : pyres (list (list nat * list econ)) :=
  let max_cu_allowed := check_max_cu ops max_cu in
  let out := elementary_pairwise ops in
  if (max_cu_allowed <? 2)%Z then Ok out
  else pybind (elementary_cumulant ops (Z.to_nat max_cu_allowed)) (fun cu => Ok (dict_update key_eqb out cu)).

(** sqop_contraction.py:62-69 *)
Definition elementary_list (ops : list op) (max_cu : Z) : pyres (list econ) :=
  pybind (elementary_categorized ops max_cu) (fun d => Ok (concat (map snd d))).
