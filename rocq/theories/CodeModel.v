(** Model of ElementaryContractionCategorized (dsrg_generator/sqop_contraction.py:264-400) and
    the two leg-level backtracking generators (352-400, 787-816). *)
From Verif Require Import PyBase SpaceModel IndicesModel ElemModel.
From Coq Require Import ZArith.

(** ** codes *)

(** itertools.accumulate *)
Fixpoint accumulate_from (s : nat) (l : list nat) : list nat :=
  match l with [] => [] | x :: l' => (s + x) :: accumulate_from (s + x) l' end.
Definition accumulate (l : list nat) : list nat := accumulate_from 0 l.

(** bisect.bisect_right on a sorted list: the insertion point after all entries <= x *)
Definition bisect_right (l : list nat) (x : nat) : nat := length (filter (fun a => a <=? x) l).

Record ecc (V : Type) : Type := Ecc {
  ele_con : list (list nat * list V);
  categories : list (list nat);
  i_start : list nat;
  i_start_map : list (list nat * nat) }.
Arguments Ecc {V}. Arguments ele_con {V}. Arguments categories {V}. Arguments i_start {V}. Arguments i_start_map {V}.

Section Codes.
  Context {V : Type}.

  Definition n_in (d : list (list nat * list V)) (c : list nat) : pyres nat :=
    pybind (dict_item key_eqb c d) (fun vs => Ok (length vs)).

  (** sqop_contraction.py:265-276 *)
  Definition make_ecc (d : list (list nat * list V)) (seq_ : list (list nat)) : pyres (ecc V) :=
    pybind (pymap (n_in d) (removelast seq_)) (fun lens =>
    let starts := 0 :: accumulate lens in
    Ok (Ecc d seq_ starts (fold_left (fun m p => dict_set key_eqb (fst p) (snd p) m) (combine seq_ starts) []))).

  (** sqop_contraction.py:286-289; the attribute [categories] is only read *)
  Definition ecc_size (E : ecc V) : pyres nat :=
    match categories E with
    | [] => Ok 0
    | _ => pybind (n_in (ele_con E) (last (categories E) [])) (fun n => Ok (last (i_start E) 0 + n))
    end.

  (** sqop_contraction.py:291-298 *)
  Definition encode (E : ecc V) (category : list nat) (shift : nat) : pyres nat :=
    pybind (dict_item key_eqb category (i_start_map E)) (fun s => Ok (s + shift)).

  (** sqop_contraction.py:300-307; bisect_right is at least 1 because i_start[0] = 0 *)
  Definition find_category (E : ecc V) (code : nat) : pyres (list nat) :=
    get_item (categories E) (bisect_right (i_start E) code - 1).

  (** sqop_contraction.py:309-311 *)
  Definition category_range (E : ecc V) (category : list nat) : pyres (list nat) :=
    pybind (dict_item key_eqb category (i_start_map E)) (fun s =>
    pybind (n_in (ele_con E) category) (fun n => Ok (seq s n))).

  (** sqop_contraction.py:313-322 *)
  Definition decode (E : ecc V) (code : nat) : pyres V :=
    let i := bisect_right (i_start E) code - 1 in
    pybind (get_item (categories E) i) (fun c =>
    pybind (get_item (i_start E) i) (fun s =>
    pybind (dict_item key_eqb c (ele_con E)) (fun vs => get_item vs (code - s)))).
End Codes.

(** ** compatibility *)

(** Tensor.any_overlapped_indices (Tensor.py:136-144), Indices.any_overlap (Indices.py:190-194) *)
Definition any_overlap (a b : list idx) : bool := existsb (fun i => mem_idx i b) a.
Definition any_overlapped_indices (a b : econ) : bool :=
  any_overlap (upper a) (upper b) || any_overlap (lower a) (lower b).

(** A set of codes is a list without repetitions. *)
Definition mem_nat (x : nat) (s : list nat) : bool := existsb (Nat.eqb x) s.
Definition set_add (x : nat) (s : list nat) : list nat := if mem_nat x s then s else s ++ [x].

(** [d[k].add(v)] on a defaultdict(set) *)
Fixpoint dict_set_add (k v : nat) (d : list (nat * list nat)) : list (nat * list nat) :=
  match d with
  | [] => [(k, [v])]
  | (k', vs) :: d' => if k =? k' then (k', set_add v vs) :: d' else (k', vs) :: dict_set_add k v d'
  end.
(** [out[i].add(j); out[j].add(i)] *)
Definition add_compatible (d : list (nat * list nat)) (ij : nat * nat) : list (nat * list nat) :=
  dict_set_add (snd ij) (fst ij) (dict_set_add (fst ij) (snd ij) d).
(** [compatible[k]]: a missing key reads as the empty set (and gets stored, without effect). *)
Definition compatible_with (d : list (nat * list nat)) (k : nat) : list nat := dict_list Nat.eqb k d.

(** sqop_contraction.py:334-346: the pairs (i_encode, j_encode) in order *)
Definition compatible_row (E : ecc econ) (i_encode : nat) (ele_i : econ) (c2 : list nat) : pyres (list (nat * nat)) :=
  pybind (dict_item key_eqb c2 (ele_con E)) (fun es =>
  pybind (pymap (fun je => if any_overlapped_indices ele_i (snd je) then Ok []
                           else pybind (encode E c2 (fst je)) (fun j_encode => Ok [(i_encode, j_encode)]))
                (enumerate 0 es)) (fun r => Ok (concat r))).
Fixpoint compatible_pairs (E : ecc econ) (cats : list (list nat)) : pyres (list (nat * nat)) :=
  match cats with
  | [] => Ok []
  | c1 :: rest =>
      pybind (dict_item key_eqb c1 (ele_con E)) (fun es =>
      pybind (pymap (fun ie => pybind (encode E c1 (fst ie)) (fun i_encode =>
                pybind (pymap (compatible_row E i_encode (snd ie)) (c1 :: rest)) (fun r => Ok (concat r))))
              (enumerate 0 es)) (fun r =>
      pybind (compatible_pairs E rest) (fun r' => Ok (concat r ++ r'))))
  end.
(** sqop_contraction.py:324-347 with the default argument (all categories) *)
Definition compatible_categorized (E : ecc econ) : pyres (list (nat * list nat)) :=
  pybind (compatible_pairs E (categories E)) (fun ps => Ok (fold_left add_compatible ps [])).

(** sqop_contraction.py:772-784 *)
Fixpoint compatible_list_pairs (i : nat) (l : list econ) : list (nat * nat) :=
  match l with
  | [] => []
  | e :: rest =>
      flat_map (fun jf => if any_overlapped_indices e (snd jf) then [] else [(i, fst jf)]) (enumerate (S i) rest)
      ++ compatible_list_pairs (S i) rest
  end.
Definition compatible_list (l : list econ) : list (nat * list nat) :=
  fold_left add_compatible (compatible_list_pairs 0 l) [].

(** ** leg-level backtracking *)

(** set.remove, set intersection *)
Definition set_remove (x : nat) (s : list nat) : list nat := filter (fun y => negb (x =? y)) s.
Definition set_inter (a b : list nat) : list nat := filter (fun x => mem_nat x b) a.
Definition set_diff (a b : list nat) : list nat := filter (fun x => negb (mem_nat x b)) a.

(** set.pop() returns an arbitrary element. The choice made at each call of the generator is an
    arbitrary function of the place in the recursion (the list of include/exclude decisions)
    and of the stored set. *)
Definition popper : Type := list bool -> list nat -> nat.
Definition pop_element (pick : popper) (path : list bool) (x : nat) (s : list nat) : nat :=
  nth (pick path (x :: s) mod length (x :: s)) (x :: s) x.

(** sqop_contraction.py:787-816. Result: the successive values of the set yielded, and the final
    contents of the two sets passed in by reference (available, chosen). *)
Fixpoint composite_backtrack (fuel : nat) (pick : popper) (path : list bool)
  (available chosen : list nat) (compatible : list (nat * list nat)) (n_con_so_far : nat)
  (translator : list econ) (desired : Z * Z) : pyres (list (list nat) * list nat * list nat) :=
  match fuel with
  | 0 => Raise FuelExhausted
  | S fuel' =>
      match available with
      | [] =>
          let good := negb (length chosen =? 0) &&
                      ((fst desired <=? Z.of_nat n_con_so_far) && (Z.of_nat n_con_so_far <=? snd desired))%Z in
          Ok (if good then [chosen] else [], available, chosen)
      | x :: s =>
          let temp := pop_element pick path x s in
          let available1 := set_remove temp available in
          pybind (get_item translator temp) (fun e =>
          let temp_size := 2 * length (upper e) in
          pybind (composite_backtrack fuel' pick (true :: path)
                    (set_inter available1 (compatible_with compatible temp)) (set_add temp chosen)
                    compatible (n_con_so_far + temp_size) translator desired) (fun r1 =>
          let chosen2 := set_remove temp (snd r1) in
          pybind (composite_backtrack fuel' pick (false :: path) available1 chosen2
                    compatible n_con_so_far translator desired) (fun r2 =>
          Ok (fst (fst r1) ++ fst (fst r2), set_add temp (snd (fst r2)), snd r2))))
      end
  end.

(** A Counter {category: count}. [target[c] += d] *)
Definition counter_add (c : list nat) (d : Z) (t : list (list nat * Z)) : list (list nat * Z) :=
  map (fun kv => if key_eqb c (fst kv) then (fst kv, (snd kv + d)%Z) else kv) t.
Definition counter_get (c : list nat) (t : list (list nat * Z)) : Z :=
  match dict_get key_eqb c t with Some n => n | None => 0%Z end.

Section Categorized.
  Context {V : Type}.

  (** sqop_contraction.py:372-374: available = {c: 0 for c in target}; available[find_category(con)] += 1 *)
  Definition count_available (E : ecc V) (choices : list nat) (target : list (list nat * Z))
    : pyres (list (list nat * Z)) :=
    fold_left (fun m con => pybind m (fun m => pybind (find_category E con) (fun c =>
                 match dict_get key_eqb c m with
                 | Some _ => Ok (counter_add c 1 m)
                 | None => Raise KeyError
                 end))) choices (Ok (map (fun kv => (fst kv, 0%Z)) target)).

  (** sqop_contraction.py:364-400. Result: the successive values of the list yielded, and the
      final contents of choices, target and chosen, which are passed by reference. *)
  Fixpoint categorized_backtrack (fuel : nat) (pick : popper) (path : list bool) (E : ecc V)
    (choices : list nat) (target : list (list nat * Z)) (compatible : list (nat * list nat)) (chosen : list nat)
    : pyres (list (list nat) * (list nat * list (list nat * Z) * list nat)) :=
    match fuel with
    | 0 => Raise FuelExhausted
    | S fuel' =>
        pybind (count_available E choices target) (fun available =>
        if existsb (fun kv => (counter_get (fst kv) available <? snd kv)%Z) target
        then Ok ([], (choices, target, chosen))
        else
          match choices with
          | [] => Ok ([chosen], (choices, target, chosen))
          | x :: s =>
              let con := pop_element pick path x s in
              let choices1 := set_remove con choices in
              pybind (find_category E con) (fun category =>
              let chosen1 := chosen ++ [con] in
              let target1 := counter_add category (-1) target in
              let choices_new := set_inter choices1 (compatible_with compatible con) in
              pybind (if (counter_get category target1 =? 0)%Z
                      then pybind (category_range E category) (fun r => Ok (set_diff choices_new r))
                      else Ok choices_new) (fun choices_new =>
              pybind (categorized_backtrack fuel' pick (true :: path) E choices_new target1 compatible chosen1) (fun r1 =>
              let '(ys1, (_, target2, chosen2)) := r1 in
              let chosen3 := removelast chosen2 in
              let target3 := counter_add category 1 target2 in
              pybind (categorized_backtrack fuel' pick (false :: path) E choices1 target3 compatible chosen3) (fun r2 =>
              let '(ys2, (choices4, target4, chosen4)) := r2 in
              Ok (ys1 ++ ys2, (set_add con choices4, target4, chosen4))))))
          end)
    end.

  (** set(chain of iterables) *)
  Definition set_of (l : list nat) : list nat := fold_left (fun s x => set_add x s) l [].

  (** sqop_contraction.py:349-362 with the compatibility map given; [chosen] starts empty *)
  Definition composite_contractions (pick : popper) (E : ecc V) (target : list (list nat * Z))
    (compatible : list (nat * list nat)) : pyres (list (list nat) * (list nat * list (list nat * Z) * list nat)) :=
    pybind (pymap (fun kv => category_range E (fst kv)) target) (fun rs =>
    let choices := set_of (concat rs) in
    categorized_backtrack (S (length choices)) pick [] E choices target compatible []).
End Categorized.

(** Counter(list of categories) *)
Fixpoint counter_incr (c : list nat) (t : list (list nat * Z)) : list (list nat * Z) :=
  match t with
  | [] => [(c, 1%Z)]
  | (k, n) :: t' => if key_eqb c k then (k, (n + 1)%Z) :: t' else (k, n) :: counter_incr c t'
  end.
Definition counter_of (l : list (list nat)) : list (list nat * Z) := fold_left (fun t c => counter_incr c t) l [].
