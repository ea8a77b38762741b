(** Model of the category-level backtracking of the connected contractions
    (dsrg_generator/sqop_contraction.py:452-453, 494-609). *)
From Verif Require Import PyBase SpaceModel IndicesModel ElemModel CodeModel.
From Coq Require Import ZArith.

(** sorted(l) with the comparison [lt]: the stable sort; insertion sort computes the same list. *)
Fixpoint insert_by {A} (lt : A -> A -> bool) (x : A) (l : list A) : list A :=
  match l with [] => [x] | y :: l' => if lt y x then y :: insert_by lt x l' else x :: l end.
Definition sort_by {A} (lt : A -> A -> bool) (l : list A) : list A := fold_right (insert_by lt) [] l.
(** sorted(l, reverse=True) keeps the original order of equal elements *)
Definition sort_by_reverse {A} (lt : A -> A -> bool) (l : list A) : list A := rev (sort_by lt (rev l)).

(** sqop_contraction.py:452: key=lambda x: (len(x), x) *)
Definition category_ord : pyord (list nat) :=
  key_ord (fun x : list nat => (length x, x)) (pair_ord nat_ord (list_ord nat_ord)).
Definition elementary_sequence {V} (d : list (list nat * V)) : list (list nat) :=
  sort_by_reverse (plt category_ord) (map fst d).

(** collections.Counter of a list of ints, in order of first occurrence *)
Fixpoint count_incr (k : nat) (t : list (nat * Z)) : list (nat * Z) :=
  match t with
  | [] => [(k, 1%Z)]
  | (k', n) :: t' => if k =? k' then (k', (n + 1)%Z) :: t' else (k', n) :: count_incr k t'
  end.
Definition nat_counter (l : list nat) : list (nat * Z) := fold_left (fun t k => count_incr k t) l [].

(** temp[:len(temp) // 2], temp[len(temp) // 2:] *)
Definition cre_half (c : list nat) : list nat := firstn (length c / 2) c.
Definition ann_half (c : list nat) : list nat := skipn (length c / 2) c.

(** all(available[k] - v >= 0 for k, v in count.items()), stopping at the first False *)
Fixpoint all_enough (available : list Z) (count : list (nat * Z)) : pyres bool :=
  match count with
  | [] => Ok true
  | (k, v) :: rest => pybind (get_item available k) (fun a =>
      if (0 <=? a - v)%Z then all_enough available rest else Ok false)
  end.

(** l[k] = v *)
Fixpoint list_set {A} (k : nat) (v : A) (l : list A) : list A :=
  match l, k with
  | [], _ => []
  | _ :: l', 0 => v :: l'
  | x :: l', S k' => x :: list_set k' v l'
  end.

(** sqop_contraction.py:586-593 *)
Fixpoint update_op_available (op_available : list Z) (zero_count_id : list nat) (op_count : list (nat * Z))
  : pyres (list Z * list nat) :=
  match op_count with
  | [] => Ok (op_available, zero_count_id)
  | (k, v) :: rest =>
      pybind (get_item op_available k) (fun a =>
      update_op_available (list_set k (a - v)%Z op_available)
                          (if (a - v =? 0)%Z then set_add k zero_count_id else zero_count_id) rest)
  end.

(** sqop_contraction.py:575-609 *)
Definition prune_available (available : list (list nat)) (cre_available ann_available : list Z)
  (cre_count ann_count : list (nat * Z)) : pyres (list (list nat) * list Z * list Z) :=
  pybind (update_op_available cre_available [] cre_count) (fun rc =>
  pybind (update_op_available ann_available [] ann_count) (fun ra =>
  let pruned :=
    if (length (snd rc) =? 0) && (length (snd ra) =? 0) then available
    else filter (fun con_ops => negb (existsb (fun i => mem_nat i (snd rc)) (cre_half con_ops)) &&
                                negb (existsb (fun i => mem_nat i (snd ra)) (ann_half con_ops))) available in
  Ok (pruned, fst rc, fst ra))).

(** a | b *)
Definition set_union (a b : list nat) : list nat := fold_left (fun s x => set_add x s) b a.
(** not a.isdisjoint(b) *)
Definition touches (a b : list nat) : bool := existsb (fun x => mem_nat x a) b.

(** sqop_contraction.py:494-572. Result: the successive contents of [chosen] at the yields, and
    its final contents. Sets are repetition-free lists. *)
Fixpoint macro_backtrack (fuel : nat) (available : list (list nat)) (chosen : list (list nat)) (n_con : Z * Z)
  (n_con_so_far : nat) (cre_available ann_available : list Z) (ops_so_far : list nat) (all_cu_so_far : bool)
  : pyres (list (list (list nat)) * list (list nat)) :=
  match fuel with
  | 0 => Raise FuelExhausted
  | S fuel' =>
      let n_ops := length cre_available in
      match rev available with
      | [] =>
          Ok (if (length ops_so_far =? n_ops) &&
                 ((fst n_con <=? Z.of_nat n_con_so_far) && (Z.of_nat n_con_so_far <=? snd n_con))%Z
              then [chosen] else [], chosen)
      | temp :: rest =>
          if (Z.of_nat n_con_so_far <? snd n_con)%Z &&
             (if n_con_so_far =? 0 then length temp =? 2 else negb all_cu_so_far)
          then
            let temp_ops := set_of temp in
            let n_body := length temp / 2 in
            let cre_count := nat_counter (cre_half temp) in
            let ann_count := nat_counter (ann_half temp) in
            pybind (if touches ops_so_far temp_ops || (n_con_so_far =? 0)
                    then pybind (all_enough cre_available cre_count) (fun b =>
                         if b then all_enough ann_available ann_count else Ok false)
                    else Ok false) (fun include =>
            pybind (if include : bool then
                      pybind (prune_available available cre_available ann_available cre_count ann_count) (fun new =>
                      pybind (macro_backtrack fuel' (fst (fst new)) (chosen ++ [temp]) n_con (n_con_so_far + 2 * n_body)
                                (snd (fst new)) (snd new) (set_union ops_so_far temp_ops) (all_cu_so_far && (1 <? n_body)))
                             (fun r => Ok (fst r, removelast (snd r))))
                    else Ok ([], chosen)) (fun r1 =>
            pybind (macro_backtrack fuel' (rev rest) (snd r1) n_con n_con_so_far
                      cre_available ann_available ops_so_far all_cu_so_far) (fun r2 =>
            Ok (fst r1 ++ fst r2, snd r2))))
          else macro_backtrack fuel' [] chosen n_con n_con_so_far cre_available ann_available ops_so_far all_cu_so_far
      end
  end.

(** The call in sqop_contraction.py:472-474; [n_cre], [n_ann] of each operator. The fuel is the
    largest possible recursion depth. *)
Definition macro_fuel (categories : list (list nat)) (cre_available : list Z) : nat :=
  S (length categories + Z.to_nat (fold_right Z.add 0%Z cre_available)).
Definition connected_combinations (categories : list (list nat)) (n_con : Z * Z) (cre_available ann_available : list Z)
  : pyres (list (list (list nat))) :=
  pybind (macro_backtrack (macro_fuel categories cre_available) categories [] n_con 0 cre_available ann_available [] true)
         (fun r => Ok (fst r)).
