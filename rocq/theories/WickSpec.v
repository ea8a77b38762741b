(** Specification of the contraction drivers: the terms of Wick's theorem. *)
From Verif Require Import PyBase OrderSpec ParitySpec SpaceModel IndicesModel ElemModel ElemSpec CompatSpec IterProofs WickModel.
From Coq Require Import ZArith Relations Sorting.Sorted.

(** The written operator string: creators, then annihilators from right to left, operator by
    operator. A leg is (true, i) for the creator of i, (false, i) for the annihilator of i. *)
Definition open_string (o : op) : list leg := map (pair true) (cre o) ++ map (pair false) (rev (ann o)).
Definition written_string (ops : list op) : list leg := flat_map open_string ops.
(** Every creator and every annihilator occurs once in the product. *)
Definition distinct_legs (ops : list op) : Prop := NoDup (written_string ops).

(** The legs of a contraction in the order in which it is defined: a hole density is <a a+>, a
    cumulant is <a+ .. a+ a .. a>. *)
Definition group (e : econ) : list leg :=
  if hole e then map (pair false) (lower e) ++ map (pair true) (upper e)
  else map (pair true) (upper e) ++ map (pair false) (rev (lower e)).

(** Elementary contractions among [ops] with cumulants up to level [K]. *)
Inductive allowed (ops : list op) (K : nat) (e : econ) : Prop :=
| allowed_pair key : pair_contraction ops key e -> allowed ops K e
| allowed_cumulant k c a :
    2 <= k <= K -> subseq c (cre_legs ops) -> subseq a (ann_legs ops) -> length c = k -> length a = k ->
    ~ one_operator (map fst c ++ map fst a) -> e = Con false (map snd c) (map snd a) -> allowed ops K e.

(** The cumulant level used for a requested level [k]: [k] itself if possible, otherwise the largest
    level that the indices allow. *)
Definition cumulant_level (ops : list op) (k : Z) : nat :=
  let M := Z.max 1 (Z.min (Z.of_nat (n_noncv cre ops)) (Z.of_nat (n_noncv ann ops))) in
  Z.to_nat (if ((1 <=? k) && (k <=? M))%Z then k else M).

(** Number of uncontracted legs. *)
Definition n_open (ops : list op) (s : list econ) : Z :=
  (Z.of_nat (length (written_string ops)) - Z.of_nat (length (flat_map group s)))%Z.

(** A set of elementary contractions that occurs in the product. *)
Record wick_set (ops : list op) (K : nat) (lo hi : Z) (s : list econ) : Prop := {
  ws_allowed : Forall (allowed ops K) s;
  ws_disjoint : ForallOrdPairs disjoint_con s;
  ws_range : (lo <= n_open ops s <= hi)%Z }.

(** [sign] times the product in contracted order is the written product; the remaining legs are in
    normal order, sorted. *)
Record wick_term (ops : list op) (s : list econ) (sign : Z) (sq : op) : Prop := {
  wt_cre : StronglySorted (fun a b => plt idx_ord a b = true) (cre sq);
  wt_ann : StronglySorted (fun a b => plt idx_ord a b = true) (ann sq);
  wt_sign : reorder_sign (written_string ops) (flat_map group s ++ open_string sq) sign }.

(** The entries returned for the set [s]; the densities are listed in some order. *)
Definition entries_of (ops : list op) (expand_hole : bool) (s : list econ) (b : list entry) : Prop :=
  exists cons sign sq, Permutation cons s /\ wick_term ops cons sign sq /\
    b = map (fun sd => ((sign * fst sd)%Z, snd sd, sq))
          (if expand_hole then expand_hole_densities (map density_of cons) else [(1%Z, map density_of cons)]).

(** The result consists of the entries of every set satisfying [P], each set once. *)
Definition wick_sum (ops : list op) (expand_hole : bool) (P : list econ -> Prop) (result : list (list entry)) : Prop :=
  exists sets blocks, lists_each_set_once P sets /\ Forall2 (entries_of ops expand_hole) sets blocks /\
    concat result = concat blocks.

(** Operator number [k] has a leg in [e]. *)
Definition has_leg (ops : list op) (k : nat) (e : econ) : Prop :=
  exists o, nth_error ops k = Some o /\
    ((exists i, In i (upper e) /\ In i (cre o)) \/ (exists i, In i (lower e) /\ In i (ann o))).
Definition con_linked (ops : list op) (s : list econ) (i j : nat) : Prop :=
  exists e, In e s /\ has_leg ops i e /\ has_leg ops j e.
Definition connects_ops (ops : list op) (s : list econ) : Prop :=
  forall i j, i < length ops -> j < length ops -> clos_refl_trans nat (con_linked ops s) i j.
Definition has_pair (s : list econ) : Prop := exists e, In e s /\ length (upper e) = 1.
