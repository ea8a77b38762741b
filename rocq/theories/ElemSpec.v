(** Specification of elementary contractions. *)
From Verif Require Import PyBase SpaceModel ElemModel.
From Coq Require Import ZArith.

(** Two indices can denote the same orbital of elementary space s. *)
Definition share_space (s : space) (u l : idx) : Prop :=
  In s (space_elems (lsp (fst u))) /\ In s (space_elems (lsp (fst l))).
Definition alpha (i : idx) : Prop := lbeta (fst i) = false.

(** A one-body cumulant between indices u, l is not identically zero: both can be the
    same occupied (core or active) orbital; a hole density: the same active or virtual one. *)
Definition cumulant_nonzero (u l : idx) : Prop := exists s, s <> Sv /\ share_space s u l.
Definition hole_nonzero (u l : idx) : Prop := exists s, s <> Sc /\ share_space s u l.

(** The pairwise contractions of Wick's theorem between different operators. *)
Inductive pair_contraction (ops : list op) : list nat -> econ -> Prop :=
| pc_cumulant i j left right u l :
    i < j -> nth_error ops i = Some left -> nth_error ops j = Some right ->
    In u (cre left) -> In l (ann right) -> cumulant_nonzero u l ->
    pair_contraction ops [i; j] (Con false [u] [l])
| pc_hole i j left right u l :
    i < j -> nth_error ops i = Some left -> nth_error ops j = Some right ->
    In u (cre right) -> In l (ann left) -> hole_nonzero u l ->
    pair_contraction ops [j; i] (Con true [u] [l]).

(** All legs (operator number, position) of a list of index lists, in order. *)
Definition positions (pure : list (list idx)) : list (nat * nat) :=
  flat_map (fun p => map (pair (fst p)) (seq 0 (length (snd p)))) (enumerate 0 pure).

(** Legs with their indices. *)
Definition legs (pure : list (list idx)) : list (nat * idx) :=
  flat_map (fun p => map (pair (fst p)) (snd p)) (enumerate 0 pure).

Definition active_like (i : idx) : bool :=
  match fst i with Lab false Sc | Lab false Sv => false | _ => true end.
(** Number of creators (annihilators) of the operators that are neither core nor virtual. *)
Definition n_noncv (f : op -> list idx) (ops : list op) : nat :=
  length (flat_map (fun o => filter active_like (f o)) ops).
Definition cre_legs (ops : list op) : list (nat * idx) := legs (map (fun o => filter active_like (cre o)) ops).
Definition ann_legs (ops : list op) : list (nat * idx) := legs (map (fun o => filter active_like (ann o)) ops).

(** No creator (annihilator) that is neither core nor virtual occurs twice in the product. *)
Definition distinct_active (ops : list op) : Prop := NoDup (map snd (cre_legs ops)) /\ NoDup (map snd (ann_legs ops)).
(** All numbers in the list are equal. *)
Definition one_operator (l : list nat) : Prop := forall x y, In x l -> In y l -> x = y.
Definition one_operatorb (l : list nat) : bool := forallb (fun x => x =? hd 0 l) l.

(** A cumulant with a repeated index could be formed. *)
Definition repeated_choice (ops : list op) (K : nat) : Prop :=
  exists k c a, 2 <= k <= K /\ In c (combinations (cre_legs ops) k) /\ In a (combinations (ann_legs ops) k) /\
    ~ one_operator (map fst c ++ map fst a) /\ ~ (NoDup (map snd c) /\ NoDup (map snd a)).
(** Every choice of k creators and k annihilators, not all on one operator. *)
Definition cumulant_choices (ops : list op) (k : nat) : list (list nat * econ) :=
  map (fun ca => (map fst (fst ca) ++ map fst (snd ca), Con false (map snd (fst ca)) (map snd (snd ca))))
    (filter (fun ca => negb (one_operatorb (map fst (fst ca) ++ map fst (snd ca))))
       (list_prod (combinations (cre_legs ops) k) (combinations (ann_legs ops) k))).

(** The contents of a dictionary of lists as (key, value) pairs. *)
Definition dict_items {K V} (d : list (K * list V)) : list (K * V) :=
  flat_map (fun kv => map (pair (fst kv)) (snd kv)) d.

(** A SecondQuantizedOperator with spin-orbital indices: no beta labels, no repeated
    creator, no repeated annihilator (Indices.py:109-113, 497-506). *)
Definition op_alpha (o : op) : Prop := Forall alpha (cre o) /\ Forall alpha (ann o).
Definition op_nodup (o : op) : Prop := NoDup (cre o) /\ NoDup (ann o).
Definition op_ok (o : op) : Prop := op_alpha o /\ op_nodup o.
