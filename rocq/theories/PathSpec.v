(** Vocabulary for the statements about contraction paths. *)
From Coq Require Import Ascii String ZArith QArith Qcanon.
From Verif Require Import PyBase SpaceModel IndexModel IndicesModel ElemModel TermModel PathModel.
Local Close Scope Q_scope.
Local Close Scope Qc_scope.
Local Open Scope nat_scope.
Local Notation length := List.length.

(** the tensors of a tree *)
Fixpoint leaves (p : ptree) : list tensor := match p with Leaf x => [x] | Node a b => leaves a ++ leaves b end.
(** An index is open on a product of tensors if it sits on an odd number of them. *)
Definition times_on (i : idx) (xs : list tensor) : nat := length (filter (fun x => mem_idx i (tensor_indices x)) xs).
Definition open_on (xs : list tensor) : list idx := filter (fun i => Nat.odd (times_on i xs)) (dedup (flat_map tensor_indices xs)).
(** the contractions of a tree: its inner nodes *)
Fixpoint nodes (p : ptree) : list (ptree * ptree) := match p with Leaf _ => [] | Node a b => nodes a ++ nodes b ++ [(a, b)] end.

(** size of a set of indices: number of indices, then virtual (v, p, g), core (c, h) and active ones *)
Definition how_many (f : space -> bool) (s : list idx) : Z := Z.of_nat (length (filter (fun i => f (lsp (fst i))) s)).
Definition is_core (s : space) : bool := match s with Sc | Sh => true | _ => false end.
Definition is_active (s : space) : bool := match s with Sa => true | _ => false end.
Definition is_virtual (s : space) : bool := match s with Sv | Sp | Sg => true | _ => false end.
Definition scaling (s : list idx) : Z * list Z := (Z.of_nat (length s), [how_many is_virtual s; how_many is_core s; how_many is_active s]).
Definition scaling_ord : pyord (Z * list Z) := pair_ord Z_ord (list_ord Z_ord).

(** cost of one contraction: the indices open on one of the two factors; memory: those open on the result *)
Definition compute_of (ab : ptree * ptree) : Z * list Z := scaling (dedup (open_on (leaves (fst ab)) ++ open_on (leaves (snd ab)))).
Definition storage_of (ab : ptree * ptree) : Z * list Z := scaling (open_on (leaves (fst ab) ++ leaves (snd ab))).
(** k is the largest of the list *)
Definition is_largest (k : Z * list Z) (l : list (Z * list Z)) : Prop := In k l /\ forall k', In k' l -> ple scaling_ord k' k = true.

(** the same tree up to exchanging the two factors of contractions *)
Inductive same_tree : ptree -> ptree -> Prop :=
| st_leaf x : same_tree (Leaf x) (Leaf x)
| st_node a b a' b' : same_tree a a' -> same_tree b b' -> same_tree (Node a b) (Node a' b')
| st_swap a b a' b' : same_tree a a' -> same_tree b b' -> same_tree (Node a b) (Node b' a').

(** sequences of merges of n things: two of them are taken out and their product is put at the end *)
Fixpoint merge_sequence (n : nat) (sq : list (nat * nat)) : Prop :=
  match sq with
  | [] => n = 1
  | (i, j) :: sq' => i < j < n /\ merge_sequence (n - 1) sq'
  end.
Fixpoint merged (l : list ptree) (sq : list (nat * nat)) : option ptree :=
  match sq with
  | [] => match l with [p] => Some p | _ => None end
  | (i, j) :: sq' =>
      match nth_error l i, nth_error l j with
      | Some a, Some b => merged (without i j l ++ [Node a b]) sq'
      | _, _ => None
      end
  end.

(** a reported entry (compute, storage, path) describes the tree T: the path is T, the two costs are the largest among its contractions *)
Definition entry_of (T : ptree) (e : pstate) : Prop :=
  snd e = Some T /\ is_largest (counter_key (fst (fst e))) (map compute_of (nodes T)) /\ is_largest (counter_key (snd (fst e))) (map storage_of (nodes T)).
