(** Vocabulary for the statements about permutation formats. *)
From Coq Require Import Ascii ZArith.
From Verif Require Import PyBase SpaceModel IndexModel IndicesModel ParitySpec IndicesProofs MacroModel TermModel CombineModel.

(** the indices of every block of the partition stand in l in the order of the block *)
Definition keeps_blocks (part : list (list idx)) (l : list idx) : Prop := forall b, In b part -> filter (fun i => mem_idx i b) l = b.
(** number of the block that contains x *)
Fixpoint block_of (part : list (list idx)) (x : idx) : nat :=
  match part with [] => 0 | b :: part' => if mem_idx x b then 0 else S (block_of part' x) end.
(** l and l' differ only by permutations inside the blocks *)
Definition same_blocks (part : list (list idx)) (l l' : list idx) : Prop := map (block_of part) l = map (block_of part) l'.
Definition product (l : list nat) : nat := fold_right Nat.mul 1 l.
(** what a nested dictionary {spaces: {permutation: terms}} holds *)
Definition bucket (out : list (text * list (text * list term))) (s p : text) : option (list term) :=
  match dict_get text_eqb s out with Some row => dict_get text_eqb p row | None => None end.
(** A partition of the indices [ops] into blocks: together the blocks are ops, every block and the list of
    blocks is sorted, and two indices share a block iff they have the same label and are [together]. *)
Record good_partition (ops : list idx) (together : idx -> idx -> Prop) (part : list (list idx)) : Prop := {
  gp_cover : Permutation (concat part) ops;
  gp_nonempty : ops <> [] -> ~ In [] part;
  gp_blocks : Forall (le_sorted idx_ord) part;
  gp_sorted : le_sorted (list_ord idx_ord) part;
  gp_share : forall x y, (exists b, In b part /\ In x b /\ In y b) <-> In x ops /\ In y ops /\ fst x = fst y /\ together x y }.
(** the indices of one spin *)
Definition spin_part (beta : bool) (l : list idx) : list idx := filter (fun i => Bool.eqb (idx_beta i) beta) l.
(** which spin comes first: alpha unless the other spin is more frequent (alpha_major) or less frequent *)
Definition first_spin (alpha_major : bool) (l : list idx) : bool :=
  if alpha_major then length (spin_part false l) <? length (spin_part true l) else length (spin_part true l) <? length (spin_part false l).
(** sorted indices with the given spin first *)
Definition spin_sorted (b : bool) (l : list idx) : list idx := sort_by (plt idx_ord) (spin_part b l) ++ sort_by (plt idx_ord) (spin_part (negb b) l).
