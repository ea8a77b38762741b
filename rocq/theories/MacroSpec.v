(** Specification of the category-level backtracking: connected combinations of categories. *)
From Verif Require Import PyBase SpaceModel ElemModel CodeModel MacroModel.
From Coq Require Import ZArith Relations.

(** A category of contractions among [n] operators: the operators of its creators followed by the
    operators of its annihilators, equally many, and at least two different operators. *)
Definition category_ok (n : nat) (c : list nat) : Prop :=
  (exists b, 1 <= b /\ length c = b + b) /\ (forall k, In k c -> k < n) /\ (exists i j, In i c /\ In j c /\ i <> j).

(** The operators 0..n-1 are linked by the members of [w]. *)
Definition linked (w : list (list nat)) (i j : nat) : Prop := exists c, In c w /\ In i c /\ In j c.
Definition connects (n : nat) (w : list (list nat)) : Prop :=
  forall i j, i < n -> j < n -> clos_refl_trans nat (linked w) i j.

(** Number of legs of operator [k] used by [w], among the creators and among the annihilators. *)
Definition times (k : nat) (l : list nat) : nat := count_occ Nat.eq_dec l k.
Definition creators_used (w : list (list nat)) (k : nat) : nat :=
  times k (flat_map (fun c => firstn (length c / 2) c) w).
Definition annihilators_used (w : list (list nat)) (k : nat) : nat :=
  times k (flat_map (fun c => skipn (length c / 2) c) w).
Definition legs_of (w : list (list nat)) : nat := length (concat w).

Record combination_ok (categories : list (list nat)) (n_con : Z * Z) (n_cre n_ann : list Z) (w : list (list nat)) : Prop := {
  co_incl : incl w categories;
  co_conn : connects (length n_cre) w;
  co_pair : exists c, In c w /\ length c = 2;
  co_cre : forall k, (Z.of_nat (creators_used w k) <= nth k n_cre 0)%Z;
  co_ann : forall k, (Z.of_nat (annihilators_used w k) <= nth k n_ann 0)%Z;
  co_legs : (fst n_con <= Z.of_nat (legs_of w) <= snd n_con)%Z }.

(** No two yields are the same multiset. *)
Definition no_repeats {A} (ys : list (list A)) : Prop :=
  forall i j a b, nth_error ys i = Some a -> nth_error ys j = Some b -> Permutation a b -> i = j.
