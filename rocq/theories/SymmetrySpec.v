(** Signed permutations of the slots of a tensor, and what an answer of SymPy's
    canonicalize may be. Permutations are array forms: the list of the images of
    0, 1, ...; the last two entries carry the sign. *)
From Coq Require Import ZArith.
From Verif Require Import PyBase SpaceModel IndicesModel TermSpec ValueSpec.

(** first s, then g *)
Definition compose (g s : list nat) : list nat := map (fun k => nth k g 0) s.
(** the permutations of 0..size-1 generated by a list of array forms *)
Inductive generated (size : nat) (gens : list (list nat)) : list nat -> Prop :=
| gd_id : generated size gens (seq 0 size)
| gd_step a s : generated size gens a -> In s gens -> generated size gens (compose a s).

(** the two last entries of an array with [n] slots and sign s *)
Definition sign_tail (n : nat) (s : Z) : list nat := if (s =? 1)%Z then [n; n + 1] else [n + 1; n].
Definition parity (b : list nat) : Z := sgn (inversions Nat.ltb b).

(** independent permutations of n1 slots followed by n2 slots, signed by the product of the parities *)
Definition block_permutation (n1 n2 : nat) (a : list nat) : Prop :=
  exists b1 b2, Permutation b1 (seq 0 n1) /\ Permutation b2 (seq n1 n2) /\
    a = b1 ++ b2 ++ sign_tail (n1 + n2) (parity b1 * parity b2).
(** the same, after exchanging the two blocks of n slots *)
Definition exchanged_permutation (n : nat) (a : list nat) : Prop :=
  exists b1 b2, Permutation b1 (seq n n) /\ Permutation b2 (seq 0 n) /\
    a = b1 ++ b2 ++ sign_tail (2 * n) (parity b1 * parity b2).
(** simultaneous permutations of the slots k and n + k, with sign + *)
Definition pair_permutation (n : nat) (a : list nat) : Prop :=
  exists b, Permutation b (seq 0 n) /\ a = b ++ map (fun k => k + n) b ++ [2 * n; 2 * n + 1].
Definition exchanged_pair_permutation (n : nat) (a : list nat) : Prop :=
  exists b, Permutation b (seq 0 n) /\ a = map (fun k => k + n) b ++ b ++ [2 * n; 2 * n + 1].

(** ** SymPy's canonicalize *)
(** a permutation p of the slots of one factor, acting on the slots off, off+1, ... of a product with n slots *)
Definition embed (n off : nat) (p : list nat) : list nat :=
  let sz := length p - 2 in
  map (fun k => if (off <=? k) && (k <? off + sz) then off + nth (k - off) p 0
                else if k <? n then k
                else if nth sz p 0 =? sz then k else if k =? n then n + 1 else n) (seq 0 (n + 2)).
(** exchange of two neighbouring factors with sz slots each *)
Definition exchange (n off sz : nat) : list nat :=
  map (fun k => if (off <=? k) && (k <? off + sz) then k + sz
                else if (off + sz <=? k) && (k <? off + 2 * sz) then k - sz else k) (seq 0 (n + 2)).
(** factors come in runs (generators, number of equivalent factors); all factors commute *)
Fixpoint slot_symmetries (n off : nat) (runs : list (list (list nat) * nat)) : list (list nat) :=
  match runs with
  | [] => []
  | (gens, count) :: runs' =>
      let sz := length (hd [] gens) - 2 in
      flat_map (fun c => map (embed n (off + c * sz)) gens) (seq 0 count) ++
      map (fun c => exchange n (off + c * sz) sz) (seq 0 (count - 1)) ++
      slot_symmetries n (off + count * sz) runs'
  end.
(** label k belongs to the dummy index k/2: the two labels of an index may be exchanged, and any two indices
    in the same range *)
Definition relabel2 (n i j i' j' : nat) : list nat :=
  map (fun x => if x =? i then j else if x =? j then i else if x =? i' then j' else if x =? j' then i' else x) (seq 0 (n + 2)).
Definition dummy_symmetries (n : nat) (ranges : list (nat * nat)) : list (list nat) :=
  flat_map (fun r =>
    let ks := seq (fst r / 2) (snd r / 2 - fst r / 2) in
    map (fun k => relabel2 n (2 * k) (2 * k + 1) (2 * k) (2 * k + 1)) ks ++
    map (fun kl => relabel2 n (2 * fst kl) (2 * snd kl) (2 * fst kl + 1) (2 * snd kl + 1)) (list_prod ks ks)) ranges.

(** the forms of the product g that are equal to it by the declared symmetries *)
Inductive equivalent_form (slots dummies : list (list nat)) (g : list nat) : list nat -> Prop :=
| ef_refl : equivalent_form slots dummies g g
| ef_slot g' s : equivalent_form slots dummies g g' -> In s slots -> equivalent_form slots dummies g (compose g' s)
| ef_dummy g' d : equivalent_form slots dummies g g' -> In d dummies -> equivalent_form slots dummies g (compose d g').
(** whatever SymPy answers (other than 0) is such a form *)
Definition admissible (sympy : list nat -> list (nat * nat) -> list (list (list nat) * nat) -> pyres (option (list nat))) : Prop :=
  forall g ranges runs gc, sympy g ranges runs = Ok (Some gc) ->
    let n := length g - 2 in
    equivalent_form (slot_symmetries n 0 runs) (dummy_symmetries n ranges) g gc.

(** ** Symmetries of the values *)
Definition hermitian_values {A} (v : tvaluation A) : Prop := forall c n u l, vtensor v c n u l = vtensor v c n l u.
Definition pair_symmetric {A} (v : tvaluation A) : Prop :=
  forall c n u1 x y u2 l1 x' y' l2, length u1 = length l1 ->
    vtensor v c n (u1 ++ x :: y :: u2) (l1 ++ x' :: y' :: l2) = vtensor v c n (u1 ++ y :: x :: u2) (l1 ++ y' :: x' :: l2).
