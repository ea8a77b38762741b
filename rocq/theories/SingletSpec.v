(** Vocabulary for the values of singlet-adapted terms. *)
From Coq Require Import ZArith.
From Verif Require Import PyBase SpaceModel ElemModel MacroModel TermModel ValueSpec TermSpec.

(** the elements of a list with the others and the sign of moving the element to the front *)
Fixpoint signed_picks {B} (l : list B) : list (Z * B * list B) :=
  match l with
  | [] => []
  | x :: l => (1%Z, x, l) :: map (fun p => ((- fst (fst p))%Z, snd (fst p), x :: snd p)) (signed_picks l)
  end.
(** the permutations of a list with prescribed spins, with their signs (the Laplace expansion of a determinant) *)
Fixpoint arranged {B} (spin : B -> bool) (spins : list bool) (l : list B) : list (Z * list B) :=
  match spins with
  | [] => match l with [] => [(1%Z, [])] | _ => [] end
  | b :: spins =>
      flat_map (fun p => if Bool.eqb (spin (snd (fst p))) b
                         then map (fun q => ((fst (fst p) * fst q)%Z, snd (fst p) :: snd q)) (arranged spin spins (snd p)) else [])
               (signed_picks l)
  end.

(** Alpha and beta orbitals come in pairs: [flip] exchanges the partners. The alpha orbitals stand for the spatial orbitals. *)
Definition spin_of (S : system) (p : nat) : bool := lbeta (olabel S p).
Definition spin_pairs (S : system) (flip : nat -> nat) : Prop :=
  forall p, p < norb S -> flip p < norb S /\ flip (flip p) = p /\ olabel S (flip p) = Lab (negb (spin_of S p)) (lsp (olabel S p)).
Definition spatial (S : system) (flip : nat -> nat) (p : nat) : nat := if spin_of S p then flip p else p.

(** The spin-orbital values of spin-free quantities: v[p..,q..] is the sum of (-1)^P w[p..,P q..] over the permutations P that pair equal
    spins. For two upper and lower indices v[pa qb, ra sb] = w[pq,rs] and v[pa qa, ra sa] = w[pq,rs] - w[pq,sr]. *)
Definition spin_sum {A : qalg} (S : system) (flip : nat -> nat) (f : list nat -> list nat -> A) (us ls : list nat) : A :=
  asum (map (fun sl => (zin (fst sl) * f (map (spatial S flip) us) (map (spatial S flip) (snd sl)))%alg) (arranged (spin_of S) (map (spin_of S) us) ls)).
Definition spin_values {A : qalg} (S : system) (flip : nat -> nat) (w : tvaluation A) : tvaluation A :=
  TVal A (fun c n => spin_sum S flip (vtensor w c n)) (spin_sum S flip (voper w)).
(** operators keep their value when two creators and their annihilators are exchanged together *)
Definition pair_symmetric_operators {A : qalg} (v : tvaluation A) : Prop :=
  forall u1 x y u2 l1 x' y' l2, length u1 = length l1 -> voper v (u1 ++ x :: y :: u2) (l1 ++ x' :: y' :: l2) = voper v (u1 ++ y :: x :: u2) (l1 ++ y' :: x' :: l2).
