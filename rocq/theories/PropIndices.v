(** Properties C07-C12: sorting, signs, orders and spin cases of index lists. *)
From Verif Require Import PyBase OrderSpec OrderProofs ParitySpec ParityProofs SpaceModel SpaceProofs
  IndicesModel IterProofs IndicesProofs SpinProofs.
From Coq Require Import ZArith String Sorting.Sorted.
Local Notation length := List.length.
Local Open Scope nat_scope.

(** Sample indices used by the examples. *)
Definition ia n : idx := (Lab false Sa, n).
Definition ig n : idx := (Lab false Sg, n).
Definition iA n : idx := (Lab true Sa, n).

(** C07. The merge sort returns a sorted rearrangement and the exact number of
    inverted pairs, for any lawful comparison. *)
Theorem C07_sort_and_count :
  forall (A : Type) (o : pyord A), lawful o -> forall array : list A,
    exists r c, sort_and_count_inversions (ple o) array = Ok (r, c) /\
      Permutation r array /\ StronglySorted (fun x y => ple o x y = true) r /\
      c = length (inverted_pairs (plt o) array).
Proof. exact @sort_and_count_ok. Qed.
Print Assumptions C07_sort_and_count.

Example C07_example : sort_and_count_inversions (ple nat_ord) [3; 1; 2; 1] = Ok ([1; 1; 2; 3], 4).
Proof. reflexivity. Qed.

(** C08. Canonicalisation of antisymmetric indices: sorted, with the sign of the reordering. *)
Theorem C08_canonicalize_sorted_with_sign :
  forall t l, itype_antisymmetric t = true -> NoDup l ->
    exists r s, canonicalize_indices t l = Ok (r, s) /\
      StronglySorted (fun x y => ple idx_ord x y = true) r /\ reorder_sign l r s.
Proof. exact canonicalize_spec. Qed.
Print Assumptions C08_canonicalize_sorted_with_sign.

(** The sign of a reordering of distinct indices is unique, so the statement above determines it. *)
Theorem C08_reorder_sign_unique :
  forall (l l' : list idx) s t, NoDup l -> reorder_sign l l' s -> reorder_sign l l' t -> s = t.
Proof. exact reorder_sign_unique. Qed.
Print Assumptions C08_reorder_sign_unique.

Theorem C08_canonicalize_equivariant :
  forall t l l' sigma r s, itype_antisymmetric t = true -> NoDup l -> reorder_sign l l' sigma ->
    canonicalize_indices t l = Ok (r, s) -> canonicalize_indices t l' = Ok (r, (sigma * s)%Z).
Proof. exact canonicalize_equivariant. Qed.
Print Assumptions C08_canonicalize_equivariant.

Theorem C08_canonicalize_idempotent :
  forall t l r s, itype_antisymmetric t = true -> NoDup l ->
    canonicalize_indices t l = Ok (r, s) -> canonicalize_indices t r = Ok (r, 1%Z).
Proof. exact canonicalize_idem. Qed.
Print Assumptions C08_canonicalize_idempotent.

(** The value of an antisymmetric tensor is preserved. *)
Theorem C08_canonicalize_value :
  forall t l r s f, itype_antisymmetric t = true -> NoDup l -> alternating f ->
    canonicalize_indices t l = Ok (r, s) -> f l = (s * f r)%Z.
Proof. exact canonicalize_alternating. Qed.
Print Assumptions C08_canonicalize_value.

Theorem C08_canonicalize_spin_adapted :
  forall l, canonicalize_indices SpinAdapted l = Ok (l, 1%Z).
Proof. reflexivity. Qed.
Print Assumptions C08_canonicalize_spin_adapted.

(** Pairs: the sign is the product, so a tensor antisymmetric in its upper and in
    its lower indices keeps its value. *)
Theorem C08_canonicalize_pair_value :
  forall t u l u' l' s (f : list idx -> list idx -> Z),
    itype_antisymmetric t = true -> NoDup u -> NoDup l ->
    (forall b, alternating (fun a => f a b)) -> (forall a, alternating (f a)) ->
    canonicalize_pair t u l = Ok (u', l', s) -> f u l = (s * f u' l')%Z.
Proof.
  intros t u l u' l' s f Ht Nu Nl Hu Hl. unfold canonicalize_pair.
  destruct (canonicalize_indices t u) as [[ru su]|] eqn:Eu; [|discriminate].
  destruct (canonicalize_indices t l) as [[rl sl]|] eqn:El; [|discriminate].
  cbn. intros E. injection E as <- <- <-.
  rewrite (canonicalize_alternating t u ru su (fun a => f a l) Ht Nu (Hu l) Eu).
  rewrite (canonicalize_alternating t l rl sl (f ru) Ht Nl (Hl ru) El). ring.
Qed.
Print Assumptions C08_canonicalize_pair_value.

Example C08_example :
  canonicalize_indices SpinOrbital [ia 1; ia 0; ig 5] = Ok ([ig 5; ia 0; ia 1], (-1)%Z) /\
  NoDup [ia 1; ia 0; ig 5] /\
  canonicalize_indices SpinAdapted [ia 1; ia 0; ig 5] = Ok ([ia 1; ia 0; ig 5], 1%Z).
Proof.
  split; [reflexivity|]. split; [|reflexivity]. apply nodup_idx_spec. reflexivity.
Qed.

(** C09. count_permutations raises exactly for different index sets, and its
    parity is the sign of the reordering. *)
Theorem C09_count_permutations_defined :
  forall a b, NoDup a -> NoDup b ->
    ((exists n, count_permutations a b = Ok n) <-> Permutation a b) /\
    (~ Permutation a b -> count_permutations a b = Raise ValueError).
Proof.
  intros a b Na Nb. destruct (count_permutations_ok a b Na Nb) as [H1 H2]. split; [|exact H2].
  split; [|intros P; eexists; apply H1, P]. intros [n E].
  apply count_permutations_sign in E; auto. eapply reorder_sign_perm, E.
Qed.
Print Assumptions C09_count_permutations_defined.

Theorem C09_count_permutations_sign :
  forall a b n, NoDup a -> NoDup b -> count_permutations a b = Ok n -> reorder_sign a b (sgn n).
Proof. exact count_permutations_sign. Qed.
Print Assumptions C09_count_permutations_sign.

Theorem C09_count_permutations_zero :
  forall a b, NoDup a -> NoDup b -> (count_permutations a b = Ok 0 <-> a = b).
Proof. exact count_permutations_zero. Qed.
Print Assumptions C09_count_permutations_zero.

Theorem C09_count_permutations_cocycle :
  forall a b c n m k, NoDup a -> NoDup b -> NoDup c ->
    count_permutations a b = Ok n -> count_permutations b c = Ok m -> count_permutations a c = Ok k ->
    (sgn n * sgn m = sgn k)%Z.
Proof. exact count_permutations_cocycle. Qed.
Print Assumptions C09_count_permutations_cocycle.

Theorem C09_count_permutations_symmetric :
  forall a b n m, NoDup a -> NoDup b ->
    count_permutations a b = Ok n -> count_permutations b a = Ok m -> sgn n = sgn m.
Proof. exact count_permutations_sym. Qed.
Print Assumptions C09_count_permutations_symmetric.

Example C09_example :
  count_permutations [ia 0; ia 1; ig 2] [ig 2; ia 0; ia 1] = Ok 2 /\
  count_permutations [ia 0; ia 1] [ia 0; ia 2] = Raise ValueError.
Proof. split; reflexivity. Qed.

(** C10. Comparison methods. *)
Theorem C10_indices_order : lawful indices_ord /\ extensional indices_ord.
Proof. exact (conj indices_lawful indices_ext). Qed.
Print Assumptions C10_indices_order.

Theorem C10_indices_size_first : forall a b, length a < length b -> plt indices_ord a b = true.
Proof. exact indices_size_first. Qed.
Print Assumptions C10_indices_size_first.

Theorem C10_indices_types :
  forall op a b, indices_compare op a b = Raise TypeError <-> fst a <> fst b.
Proof.
  intros op [ta la] [tb lb]. unfold indices_compare. simpl.
  destruct ta, tb; simpl; split; intros H; try congruence; try discriminate; reflexivity.
Qed.
Print Assumptions C10_indices_types.

Theorem C10_pair_order : lawful pair_indices_ord /\ extensional pair_indices_ord.
Proof. exact (conj pair_indices_lawful pair_indices_ext). Qed.
Print Assumptions C10_pair_order.

Theorem C10_tensor_order : lawful tensor_key_ord /\ extensional tensor_key_ord.
Proof. exact (conj tensor_key_lawful tensor_key_ext). Qed.
Print Assumptions C10_tensor_order.

(** The key fields are consulted in the documented order. *)
Theorem C10_tensor_order_meaning :
  forall a b, plt tensor_key_ord a b = true <->
    (k_priority a < k_priority b)%Z \/
    (k_priority a = k_priority b /\
     (plt string_ord (k_name a) (k_name b) = true \/
      (k_name a = k_name b /\
       (length (k_upper a) + length (k_lower a) < length (k_upper b) + length (k_lower b) \/
        (length (k_upper a) + length (k_lower a) = length (k_upper b) + length (k_lower b) /\
         (plt indices_ord (k_upper a) (k_upper b) = true \/
          (k_upper a = k_upper b /\ plt indices_ord (k_lower a) (k_lower b) = true))))))).
Proof.
  intros [p n u l] [p' n' u' l']. unfold tensor_key_ord, comparison_tuple.
  Opaque indices_ord string_ord. cbn -[Nat.ltb Nat.add List.length]. unfold pair_op. cbn -[Nat.ltb Nat.add List.length].
  destruct (Z.eqb_spec p p') as [->|Np]; [|rewrite Z.ltb_lt; intuition lia].
  destruct (peq string_ord n n') eqn:En.
  - apply string_ext in En. subst n'.
    assert (Hn : plt string_ord n n = false) by (apply lw_irr, string_lawful). rewrite Hn.
    destruct (Nat.eqb_spec (length u + length l) (length u' + length l')) as [El|El].
    + rewrite El. destruct (peq indices_ord u u') eqn:Eu.
      * apply indices_ext in Eu. subst u'.
        assert (Hu : plt indices_ord u u = false) by (apply lw_irr, indices_lawful). rewrite Hu.
        intuition (try lia; try discriminate).
      * assert (u <> u') by (intros E; apply indices_ext in E; congruence).
        intuition (try lia; try discriminate).
    + rewrite Nat.ltb_lt. intuition (try lia; try discriminate).
  - assert (n <> n') by (intros E; apply string_ext in E; congruence).
    intuition (try lia; try discriminate).
Qed.
Print Assumptions C10_tensor_order_meaning.

(** Sorting is canonical: any two sorted rearrangements of the same tensors coincide. *)
Theorem C10_sorting_unique :
  forall l l' : list tensor_key,
    StronglySorted (fun x y => ple tensor_key_ord x y = true) l ->
    StronglySorted (fun x y => ple tensor_key_ord x y = true) l' ->
    Permutation l l' -> l = l'.
Proof. exact (sorted_unique tensor_key_ord tensor_key_lawful tensor_key_ext). Qed.
Print Assumptions C10_sorting_unique.

Example C10_example :
  plt indices_ord [ia 3] [ig 0; ia 0] = true /\
  plt tensor_key_ord (TensorKey (-1) "K" [ia 0] [ia 1]) (TensorKey 0 "H" [ia 0] [ia 1]) = true /\
  plt tensor_key_ord (TensorKey 2 "C" [ia 0] [ia 1]) (TensorKey 2 "L" [ia 0] [ia 1]) = true.
Proof. repeat split. Qed.

(** C11. Spin cases of a list of spin-orbital (alpha-labelled, distinct) indices. *)
Theorem C11_spin_cases_all :
  forall l, Forall (fun i => idx_beta i = false) l -> NoDup l ->
    exists r, spin_cases_all l = Ok r /\ NoDup r /\ length r = 2 ^ length l /\
      (forall l', In l' r <-> Forall2 (fun i j => j = i \/ j = idx_to_beta i) l l').
Proof. exact spin_cases_all_ok. Qed.
Print Assumptions C11_spin_cases_all.

Theorem C11_spin_cases_k :
  forall k l, Forall (fun i => idx_beta i = false) l -> NoDup l -> (0 <= k <= Z.of_nat (length l))%Z ->
    exists r, spin_cases_k k l = Ok r /\ NoDup r /\
      length r * (fact (Z.to_nat k) * fact (length l - Z.to_nat k)) = fact (length l) /\
      (forall l', In l' r <-> Forall2 (fun i j => j = i \/ j = idx_to_beta i) l l' /\
                              Z.of_nat (length (filter idx_beta l')) = k).
Proof. exact spin_cases_k_ok. Qed.
Print Assumptions C11_spin_cases_k.

Theorem C11_spin_cases_k_raises :
  forall k l, Forall (fun i => idx_beta i = false) l -> NoDup l ->
    (exists e, spin_cases_k k l = Raise e) <-> ~ (0 <= k <= Z.of_nat (length l))%Z.
Proof. exact spin_cases_k_raises. Qed.
Print Assumptions C11_spin_cases_k_raises.

Example C11_example :
  spin_cases_k 1 [ia 0; ia 1] = Ok [[iA 0; ia 1]; [ia 0; iA 1]] /\
  Forall (fun i => idx_beta i = false) [ia 0; ia 1] /\ NoDup [ia 0; ia 1].
Proof. split; [reflexivity|]. split; [repeat constructor|apply nodup_idx_spec; reflexivity]. Qed.

(** C12. Spin cases of a pair. *)
Theorem C12_pair_spin_cases :
  forall (pc : bool) u l,
    Forall (fun i => idx_beta i = false) u -> NoDup u ->
    Forall (fun i => idx_beta i = false) l -> NoDup l ->
    (pc = true -> length u = length l) ->
    exists r, spin_cases_pair pc u l = Ok r /\ NoDup r /\
      forall u' l', In (u', l') r <->
        Forall2 (fun i j => j = i \/ j = idx_to_beta i) u u' /\
        Forall2 (fun i j => j = i \/ j = idx_to_beta i) l l' /\
        (pc = true -> length (filter idx_beta u') = length (filter idx_beta l')).
Proof. exact spin_cases_pair_ok. Qed.
Print Assumptions C12_pair_spin_cases.

Theorem C12_pair_spin_cases_raises :
  forall u l, length u <> length l -> spin_cases_pair true u l = Raise ValueError.
Proof.
  intros u l H. unfold spin_cases_pair. destruct (Nat.eqb_spec (length u) (length l)); [contradiction|reflexivity].
Qed.
Print Assumptions C12_pair_spin_cases_raises.

Example C12_example :
  spin_cases_pair true [ia 0] [ig 0] = Ok [([ia 0], [ig 0]); ([iA 0], [(Lab true Sg, 0)])].
Proof. reflexivity. Qed.
