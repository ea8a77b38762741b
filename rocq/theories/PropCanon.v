(** C42: canonicalize with SymPy. *)
From Coq Require Import Ascii String ZArith QArith Qcanon Sorting.Sorted.
From Verif Require Import PyBase OrderSpec OrderProofs SpaceModel IndicesModel IterProofs IndicesProofs ElemModel MacroModel TermModel ValueSpec ValueProofs TermSpec SumProofs TermProofs RenameProofs
  SimplifyProofs SimplifyValue CanonProofs SymmetryModel SymmetrySpec SymmetryProofs SympyProofs SympyValue PropTerm PropSimplify.
Local Close Scope Q_scope.
Local Close Scope Qc_scope.
Local Open Scope nat_scope.
Local Notation length := List.length.

(** C42. Whatever SymPy answers within the declared symmetries, the canonical term has the value of the simplified one, and
    its coefficient differs by a sign at most. Asked of the simplified term: every index occurs twice, the operator has as
    many creators as annihilators, tensors with the same name are of the same class. Asked of the values: the declared
    symmetries. *)
Theorem C42_sympy_value :
  forall (A : qalg) (S : system) (v : tvaluation A) sympy core ra hermitian t t' tm,
  admissible sympy -> simplify core ra t = Ok t' -> canonicalize_sympy sympy core ra hermitian t = Ok tm ->
  (itype_antisymmetric (ttype t') = true -> antisymmetric v) -> (itype_antisymmetric (ttype t') = false -> pair_symmetric v) ->
  (hermitian = true -> hermitian_values v) ->
  Forall (fun x => titype x = ttype t') (ttensors t') -> classes_by_name (ttensors t') ->
  length (cre (tsq t')) = length (ann (tsq t')) -> paired (ttensors t') (tsq t') -> zero_or_visible (tcoeff t') ->
  term_value S v tm = term_value S v t' /\ (tcoeff tm = tcoeff t' \/ tcoeff tm = Qcopp (tcoeff t')) /\ ttype tm = ttype t'.
Proof. intros A S v sympy core ra h t t' tm AD H1 H2 AS PS HS HT HC HB HP V. apply (sympy_ok A S v sympy core ra h t t' tm); try assumption. exact (visible_void _ V). Qed.
Print Assumptions C42_sympy_value.

(** The same for every constructed term without diagonal indices, with the hypotheses of C40. *)
Theorem C42_canonicalize_value :
  forall (A : qalg) (S : system) (v : tvaluation A) sympy core ra hermitian ty xs o c t tm,
  make_term ty xs o c = Ok t -> (forall i, ~ diagonal_in i xs o) -> Forall valid_tensor xs -> densities_disjoint xs -> cumulants_open_active xs ->
  classes_by_name xs -> length (cre o) = length (ann o) -> zero_or_visible c ->
  physical S v -> (ra = true -> no_active_amplitudes S v) ->
  (itype_antisymmetric ty = true -> antisymmetric v) -> (itype_antisymmetric ty = false -> pair_symmetric v) -> (hermitian = true -> hermitian_values v) ->
  admissible sympy -> canonicalize sympy core ra hermitian t = Ok tm ->
  term_value S v tm = term_value S v t /\ (tcoeff tm = c \/ tcoeff tm = Qcopp c \/ tcoeff tm = Q2Qc 0) /\ ttype tm = ty.
Proof.
  intros A S v sympy core ra h ty xs o c t tm M ND HV HD HO HC HB Hc P NA AS PS HS AD H0.
  assert (H : canonicalize_sympy sympy core ra h t = Ok tm) by (unfold canonicalize in H0; destruct (tdiag t); [exact H0|discriminate]). clear H0.
  pose proof H as H'. unfold canonicalize_sympy in H'. destruct (simplify core ra t) as [t'|] eqn:E; [|discriminate]. clear H'.
  destruct (simplify_keeps core ra ty xs o c t t' M ND HV HD E) as (K1 & K2 & K3 & K4 & K5). destruct (make_term_fields _ _ _ _ _ M) as (_ & _ & _ & _ & E5 & _). destruct (simplify_type _ _ _ _ E) as [_ C].
  destruct (sympy_ok A S v sympy core ra h t t' tm AD E H) as (V & Q & T); rewrite ?K1 in *; auto.
  - unfold is_void. intros V. destruct C as [C|C]; [|exact C]. rewrite C, E5 in *. exact (visible_void _ Hc V).
  - split; [rewrite V; eapply simplify_value; eassumption|]. split; [|exact T]. rewrite E5 in C. destruct C as [C|C]; rewrite C in Q; [intuition|]. right. right. destruct Q as [Q|Q]; exact Q.
Qed.
Print Assumptions C42_canonicalize_value.

(** terms with diagonal indices are rejected *)
Theorem C42_diagonal_rejected :
  forall sympy core ra hermitian ty xs o c t i, make_term ty xs o c = Ok t -> diagonal_in i xs o ->
  canonicalize sympy core ra hermitian t = Raise NotImplementedErr.
Proof.
  intros sympy core ra h ty xs o c t i M D. destruct (make_term_fields _ _ _ _ _ M) as (_ & _ & _ & _ & _ & _ & _ & _ & _ & F). unfold canonicalize. destruct (tdiag t) as [|p d] eqn:E; [|reflexivity].
  exfalso. apply (in_nil (a := (i, total_times i xs o))). apply F. auto.
Qed.
Print Assumptions C42_diagonal_rejected.

(** ** An oracle: one given move if it is among the declared symmetries *)
Definition one_move (s : list nat) : sympy_oracle := fun g _ runs =>
  Ok (Some (if in_dec (list_eq_dec Nat.eq_dec) s (slot_symmetries (length g - 2) 0 runs) then compose g s else g)).
Lemma one_move_admissible s : admissible (one_move s).
Proof.
  intros g ranges runs gc H. unfold one_move in H. injection H as <-. destruct (in_dec _ s _) as [Q|Q]; [|constructor]. apply ef_slot; [constructor|exact Q].
Qed.

(** Example: H^{g0,g1}_{g2,g3} a^{g2,g3}_{g0,g1}; the move exchanges the annihilators *)
Definition ex_H4 : list tensor := [ex_H [xi Sg 0; xi Sg 1] [xi Sg 2; xi Sg 3]].
Definition ex_move : list nat := [1; 0; 2; 3; 4; 5; 6; 7; 9; 8].
Example C42_example :
  exists t tm, make_term SpinOrbital ex_H4 (Op [xi Sg 2; xi Sg 3] [xi Sg 0; xi Sg 1]) (Q2Qc 2) = Ok t /\
    canonicalize (one_move ex_move) true true true t = Ok tm /\ admissible (one_move ex_move) /\
    map (fun x => (tupper x, tlower x)) (ttensors tm) = [([xi Sg 2; xi Sg 3], [xi Sg 0; xi Sg 1])] /\
    (cre (tsq tm), ann (tsq tm), this (tcoeff tm)) = ([xi Sg 0; xi Sg 1], [xi Sg 3; xi Sg 2], (-2)%Q).
Proof. eexists. eexists. split; [reflexivity|]. split; [vm_compute; reflexivity|]. split; [apply one_move_admissible|]. split; reflexivity. Qed.

(** ** More creators than annihilators *)
(** an antisymmetric function: the sign of a rearrangement of ref *)
Definition levi (ref l : list nat) : Z :=
  if forallb (fun x => existsb (Nat.eqb x) l) ref && (length l =? length ref) then parity l else 0%Z.
Lemma levi_swap ref p x y q : NoDup ref -> levi ref (p ++ x :: y :: q) = (- levi ref (p ++ y :: x :: q))%Z.
Proof.
  intros N. unfold levi. assert (P : Permutation (p ++ x :: y :: q) (p ++ y :: x :: q)) by (apply Permutation_app_head, perm_swap).
  assert (E : forallb (fun z => existsb (Nat.eqb z) (p ++ x :: y :: q)) ref = forallb (fun z => existsb (Nat.eqb z) (p ++ y :: x :: q)) ref).
  { apply eq_true_iff_eq. rewrite !forallb_forall. split; intros H z Hz; specialize (H z Hz); rewrite existsb_exists in *; destruct H as (w & Hw & Q); exists w; (split; [|exact Q]); [rewrite <- P|rewrite P]; exact Hw. }
  rewrite E, (Permutation_length P). clear E. destruct (forallb (fun z => existsb (Nat.eqb z) (p ++ y :: x :: q)) ref) eqn:Ef; cbn [andb]; [|reflexivity]. destruct (Nat.eqb_spec (length (p ++ y :: x :: q)) (length ref)) as [L|L]; [|reflexivity].
  apply parity_swap. apply (NoDup_incl_NoDup N); [lia|]. intros z Hz. rewrite forallb_forall in Ef. apply Ef, existsb_exists in Hz as (w & Hw & Q). apply Nat.eqb_eq in Q as ->. exact Hw.
Qed.
Definition levi_values : tvaluation Qc_alg := TVal Qc_alg (fun _ _ u l => Qc_of_Z (levi [1; 3] u * levi [0; 2] l)) (fun u l => Qc_of_Z (levi [0; 1; 2] u * levi [3] l)).
Lemma Qc_of_Z_opp z : Qc_of_Z (- z) = Qcopp (Qc_of_Z z).
Proof. apply Qc_is_canon. unfold Qc_of_Z, Qcopp. cbn [this Q2Qc]. rewrite !Qred_correct. reflexivity. Qed.
Lemma levi_antisymmetric : antisymmetric levi_values.
Proof.
  constructor; cbn [vtensor voper levi_values]; intros; intros p x y q; change (@qopp Qc_alg) with Qcopp; rewrite <- Qc_of_Z_opp; f_equal; rewrite (levi_swap _ p x y q) by (repeat (constructor; [cbn; intuition lia|]); constructor); ring.
Qed.
(** H^{g0,g1}_{g2,g3} a^{g2,g1,g3}_{g0}: the array starts with the annihilator but the declared symmetries permute its first
    three slots, so that a move exchanging the annihilator with a creator is allowed. *)
Definition four_orbitals : system := Sys 4 (fun _ => Lab false Sv).
Theorem C42_unbalanced_refuted :
  exists sympy (S : system) (v : tvaluation Qc_alg) xs o t tm, admissible sympy /\ antisymmetric v /\ make_term SpinOrbital xs o (Q2Qc 1) = Ok t /\
    (forall i, ~ diagonal_in i xs o) /\ paired xs o /\ canonicalize sympy true false false t = Ok tm /\ term_value S v tm <> term_value S v t.
Proof.
  exists (one_move ex_move), four_orbitals, levi_values, ex_H4, (Op [xi Sg 2; xi Sg 1; xi Sg 3] [xi Sg 0]). eexists. eexists. split; [apply one_move_admissible|]. split; [exact levi_antisymmetric|].
  split; [reflexivity|]. split; [|split; [|split; [vm_compute; reflexivity|]]].
  - intros i [[H1 H2]|(x & Hx & H1 & H2)]; [cbn in H1, H2; intuition (subst; discriminate)|]. cbn in Hx. destruct Hx as [<-|[]]; cbn in H1, H2; intuition (subst; discriminate).
  - intros i H. rewrite <- content_times in *. apply idx_times_in in H. cbn in H. repeat (destruct H as [<-|H]; [reflexivity|]). destruct H.
  - intros H. apply (f_equal this) in H. vm_compute in H. discriminate.
Qed.
Print Assumptions C42_unbalanced_refuted.

(** SymPy answers 0 if a term vanishes by symmetry. canonicalize cannot read that answer: it raises for every term that is not
    void after simplify, instead of returning the void term. *)
Theorem C42_zero_answer_raises :
  forall sympy core ra hermitian t tm, (forall g ranges runs, sympy g ranges runs = Ok None) -> canonicalize sympy core ra hermitian t = Ok tm ->
  exists t', simplify core ra t = Ok t' /\ is_void t' = true.
Proof.
  intros sympy core ra h t tm HZ H. unfold canonicalize in H. destruct (tdiag t); [|discriminate]. unfold canonicalize_sympy in H. destruct (simplify core ra t) as [t'|] eqn:E; [|discriminate]. cbn [pybind] in H. exists t'. split; [reflexivity|].
  destruct (is_void t'); [reflexivity|]. exfalso. cbv zeta in H. repeat (match type of H with pybind ?a _ = _ => destruct a as [?|] eqn:?E; cbn [pybind] in H; [|discriminate] end).
  match type of H with match ?a with _ => _ end = _ => destruct a as [gc|] end; [|discriminate]. match goal with E : (if ?b then sympy _ _ _ else _) = Ok (Some gc) |- _ => destruct b; [rewrite HZ in E; discriminate|discriminate] end.
Qed.
Print Assumptions C42_zero_answer_raises.
Definition zero_oracle : sympy_oracle := fun _ _ _ => Ok None.
Example C42_zero_example :
  exists t, make_term SpinOrbital ex_H4 (Op [xi Sg 2; xi Sg 3] [xi Sg 0; xi Sg 1]) (Q2Qc 1) = Ok t /\ canonicalize zero_oracle true true true t = Raise TypeError.
Proof. eexists. split; [reflexivity|]. vm_compute. reflexivity. Qed.
