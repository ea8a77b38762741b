(** Properties C13, C14, C15: MO spaces. *)
From Verif Require Import PyBase OrderSpec OrderProofs SpaceModel SpaceProofs.
From Coq Require Import Ascii String ZArith.

(** C13. Whatever the iteration order of the set, the label of a known space is
    recovered from the set of its elementary spaces... *)
Theorem C13_find_space_label_inverts_relation :
  forall (l : label) (s : list ascii),
    Permutation s (map label_char (relation l)) -> find_space_label s = Ok (Some (label_char l)).
Proof. exact find_space_label_relation. Qed.
Print Assumptions C13_find_space_label_inverts_relation.

(** ... every non-empty intersection of two known spaces is such a set ... *)
Theorem C13_intersections_are_known :
  forall l1 l2, inter_label (relation l1) (relation l2) <> [] ->
    exists l, relation l = inter_label (relation l1) (relation l2).
Proof. exact intersections_known. Qed.
Print Assumptions C13_intersections_are_known.

(** ... and the function raises exactly for empty sets and unknown labels. *)
Theorem C13_find_space_label_raises :
  forall s e, find_space_label s = Raise e <->
    e = ValueError /\ (s = [] \/ exists c, In c s /\ char_label c = None).
Proof. exact find_space_label_raises. Qed.
Print Assumptions C13_find_space_label_raises.

(** The documented claim ("for any set of labels") is false: {'c','v'} gives 'p',
    whose elementary spaces are {a, v}; and {'a','p'} gives None. *)
Theorem C13_find_space_label_general_refuted :
  (exists s l, find_space_label s = Ok (Some (label_char l)) /\
               (forall c, In c s -> exists x, char_label c = Some x /\ relation x = [x]) /\
               ~ incl s (map label_char (relation l))) /\
  (exists s, s <> [] /\ find_space_label s = Ok None).
Proof.
  split.
  - exists ["c"; "v"]%char, (Lab false Sp). split; [reflexivity|]. split.
    + intros c [<-|[<-|[]]]; eexists; split; reflexivity.
    + intros H. destruct (H "c"%char (or_introl eq_refl)) as [E|[E|[]]]; discriminate E.
  - exists ["a"; "p"]%char. split; [discriminate|reflexivity].
Qed.
Print Assumptions C13_find_space_label_general_refuted.

Example C13_example : find_space_label ["V"; "A"]%char = Ok (Some "P"%char).
Proof. exact (C13_find_space_label_inverts_relation (Lab true Sp) _ (perm_swap _ _ _)). Qed.

(** C14. <, <=, >, >= are a total preorder by (scaling, [v, c, a]). *)
Theorem C14_counter_preorder : lawful counter_key_ord.
Proof. exact counter_key_lawful. Qed.
Print Assumptions C14_counter_preorder.

Theorem C14_counter_fields :
  forall d c, make_counter d = Ok c ->
    parsed c = [key_total (fun k => Ascii.eqb k "v" || Ascii.eqb k "g" || Ascii.eqb k "p")%char%bool d;
                key_total (fun k => Ascii.eqb k "c" || Ascii.eqb k "h")%char%bool d;
                key_total (fun k => Ascii.eqb k "a")%char%bool d] /\
    overall c = fold_right Z.add 0%Z (parsed c).
Proof. exact counter_fields. Qed.
Print Assumptions C14_counter_fields.

(** == agrees with the order on dictionaries of non-zero counts of elementary alpha spaces... *)
Theorem C14_counter_eq_elementary :
  forall d1 d2 c1 c2, elementary_counts d1 -> elementary_counts d2 ->
    make_counter d1 = Ok c1 -> make_counter d2 = Ok c2 ->
    peq counter_ord c1 c2 = peq counter_key_ord c1 c2.
Proof. exact counter_eq_elementary. Qed.
Print Assumptions C14_counter_eq_elementary.

(** ... but not in general: two counters may be incomparable, or equal and
    strictly ordered at the same time. *)
Theorem C14_counter_order_refuted :
  (exists d1 d2 a b, make_counter d1 = Ok a /\ make_counter d2 = Ok b /\
      plt counter_ord a b = false /\ pgt counter_ord a b = false /\ peq counter_ord a b = false) /\
  (exists d1 d2 a b, make_counter d1 = Ok a /\ make_counter d2 = Ok b /\
      plt counter_ord a b = true /\ peq counter_ord a b = true).
Proof.
  split.
  - exists [("h"%char, 1%Z)], [("c"%char, 1%Z)]. eexists; eexists.
    split; [reflexivity|]. split; [reflexivity|]. vm_compute; auto.
  - exists [("c"%char, 1%Z); ("C"%char, 1%Z)], [("c"%char, 2%Z); ("C"%char, 1%Z)]. eexists; eexists.
    split; [reflexivity|]. split; [reflexivity|]. vm_compute; auto.
Qed.
Print Assumptions C14_counter_order_refuted.

Example C14_example : elementary_counts [("v"%char, 4%Z); ("c"%char, 2%Z)].
Proof.
  split; [repeat constructor; simpl; intuition discriminate|].
  intros k n [E|[E|[]]]; injection E as <- <-; split; discriminate || reflexivity.
Qed.

(** C15. downgrade_indices returns exactly the non-zero block. *)
Theorem C15_downgrade_cumulant :
  forall u l, lbeta (fst u) = lbeta (fst l) -> downgrade_spec Sv u l (downgrade_cumulant u l).
Proof. exact downgrade_cumulant_ok. Qed.
Print Assumptions C15_downgrade_cumulant.

Theorem C15_downgrade_hole :
  forall u l, lbeta (fst u) = lbeta (fst l) -> downgrade_spec Sc u l (downgrade_hole u l).
Proof. exact downgrade_hole_ok. Qed.
Print Assumptions C15_downgrade_hole.

Theorem C15_downgrade_kronecker :
  forall u l, lbeta (fst u) = lbeta (fst l) ->
  match downgrade_kronecker u l with
  | None => forall x, In x (relation (fst u)) -> ~ In x (relation (fst l))
  | Some w => forall x, In x (relation w) <-> In x (relation (fst u)) /\ In x (relation (fst l))
  end.
Proof. exact downgrade_kronecker_ok. Qed.
Print Assumptions C15_downgrade_kronecker.

Example C15_example :
  downgrade_cumulant (Lab false Sg, 0) (Lab false Sp, 3) = Some (Lab false Sa) /\
  downgrade_hole (Lab true Sg, 0) (Lab true Sg, 3) = Some (Lab true Sp) /\
  downgrade_kronecker (Lab false Sh, 0) (Lab false Sp, 3) = Some (Lab false Sa) /\
  downgrade_kronecker (Lab false Sh, 0) (Lab false Sv, 3) = None.
Proof. repeat split. Qed.
