(** C36, C37, C58: the text of terms and combine_terms. *)
From Coq Require Import Ascii String ZArith QArith Qcanon Sorting.Sorted.
From Verif Require Import PyBase OrderSpec OrderProofs SpaceModel IndexModel IndicesModel IterProofs IndicesProofs ElemModel MacroModel TermModel ValueSpec ValueProofs TermSpec TermProofs
  SymmetryModel CombineModel CombineSpec TextProofs CombineProofs CombineValue PropTerm PropSimplify.
Local Close Scope Q_scope.
Local Close Scope Qc_scope.
Local Open Scope nat_scope.
Local Notation length := List.length.

(** C58. Terms whose tensor names contain no ^ have the same text exactly if they have the same tensors (name, upper and
    lower indices, in order) and the same operator. *)
Theorem C58_text_identifies :
  forall t t', plain t -> plain t' -> (hash_term t = hash_term t' <-> labels t = labels t').
Proof. exact hash_labels. Qed.
Print Assumptions C58_text_identifies.

(** the text of a concrete term, and two terms that differ in an index *)
Definition ex_text (n : nat) : term := MkTerm SpinOrbital [ex_H [xi Sg 0] [xi Sp n]] (Op [xi Sp n] [xi Sg 0]) (Q2Qc 1) [] (fun _ => 0) [].
Example C58_example :
  plain (ex_text 1) /\ plain (ex_text 12) /\ labels (ex_text 1) <> labels (ex_text 12) /\
  hash_term (ex_text 12) = list_ascii_of_string "H^{ g_{0} }_{ p_{12} } a^{ p_{12} }_{ g_{0} }".
Proof.
  split; [|split; [|split]].
  - constructor; [|constructor]. intros H. cbn in H. intuition discriminate.
  - constructor; [|constructor]. intros H. cbn in H. intuition discriminate.
  - discriminate.
  - vm_compute. reflexivity.
Qed.

(** Names with ^ can make different terms look the same, and combine_terms then adds their coefficients. *)
Definition ex_two : term := MkTerm SpinOrbital [ex_H [xi Sg 0] [xi Sg 1]; ex_H [xi Sg 1] [xi Sg 0]] (Op [] []) (Q2Qc 1) [] (fun _ => 0) [].
Definition ex_one : term := MkTerm SpinOrbital [Ten THamiltonian SpinOrbital "H^{ g_{0} }_{ g_{1} } H" 0 [xi Sg 1] [xi Sg 0]] (Op [] []) (Q2Qc 1) [] (fun _ => 0) [].
Theorem C58_any_name_refuted :
  exists t t', labels t <> labels t' /\ hash_term t = hash_term t' /\ exists t2, combine_terms [t; t'] = Ok [t2] /\ tcoeff t2 = Q2Qc (2 # 1).
Proof. exists ex_two, ex_one. split; [discriminate|]. split; [vm_compute; reflexivity|]. eexists. split; [vm_compute; reflexivity|]. vm_compute. reflexivity. Qed.
Print Assumptions C58_any_name_refuted.

(** C36. What combine_terms returns is sorted; no two terms have the same content; each is an input term, the last of its
    content, with the sum of the coefficients over this content, which is at least 1e-15; and every content of the input whose
    sum is at least 1e-15 is there. *)
Theorem C36_combine_sums :
  forall l out, Forall plain l -> combine_terms l = Ok out ->
  le_sorted term_ord out /\ NoDup (map labels out) /\
  (forall t, In t out -> exists l1 t0 l2, l = l1 ++ t0 :: l2 /\ (forall t', In t' l2 -> labels t' <> labels t0) /\
                t = set_coeff t0 (total t0 l) /\ Qcle tiny (Qc_abs (total t0 l))) /\
  (forall t0, In t0 l -> Qcle tiny (Qc_abs (total t0 l)) -> exists t, In t out /\ labels t = labels t0 /\ tcoeff t = total t0 l).
Proof. intros l out P H. destruct (combine_combined l out P H). auto. Qed.
Print Assumptions C36_combine_sums.

(** Exactly the contents with a sum below 1e-15 are omitted. *)
Theorem C36_combine_omits :
  forall l out t0, Forall plain l -> combine_terms l = Ok out -> In t0 l ->
  ((exists t, In t out /\ labels t = labels t0) <-> ~ Qclt (Qc_abs (total t0 l)) tiny).
Proof.
  intros l out t0 P H I. destruct (combine_combined l out P H) as [_ _ S C]. split.
  - intros (t & Ht & E) L. destruct (S t Ht) as (l1 & t1 & l2 & _ & _ & -> & V). change (labels t1 = labels t0) in E. rewrite total_tot in *. rewrite E in V. exact (Qclt_not_le _ _ L V).
  - intros L. apply Qcnot_lt_le in L. destruct (C t0 I L) as (t & Ht & E & _). eauto.
Qed.
Print Assumptions C36_combine_omits.

(** combine_terms does not fail on terms over one class of indices, and otherwise with TypeError only. *)
Theorem C36_combine_succeeds :
  forall l, Forall plain l -> (forall t t', In t l -> In t' l -> ttype t = ttype t') -> exists out, combine_terms l = Ok out.
Proof. exact combine_succeeds. Qed.
Print Assumptions C36_combine_succeeds.
Theorem C36_combine_raises : forall l e, combine_terms l = Raise e -> e = TypeError.
Proof. exact combine_raises. Qed.
Print Assumptions C36_combine_raises.

(** The order of the input does not matter: if a name always stands for the same kind of tensor, the same terms come out. *)
Theorem C36_combine_order :
  forall l l' out, Forall plain l -> uniform l -> Permutation l l' -> combine_terms l = Ok out ->
  exists out', combine_terms l' = Ok out' /\ map view out' = map view out.
Proof. exact combine_perm. Qed.
Print Assumptions C36_combine_order.

(** The value of the sum of the terms is kept, if no sum is tiny without being zero. *)
Theorem C36_combine_value :
  forall (A : qalg) (S : system) (v : tvaluation A) l out, Forall plain l -> uniform l ->
  (forall t, In t l -> total t l = Q2Qc 0 \/ Qcle tiny (Qc_abs (total t l))) -> combine_terms l = Ok out ->
  asum (map (term_value S v) out) = asum (map (term_value S v) l).
Proof. exact combine_value. Qed.
Print Assumptions C36_combine_value.

(** Combining a combined list changes nothing. *)
Theorem C36_combine_again : forall l out, Forall plain l -> combine_terms l = Ok out -> combine_terms out = Ok out.
Proof. exact combine_again. Qed.
Print Assumptions C36_combine_again.

(** three contents, one of which cancels *)
Definition ex_w (c : Qc) (s : space) : term := MkTerm SpinOrbital [ex_H [xi Sg 0] [xi s 0]] (Op [xi s 0] [xi Sg 0]) c [] (fun _ => 0) [].
Definition ex_list : list term := [ex_w (Q2Qc (1 # 2)) Sv; ex_w (Q2Qc 1) Sp; ex_w (Q2Qc (1 # 3)) Sv; ex_w (Q2Qc (1 # 4)) Sc; ex_w (Q2Qc (-1 # 1)) Sp].
Lemma ex_plain c s : plain (ex_w c s).
Proof. constructor; [|constructor]. intros H. cbn in H. intuition discriminate. Qed.
Example C36_example :
  Forall plain ex_list /\ uniform ex_list /\ (forall t, In t ex_list -> total t ex_list = Q2Qc 0 \/ Qcle tiny (Qc_abs (total t ex_list))) /\
  exists out, combine_terms ex_list = Ok out /\ map labels out = map labels [ex_w (Q2Qc 1) Sv; ex_w (Q2Qc 1) Sc] /\ map tcoeff out = [Q2Qc (5 # 6); Q2Qc (1 # 4)].
Proof.
  split; [|split; [|split]].
  - unfold ex_list. repeat (constructor; [apply ex_plain|]). constructor.
  - split; [|split]; unfold ex_list; cbn [In]; intros; intuition (subst; cbn in *; intuition (subst; auto)).
  - intros t H. unfold ex_list in H. cbn [In] in H. intuition subst; ((left; vm_compute; reflexivity) || (right; vm_compute; discriminate)).
  - eexists. split; [vm_compute; reflexivity|]. split; vm_compute; reflexivity.
Qed.
(** terms over different classes of indices cannot be sorted *)
Example C36_mixed_example :
  combine_terms [ex_w (Q2Qc 1) Sv; MkTerm SpinAdapted [Ten THamiltonian SpinAdapted "H" 0 [xi Sg 0] [xi Sp 0]] (Op [xi Sp 0] [xi Sg 0]) (Q2Qc 1) [] (fun _ => 0) []] = Raise TypeError.
Proof. vm_compute. reflexivity. Qed.

(** C37 is false: the last of several equal terms is updated in place, so that the objects passed in change and a second call
    returns something else. *)
Theorem C37_arguments_unchanged_refuted :
  exists h l h' out h'' out', combine_terms_heap h l = Ok (h', out) /\ combine_terms_heap h' l = Ok (h'', out') /\
    (exists r, In r l /\ tcoeff (h' r) <> tcoeff (h r)) /\ map (fun r => tcoeff (h' r)) out <> map (fun r => tcoeff (h'' r)) out'.
Proof.
  exists (fun _ => ex_w (Q2Qc 1) Sv), [0; 1]. do 4 eexists. split; [cbv [combine_terms_heap collect]; cbn; reflexivity|]. split; [vm_compute; reflexivity|]. split.
  - exists 1. split; [cbn; auto|]. intros H. apply (f_equal this) in H. vm_compute in H. discriminate.
  - intros H. vm_compute in H. apply (f_equal (map this)) in H. vm_compute in H. discriminate.
Qed.
Print Assumptions C37_arguments_unchanged_refuted.

(** What holds: the objects returned are among those passed in; objects not passed in stay as they are; nothing but
    coefficients is written; an object is written only if it is the last one of its content. The value-level [combine_terms]
    of C36 describes the objects after the call. *)
Theorem C37_what_is_written :
  forall h l h' out, combine_terms_heap h l = Ok (h', out) -> (forall r, In r l -> plain (h r)) ->
  incl out l /\ combine_terms (map h l) = Ok (map h' out) /\
  (forall r, ~ In r l -> h' r = h r) /\
  (forall r, exists c, h' r = set_coeff (h r) c) /\
  (forall l1 r l2, l = l1 ++ r :: l2 -> (forall r', In r' l2 -> labels (h r') <> labels (h r)) -> h' r = set_coeff (h r) (total (h r) (map h l))) /\
  (forall r, h' r <> h r -> exists l1 l2, l = l1 ++ r :: l2 /\ forall r', In r' l2 -> labels (h r') <> labels (h r)).
Proof.
  intros h l h' out E P. pose proof (heap_ok h l) as H. rewrite E in H. destruct H as (H1 & H2 & H3 & H4 & H5 & H6).
  assert (L : forall r r', In r l -> In r' l -> (hname h r' = hname h r <-> labels (h r') = labels (h r))) by (intros r r' I I'; apply hash_labels; auto).
  assert (T : forall r, In r l -> Qc_total (map (hcoeff h) (named (hname h) (hname h r) l)) = total (h r) (map h l)).
  { intros r I. unfold total, like, named. f_equal. assert (G : forall r', In r' l -> In r' l) by auto. revert G. generalize l at 1 3 4 as m. induction m as [|r' m IH]; intros G; [reflexivity|]. cbn [filter map].
    assert (IHm := IH (fun x Hx => G x (or_intror Hx))). pose proof (L r r' I (G r' (or_introl eq_refl))) as LL.
    destruct (text_eqb (hname h r) (hname h r')) eqn:Et, (labels_dec (labels (h r')) (labels (h r))) as [El|El]; cbn [map]; rewrite ?IHm; try reflexivity; exfalso.
    - apply El, LL. symmetry. apply text_eqb_eq, Et.
    - apply LL in El. symmetry in El. apply text_eqb_eq in El. congruence. }
  split; [exact H6|]. split; [exact H1|]. split; [exact H2|]. split; [|split].
  - intros r. destruct (H3 r) as [R|[_ R]]; [exists (tcoeff (h r)); rewrite R; destruct (h r); reflexivity|eauto].
  - intros l1 r l2 El F. rewrite <- T by (rewrite El; apply in_elt). apply (H4 l1 r l2 El). intros r' I Q. apply (F r' I). apply L; [rewrite El; apply in_elt|rewrite El; apply in_or_app; right; right; exact I|exact Q].
  - intros r D. destruct (in_dec Nat.eq_dec r l) as [I|I]; [|exfalso; apply D, H2, I]. destruct (H5 r r I D eq_refl) as (l1 & l2 & El & F). exists l1, l2. split; [exact El|]. intros r' I' Q. apply (F r' I'). apply L; [exact I|rewrite El; apply in_or_app; right; right; exact I'|exact Q].
Qed.
Print Assumptions C37_what_is_written.

(** Without duplicates nothing changes, and the second call returns the same. *)
Theorem C37_distinct_unchanged :
  forall h l h' out, (forall r, In r l -> plain (h r)) -> NoDup (map (fun r => labels (h r)) l) -> combine_terms_heap h l = Ok (h', out) ->
  (forall r, h' r = h r) /\ exists h'' out', combine_terms_heap h' l = Ok (h'', out') /\ map h'' out' = map h' out.
Proof.
  intros h l h' out P N E. destruct (C37_what_is_written h l h' out E P) as (_ & E1 & H2 & _ & H4 & H5).
  assert (U : forall r, h' r = h r).
  { intros r. destruct (in_dec Nat.eq_dec r l) as [I|I]; [|apply H2, I]. apply in_split in I as (l1 & l2 & El). assert (F : forall r', In r' l1 \/ In r' l2 -> labels (h r') <> labels (h r)).
    { intros r' I Q. rewrite El, map_app in N. cbn [map] in N. apply NoDup_remove_2 in N. apply N. rewrite <- map_app. rewrite <- Q. apply in_map_iff. exists r'. split; [reflexivity|]. apply in_or_app, I. }
    rewrite (H4 l1 r l2 El) by (intros; apply F; auto). replace (total (h r) (map h l)) with (tcoeff (h r)); [destruct (h r); reflexivity|]. rewrite total_tot. symmetry. apply tot_one; [rewrite map_map; exact N|rewrite El; apply in_map, in_elt|reflexivity]. }
  split; [exact U|]. pose proof (heap_ok h' l) as K. destruct (combine_terms_heap h' l) as [[h'' out']|e].
  - exists h'', out'. split; [reflexivity|]. destruct K as (K & _). rewrite (map_ext h' h U) in K. rewrite E1 in K. injection K as K. congruence.
  - rewrite (map_ext h' h U) in K. congruence.
Qed.
Print Assumptions C37_distinct_unchanged.

Definition ex_heap : heap := fun r => match r with 0 => ex_w (Q2Qc 1) Sv | 1 => ex_w (Q2Qc (2 # 1)) Sp | _ => ex_w (Q2Qc (3 # 1)) Sc end.
Example C37_example :
  (forall r, In r [0; 1; 2] -> plain (ex_heap r)) /\ NoDup (map (fun r => labels (ex_heap r)) [0; 1; 2]) /\
  exists h' out, combine_terms_heap ex_heap [0; 1; 2] = Ok (h', out) /\ out = [1; 0; 2].
Proof.
  split; [intros [|[|r]] _; apply ex_plain|]. split.
  - repeat constructor; cbn; intuition discriminate.
  - do 2 eexists. split; [vm_compute; reflexivity|reflexivity].
Qed.
