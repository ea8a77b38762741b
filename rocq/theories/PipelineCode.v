(** The results of generated code as operators. *)
From Coq Require Import Ascii String ZArith QArith Qcanon Ring_theory Ring Lia Bool.
From Verif Require Import PyBase OrderSpec ParitySpec SpaceModel IndexModel IndicesModel IndicesProofs IterProofs ElemModel MacroModel TermModel BchSpec BchProofs ValueSpec ValueProofs TermSpec SumProofs SymmetryModel SymmetrySpec CombineModel FockSpec ExtensionProofs FockProofs FockValue FockTerms PropOperator SeriesSpec SeriesOperator
  PermuteModel AmbitModel AmbitSpec AmbitMain PropAmbit PrintModel PrintSpec PropPrint CodeTransport PipelineSpec.
Local Close Scope Q_scope.
Local Close Scope Qc_scope.
Local Open Scope nat_scope.
Local Notation length := List.length.

Section Operators.
  Context {A : qalg} (B : fermions A) (S : system) (v : tvaluation A) (MB : norb S <= modes B) (AT : antisymmetric_tensors v).
  Add Ring alg_ring99 : (q_ring A).
  Add Ring alg_ring100 : (q_ring (extension B)).
  Local Notation E := (extension B).
  Local Notation V := (lift B v).
  Lemma tuple_bound n o : In o (tuples S n) -> Forall (fun x => x < norb S) o.
  Proof.
    unfold tuples. intros H. apply in_iproduct in H. remember (repeat _ n) as xs eqn:Q. assert (X : forall y, In y xs -> y = seq 0 (norb S)) by (intros y Hy; rewrite Q in Hy; apply repeat_spec in Hy; exact Hy). clear Q.
    induction H as [|a y m xs Ha _ IH]; constructor; [rewrite (X y (or_introl eq_refl)) in Ha; apply in_seq in Ha; lia|]. apply IH. intros z Hz. apply X. right. exact Hz.
  Qed.
  Lemma stored_value n (f : array A) (g : array E) : image (emb B) f g -> array_operator S V n g = oper B (stored_operator B v S n f).
  Proof.
    intros I. unfold array_operator, stored_operator. rewrite oper_nscal, oper_nsum, map_map. f_equal. f_equal. apply map_ext_in. intros o Ho. pose proof (tuple_bound _ _ Ho) as F.
    rewrite (written_value B S v MB); [|rewrite Forall_forall in *; intros x Hx; apply F; rewrite <- (firstn_skipn n o); apply in_or_app; auto ..]. rewrite oper_scal, (I o). reflexivity.
  Qed.
  Definition emb_arrays (arrays : text -> option (array A)) (name : text) : option (array E) := option_map (fun f o => emb B (f o)) (arrays name).
  Lemma emb_arrays_image arrays name : image_o (emb B) (arrays name) (emb_arrays arrays name).
  Proof. unfold emb_arrays. destruct (arrays name); [intros o; reflexivity|exact Logic.I]. Qed.
  Lemma emb_prepared input arrays : prepared v input arrays -> prepared V input (emb_arrays arrays).
  Proof.
    intros P t Ht. destruct (P t Ht) as [H (f & Ef)]. split; [|exists (fun o => emb B (f o)); unfold emb_arrays; rewrite Ef; reflexivity].
    intros x Hx. destruct (H x Hx) as (g & Eg & Hg). exists (fun o => emb B (g o)). split; [unfold emb_arrays; rewrite Eg; reflexivity|]. intros p q Lp Lq. destruct (Hg p q Lp Lq) as [G1 G2]. split; [intros Q; rewrite (G1 Q); reflexivity|intros Q Q'; rewrite (G2 Q Q'); reflexivity].
  Qed.
  Definition run_emb functions l st st' := run_image (emb B) (eq_refl : emb B q0 = q0) (eq_refl : emb B q1 = q1) (emb_add B) (emb_mul B) (emb_opp B) (emb_inj B) S functions l st st'.
  Definition leaves_emb l st st' := leaves_image (emb B) (eq_refl : emb B q0 = q0) (eq_refl : emb B q1 = q1) (emb_add B) (emb_mul B) (emb_opp B) (emb_inj B) S l st st'.

  (** the results together *)
  Lemma bodies_split {X} (f : X -> nat) (l : list X) ks : NoDup ks -> Permutation (flat_map (fun k => filter (fun x => f x =? k) l) ks) (filter (fun x => if in_dec Nat.eq_dec (f x) ks then true else false) l).
  Proof.
    induction ks as [|k ks IH]; intros N; [replace (filter _ l) with (@nil X); [reflexivity|]; clear; induction l as [|x l IH]; [reflexivity|]; cbn [filter]; destruct (in_dec _ _ []) as [[]|_]; exact IH|]. inversion N as [|? ? N1 N2]; subst. cbn [flat_map]. rewrite (IH N2). clear IH N.
    induction l as [|x l IHl]; [reflexivity|]. cbn [filter]. destruct (f x =? k) eqn:Q.
    - apply Nat.eqb_eq in Q. destruct (in_dec Nat.eq_dec (f x) ks) as [J|_]; [congruence|]. destruct (in_dec Nat.eq_dec (f x) (k :: ks)) as [_|J]; [|exfalso; apply J; left; auto]. cbn [app]. constructor. exact IHl.
    - apply Nat.eqb_neq in Q. destruct (in_dec Nat.eq_dec (f x) ks) as [J|J], (in_dec Nat.eq_dec (f x) (k :: ks)) as [J'|J'].
      + symmetry. apply Permutation_cons_app. symmetry. exact IHl.
      + exfalso. apply J'. right. exact J.
      + exfalso. destruct J' as [J'|J']; [congruence|contradiction].
      + exact IHl.
  Qed.
  Lemma bodies_all input : Permutation (flat_map (fun n => with_body n input) (bodies input)) input.
  Proof.
    unfold with_body, target_of, bodies. rewrite (bodies_split (fun t => length (ann (tsq t))) input) by apply NoDup_nodup.
    replace (filter _ input) with input; [reflexivity|]. assert (G : forall t, In t input -> In (length (ann (tsq t))) (nodup Nat.eq_dec (map (fun t => length (ann (tsq t))) input))) by (intros t Ht; apply nodup_In, in_map_iff; exists t; auto).
    revert G. generalize (nodup Nat.eq_dec (map (fun t => length (ann (tsq t))) input)) as ks. intros ks G. induction input as [|t l IH]; [reflexivity|]. cbn [filter]. destruct (in_dec _ _ ks) as [_|Q]; [f_equal; apply IH; intros; apply G; right; assumption|]. exfalso. apply Q, G. left. reflexivity.
  Qed.
  Lemma list_operator_perm l l' : Permutation l l' -> list_operator B v S l = list_operator B v S l'.
  Proof. intros P. apply oper_injective. rewrite <- !(list_lift B S v MB). apply (asum_perm E). apply Permutation_map, P. Qed.
  Lemma bodies_sum input : nsum (map (fun n => list_operator B v S (with_body n input)) (bodies input)) = list_operator B v S input.
  Proof.
    rewrite <- (list_operator_perm _ _ (bodies_all input)). generalize (bodies input) as ks. induction ks as [|k ks IH]; [reflexivity|]. cbn [map flat_map]. rewrite nsum_cons, IH.
    unfold list_operator. rewrite map_app, nsum_app. reflexivity.
  Qed.
  Lemma bodies_operator input (results : nat -> array A) : (forall n, In n (bodies input) -> stored_operator B v S n (results n) = list_operator B v S (with_body n input)) ->
    stored_sum B v S (bodies input) results = list_operator B v S input.
  Proof. intros H. rewrite <- bodies_sum. unfold stored_sum. f_equal. apply map_ext_in. exact H. Qed.
End Operators.
