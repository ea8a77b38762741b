(** Generated code run on arrays over two algebras. *)
From Coq Require Import Ascii String ZArith QArith Qcanon Ring_theory Ring Lia Bool.
From Verif Require Import PyBase SpaceModel IndexModel IndicesModel ElemModel MacroModel TermModel ValueSpec IndicesProofs TermSpec SymmetryModel CombineModel PermuteModel AmbitModel AmbitSpec.
Local Close Scope Q_scope.
Local Close Scope Qc_scope.
Local Open Scope nat_scope.
Local Notation length := List.length.

Section Transport.
  Context {A E : qalg} (h : A -> E).
  Context (h0 : h q0 = q0) (h1 : h q1 = q1) (hadd : forall x y, h (x + y)%alg = (h x + h y)%alg) (hmul : forall x y, h (x * y)%alg = (h x * h y)%alg) (hopp : forall x, h (- x)%alg = (- h x)%alg) (hinj : forall c, h (inj c) = inj c).
  Context (S : system).
  (** the entries correspond *)
  Definition image (f : array A) (g : array E) : Prop := forall o, g o = h (f o).
  Definition image_o (f : option (array A)) (g : option (array E)) : Prop := match f, g with Some f, Some g => image f g | None, None => True | _, _ => False end.
  Definition image_store (st : store A) (st' : store E) : Prop :=
    (forall name, image_o (st_arrays st name) (st_arrays st' name)) /\ st_declared st' = st_declared st /\
    match st_temp st, st_temp st' with Some (s, f), Some (s', g) => s' = s /\ image f g | None, None => True | _, _ => False end.
  Definition image_run (r : option (store A)) (r' : option (store E)) : Prop := match r, r' with Some st, Some st' => image_store st st' | None, None => True | _, _ => False end.

  Lemma h_sum l : h (asum l) = asum (map h l).
  Proof. induction l as [|x l IH]; [exact h0|]. change (h (x + asum l)%alg = (h x + asum (map h l))%alg). rewrite hadd, IH. reflexivity. Qed.
  Lemma h_prod l : h (aprod l) = aprod (map h l).
  Proof. induction l as [|x l IH]; [exact h1|]. change (h (x * aprod l)%alg = (h x * aprod (map h l))%alg). rewrite hmul, IH. reflexivity. Qed.
  Lemma einsum_image lhs (rhs : list (list idx)) fs gs : Forall2 image fs gs -> image (einsum S lhs (combine rhs fs)) (einsum S lhs (combine rhs gs)).
  Proof.
    intros F o. unfold einsum, sum_over. rewrite h_sum, map_map.
    assert (L : forall rhs : list (list idx), flat_map fst (combine rhs gs) = flat_map fst (combine rhs fs)) by (induction F as [|f g fs gs _ _ IH]; intros [|r rs]; try reflexivity; cbn [combine flat_map fst]; rewrite IH; reflexivity).
    rewrite L. f_equal. apply map_ext. intros a. set (e := env _ a). clearbody e. destruct (list_eq_dec _ _ _); [|symmetry; exact h0]. rewrite h_prod, map_map. f_equal.
    clear L. revert rhs. induction F as [|f g fs gs I _ IH]; intros [|r rs]; try reflexivity. cbn [combine map fst snd]. rewrite I, IH. reflexivity.
  Qed.
  Lemma einsum_one lhs i f g : image f g -> image (einsum S lhs [(i, f)]) (einsum S lhs [(i, g)]).
  Proof. intros I. apply (einsum_image lhs [i] [f] [g]). constructor; [exact I|constructor]. Qed.
  Lemma read_image st st' a : image_store st st' -> image_o (read st a) (read st' a).
  Proof.
    intros (I1 & _ & I3). unfold read. destruct (text_eqb (a_array a) temp_name); [|apply I1].
    destruct (st_temp st) as [[s f]|], (st_temp st') as [[s' g]|]; try contradiction; [|exact I]. destruct I3 as [-> I3]. destruct (text_eqb s _); [exact I3|exact I].
  Qed.
  Lemma write_image st st' a f g : image_store st st' -> image f g -> image_store (write st a f) (write st' a g).
  Proof.
    intros (I1 & I2 & I3) I. unfold write. destruct (text_eqb (a_array a) temp_name); (split; [|split]); cbn [st_arrays st_declared st_temp]; auto.
    intros name. destruct (text_eqb name _); [exact I|apply I1].
  Qed.
  Lemma set_image st st' name f g : image_store st st' -> image f g -> image_store (set_array st name f) (set_array st' name g).
  Proof. intros (I1 & I2 & I3) I. split; [|split]; cbn; auto. intros n. destruct (text_eqb n name); [exact I|apply I1]. Qed.
  Lemma all_image (l : list (option (array A))) l' : Forall2 image_o l l' -> match all_some l, all_some l' with Some fs, Some gs => Forall2 image fs gs | None, None => True | _, _ => False end.
  Proof.
    induction 1 as [|f g l l' I _ IH]; [constructor|]. cbn [all_some]. destruct f as [f|], g as [g|]; try contradiction; [|exact Logic.I]. destruct (all_some l) as [fs|], (all_some l') as [gs|]; try contradiction; [|exact Logic.I]. constructor; assumption.
  Qed.
  Lemma zero_image : image (fun _ => q0) (fun _ => q0).
  Proof. intros o. symmetry. exact h0. Qed.
  Lemma leaf_image s st st' : image_store st st' -> image_run (exec_leaf S s st) (exec_leaf S s st').
  Proof.
    intros I. pose proof I as (I1 & I2 & I3). destruct s as [| |spaces| |n| |lhs c rhs|lhs plus rhs|lhs rhs|name args]; cbn [exec_leaf].
    - exact I.
    - split; [exact I1|]. split; [reflexivity|exact Logic.I].
    - rewrite I2. destruct (st_declared st); [|exact Logic.I]. split; [exact I1|]. split; [reflexivity|]. split; [reflexivity|exact zero_image].
    - destruct (st_temp st) as [[s f]|], (st_temp st') as [[s' g]|]; try contradiction; [|exact Logic.I]. destruct I3 as [-> _]. split; [exact I1|]. split; [exact I2|]. split; [reflexivity|exact zero_image].
    - pose proof (I1 (target_name n)) as Q. destruct (st_arrays st _), (st_arrays st' _); try contradiction; [|exact Logic.I]. apply set_image; [exact I|exact zero_image].
    - pose proof (I1 (target_name 0)) as Q. destruct (st_arrays st _) as [f|], (st_arrays st' _) as [g|]; try contradiction; [|exact Logic.I]. apply set_image; [exact I|]. intros o. rewrite hadd, (Q o). reflexivity.
    - pose proof (read_image st st' lhs I) as Q. assert (F : Forall2 image_o (map (read st) rhs) (map (read st') rhs)) by (induction rhs as [|a rhs IH]; cbn [map]; constructor; [apply read_image, I|exact IH]). apply all_image in F.
      destruct (read st lhs) as [f|], (read st' lhs) as [g|]; try contradiction; [|exact Logic.I]. destruct (all_some (map (read st) rhs)) as [fs|], (all_some (map (read st') rhs)) as [gs|]; try contradiction; [|exact Logic.I].
      apply write_image; [exact I|]. intros o. rewrite hadd, hmul, hinj, (Q o), (einsum_image (a_indices lhs) (map a_indices rhs) fs gs F o). reflexivity.
    - pose proof (read_image st st' lhs I) as Q. pose proof (read_image st st' rhs I) as R. destruct (read st lhs) as [f|], (read st' lhs) as [g|]; try contradiction; [|exact Logic.I]. destruct (read st rhs) as [f'|], (read st' rhs) as [g'|]; try contradiction; [|exact Logic.I].
      apply write_image; [exact I|]. intros o. rewrite hadd, (Q o), (einsum_one (a_indices lhs) (a_indices rhs) f' g' R o). destruct plus; [reflexivity|]. rewrite hopp. reflexivity.
    - pose proof (read_image st st' lhs I) as Q. pose proof (read_image st st' rhs I) as R. destruct (read st lhs) as [f|], (read st' lhs) as [g|]; try contradiction; [|exact Logic.I]. destruct (read st rhs) as [f'|], (read st' rhs) as [g'|]; try contradiction; [|exact Logic.I].
      apply write_image; [exact I|]. intros o. rewrite (Q o), (einsum_one (a_indices lhs) (a_indices rhs) f' g' R o). destruct (in_spaces _ _ _); reflexivity.
    - exact Logic.I.
  Qed.
  Lemma leaves_image l : forall st st', image_store st st' -> image_run (exec_leaves S l st) (exec_leaves S l st').
  Proof.
    induction l as [|s l IH]; intros st st' I; cbn [exec_leaves]; [exact I|]. pose proof (leaf_image s st st' I) as Q. destruct (exec_leaf S s st), (exec_leaf S s st'); try contradiction; [apply IH, Q|exact Logic.I].
  Qed.
  Lemma call_image functions name args st st' : image_store st st' -> image_run (call S functions name args st) (call S functions name args st').
  Proof.
    intros I. pose proof I as (I1 & I2 & I3). unfold call. destruct (functions name) as [body|]; [|exact Logic.I].
    assert (I' : image_store (Store (fun x => if mem_text x args then st_arrays st x else None) false None) (Store (fun x => if mem_text x args then st_arrays st' x else None) false None)).
    { split; [|split; [reflexivity|exact Logic.I]]. intros x. cbn. destruct (mem_text x args); [apply I1|exact Logic.I]. }
    pose proof (leaves_image body _ _ I') as Q. destruct (exec_leaves S body (Store (fun x => if mem_text x args then st_arrays st x else None) false None)) as [s1|], (exec_leaves S body _) as [s2|]; try contradiction; [|exact Logic.I].
    destruct Q as (Q1 & _). split; [|split; [exact I2|exact I3]]. intros x. cbn. destruct (mem_text x args); [apply Q1|apply I1].
  Qed.
  Lemma run_image functions l : forall st st', image_store st st' -> image_run (run S functions l st) (run S functions l st').
  Proof.
    induction l as [|s l IH]; intros st st' I; cbn [run]; [exact I|].
    assert (Q : image_run (exec S functions s st) (exec S functions s st')) by (unfold exec; destruct s; try (apply leaf_image; exact I); apply call_image, I).
    destruct (exec S functions s st), (exec S functions s st'); try contradiction; [apply IH, Q|exact Logic.I].
  Qed.
End Transport.
