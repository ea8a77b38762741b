(** C49: the recursive commutator series. *)
From Coq Require Import Ascii String ZArith QArith Qcanon Lia.
From Verif Require Import PyBase IterProofs SpaceModel IndexModel IndicesModel IndicesProofs ElemModel MacroModel WickModel TermModel TermSpec TermProofs SymmetryModel CombineModel CombineSpec CombineProofs ScheduleProofs BchModel BchSpec BchProofs LoopSpec BchLoop.
Local Close Scope Q_scope.
Local Close Scope Qc_scope.
Local Open Scope nat_scope.
Local Notation length := List.length.

Lemma from_term_meaning (A : ncalg) (m : interpretation A) t t' : unsorted m -> from_term t = Ok t' -> term_meaning m t' = term_meaning m t.
Proof.
  intros U H. unfold from_term in H. destruct (make_term_fields _ _ _ _ _ H) as (_ & P & _ & E4 & E5 & _). unfold term_meaning, labels. rewrite E4, E5. cbn [fst snd]. f_equal. apply U. apply Permutation_map. exact P.
Qed.

(** Property C49. The n-th entry of the series is 1/n! times the n-fold nested commutator, for every interpretation of terms
    in an algebra and every routine that computes the commutators of pairs of terms with the factor 1/i of its level. The units
    of the coefficients must be visible, so that no sum of coefficients is taken for zero. *)
Theorem C49_factorial : forall (A : ncalg) (m : interpretation A) tensors unit member sc h rights outs T,
  unsorted m -> consistent_names tensors -> term_class tensors unit member ->
  (forall i, 1 <= i <= length rights -> Qcle tiny (Qc_abs (unit i))) ->
  computes_commutator m member sc rights ->
  Forall (member 0) h -> Forall (fun rs => meaning m rs = T) rights ->
  commutator_loop from_term sc 1 h rights = Ok outs ->
  length outs = length rights /\
  forall n l, nth_error outs n = Some l -> Forall (member (S n)) l /\ meaning m l = nscal (inv_fact (S n)) (nested (S n) (meaning m h) T).
Proof.
  intros A m tensors unit member sc h rights outs T U CN TC HU HS Hh HT H.
  destruct (loop_meaning A m member from_term sc T rights 1 h outs (meaning m h)) as [L K]; try assumption; try lia.
  - intros i ts out Hi G E. destruct (good_combine tensors CN (unit i) (or_intror (HU i ltac:(lia))) ts) as (out' & E' & G' & SS).
    { rewrite Forall_forall in *. intros t It. exact (tc_terms _ _ _ TC i t (G t It)). }
    rewrite E in E'. injection E' as <-. split; [|exact SS].
    assert (PL : Forall plain ts). { apply (clean_plain tensors); [exact CN|]. rewrite Forall_forall in *. intros t It. apply (tc_terms _ _ _ TC i t (G t It)). }
    pose proof (combine_combined ts out PL E) as C. rewrite Forall_forall in *. intros t It. pose proof (G' t It) as [_ GM]. destruct (cb_source _ _ C t It) as (l1 & t0 & l2 & El & _ & -> & _).
    apply (tc_coefficient _ _ _ TC); [apply G; rewrite El; apply in_elt|exact GM].
  - intros i t t' G E. split; [exact (tc_copy _ _ _ TC i t t' G E)|]. exact (from_term_meaning A m t t' U E).
  - intros k rs a b l r out Hk Hr Gl Eo. replace (1 + k - 1) with k in Gl by lia. exact (HS k rs a b l r out Hk Hr Gl Eo).
  - cbn [Nat.sub nested]. rewrite inv_fact_0, nscal_1. reflexivity.
  - split; [exact L|]. exact K.
Qed.
Print Assumptions C49_factorial.

(** A commutator routine that knows three operators, D = diag(1, -1), U = the raising and W = the lowering matrix. The amplitudes
    are U - W. The first commutator of D is 2 U + 2 W, half the second one is -2 D. *)
Definition sl_tensor (name : string) : tensor := Ten TCluster SpinOrbital name 1%Z [(Lab false Sp, 0)] [(Lab false Sh, 0)].
Definition sl_term (name : string) (c : Qc) : term :=
  MkTerm SpinOrbital [sl_tensor name] (Op [(Lab false Sh, 0)] [(Lab false Sp, 0)]) c [(Lab false Sp, 0); (Lab false Sh, 0)] (fun s => 0) [].
Definition sl_name (t : term) : string := match ttensors t with x :: _ => tname x | [] => ""%string end.
Definition sl_of (name : string) : M22 :=
  if String.eqb name "D" then (1, 0, (0, - (1)))%Qc else if String.eqb name "U" then (0, 1, (0, 0))%Qc else if String.eqb name "W" then (0, 0, (1, 0))%Qc else @n0 M22.
Definition sl_meaning : interpretation M22 := fun xs _ => match xs with [(name, _, _)] => sl_of name | _ => n0 end.
Definition sl_member (i : nat) (t : term) : Prop := (exists name, In name ["D"; "U"; "W"]%string /\ ttype t = SpinOrbital /\ ttensors t = [sl_tensor name]) /\ in_units (inv_fact i) t.
Definition sl_table (a b : string) : list (string * Z) :=
  if String.eqb a "D" then if String.eqb b "U" then [("U"%string, 2%Z)] else if String.eqb b "W" then [("W"%string, (-2)%Z)] else []
  else if String.eqb a "U" then if String.eqb b "W" then [("D"%string, 1%Z)] else if String.eqb b "D" then [("U"%string, (-2)%Z)] else []
  else if String.eqb a "W" then if String.eqb b "U" then [("D"%string, (-1)%Z)] else if String.eqb b "D" then [("W"%string, 2%Z)] else []
  else [].
Definition sl_commutator (i a b : nat) (l r : term) : pyres (list term) :=
  Ok (map (fun e => sl_term (fst e) (Qcmult (Qcmult (inv_nat i) (Qc_of_Z (snd e))) (Qcmult (tcoeff l) (tcoeff r)))) (sl_table (sl_name l) (sl_name r))).
Definition sl_start : list term := [sl_term "D" (Q2Qc 1)].
Definition sl_rights : list (list term) := repeat [sl_term "U" (Q2Qc 1); sl_term "W" (Qcopp (Q2Qc 1))] 2.

Example C49_example :
  unsorted sl_meaning /\ consistent_names (map sl_tensor ["D"; "U"; "W"]%string) /\ term_class (map sl_tensor ["D"; "U"; "W"]%string) inv_fact sl_member /\
  (forall i, 1 <= i <= 2 -> Qcle tiny (Qc_abs (inv_fact i))) /\ computes_commutator sl_meaning sl_member sl_commutator sl_rights /\
  Forall (sl_member 0) sl_start /\ Forall (fun rs => meaning sl_meaning rs = ((0, 1, (- (1), 0))%Qc : M22)) sl_rights /\
  match commutator_loop from_term sl_commutator 1 sl_start sl_rights with
  | Ok [l1; l2] => map (fun t => (sl_name t, tcoeff t)) l1 = [("U"%string, Q2Qc 2); ("W"%string, Q2Qc 2)] /\ map (fun t => (sl_name t, tcoeff t)) l2 = [("D"%string, Q2Qc (-2))] /\
      meaning sl_meaning l2 = nscal (inv_fact 2) (nested 2 (meaning sl_meaning sl_start) ((0, 1, (- (1), 0))%Qc : M22))
  | _ => False
  end.
Proof.
  split; [|split; [|split; [|split; [|split; [|split; [|split]]]]]].
  - intros xs xs' o P. assert (L := Permutation_length P). destruct xs as [|a [|b xs]], xs' as [|a' [|b' xs']]; try discriminate; try reflexivity; [apply Permutation_length_1 in P as ->; reflexivity|].
    destruct a as [[? ?] ?], a' as [[? ?] ?]. reflexivity.
  - split.
    + repeat constructor; unfold plain_name; cbn; intuition discriminate.
    + intros x y Hx Hy E. cbn in Hx, Hy. repeat destruct Hx as [<-|Hx]; try contradiction; repeat destruct Hy as [<-|Hy]; try contradiction; cbn in *; try discriminate; split; reflexivity.
  - split.
    + intros i t [(name & I & E1 & E2) HU]. split; [|exact HU]. split; [exact E1|]. rewrite E2. intros y [<-|[]]. split; [reflexivity|]. exists (sl_tensor name). split; [apply in_or_app; left; apply in_map; exact I|repeat split].
    + intros i t c [(name & I & E1 & E2) _] HU. split; [exists name; repeat split; assumption|exact HU].
    + intros i t t' [(name & I & E1 & E2) [z HU]] H. unfold from_term in H. destruct (make_term_fields _ _ _ _ _ H) as (F1 & F2 & _ & _ & F5 & _). split.
      * exists name. split; [exact I|]. split; [congruence|]. rewrite E2 in F2. apply Permutation_sym, Permutation_length_1_inv in F2. exact F2.
      * exists z. rewrite F5. exact HU.
  - intros i Hi. assert (E : i = 1 \/ i = 2) by lia. destruct E as [-> | ->]; vm_compute; discriminate.
  - intros k rs a b l r out Hk Hr Ml E. injection E as <-. destruct Ml as [(name & I & E1 & E2) [z Ez]].
    assert (Hr' : exists rn zr, In rn ["U"; "W"]%string /\ r = sl_term rn (Qc_of_Z zr) /\ True).
    { assert (In rs sl_rights) by (eapply nth_error_In; exact Hk). apply repeat_spec in H. subst rs. destruct Hr as [<-|[<-|[]]]; [exists "U"%string, 1%Z|exists "W"%string, (-1)%Z]; (split; [cbn; tauto|split; [|exact Logic.I]]); f_equal; apply Qc_is_canon; reflexivity. }
    destruct Hr' as (rn & zr & Ir & -> & _). assert (En : sl_name l = name) by (unfold sl_name; rewrite E2; reflexivity). assert (Em : term_meaning sl_meaning l = m22_scal (tcoeff l) (sl_of name)) by (unfold term_meaning, labels; rewrite E2; reflexivity).
    change (sl_name (sl_term rn (Qc_of_Z zr))) with rn. change (tcoeff (sl_term rn (Qc_of_Z zr))) with (Qc_of_Z zr). rewrite En, Em. change (term_meaning sl_meaning (sl_term rn (Qc_of_Z zr))) with (m22_scal (Qc_of_Z zr) (sl_of rn)). split.
    + apply Forall_forall. intros t It. apply in_map_iff in It as ([n z'] & <- & It). cbn [fst snd]. split.
      * exists n. split; [|split; reflexivity]. destruct I as [<-|[<-|[<-|[]]]]; destruct Ir as [<-|[<-|[]]]; cbn in It; repeat destruct It as [It|It]; try contradiction; injection It as <- <-; cbn; tauto.
      * exists (z' * z * zr)%Z. cbn [tcoeff sl_term]. rewrite Ez, <- inv_fact_S, !Qc_of_Z_mul. ring.
    + set (c := tcoeff l). set (d := Qc_of_Z zr). set (f := inv_nat (S k)). clearbody c d f. destruct I as [<-|[<-|[<-|[]]]]; destruct Ir as [<-|[<-|[]]]; unfold meaning, nsum, bracket, term_meaning; cbn; unfold m22_scal, m22_add, m22_mul; cbn [fst snd].
      all: f_equal; [f_equal|f_equal]; try ring.
      all: apply Qc_is_canon; unfold Qcmult, Qcplus, Qcopp, Qc_of_Z, Q2Qc; cbn [this]; rewrite !Qred_correct; unfold inject_Z; ring.
  - repeat constructor; [exists "D"%string; cbn; tauto|]. exists 1%Z. apply Qc_is_canon. reflexivity.
  - apply Forall_forall. intros rs I. apply repeat_spec in I. subst rs. assert (Q : forall a b c d a' b' c' d' : Qc, this a = this a' -> this b = this b' -> this c = this c' -> this d = this d' -> (a, b, (c, d)) = (a', b', (c', d'))).
    { intros a b c d a' b' c' d' Ea Eb Ec Ed. f_equal; [f_equal|f_equal]; apply Qc_is_canon; congruence || (rewrite ?Ea, ?Eb, ?Ec, ?Ed; reflexivity). }
    vm_compute. apply Q; reflexivity.
  - vm_compute. split; [reflexivity|]. split; [reflexivity|]. f_equal; [f_equal|f_equal]; apply Qc_is_canon; reflexivity.
Qed.
