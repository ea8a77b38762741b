(** The terms of the series of [bch_cc_rsc]: the Hamiltonian and the amplitudes. *)
From Coq Require Import Ascii String ZArith QArith Qcanon Sorting.Sorted Lia Ring_theory Ring.
From Verif Require BacktrackProofs SortProofs.
From Verif Require Import PyBase OrderSpec OrderProofs ParitySpec SpaceModel IndexModel IndicesModel IterProofs IndicesProofs SpaceProofs ElemModel ElemSpec CompatSpec MacroModel WickModel WickSpec WickProofs TermModel ValueSpec ValueProofs TermSpec SumProofs TermProofs RenameProofs
  DriverProofs ConnectedProofs CommProofs OperatorProofs SimplifyProofs SimplifyValue SymmetryModel SymmetrySpec SympyValue SympyShape CombineModel BchModel CombineSpec CombineProofs CombineValue PropSimplify PropWick PropCanon ScheduleProofs ContractSpec ContractValue PropContract LoopSpec BchLoop PropOperator LevelSpec ClosureProofs LevelProofs.
Local Close Scope Q_scope.
Local Close Scope Qc_scope.
Local Open Scope nat_scope.
Local Notation length := List.length.

(** names of the tensors of the series *)
Definition series_tensors : list tensor := [Ten THamiltonian SpinOrbital "H" 0%Z [] []; Ten TCluster SpinOrbital "T" 1%Z [] []].
Lemma series_names : consistent_names series_tensors.
Proof.
  split; [repeat constructor; intros H; cbn in H; intuition discriminate|]. intros x y Hx Hy. cbn in Hx, Hy.
  destruct Hx as [<-|[<-|[<-|[<-|[<-|[]]]]]]; destruct Hy as [<-|[<-|[<-|[<-|[<-|[]]]]]]; cbn; intros E; try discriminate E; split; reflexivity.
Qed.

(** ** The Hamiltonian *)
Definition made (t : term) : Prop := exists xs, make_term SpinOrbital xs (tsq t) (tcoeff t) = Ok t.
Lemma made_made xs o c t : make_term SpinOrbital xs o c = Ok t -> made t.
Proof. intros H. destruct (make_term_fields _ _ _ _ _ H) as (_ & _ & _ & F4 & F5 & _). exists xs. rewrite F4, F5. exact H. Qed.
Lemma made_set t c : made t -> made (set_coeff t c).
Proof. intros [xs H]. exists xs. exact (make_set_coeff _ _ _ _ _ c H). Qed.
Lemma hamiltonian_made k t : hamiltonian_operator k 0 SpinOrbital = Ok t -> ttype t = SpinOrbital.
Proof. intros H. destruct (hamiltonian_ok k 0 SpinOrbital) as (t' & E & F & _). rewrite H in E. injection E as <-. exact F. Qed.
Lemma expand_made sr start t ts : ttype t = SpinOrbital -> expand_composite_indices sr start t = Ok ts -> Forall made ts.
Proof.
  intros T H. unfold expand_composite_indices, make_ddca in H. rewrite T in H. apply pymap_results in H. induction H as [|sp t' l l' E _ IH]; constructor; [|exact IH].
  destruct (replace_op_indices _ _ _) as [o|]; [|discriminate]. cbn [pybind] in E. destruct (replace_tensors_indices _ _) as [xs|]; [|discriminate]. exact (made_made _ _ _ _ E).
Qed.
Lemma start_made l : bch_start = Ok l -> Forall made l.
Proof.
  intros H. unfold bch_start in H. destruct (hamiltonian_operator 1 0 SpinOrbital) as [h1|] eqn:E1; [|discriminate]. cbn [pybind] in H. destruct (expand_composite_indices true 0 h1) as [l1|] eqn:E2; [|discriminate]. cbn [pybind] in H. destruct (combine_terms l1) as [c1|] eqn:E3; [|discriminate]. cbn [pybind] in H.
  destruct (hamiltonian_operator 2 0 SpinOrbital) as [h2|] eqn:E4; [|discriminate]. cbn [pybind] in H. destruct (expand_composite_indices true 0 h2) as [l2|] eqn:E5; [|discriminate]. cbn [pybind] in H. destruct (combine_terms l2) as [c2|] eqn:E6; [|discriminate]. cbn [pybind] in H. injection H as <-.
  apply Forall_app. split; [apply (combine_all made) with (l := l1)|apply (combine_all made) with (l := l2)]; try assumption; try exact made_set; eapply expand_made; try eassumption; eapply hamiltonian_made; eassumption.
Qed.
(** what can be computed *)
Definition quarter : Qc := Q2Qc (1 # 4).
Definition start_check (t : term) : bool :=
  itype_eqb (ttype t) SpinOrbital && nodup_idx (op_indices (tsq t)) && forallb (fun i => negb (idx_beta i)) (op_indices (tsq t)) && (length (cre (tsq t)) =? length (ann (tsq t))) &&
  forallb (fun i => snd i <? 4) (tindices t) && (length (tindices t) <=? 4) &&
  (if Qc_eq_dec (tcoeff t) (Qcmult (Qc_of_Z (Qnum (this (Qcmult (Qc_of_Z 4) (tcoeff t))))) quarter) then true else false) &&
  match ttensors t with
  | [x] => match tcls x with THamiltonian => true | _ => false end && itype_eqb (titype x) SpinOrbital && (tname x =? "H")%string && (tpriority x =? 0)%Z && nodup_idx (tensor_indices x) && match check_tensor x with Ok _ => true | _ => false end
  | _ => false
  end.
Lemma start_checked : exists l, bch_start = Ok l /\ forallb start_check l = true.
Proof. eexists. split; [vm_compute; reflexivity|]. vm_compute. reflexivity. Qed.
Lemma checked_member t : made t -> start_check t = true -> member series_tensors 4 quarter t.
Proof.
  intros M H. unfold start_check in H. rewrite !andb_true_iff in H. destruct H as (((((((T & N) & B) & L) & I) & I') & Cf) & X). destruct (ttensors t) as [|x [|]] eqn:Ex; try discriminate X. rewrite !andb_true_iff in X. destruct X as (((((X1 & X2) & X3) & X4) & X5) & X6).
  destruct (tcls x) eqn:Ec; try discriminate X1. apply nodup_idx_spec in N, X5. apply Nat.eqb_eq in L. apply String.eqb_eq in X3. apply Z.eqb_eq in X4. destruct (check_tensor x) as [x'|] eqn:Ev; [|discriminate]. pose proof (check_tensor_ok _ _ Ev) as ->.
  assert (TS : ttype t = SpinOrbital) by (destruct (ttype t); (reflexivity || discriminate T)). assert (XS : titype x = SpinOrbital) by (destruct (titype x); (reflexivity || discriminate X2)). constructor.
  - constructor; [exact M| | |rewrite Ex; constructor; [exact Ev|constructor]|exact L].
    + rewrite Ex. constructor.
      * unfold is_density. cbn [filter]. rewrite Ec. cbn [flat_map]. rewrite app_nil_r. exact N.
      * intros y [<-|[]]. exact X5.
      * intros y [<-|[]]. split; [rewrite Ec; discriminate|rewrite Ec; discriminate].
    + apply beta_alpha. intros i Hi. rewrite forallb_forall in B. apply negb_true_iff, B, Hi.
  - split; [|apply Nat.leb_le, I']. intros i Hi. rewrite forallb_forall in I. apply Nat.ltb_lt, I, Hi.
  - split; [exact TS|]. intros y Hy. rewrite Ex in Hy. destruct Hy as [<-|[]]. split; [exact XS|]. exists (Ten THamiltonian SpinOrbital "H" 0%Z [] []). split; [left; reflexivity|]. cbn. auto.
  - destruct (Qc_eq_dec _ _) as [E|] in Cf; [|discriminate]. eexists. exact E.
Qed.
Lemma start_members l : bch_start = Ok l -> Forall (member series_tensors 4 quarter) l.
Proof.
  intros H. pose proof (start_made l H) as M. destruct start_checked as (l' & H' & C). rewrite H in H'. injection H' as <-. rewrite forallb_forall in C. rewrite Forall_forall in *. intros t Ht. apply checked_member; auto.
Qed.

(** ** The amplitudes *)
Definition unit_of (m : nat) : Qc := inv_sq m.
Lemma fact_divides m k : k <= m -> exists q, fact m = q * fact k.
Proof. intros H. induction H as [|m _ [q E]]; [exists 1; lia|]. exists (Datatypes.S m * q). cbn [fact]. rewrite E. lia. Qed.
Lemma unit_multiple m k : k <= m -> multiple (inv_sq m) (inv_sq k).
Proof.
  intros H. destruct (fact_divides m k H) as [q E]. exists (Z.of_nat (q * q)). unfold inv_sq. rewrite E. pose proof (lt_O_fact k) as K. pose proof (lt_O_fact m) as M. rewrite E in M. assert (q <> 0) by (intros ->; lia).
  replace (q * fact k * (q * fact k)) with ((q * q) * (fact k * fact k)) by lia. rewrite (Nat2Z.inj_mul (q * q)), Qc_of_Z_mul.
  pose proof (Qc_of_Z_nonzero (Z.of_nat (q * q)) ltac:(nia)) as H1. pose proof (Qc_of_Z_nonzero (Z.of_nat (fact k * fact k)) ltac:(nia)) as H2. field. split; assumption.
Qed.
Lemma cluster_made k start ex name sc hl pl t tm : cluster_operator k start ex name sc hl pl t = Ok tm ->
  exists xs o c, make_term t xs o c = Ok tm /\ Forall valid_tensor xs.
Proof.
  unfold cluster_operator. cbv zeta. destruct (if ex then _ else _) as [a b] eqn:E. destruct (make_tensor _ _ _ _ _ _) as [x|] eqn:Ex; [|discriminate]. cbn [pybind].
  destruct (make_typed t a) as [a'|] eqn:Ea; [|discriminate]. cbn [pybind]. destruct (make_typed t b) as [b'|] eqn:Eb; [|discriminate]. cbn [pybind]. intros H. exists [x], (Op a' b'), (Qcmult sc (inv_fact_sq k)). split; [exact H|]. constructor; [|constructor].
  unfold make_tensor in Ex. destruct (make_typed t _) as [u|]; [|discriminate]. cbn [pybind] in Ex. destruct (make_typed t (indices_range pl _ _)) as [l|]; [|discriminate]. cbn [pybind] in Ex. pose proof (check_tensor_ok _ _ Ex) as Q. unfold valid_tensor. rewrite Q at 1. exact Ex.
Qed.
Lemma range_two hl pl start k l : NoDup l -> (forall i : idx, In i l -> (fst i = hl \/ fst i = pl) /\ start <= snd i < start + k) -> length l <= 2 * k.
Proof.
  intros N H. transitivity (length (is_range hl start k ++ is_range pl start k)); [|rewrite app_length, !length_range; lia]. apply NoDup_incl_length; [exact N|]. intros i Hi. apply in_or_app. destruct (H i Hi) as [[E|E] Q]; [left|right]; apply is_range_in; auto.
Qed.
Lemma cluster_factor k start ex (sg : Qc) (sr : bool) tm m : k <= m -> sg = Q2Qc 1 \/ sg = Q2Qc (-1 # 1) ->
  cluster_operator k start ex "T" sg (Lab false (if sr then Sc else Sh)) (Lab false (if sr then Sv else Sp)) SpinOrbital = Ok tm ->
  factor_ok series_tensors start (start + m * 2) (inv_sq m) tm.
Proof.
  intros L SG H. set (hl := Lab false (if sr then Sc else Sh)) in *. set (pl := Lab false (if sr then Sv else Sp)) in *.
  destruct (cluster_made _ _ _ _ _ _ _ _ _ H) as (xs & o & c & M & V). destruct (cluster_ok _ _ _ _ _ _ _ _ _ H) as (F1 & F2 & F3 & F4 & F5). destruct (make_term_fields _ _ _ _ _ M) as (_ & G2 & _ & G4 & G5 & G6 & _).
  assert (D : forall i, In i (is_range hl start k) -> ~ In i (is_range pl start k)) by (intros i H1 H2; apply is_range_in in H1, H2; destruct H1 as [H1 _], H2 as [H2 _]; rewrite H1 in H2; unfold hl, pl in H2; destruct sr; discriminate).
  assert (NN : NoDup (is_range hl start k ++ is_range pl start k)) by (apply NoDup_app_intro; try apply is_range_nodup; exact D).
  assert (NO : NoDup (op_indices (tsq tm))).
  { rewrite F4. unfold op_indices. destruct ex; cbn [cre ann]; [|exact NN]. apply NoDup_app_intro; try apply is_range_nodup. intros i H1 H2. exact (D i H2 H1). }
  constructor.
  - apply (made_regular xs o c); [exact M| | |exact V|].
    + rewrite <- G4. apply (tidy_perm _ (ttensors tm)); [exact G2|]. rewrite F3. constructor.
      * cbn [filter is_density tcls flat_map]. rewrite app_nil_r. exact NO.
      * intros y [<-|[]]. exact NN.
      * intros y [<-|[]]. split; discriminate.
    + rewrite <- G4. apply beta_alpha. intros i Hi. assert (Q : fst i = hl \/ fst i = pl) by (rewrite F4 in Hi; unfold op_indices in Hi; destruct ex; cbn [cre ann] in Hi; apply in_app_or in Hi as [Hi|Hi]; apply is_range_in in Hi as [-> _]; auto). unfold idx_beta. destruct Q as [->| ->]; reflexivity.
    + rewrite <- G4, F4. destruct ex; cbn [cre ann]; rewrite !length_range; reflexivity.
  - split; [exact F1|]. intros y Hy. rewrite F3 in Hy. destruct Hy as [<-|[]]. split; [reflexivity|]. exists (Ten TCluster SpinOrbital "T" 1%Z [] []). split; [right; left; reflexivity|]. cbn. auto.
  - rewrite F2. apply (multiple_trans _ (inv_sq k)); [apply unit_multiple, L|]. unfold inv_sq. destruct SG as [->| ->]; [exists 1%Z|exists (-1)%Z]; reflexivity.
  - intros i Hi. apply F5 in Hi. lia.
  - pose proof (range_two hl pl start k (tindices tm) G6 (fun i Hi => proj1 (F5 i) Hi)). lia.
Qed.
Lemma list_max_in l k : In k l -> k <= list_max l.
Proof. intros H. pose proof (proj1 (list_max_le l (list_max l)) (le_n _)) as Q. rewrite Forall_forall in Q. auto. Qed.
Lemma operators_factors levels start unitary sr ts : cluster_operators levels start unitary sr = Ok ts ->
  Forall (factor_ok series_tensors start (start + list_max levels * 2) (inv_sq (list_max levels))) ts.
Proof.
  unfold cluster_operators. cbv zeta. intros H. destruct (pymap (fun k => cluster_operator k start true _ _ _ _ _) levels) as [amps|] eqn:E1; [|discriminate]. cbn [pybind] in H.
  assert (G : forall ex (sg : Qc) l ts', incl l levels -> sg = Q2Qc 1 \/ sg = Q2Qc (-1 # 1) -> Forall2 (fun k t => cluster_operator k start ex "T" sg (Lab false (if sr then Sc else Sh)) (Lab false (if sr then Sv else Sp)) SpinOrbital = Ok t) l ts' -> Forall (factor_ok series_tensors start (start + list_max levels * 2) (inv_sq (list_max levels))) ts').
  { intros ex sg l ts' IL SG F. induction F as [|k t l l' Ek _ IH]; constructor; [|apply IH; intros x Hx; apply IL; right; exact Hx]. apply (cluster_factor k start ex sg sr); [apply list_max_in, IL; left; reflexivity|exact SG|exact Ek]. }
  destruct unitary.
  - destruct (pymap (fun k => cluster_operator k start false _ _ _ _ _) levels) as [damps|] eqn:E2; [|discriminate]. cbn [pybind] in H. injection H as <-. apply Forall_app. split; [exact (G _ _ _ _ (fun x Hx => Hx) (or_introl eq_refl) (pymap_results _ _ _ E1))|exact (G _ _ _ _ (fun x Hx => Hx) (or_intror eq_refl) (pymap_results _ _ _ E2))].
  - injection H as <-. exact (G _ _ _ _ (fun x Hx => Hx) (or_introl eq_refl) (pymap_results _ _ _ E1)).
Qed.

(** ** Units *)
Fixpoint series_unit (m n : nat) : Qc :=
  match n with
  | 0 => quarter
  | Datatypes.S k => Qcmult (inv_nat (Datatypes.S k)) (Qcmult (series_unit m k) (inv_sq m))
  end.
Fixpoint series_denominator (m n : nat) : Z :=
  match n with
  | 0 => 4%Z
  | Datatypes.S k => (Z.of_nat (Datatypes.S k) * (series_denominator m k * Z.of_nat (fact m * fact m)))%Z
  end.
Lemma denominator_pos m n : (0 < series_denominator m n)%Z.
Proof. pose proof (lt_O_fact m). induction n as [|n IH]; [reflexivity|]. cbn [series_denominator]. apply Z.mul_pos_pos; [lia|]. apply Z.mul_pos_pos; [exact IH|nia]. Qed.
Lemma unit_denominator m n : series_unit m n = Qcinv (Qc_of_Z (series_denominator m n)).
Proof.
  induction n as [|n IH]; [apply Qc_is_canon; reflexivity|]. cbn [series_unit series_denominator]. rewrite IH. unfold inv_nat, inv_sq. rewrite !Qc_of_Z_mul. pose proof (lt_O_fact m). pose proof (denominator_pos m n).
  pose proof (Qc_of_Z_nonzero (Z.of_nat (Datatypes.S n)) ltac:(lia)). pose proof (Qc_of_Z_nonzero (series_denominator m n) ltac:(lia)). pose proof (Qc_of_Z_nonzero (Z.of_nat (fact m * fact m)) ltac:(nia)). field. auto.
Qed.
Lemma denominator_closed m n : series_denominator m n = (4 * Z.of_nat (fact n) * Z.of_nat (fact m) ^ (2 * Z.of_nat n))%Z.
Proof.
  induction n as [|n IH]; [cbn; lia|]. cbn [series_denominator]. rewrite IH. change (fact (Datatypes.S n)) with (Datatypes.S n * fact n). rewrite (Nat2Z.inj_mul (Datatypes.S n)), (Nat2Z.inj_mul (fact m)).
  replace (2 * Z.of_nat (Datatypes.S n))%Z with (2 * Z.of_nat n + 2)%Z by lia. rewrite Z.pow_add_r by lia. change (Z.of_nat (fact m) ^ 2)%Z with (Z.of_nat (fact m) * (Z.of_nat (fact m) * 1))%Z. ring.
Qed.
Lemma denominator_mono m n n' : n <= n' -> (series_denominator m n <= series_denominator m n')%Z.
Proof.
  intros H. induction H as [|n' _ IH]; [lia|]. cbn [series_denominator]. pose proof (lt_O_fact m). pose proof (denominator_pos m n'). etransitivity; [exact IH|]. assert (1 <= Z.of_nat (fact m * fact m))%Z by nia. nia.
Qed.
Lemma inverse_visible d : (0 < d <= 10 ^ 15)%Z -> Qcle tiny (Qc_abs (Qcinv (Qc_of_Z d))).
Proof.
  intros [H1 H2]. assert (E : Qcinv (Qc_of_Z d) = Q2Qc (1 # Z.to_pos d)). { apply Qc_is_canon. unfold Qc_of_Z, Qcinv. cbn [this Q2Qc]. rewrite !Qred_correct. unfold Qinv, inject_Z. cbn [Qnum Qden]. destruct d; try lia. reflexivity. }
  rewrite E. unfold Qc_abs, Qcle. destruct (Qclt_le_dec _ _) as [Lt|Le].
  - exfalso. unfold Qclt in Lt. cbn [this Q2Qc] in Lt. rewrite !Qred_correct in Lt. unfold Qlt in Lt. cbn in Lt. lia.
  - unfold tiny. cbn [this Q2Qc]. rewrite !Qred_correct. unfold Qle. cbn [Qnum Qden]. rewrite Z2Pos.id by lia. change (10 ^ 15)%Z with 1000000000000000%Z in H2. lia.
Qed.
