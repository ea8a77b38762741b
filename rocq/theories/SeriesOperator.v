(** Series of commutators as operators. *)
From Coq Require Import Ascii String ZArith QArith Qcanon Ring_theory Ring Lia Bool Sorting.Sorted.
From Verif Require Import PyBase OrderSpec OrderProofs ParitySpec SpaceModel IndexModel IndicesModel IndicesProofs IterProofs ElemModel ElemSpec MacroModel CompatSpec WickModel WickSpec WickProofs
  TermModel BchSpec ValueSpec ValueProofs TermSpec SumProofs SymmetrySpec CombineModel BchModel CombineSpec PropWick ContractSpec ContractValue FamilySpec FamilyProofs FockSpec ExtensionProofs FockProofs FockValue FockTerms PropContract PropFock PropOperator LevelSpec SeriesSpec PropLevels ExciteModel.
Local Close Scope Q_scope.
Local Close Scope Qc_scope.
Local Open Scope nat_scope.
Local Notation length := List.length.

Section Levels.
  Context {A : qalg} (B : fermions A) (S : system) (v : tvaluation A).
  Add Ring alg_ring43 : (q_ring A).
  Add Ring alg_ring44 : (q_ring (extension B)).
  Context (MB : norb S <= modes B) (PH : physical S v) (AT : antisymmetric_tensors v) (HV : hole_values v).
  Local Notation V := (lift B v).
  Local Notation O := (term_operator B v S).
  (** the value of a commutator of two terms is the commutator of the operators *)
  Lemma wick_pair mc mn mx l r x T : standard l -> standard r -> apart_terms l r -> no_cumulants_above mc v -> keeps B v mn mx (n_factors [l; r]) T ->
    wick_commutator S V mc mn mx l r x -> x = oper B (T (bracket (O l) (O r))).
  Proof.
    intros Sl Sr AP NC KP W. pose proof (keeps_linear B v _ _ _ _ KP) as LT. destruct W as [[E ->]|(E & (rLR & rRL & X1 & X2) & W)].
    - replace (bracket (O l) (O r)) with (@n0 B); [rewrite (linear_0 B T LT); reflexivity|]. symmetry. apply orb_true_iff in E as [E|E]; [exact (proj1 (scalar_bracket B S v l _ E))|exact (proj2 (scalar_bracket B S v r _ E))].
    - rewrite (W true true rLR rRL X1 X2). apply orb_false_iff in E as [Ea Eb].
      assert (P1 : proper_ops [l; r] = [tsq l; tsq r]) by (unfold proper_ops; cbn [filter]; rewrite Ea, Eb; reflexivity). assert (P2 : proper_ops [r; l] = [tsq r; tsq l]) by (unfold proper_ops; cbn [filter]; rewrite Ea, Eb; reflexivity).
      unfold expansion in X1, X2. rewrite <- P1 in X1. rewrite <- P2 in X2. rewrite n_factors_written in KP.
      assert (KP' : keeps B v mn mx (factors [r; l]) T) by (replace (factors [r; l]) with (factors [l; r]); [exact KP|]; rewrite <- !n_factors_written; unfold n_factors; cbn; lia).
      assert (F1 : Forall standard [l; r]) by (constructor; [exact Sl|constructor; [exact Sr|constructor]]). assert (F2 : Forall standard [r; l]) by (constructor; [exact Sr|constructor; [exact Sl|constructor]]).
      assert (O1 : ForallOrdPairs apart_terms [l; r]) by (constructor; [constructor; [exact AP|constructor]|constructor; [constructor|constructor]]).
      assert (O2 : ForallOrdPairs apart_terms [r; l]) by (constructor; [constructor; [intros i Hb Ha; exact (AP i Ha Hb)|constructor]|constructor; [constructor|constructor]]).
      rewrite (contracted_operator B S v MB PH AT [l; r] T true rLR mc mn mx HV NC F1 O1 KP X1), (contracted_operator B S v MB PH AT [r; l] T true rRL mc mn mx HV NC F2 O2 KP' X2).
      rewrite oper_sub, <- oper_nscal. f_equal. cbn [map nprod fold_right]. rewrite !nmul_1r. rewrite <- (linear_opp B T), <- (proj1 LT) by exact LT. rewrite <- !(linear_nscal B T) by exact LT. f_equal.
      rewrite !operator_body, bracket_nscal. reflexivity.
  Qed.
  Lemma nopp_add (x y : B) : nopp (nadd x y) = nadd (nopp x) (nopp y).
  Proof. symmetry. apply nopp_unique. rewrite nadd_swap, !nadd_opp. apply nadd_0. Qed.
  Lemma bracket_nsum_r (x : B) l : bracket x (nsum l) = nsum (map (bracket x) l).
  Proof.
    induction l as [|y l IH]; [unfold bracket; cbn [map]; change (nsum (@nil B)) with (@n0 B); rewrite nmul_0r, nmul_0l; apply nadd_opp|]. cbn [map]. rewrite !nsum_cons, <- IH. unfold bracket. rewrite nmul_addr, nmul_addl, nopp_add. apply nadd_swap.
  Qed.
  Lemma bracket_nsum_l (x : B) l : bracket (nsum l) x = nsum (map (fun y => bracket y x) l).
  Proof.
    induction l as [|y l IH]; [unfold bracket; cbn [map]; change (nsum (@nil B)) with (@n0 B); rewrite nmul_0r, nmul_0l; apply nadd_opp|]. cbn [map]. rewrite !nsum_cons, <- IH. unfold bracket. rewrite nmul_addr, nmul_addl, nopp_add. apply nadd_swap.
  Qed.
  (** one level of a series *)
  Lemma level_operator mc mn mx f left right next n T : no_cumulants_above mc v -> keeps B v mn mx n T ->
    (forall l r, In l left -> In r right -> standard l /\ standard r /\ apart_terms l r /\ n_factors [l; r] <= n) ->
    commutator_level S V mc mn mx f left right next ->
    list_operator B v S next = nscal f (T (bracket (list_operator B v S left) (list_operator B v S right))).
  Proof.
    intros NC KP H (table & FT & E). pose proof (keeps_linear B v _ _ _ _ KP) as LT. apply oper_injective. rewrite <- (list_lift B S v MB), E, oper_nscal. f_equal. unfold list_operator. rewrite bracket_nsum_l, map_map, (linear_nsum B T _ LT), map_map, oper_nsum, map_map.
    f_equal. clear E. induction FT as [|l row left table R _ IH]; [reflexivity|]. cbn [map]. rewrite <- IH by (intros l' r Hl Hr; apply H; [right; exact Hl|exact Hr]). f_equal.
    rewrite bracket_nsum_r, map_map, (linear_nsum B T _ LT), map_map, oper_nsum, map_map. f_equal. assert (H' : forall r, In r right -> standard l /\ standard r /\ apart_terms l r /\ n_factors [l; r] <= n) by (intros r Hr; apply H; [left; reflexivity|exact Hr]). clear -MB PH AT HV NC KP R H'.
    induction R as [|r x right row W _ IH]; [reflexivity|]. cbn [map]. rewrite <- IH by (intros r' Hr; apply H'; right; exact Hr). f_equal. destruct (H' r (or_introl eq_refl)) as (S1 & S2 & AP & LN). apply (wick_pair mc mn mx l r x T); try assumption. apply (keeps_less B v mn mx n); assumption.
  Qed.

  (** ** Operators written out *)
  Lemma choice_bound l k p : In p (choices S l k) -> Forall (fun x => x < norb S) p.
  Proof.
    unfold choices. intros Hl. apply in_iproduct in Hl. remember (repeat _ k) as xs eqn:E. assert (X : forall y, In y xs -> y = orbitals S (l, 0)) by (intros y Hy; rewrite E in Hy; apply repeat_spec in Hy; exact Hy). clear E. induction Hl as [|a y m xs Ha _ IH]; constructor.
    - rewrite (X y (or_introl eq_refl)) in Ha. apply orbitals_in in Ha. tauto.
    - apply IH. intros z Hz. apply X. right. exact Hz.
  Qed.
  Lemma written_value p q : Forall (fun x => x < norb S) p -> Forall (fun x => x < norb S) q -> voper V p q = oper B (normal_product B v (written p q)).
  Proof.
    intros Hp Hq. cbn [lift voper]. replace (in_modes B (p ++ q)) with true; [reflexivity|]. symmetry. apply forallb_forall. intros x Hx. apply Nat.ltb_lt. rewrite Forall_forall in Hp, Hq. apply in_app_or in Hx as [Hx|Hx]; [specialize (Hp x Hx)|specialize (Hq x Hx)]; lia.
  Qed.
  Lemma k_body_value l l' k F G : (forall p q, Forall (fun x => x < norb S) p -> Forall (fun x => x < norb S) q -> F p q = oper B (G p q)) ->
    (inj (inv_sq k) * sum2 S l l' k F)%alg = oper B (k_body B S l l' k G).
  Proof.
    intros H. unfold k_body, sum2. rewrite oper_nscal, oper_nsum, map_map. f_equal. f_equal. apply map_ext_in. intros p Hp. rewrite oper_nsum, map_map. f_equal. apply map_ext_in. intros q Hq. apply H; eapply choice_bound; eassumption.
  Qed.
  Lemma hamiltonian_value k start t tm : hamiltonian_operator k start t = Ok tm -> O tm = hamiltonian_part B v S k.
  Proof.
    intros H. apply oper_injective. rewrite <- (term_lift B S v MB), (C65_hamiltonian _ S V k start t tm H). apply k_body_value. intros p q Hp Hq. rewrite (written_value p q Hp Hq), oper_scal. reflexivity.
  Qed.
  Lemma inactive_value k : inactive_part S V k = oper B (inactive_hamiltonian B v S k).
  Proof. apply k_body_value. intros p q Hp Hq. destruct (existsb _ _); [reflexivity|]. rewrite (written_value p q Hp Hq), oper_scal. reflexivity. Qed.
  Lemma cluster_sum_value hl pl ex k : cluster_sum S V "T" hl pl ex k = oper B (cluster_part B v S hl pl ex k).
  Proof. apply k_body_value. intros p q Hp Hq. destruct ex; rewrite written_value by assumption; rewrite oper_scal; reflexivity. Qed.
  Lemma cluster_value k start ex hl pl t tm : hl <> pl -> cluster_operator k start ex "T" (Q2Qc 1) hl pl t = Ok tm -> O tm = cluster_part B v S hl pl ex k.
  Proof.
    intros D H. apply oper_injective. rewrite <- (term_lift B S v MB), (C65_cluster _ S V k start ex "T" (Q2Qc 1) hl pl t tm D H), cluster_sum_value. change (Q2Qc 1) with 1%Qc. rewrite inj_one. ring.
  Qed.
  Lemma amplitudes_value levels start unitary sr ts : cluster_operators levels start unitary sr = Ok ts -> list_operator B v S ts = amplitude_operator B v S levels unitary sr.
  Proof.
    intros H. apply oper_injective. rewrite <- (list_lift B S v MB). pose proof (C65_cluster_operators _ S V levels start unitary sr ts H) as Q. cbv zeta in Q. rewrite Q. unfold amplitude_operator. rewrite oper_add, oper_opp, oper_nsum, map_map.
    assert (E : forall hl pl ex, map (cluster_sum S V "T" hl pl ex) levels = map (fun x => oper B (cluster_part B v S hl pl ex x)) levels) by (intros; apply map_ext; intros k; apply cluster_sum_value). rewrite !E. destruct unitary; [rewrite oper_nsum, map_map|change (oper B n0) with (@q0 (extension B))]; ring.
  Qed.
End Levels.
