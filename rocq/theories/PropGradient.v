(** C69: derivatives with respect to the amplitudes. *)
From Coq Require Import Ascii String ZArith QArith Qcanon Lia Ring_theory Ring.
From Verif Require BacktrackProofs.
From Verif Require Import PyBase SpaceModel IndexModel IndicesModel IterProofs IndicesProofs ElemModel ElemSpec MacroModel TermModel ValueSpec ValueProofs TermSpec SumProofs TermProofs RenameProofs OperatorProofs SimplifyProofs SimplifyValue SymmetryModel SymmetrySpec SympyValue CombineSpec PropSimplify PropCanon GradientModel ContractSpec PropContract PropCanon BchLoop IterProofs.
Local Close Scope Q_scope.
Local Close Scope Qc_scope.
Local Open Scope nat_scope.
Local Notation length := List.length.

(** ** Dual numbers a + b eps, eps^2 = 0 *)
Section Dual.
  Context (A : qalg).
  Add Ring alg_ring23 : (q_ring A).
  Definition dual_ring : ring_theory (q0, q0) (q1, q0) (fun x y : A * A => (fst x + fst y, snd x + snd y)%alg) (fun x y => (fst x * fst y, fst x * snd y + snd x * fst y)%alg)
    (fun x y => (fst x - fst y, snd x - snd y)%alg) (fun x => (- fst x, - snd x)%alg) (@eq (A * A)).
  Proof. constructor; intros; repeat match goal with x : (_ * _)%type |- _ => destruct x end; cbn; f_equal; ring. Qed.
  Definition dual : qalg.
  Proof.
    refine (QAlg (A * A) (q0, q0) (q1, q0) (fun x y => (fst x + fst y, snd x + snd y)%alg) (fun x y => (fst x * fst y, fst x * snd y + snd x * fst y)%alg)
      (fun x y => (fst x - fst y, snd x - snd y)%alg) (fun x => (- fst x, - snd x)%alg) dual_ring (fun q => (inj q, q0)) _ _ _).
    - rewrite inj_one. reflexivity.
    - intros x y. rewrite inj_add. cbn. f_equal. ring.
    - intros x y. rewrite inj_mul. cbn. f_equal. ring.
  Defined.
  (** T[h,p] + eps {p+ h}: the amplitudes are shifted by the operators *)
  Definition shifted (v : tvaluation A) : tvaluation dual :=
    TVal dual (fun c n u l => (vtensor v c n u l, match c with TCluster => voper v l u | _ => q0 end)) (fun u l => (voper v u l, q0)).

  Lemma dual_sum (l : list dual) : asum l = (asum (map fst l), asum (map snd l)).
  Proof. induction l as [|x l IH]; [reflexivity|]. unfold asum in *. cbn [fold_right map]. rewrite IH. reflexivity. Qed.
  Lemma dual_sum_over S I (F : (idx -> nat) -> dual) : sum_over S I F = (sum_over S I (fun e => fst (F e)), sum_over S I (fun e => snd (F e))).
  Proof. unfold sum_over. rewrite dual_sum, !map_map. reflexivity. Qed.
  Lemma dual_prod_plain {B} (f : B -> dual) l : (forall x, In x l -> snd (f x) = q0) -> aprod (map f l) = (aprod (map (fun x => fst (f x)) l), q0).
  Proof.
    intros H. induction l as [|x l IH]; [reflexivity|]. unfold aprod in *. cbn [map fold_right]. rewrite IH by (intros y Hy; apply H; right; exact Hy). cbn. rewrite (H x (or_introl eq_refl)). f_equal. ring.
  Qed.
  Lemma dual_prod_fst {B} (f : B -> dual) l : fst (aprod (map f l)) = aprod (map (fun x => fst (f x)) l).
  Proof. induction l as [|y l IH]; [reflexivity|]. transitivity (fst (f y) * fst (aprod (map f l)))%alg; [reflexivity|]. rewrite IH. reflexivity. Qed.
  Lemma acons (x : A) l : asum (x :: l) = (x + asum l)%alg.
  Proof. reflexivity. Qed.
  Lemma pcons (x : A) l : aprod (x :: l) = (x * aprod l)%alg.
  Proof. reflexivity. Qed.
  Lemma dual_prod {B} (f : B -> dual) l : forall before, (aprod (map (fun x => fst (f x)) before) * snd (aprod (map f l)))%alg = asum (map (fun p => snd (f (fst p)) * aprod (map (fun x => fst (f x)) (snd p)))%alg (each_but before l)).
  Proof.
    induction l as [|x l IH]; intros before; cbn [each_but map]; [unfold aprod, asum; cbn; ring|].
    rewrite acons, <- IH. transitivity (aprod (map (fun x => fst (f x)) before) * (fst (f x) * snd (aprod (map f l)) + snd (f x) * fst (aprod (map f l))))%alg; [reflexivity|].
    rewrite dual_prod_fst. cbn [fst snd]. rewrite !map_app, !(aprod_app A). cbn [map]. rewrite pcons. change (@aprod A []) with (@q1 A). ring.
  Qed.
End Dual.

Section Gradient.
  Context (A : qalg) (S : system) (v : tvaluation A).
  Add Ring alg_ring24 : (q_ring A).
  Lemma each_but_perm {B} (l : list B) : forall before x rest, In (x, rest) (each_but before l) -> Permutation (x :: rest) (before ++ l).
  Proof.
    induction l as [|y l IH]; intros before x rest H; [destruct H|]. cbn [each_but] in H. destruct H as [E|H]; [injection E as <- <-; apply Permutation_middle|]. apply IH in H. rewrite H, <- app_assoc. reflexivity.
  Qed.
  Lemma sum_over_asum {B} I (G : B -> (idx -> nat) -> A) l : sum_over S I (fun e => asum (map (fun b => G b e) l)) = asum (map (fun b => sum_over S I (G b)) l).
  Proof.
    induction l as [|b l IH]; [cbn [map]; apply (sum_over_0 A S)|]. cbn [map]. rewrite acons, <- IH. unfold sum_over. clear. induction (assignments S I) as [|a l' IH]; [cbn; unfold asum; cbn; ring|]. cbn [map]. rewrite !acons, IH. ring.
  Qed.
  Lemma cluster_split xs : Permutation xs (filter (fun x => negb (is_cluster x)) xs ++ filter is_cluster xs).
  Proof.
    induction xs as [|x xs IH]; [reflexivity|]. cbn [filter]. destruct (is_cluster x); cbn [negb app]; [rewrite <- Permutation_middle|]; constructor; exact IH.
  Qed.
  (** the derivative of a closed content *)
  Lemma shifted_value c xs : voper v [] [] = q1 ->
    content_value S (shifted A v) c xs (Op [] []) =
    (content_value S v c xs (Op [] []), asum (map (fun p => content_value S v c (filter (fun x => negb (is_cluster x)) xs ++ snd p) (Op (tlower (fst p)) (tupper (fst p)))) (each_but [] (filter is_cluster xs)))).
  Proof.
    intros V1. set (non := filter (fun x => negb (is_cluster x)) xs). set (cl := filter is_cluster xs). pose proof (cluster_split xs) as P. fold non cl in P. set (I := nodup idx_eq_dec (content_indices xs (Op [] []))).
    assert (EV : forall e, integrand (shifted A v) xs (Op [] []) e = (integrand v xs (Op [] []) e, asum (map (fun p => integrand v (non ++ snd p) (Op (tlower (fst p)) (tupper (fst p))) e) (each_but [] cl)))).
    { intros e. unfold integrand at 1. rewrite (aprod_perm (dual A) _ _ (Permutation_map _ P)), map_app, (aprod_app (dual A)).
      assert (N : aprod (map (tensor_value (shifted A v) e) non) = (aprod (map (tensor_value v e) non), q0)).
      { rewrite dual_prod_plain; [reflexivity|]. intros x Hx. apply filter_In in Hx as [_ Hx]. unfold is_cluster in Hx. unfold tensor_value. cbn. destruct (tcls x); (reflexivity || discriminate). }
      rewrite N. pose proof (dual_prod A (tensor_value (shifted A v) e) cl []) as D. cbn [map] in D. change (@aprod A []) with (@q1 A) in D. replace (q1 * snd (aprod (map (tensor_value (shifted A v) e) cl)))%alg with (snd (aprod (map (tensor_value (shifted A v) e) cl))) in D by ring.
      pose proof (dual_prod_fst A (tensor_value (shifted A v) e) cl) as D1. unfold integrand, op_value. cbn [cre ann map]. rewrite V1.
      rewrite (aprod_perm A _ _ (Permutation_map _ P)), (map_app (tensor_value v e)), (aprod_app A).
      transitivity ((aprod (map (tensor_value v e) non) * fst (aprod (map (tensor_value (shifted A v) e) cl)) * voper v [] [],
                     (aprod (map (tensor_value v e) non) * fst (aprod (map (tensor_value (shifted A v) e) cl))) * q0 + (aprod (map (tensor_value v e) non) * snd (aprod (map (tensor_value (shifted A v) e) cl)) + q0 * fst (aprod (map (tensor_value (shifted A v) e) cl))) * voper v [] [])%alg); [reflexivity|].
      rewrite V1, D, D1. f_equal. transitivity (aprod (map (tensor_value v e) non) * asum (map (fun p => snd (tensor_value (shifted A v) e (fst p)) * aprod (map (fun x => fst (tensor_value (shifted A v) e x)) (snd p))) (each_but [] cl)))%alg; [ring|].
      rewrite <- (asum_map_mul A). apply asum_map_ext. intros [x rest] Hx. cbn [fst snd]. assert (Hc : tcls x = TCluster). { apply each_but_perm in Hx. assert (Q : In x cl) by (apply (Permutation_in _ Hx); left; reflexivity). apply filter_In in Q as [_ Q]. unfold is_cluster in Q. destruct (tcls x); (reflexivity || discriminate). }
      rewrite map_app, (aprod_app A). change (fun x0 : tensor => fst (tensor_value (shifted A v) e x0)) with (tensor_value v e). unfold tensor_value at 2. cbn. rewrite Hc. ring. }
    unfold content_value. change (inj c) with ((inj c, q0) : dual A) at 1. fold I. rewrite (sum_over_ext (dual A) S I _ _ (fun e _ => EV e) (NoDup_nodup _ _)), dual_sum_over. cbn [fst snd]. cbn [dual qmul fst snd]. f_equal.
    transitivity (inj c * sum_over S I (fun e => asum (map (fun p => integrand v (non ++ snd p) (Op (tlower (fst p)) (tupper (fst p))) e) (each_but [] cl))))%alg; [ring|]. rewrite sum_over_asum, <- (asum_map_mul A). apply asum_map_ext. intros [x rest] Hx. cbn [fst snd]. f_equal.
    symmetry. apply sum_over_same; [apply NoDup_nodup..| |apply integrand_depends]. intros i. unfold I. rewrite !nodup_In. apply each_but_perm in Hx. cbn [app] in Hx.
    assert (Q : Permutation xs (non ++ x :: rest)) by (rewrite P, Hx; reflexivity). unfold content_indices, op_indices. cbn [cre ann app]. 
    assert (IP : In i (flat_map tensor_indices xs) <-> In i (flat_map tensor_indices (non ++ x :: rest))) by (rewrite !in_flat_map; split; intros (y & Y1 & Y2); exists y; (split; [|exact Y2]); [exact (Permutation_in _ Q Y1)|exact (Permutation_in _ (Permutation_sym Q) Y1)]).
    rewrite IP, !flat_map_app. cbn [flat_map]. rewrite !in_app_iff. assert (TI : In i (tensor_indices x) <-> In i (tupper x) \/ In i (tlower x)) by (unfold tensor_indices; apply in_app_iff). tauto.
  Qed.
End Gradient.

(** ** C69 *)
(** gradient_t differentiates a closed term: when all amplitudes T[h,p] are shifted by eps {p+ h}, the term changes by eps times the
    sum of the returned terms. *)
Theorem C69_gradient_value :
  forall (A : qalg) (S : system) (v : tvaluation A) sympy ty xs c t ts,
  make_term ty xs (Op [] []) c = Ok t -> (forall i, ~ diagonal_in i xs (Op [] [])) -> Forall valid_tensor xs -> densities_disjoint xs -> cumulants_open_active xs ->
  classes_by_name xs -> zero_or_visible c ->
  physical S v -> no_active_amplitudes S v ->
  (itype_antisymmetric ty = true -> antisymmetric v) -> (itype_antisymmetric ty = false -> pair_symmetric v) -> hermitian_values v -> voper v [] [] = q1 ->
  admissible sympy -> gradient_t sympy t = Ok ts ->
  term_value S (shifted A v) t = (term_value S v t, asum (map (term_value S v) ts)) /\
  length ts = length (filter (fun x => match tcls x with TCluster => true | _ => false end) xs).
Proof.
  intros A S v sympy ty xs c t ts M ND HV HD HO HC Hc PH NA AS PS HH V1 AD H.
  destruct (make_term_fields _ _ _ _ _ M) as (F1 & F2 & _ & F4 & F5 & _). unfold gradient_t in H. rewrite F4, F5, F1 in H. cbn [cre ann List.length Nat.eqb negb] in H.
  unfold term_value. rewrite F4, F5. rewrite (shifted_value A S v c (ttensors t) V1). apply pymap_results in H.
  assert (G : Forall2 (fun p tm => content_value S v c (filter (fun x => negb (is_cluster x)) (ttensors t) ++ snd p) (Op (tlower (fst p)) (tupper (fst p))) = term_value S v tm) (each_but [] (filter is_cluster (ttensors t))) ts).
  { assert (Q : forall p, In p (each_but [] (filter is_cluster (ttensors t))) -> In p (each_but [] (filter is_cluster (ttensors t)))) by auto. revert Q H. generalize (each_but [] (filter is_cluster (ttensors t))) at 1 3 4 as ps. intros ps Q H. induction H as [|[x rest] tm ps tms E _ IH]; constructor; [|apply IH; intros p Hp; apply Q; right; exact Hp]. clear IH. cbn [fst snd] in *.
    specialize (Q _ (or_introl eq_refl)). apply each_but_perm in Q. cbn [app] in Q. set (non := filter (fun x => negb (is_cluster x)) (ttensors t)) in *. destruct (make_term ty (non ++ rest) _ c) as [t'|] eqn:E'; [|discriminate]. cbn [pybind] in E.
    assert (P : Permutation xs (x :: non ++ rest)) by (rewrite Permutation_middle, Q, <- F2; apply cluster_split).
    assert (IN : forall y, In y (non ++ rest) -> In y xs) by (intros y Hy; apply (Permutation_in _ (Permutation_sym P)); right; exact Hy). assert (INx : In x xs) by (apply (Permutation_in _ (Permutation_sym P)); left; reflexivity).
    assert (Cx : tcls x = TCluster). { assert (X : In x (filter is_cluster (ttensors t))) by (apply (Permutation_in _ Q); left; reflexivity). apply filter_In in X as [_ X]. unfold is_cluster in X. destruct (tcls x); (reflexivity || discriminate). }
    rewrite Forall_forall in HV.
    destruct (C42_canonicalize_value A S v sympy true true true ty (non ++ rest) (Op (tlower x) (tupper x)) c t' tm E') as (V & _); auto.
    - intros i [[Q1 Q2]|(y & Y1 & Y2 & Y3)]; apply (ND i); right; [exists x|exists y]; auto.
    - apply Forall_forall. intros y Hy. apply HV, IN, Hy.
    - unfold densities_disjoint in *. apply (Permutation_NoDup (l := flat_map tensor_indices (filter is_density xs))); [|exact HD]. transitivity (flat_map tensor_indices (filter is_density (x :: non ++ rest))).
      + apply Permutation_flat_map. apply BacktrackProofs.perm_filter, P.
      + cbn [filter]. unfold is_density at 1. rewrite Cx. reflexivity.
    - intros y i Hy. apply HO, IN, Hy.
    - intros y z Hy Hz. apply HC; auto.
    - cbn [cre ann]. specialize (HV x INx). unfold valid_tensor, check_tensor in HV. rewrite Cx in HV. unfold is_spin_conserving in HV. destruct (length (tupper x) =? length (tlower x)) eqn:L; [symmetry; apply Nat.eqb_eq, L|]. exfalso. cbn [pybind] in HV. revert HV. repeat match goal with |- context [if ?b then _ else _] => destruct b end; discriminate.
    - rewrite V. unfold term_value. destruct (make_term_fields _ _ _ _ _ E') as (_ & G2 & _ & G4 & G5 & _). rewrite G4, G5. symmetry. apply content_value_perm, G2. }
  split.
  - f_equal. f_equal. clear -G. induction G as [|p tm ps ts E _ IH]; [reflexivity|]. cbn [map]. rewrite E, IH. reflexivity.
  - apply Forall2_len in H. rewrite <- H. assert (L : forall B (l b : list B), length (each_but b l) = length l) by (intros B l; induction l as [|x l IH]; intros b; cbn; [reflexivity|rewrite IH; reflexivity]). rewrite L. apply Permutation_length, BacktrackProofs.perm_filter, F2.
Qed.
Print Assumptions C69_gradient_value.
(** Terms with operators are refused. *)
Theorem C69_open_rejected :
  forall sympy ty xs o c t, make_term ty xs o c = Ok t -> length (cre o) = length (ann o) -> cre o <> [] -> gradient_t sympy t = Raise NotImplementedErr.
Proof.
  intros sympy ty xs o c t M L N. destruct (make_term_fields _ _ _ _ _ M) as (_ & _ & _ & F4 & _). unfold gradient_t. rewrite F4, L, Nat.eqb_refl. cbn [negb]. destruct (ann o) as [|i l] eqn:E; [|reflexivity]. exfalso. apply N. destruct (cre o); [reflexivity|discriminate].
Qed.
Print Assumptions C69_open_rejected.

(** H[v0,c0] T[c0,v1] H[v1,c1] T[c1,v0] has two amplitudes; its derivatives are the same term twice *)
Definition ci (n : nat) : idx := (Lab false Sc, n).
Definition vi (n : nat) : idx := (Lab false Sv, n).
Definition ex_closed : list tensor :=
  [Ten THamiltonian SpinOrbital "H" 0%Z [vi 0] [ci 0]; Ten TCluster SpinOrbital "T" 1%Z [ci 0] [vi 1];
   Ten THamiltonian SpinOrbital "H" 0%Z [vi 1] [ci 1]; Ten TCluster SpinOrbital "T" 1%Z [ci 1] [vi 0]].
Example C69_example :
  exists t ts, make_term SpinOrbital ex_closed (Op [] []) (Q2Qc (1 # 2)) = Ok t /\ (forall i, ~ diagonal_in i ex_closed (Op [] [])) /\ Forall valid_tensor ex_closed /\
  densities_disjoint ex_closed /\ classes_by_name ex_closed /\ gradient_t (one_move []) t = Ok ts /\ length ts = 2 /\
  asum (map (term_value three_orbitals half_filled) ts) <> Q2Qc 0.
Proof.
  eexists. eexists. split; [vm_compute; reflexivity|]. split.
  { intros i [[[] _]|(x & Hx & H1 & H2)]. cbn in Hx. destruct Hx as [<-|[<-|[<-|[<-|[]]]]]; cbn in H1, H2; destruct H1 as [<-|[]]; destruct H2 as [E|[]]; discriminate. }
  split; [repeat constructor|]. split; [constructor|]. split. { intros x y Hx Hy. cbn in Hx, Hy. destruct Hx as [<-|[<-|[<-|[<-|[]]]]]; destruct Hy as [<-|[<-|[<-|[<-|[]]]]]; cbn; intros E; try reflexivity; discriminate. }
  split; [vm_compute; reflexivity|]. split; [reflexivity|]. intros H. apply (f_equal this) in H. vm_compute in H. discriminate.
Qed.
