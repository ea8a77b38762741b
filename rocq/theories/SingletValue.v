(** Values of singlet-adapted tensors and sums over spin orbitals. *)
From Coq Require Import Ascii String ZArith QArith Qcanon Lia Ring.
From Verif Require Import PyBase OrderSpec SpaceModel IndexModel IndicesModel IterProofs ParitySpec ParityProofs IndicesProofs ElemModel MacroModel SortProofs TermModel ValueSpec ValueProofs TermSpec SumProofs TermProofs RenameProofs CanonProofs SymmetryModel SymmetrySpec CombineModel PermuteModel PermuteSpec SingletProofs SingletSpec ArrangeProofs.
Local Close Scope Q_scope.
Local Close Scope Qc_scope.
Local Open Scope nat_scope.
Local Notation length := List.length.

Lemma positions (ls : list nat) : exists (P : list idx) e, NoDup P /\ map e P = ls.
Proof.
  exists (map (fun k => (Lab false Sg, k)) (seq 0 (length ls))), (fun i : idx => nth (snd i) ls 0). split; [apply FinFun.Injective_map_NoDup; [intros a b E; congruence|apply seq_NoDup]|]. rewrite map_map. cbn [snd].
  induction ls as [|x l IH]; [reflexivity|]. cbn [length seq map nth]. f_equal. rewrite <- seq_shift, map_map. exact IH.
Qed.

Section Values.
  Context (A : qalg) (S : system) (flip : nat -> nat).
  Add Ring alg_ring26 : (q_ring A).
  Local Notation sp := (spatial S flip).

  Lemma spin_sum_idx f us (P : list idx) e spin : (forall i, In i P -> spin_of S (e i) = spin i) ->
    spin_sum S flip f us (map e P) = signed_sum A (fun L => f (map sp us) (map (fun i => sp (e i)) L)) (arranged spin (map (spin_of S) us) P).
  Proof.
    intros H. unfold spin_sum, signed_sum. rewrite (arranged_map e spin (spin_of S)) by exact H. rewrite map_map. apply asum_map_ext. intros [s L] _. cbn [fst snd]. rewrite map_map. reflexivity.
  Qed.
  Lemma spin_sum_lower f us : alternates (fun ls => @spin_sum A S flip f us ls).
  Proof.
    intros p x y q. destruct (positions (p ++ x :: y :: q)) as (P & e & N & E). destruct (split_at e P p x y q E) as (P1 & a & b & P2 & -> & _ & <- & <- & <- & <-).
    change (e a :: e b :: map e P2) with (map e (a :: b :: P2)). change (e b :: e a :: map e P2) with (map e (b :: a :: P2)). rewrite <- !map_app.
    rewrite !(spin_sum_idx f us _ e (fun i => spin_of S (e i))) by reflexivity. rewrite (signed_sum_lower A _ _ (P1 ++ a :: b :: P2) (P1 ++ b :: a :: P2) (-1)); [change (-1)%Z with (- (1))%Z; rewrite (zin_opp A 1), (zin_1 A); ring|exact N|]. exists 1. split; [apply swaps_one|reflexivity].
  Qed.
  Lemma spin_sum_upper f : (forall u1 x y u2 l1 x' y' l2, length u1 = length l1 -> f (u1 ++ x :: y :: u2) (l1 ++ x' :: y' :: l2) = f (u1 ++ y :: x :: u2) (l1 ++ y' :: x' :: l2)) ->
    forall ls, alternates (fun us => @spin_sum A S flip f us ls).
  Proof.
    intros HF ls p x y q. destruct (positions ls) as (P & e & N & <-). rewrite !(spin_sum_idx f _ _ e (fun i => spin_of S (e i))) by reflexivity. rewrite !(map_app (spin_of S)). cbn [map]. apply signed_sum_upper; [exact N|].
    intros p1 a b q1 L. rewrite !map_app. cbn [map]. apply HF. rewrite !map_length. rewrite map_length in L. congruence.
  Qed.
  Lemma spin_antisymmetric w : pair_symmetric w -> pair_symmetric_operators w -> antisymmetric (@spin_values A S flip w).
  Proof.
    intros H1 H2. constructor; cbn [spin_values vtensor voper].
    - intros c n l. apply spin_sum_upper. intros. apply H1. assumption.
    - intros c n u. apply spin_sum_lower.
    - intros l. apply spin_sum_upper. intros. apply H2. assumption.
    - intros u. apply spin_sum_lower.
  Qed.

  Lemma spin_sorted_perm b l : Permutation l (spin_sorted b l).
  Proof. symmetry. unfold spin_sorted. rewrite !sort_by_perm. apply parts_perm. Qed.
  Lemma singlet_shape upper lower r amaj res : NoDup upper -> NoDup lower -> singlet_adaptation SpinIntegrated upper lower r amaj = Ok res -> n_beta upper = n_beta lower /\ length upper = length lower.
  Proof.
    intros Nu Nl H. unfold singlet_adaptation in H. destruct (n_beta upper =? n_beta lower) eqn:E; [|discriminate]. split; [apply Nat.eqb_eq, E|]. cbn [negb] in H. destruct (canonicalize_pair _ _ _) as [[[u l] s]|]; [|discriminate]. cbn [pybind itype_eqb negb] in H.
    destruct (replace r (fst (spin_ordered amaj u) ++ snd (spin_ordered amaj u))); [|discriminate]. cbn [pybind] in H. destruct (length upper =? length lower) eqn:E2; [apply Nat.eqb_eq, E2|discriminate].
  Qed.
  (** the adapted pairs give the value of the spin-orbital pair *)
  Lemma singlet_sum f upper lower r amaj res e e' : NoDup upper -> NoDup lower -> incl (upper ++ lower) (map fst r) -> singlet_adaptation SpinIntegrated upper lower r amaj = Ok res ->
    (forall i, In i (upper ++ lower) -> spin_of S (e i) = idx_beta i) -> (forall i, In i (upper ++ lower) -> e' (rename r i) = sp (e i)) -> (forall ls, alternates (fun us => @spin_sum A S flip f us ls)) ->
    spin_sum S flip f (map e upper) (map e lower) = asum (map (fun p => (zin (fst (fst p)) * f (map e' (snd (fst p))) (map e' (snd p)))%alg) res).
  Proof.
    intros Nu Nl Hr H Hs He HA. destruct (singlet_shape _ _ _ _ _ Nu Nl H) as [Hb Hl]. destruct (singlet_ok upper lower r amaj Nu Nl Hb Hl Hr) as (ls & E & N & _ & I). rewrite H in E. injection E as ->. set (U := spin_sorted (first_spin amaj upper) upper) in *.
    pose proof (spin_sorted_perm (first_spin amaj upper) upper) as PU. fold U in PU. destruct (reorder_sign_exists _ _ PU) as [su Hsu].
    rewrite (alternates_sign A (fun us => spin_sum S flip f us (map e lower)) (map e upper) (map e U) su (HA _) (reorder_sign_map _ _ _ _ Hsu)).
    rewrite (spin_sum_idx f _ _ e idx_beta) by (intros i Hi; apply Hs, in_or_app; right; exact Hi).
    assert (EB : map (spin_of S) (map e U) = map idx_beta U) by (rewrite map_map; apply map_ext_in; intros i Hi; apply Hs, in_or_app; left; apply (Permutation_in _ (Permutation_sym PU) Hi)). rewrite EB.
    rewrite <- signed_sum_scale. transitivity (signed_sum A (fun L => f (map sp (map e U)) (map (fun i => sp (e i)) L)) ls).
    - apply signed_sum_same; [rewrite map_map; cbn [snd]; apply arranged_nodup, Nl|exact N|]. intros s L. rewrite I. split.
      + intros Q. apply in_map_iff in Q as ([s' L'] & E & Q). cbn [fst snd] in E. injection E as <- ->. apply (arranged_in _ _ _ _ _ Nl) in Q as (P1 & P2 & P3). split; [exact P1|]. split; [exact P2|]. exists su, s'. auto.
      + intros (P1 & P2 & su' & sl & R1 & R2 & ->). rewrite (reorder_sign_unique _ _ _ _ Nu R1 Hsu). apply in_map_iff. exists (sl, L). split; [reflexivity|]. apply arranged_in; [exact Nl|auto].
    - unfold signed_sum. rewrite (map_map (fun x : Z * list idx => (fst x, map (rename r) U, map (rename r) (snd x)))). apply asum_map_ext. intros [s L] Q. cbn [fst snd]. apply I in Q as (P & _). rewrite !map_map. f_equal. f_equal; apply map_ext_in; intros i Hi; symmetry; apply He, in_or_app; [left; apply (Permutation_in _ (Permutation_sym PU) Hi)|right; apply (Permutation_in _ P Hi)].
  Qed.

  (** ** Sums over spin orbitals and over spatial orbitals *)
  Context (SP : spin_pairs S flip).
  Lemma relation_spin b s x : In x (relation (Lab b s)) <-> lbeta x = b /\ In (Lab false (lsp x)) (relation (Lab false s)).
  Proof. destruct x as [bx sx]. destruct b, s, bx, sx; cbn; intuition (try congruence; try discriminate). Qed.
  Lemma orbital_spin (i : idx) p : In p (orbitals S i) -> spin_of S p = idx_beta i.
  Proof. intros H. apply orbitals_in in H as [_ H]. destruct i as [[b s] n]. cbn [fst] in H. apply relation_spin in H as [H _]. exact H. Qed.
  Definition spatial_label (i : idx) : label := Lab false (lsp (fst i)).
  Lemma spatial_orbitals (i j : idx) : fst j = spatial_label i -> Permutation (orbitals S j) (map sp (orbitals S i)).
  Proof.
    intros E. assert (OS := orbital_spin i). destruct i as [[b s] n], j as [l m]. unfold spatial_label in E. cbn [fst lsp] in E. subst l. apply NoDup_Permutation; [apply orbitals_nodup| |].
    - assert (I : forall p q, In p (orbitals S (Lab b s, n)) -> In q (orbitals S (Lab b s, n)) -> sp p = sp q -> p = q).
      { intros p q Hp Hq E. unfold spatial in E. rewrite (OS p Hp), (OS q Hq) in E. unfold idx_beta in E. cbn [fst lbeta] in E. destruct b; [|exact E]. apply orbitals_in in Hp as [Hp _]. apply orbitals_in in Hq as [Hq _]. destruct (SP p Hp) as (_ & E1 & _), (SP q Hq) as (_ & E2 & _). congruence. }
      revert I. generalize (orbitals_nodup S (Lab b s, n)). generalize (orbitals S (Lab b s, n)). intros l N I. induction N as [|x l Hx N IH]; [constructor|]. cbn [map]. constructor; [|apply IH; intros p q Hp Hq; apply I; right; assumption]. intros Q. apply in_map_iff in Q as (y & E & Hy). apply Hx. rewrite <- (I y x (or_intror Hy) (or_introl eq_refl) E). exact Hy.
    - intros p. rewrite in_map_iff. rewrite orbitals_in. cbn [fst]. rewrite relation_spin. split.
      + intros (Hp & Hb & Hl). destruct b.
        * destruct (SP p Hp) as (F1 & F2 & F3). exists (flip p). unfold spatial, spin_of. rewrite F3. unfold spin_of. rewrite Hb. cbn [lbeta negb]. split; [exact F2|]. apply orbitals_in. split; [exact F1|]. rewrite F3. unfold spin_of. rewrite Hb. cbn [fst negb]. apply relation_spin. auto.
        * exists p. unfold spatial, spin_of. rewrite Hb. split; [reflexivity|]. apply orbitals_in. split; [exact Hp|]. cbn [fst]. apply relation_spin. auto.
      + intros (q & E & Hq). pose proof (OS q Hq) as Sq. unfold idx_beta in Sq. cbn [fst lbeta] in Sq. apply orbitals_in in Hq as [Hq Hl]. cbn [fst] in Hl. apply relation_spin in Hl as [_ Hl]. unfold spatial in E. rewrite Sq in E. destruct b.
        * destruct (SP q Hq) as (F1 & F2 & F3). subst p. rewrite F3, Sq. cbn [negb lbeta lsp]. auto.
        * subst p. unfold spin_of in Sq. auto.
  Qed.
  Lemma iproduct_perm (ls ms : list (list nat)) : Forall2 (@Permutation nat) ls ms -> Permutation (iproduct ls) (iproduct ms).
  Proof.
    induction 1 as [|l m ls ms P _ IH]; [reflexivity|]. cbn [iproduct]. transitivity (flat_map (fun x => map (cons x) (iproduct ms)) l).
    - clear P. induction l as [|x l IHl]; [reflexivity|]. cbn [flat_map]. apply Permutation_app; [apply Permutation_map, IH|exact IHl].
    - apply Permutation_flat_map, P.
  Qed.
  Lemma iproduct_map (f : nat -> nat) ls : iproduct (map (map f) ls) = map (map f) (iproduct ls).
  Proof.
    induction ls as [|l ls IH]; [reflexivity|]. cbn [map iproduct]. rewrite IH. generalize (iproduct ls) as t. intros t. clear. induction l as [|x l IHl]; [reflexivity|]. cbn [map flat_map]. rewrite map_app, IHl, !map_map. reflexivity.
  Qed.
  Lemma spatial_sum (rho : idx -> idx) I (F : (idx -> nat) -> A) : (forall i, In i I -> fst (rho i) = spatial_label i) ->
    sum_over S (map rho I) F = asum (map (fun a => F (env (map rho I) (map sp a))) (assignments S I)).
  Proof.
    intros H. unfold sum_over. transitivity (asum (map (fun a => F (env (map rho I) a)) (map (map sp) (assignments S I)))); [|rewrite map_map; reflexivity]. apply asum_perm, Permutation_map. unfold assignments. rewrite <- iproduct_map, !map_map. apply iproduct_perm.
    induction I as [|i I IH]; [constructor|]. cbn [map]. constructor; [apply spatial_orbitals, H; left; reflexivity|apply IH; intros j Hj; apply H; right; exact Hj].
  Qed.
  Lemma env_spatial (rho : idx -> idx) I a i : (forall j k, In j I -> In k I -> rho j = rho k -> j = k) -> length a = length I -> In i I -> env (map rho I) (map sp a) (rho i) = sp (env I a i).
  Proof.
    intros HI. unfold env. revert a. induction I as [|j I IH]; intros [|p a] L H; try discriminate; [destruct H|]. cbn [map combine dict_get]. destruct (idx_eqb (rho i) (rho j)) eqn:E.
    - apply idx_eqb_eq in E. apply HI in E; [|exact H|left; reflexivity]. subst j. rewrite (proj2 (idx_eqb_eq i i) eq_refl). reflexivity.
    - destruct (idx_eqb i j) eqn:E2; [apply idx_eqb_eq in E2; subst j; rewrite (proj2 (idx_eqb_eq (rho i) (rho i)) eq_refl) in E; discriminate|]. destruct H as [->|H]; [rewrite (proj2 (idx_eqb_eq i i) eq_refl) in E2; discriminate|]. apply IH; [intros x y Hx Hy; apply HI; right; assumption|cbn in L; lia|exact H].
  Qed.

  (** products of sums *)
  Lemma aprod_sums {B} (g : list (B -> A)) (choices : list (list B)) : length g = length choices ->
    aprod (map (fun gc => asum (map (fst gc) (snd gc))) (combine g choices)) = asum (map (fun bs => aprod (map (fun gb => fst gb (snd gb)) (combine g bs))) (iproduct choices)).
  Proof.
    revert choices. induction g as [|f g IH]; intros [|c choices] L; try discriminate; [cbn; unfold asum, aprod; cbn; ring|]. cbn [combine map fst snd iproduct]. transitivity (asum (map f c) * aprod (map (fun gc => asum (map (fst gc) (snd gc))) (combine g choices)))%alg; [reflexivity|]. rewrite IH by (cbn in L; lia). clear.
    generalize (iproduct choices) as t. intros t. induction c as [|b c IHc]; [cbn; unfold asum; cbn; ring|]. cbn [map flat_map]. rewrite (map_app _ _ _), (asum_app A), <- IHc. rewrite map_map. cbn [combine map fst snd].
    transitivity ((f b + asum (map f c)) * asum (map (fun bs => aprod (map (fun gb => fst gb (snd gb)) (combine g bs))) t))%alg; [reflexivity|].
    transitivity (f b * asum (map (fun bs => aprod (map (fun gb => fst gb (snd gb)) (combine g bs))) t) + asum (map f c) * asum (map (fun bs => aprod (map (fun gb => fst gb (snd gb)) (combine g bs))) t))%alg; [ring|]. f_equal. rewrite <- (asum_map_mul A). reflexivity.
  Qed.
End Values.
