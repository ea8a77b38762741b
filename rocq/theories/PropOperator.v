(** C65: the values of the generated Hamiltonian and cluster operators. *)
From Coq Require Import Ascii String ZArith QArith Qcanon Lia Ring_theory Ring.
From Verif Require Import PyBase SpaceModel IndexModel IndicesModel IterProofs IndicesProofs ElemModel MacroModel TermModel ValueSpec ValueProofs TermSpec SumProofs TermProofs RenameProofs OperatorProofs CombineModel PropTerm.
Local Close Scope Q_scope.
Local Close Scope Qc_scope.
Local Open Scope nat_scope.
Local Notation length := List.length.

Lemma app_inv_len {B} (a b c d : list B) : a ++ b = c ++ d -> length a = length c -> a = c /\ b = d.
Proof. revert c. induction a as [|x a IH]; intros [|y c] E L; try discriminate; [auto|]. injection E as -> E. injection L as L. destruct (IH c E L) as [-> ->]. auto. Qed.
(** all lists of k orbitals of a space *)
Definition choices (S : system) (l : label) (k : nat) : list (list nat) := iproduct (repeat (orbitals S (l, 0)) k).
(** sum over k orbitals of one space and k of another *)
Definition sum2 {A : qalg} (S : system) (l l' : label) (k : nat) (F : list nat -> list nat -> A) : A :=
  asum (map (fun p => asum (map (F p) (choices S l' k))) (choices S l k)).
Definition inv_sq (k : nat) : Qc := Qcinv (Qc_of_Z (Z.of_nat (fact k * fact k))).

Section Values.
  Context (A : qalg) (S : system) (v : tvaluation A).
  Add Ring alg_ring19 : (q_ring A).
  Lemma mul_one (x y : A) : (x * q1 * y)%alg = (x * y)%alg.
  Proof. ring. Qed.
  Lemma mul_inj (a b : Qc) (x : A) : (inj a * (inj b * x))%alg = (inj (Qcmult a b) * x)%alg.
  Proof. rewrite inj_mul. ring. Qed.
  Lemma inj_one_sub (x : A) : (inj (Q2Qc 1) * x)%alg = (x - q0)%alg.
  Proof. rewrite inj_one. ring. Qed.
  Lemma inj_signs (x y : A) : (inj (Q2Qc 1) * x + inj (Q2Qc (-1 # 1)) * y)%alg = (x - y)%alg.
  Proof.
    assert (E : (inj (Q2Qc 1) + inj (Q2Qc (-1 # 1)))%alg = @q0 A). { rewrite <- inj_add. replace (Qcplus (Q2Qc 1) (Q2Qc (-1 # 1))) with (Q2Qc (inject_Z 0)) by (apply Qc_is_canon; reflexivity). apply (zin_0 A). }
    rewrite inj_one in *. replace (inj (Q2Qc (-1 # 1))) with (- q1 : A)%alg; [ring|]. transitivity ((q1 + inj (Q2Qc (-1 # 1))) - q1 : A)%alg; [rewrite E; ring|ring].
  Qed.
  Lemma iproduct_app {B} (l m : list (list B)) : iproduct (l ++ m) = flat_map (fun a => map (app a) (iproduct m)) (iproduct l).
  Proof.
    induction l as [|x l IH]; [cbn; rewrite app_nil_r, map_id; reflexivity|]. cbn [app iproduct]. rewrite IH. clear IH. induction x as [|b x IHx]; [reflexivity|]. cbn [flat_map]. rewrite IHx, flat_map_app. f_equal.
    rewrite !flat_map_concat_map, concat_map, !map_map. f_equal. apply map_ext. intros a. rewrite map_map. reflexivity.
  Qed.
  Lemma asum_flat {B C} (f : C -> A) (g : B -> list C) l : asum (map f (flat_map g l)) = asum (map (fun x => asum (map f (g x))) l).
  Proof. rewrite flat_map_concat_map, concat_map, map_map. rewrite asum_concat, map_map. reflexivity. Qed.
  Lemma assignments_range l start k : assignments S (is_range l start k) = choices S l k.
  Proof.
    unfold assignments, choices. f_equal. unfold is_range. revert start. induction k as [|k IH]; intros start; [reflexivity|]. cbn [seq map repeat]. rewrite <- (IH (Datatypes.S start)). reflexivity.
  Qed.
  Lemma length_range l start k : length (is_range l start k) = k.
  Proof. unfold is_range. rewrite map_length, seq_length. reflexivity. Qed.
  (** the value of a term with one tensor over the indices of the operator *)
  Lemma range_sum l start l' start' k (F : list nat -> list nat -> A) : NoDup (is_range l start k ++ is_range l' start' k) ->
    sum_over S (is_range l start k ++ is_range l' start' k) (fun e => F (map e (is_range l start k)) (map e (is_range l' start' k))) = sum2 S l l' k F.
  Proof.
    intros N. unfold sum_over, sum2. unfold assignments at 1. rewrite map_app, iproduct_app, asum_flat. fold (assignments S (is_range l start k)). fold (assignments S (is_range l' start' k)). rewrite !assignments_range.
    apply asum_map_ext. intros p Hp. rewrite map_map. apply asum_map_ext. intros q Hq.
    assert (Lp : length p = k). { unfold choices in Hp. apply in_iproduct in Hp. pose proof (Forall2_len _ _ _ Hp) as Q. rewrite repeat_length in Q. exact Q. }
    assert (Lq : length q = k). { unfold choices in Hq. apply in_iproduct in Hq. pose proof (Forall2_len _ _ _ Hq) as Q. rewrite repeat_length in Q. exact Q. }
    assert (M : map (env (is_range l start k ++ is_range l' start' k) (p ++ q)) (is_range l start k ++ is_range l' start' k) = p ++ q) by (apply map_env; [exact N|rewrite !app_length, !length_range, Lp, Lq; reflexivity]).
    rewrite map_app in M. apply app_inv_len in M; [|rewrite map_length, length_range, Lp; reflexivity]. destruct M as [-> ->]. reflexivity.
  Qed.
  Lemma is_range_in l s k i : In i (is_range l s k) <-> fst i = l /\ s <= snd i < s + k.
  Proof. unfold is_range. rewrite in_map_iff. split; [intros (n & <- & H); apply in_seq in H; auto|]. intros [E L]. exists (snd i). split; [destruct i; cbn in *; congruence|apply in_seq, L]. Qed.
  Lemma is_range_nodup l s k : NoDup (is_range l s k).
  Proof. unfold is_range. apply FinFun.Injective_map_NoDup; [intros x y [= E]; exact E|apply seq_NoDup]. Qed.
  Lemma one_tensor_sum tm l s l' s' k F : (l <> l' \/ s + k <= s' \/ s' + k <= s) ->
    (forall i, In i (content_indices (ttensors tm) (tsq tm)) <-> In i (is_range l s k) \/ In i (is_range l' s' k)) ->
    (forall e, integrand v (ttensors tm) (tsq tm) e = F (map e (is_range l s k)) (map e (is_range l' s' k))) ->
    term_value S v tm = (inj (tcoeff tm) * sum2 S l l' k F)%alg.
  Proof.
    intros D I E. assert (N : NoDup (is_range l s k ++ is_range l' s' k)).
    { apply NoDup_app_intro; try apply is_range_nodup. intros i H H'. apply is_range_in in H. apply is_range_in in H'. destruct H as [H1 H2], H' as [H1' H2']. destruct D as [D|D]; [congruence|lia]. }
    unfold term_value, content_value. f_equal. rewrite <- (range_sum l s l' s' k F N). rewrite (sum_over_same A S _ (is_range l s k ++ is_range l' s' k)); [|apply NoDup_nodup|exact N|intros i; rewrite nodup_In, in_app_iff; apply I|].
    - apply sum_over_ext; [|exact N]. intros e _. apply E.
    - intros e e' H. rewrite !E. f_equal; apply map_ext_in; intros i Hi; apply H, nodup_In, I; auto.
  Qed.
End Values.

(** ** C65 *)
(** H_k = 1/(k!)^2 sum H^{q..}_{p..} {p^+.. q..} over all orbitals *)
Theorem C65_hamiltonian :
  forall (A : qalg) (S : system) (v : tvaluation A) k start t tm, hamiltonian_operator k start t = Ok tm ->
  term_value S v tm = (inj (inv_sq k) * sum2 S (Lab false Sg) (Lab false Sg) k (fun p q => (vtensor v THamiltonian "H" q p * voper v p q)%alg))%alg.
Proof.
  intros A S v k start t tm H. destruct (hamiltonian_ok k start t) as (tm' & E & _ & E2 & E3 & E4 & _). rewrite H in E. injection E as <-. unfold inv_sq. rewrite <- E2. apply (one_tensor_sum A S v tm _ start _ (start + k) k); [lia| |]; rewrite E3, E4.
  - intros i. unfold content_indices, op_indices, tensor_indices. cbn [flat_map cre ann tupper tlower]. rewrite !in_app_iff. cbn [In]. tauto.
  - intros e. unfold integrand, aprod, tensor_value, op_value. cbn [map fold_right tcls tname tupper tlower cre ann]. rewrite mul_one. reflexivity.
Qed.
Print Assumptions C65_hamiltonian.
(** T_k = 1/(k!)^2 sum T^{h..}_{p..} {p^+.. h..}, and with {h^+.. p..} if not excitation *)
Definition cluster_sum {A : qalg} (S : system) (v : tvaluation A) (name : string) (hl pl : label) (ex : bool) (k : nat) : A :=
  (inj (inv_sq k) * sum2 S hl pl k (fun h p => vtensor v TCluster name h p * (if ex then voper v p h else voper v h p)))%alg.
Theorem C65_cluster :
  forall (A : qalg) (S : system) (v : tvaluation A) k start ex name sc hl pl t tm, hl <> pl -> cluster_operator k start ex name sc hl pl t = Ok tm ->
  term_value S v tm = (inj sc * cluster_sum S v name hl pl ex k)%alg.
Proof.
  intros A S v k start ex name sc hl pl t tm D H. destruct (cluster_ok _ _ _ _ _ _ _ _ _ H) as (_ & E2 & E3 & E4 & _). unfold cluster_sum, inv_sq. rewrite mul_inj, <- E2. apply (one_tensor_sum A S v tm _ start _ start k); [left; exact D| |]; rewrite E3, E4.
  - intros i. unfold content_indices, op_indices, tensor_indices. cbn [flat_map tupper tlower]. destruct ex; cbn [cre ann]; rewrite !in_app_iff; cbn [In]; tauto.
  - intros e. unfold integrand, aprod, tensor_value, op_value. cbn [map fold_right tcls tname tupper tlower]. rewrite mul_one. destruct ex; reflexivity.
Qed.
Print Assumptions C65_cluster.
(** The list of cluster operators: T for each level, minus the de-excitations if unitary, over core and virtual orbitals in the
    single-reference case and over holes and particles otherwise. The value does not depend on the numbers of the indices. *)
Theorem C65_cluster_operators :
  forall (A : qalg) (S : system) (v : tvaluation A) levels start unitary single_reference ts, cluster_operators levels start unitary single_reference = Ok ts ->
  let hl := Lab false (if single_reference then Sc else Sh) in let pl := Lab false (if single_reference then Sv else Sp) in
  asum (map (term_value S v) ts) = (asum (map (cluster_sum S v "T" hl pl true) levels) - (if unitary then asum (map (cluster_sum S v "T" hl pl false) levels) else q0))%alg.
Proof.
  intros A S v levels start unitary sr ts H hl pl. assert (D : hl <> pl) by (unfold hl, pl; destruct sr; discriminate). unfold cluster_operators in H. fold hl pl in H.
  assert (G : forall ex sc l, pymap (fun k => cluster_operator k start ex "T" sc hl pl SpinOrbital) levels = Ok l -> asum (map (term_value S v) l) = (inj sc * asum (map (cluster_sum S v "T" hl pl ex) levels))%alg).
  { clear H. intros ex sc l E. apply pymap_forall2 in E. rewrite <- asum_map_mul. apply (f_equal asum). induction E as [|k t ks l E F IH]; [reflexivity|]. cbn [map]. rewrite IH, (C65_cluster A S v _ _ _ _ _ _ _ _ _ D E). reflexivity. }
  destruct (pymap _ levels) as [amps|] eqn:E1 in H; [|discriminate]. cbn [pybind] in H. apply G in E1. destruct unitary.
  - destruct (pymap _ levels) as [damps|] eqn:E2 in H; [|discriminate]. cbn [pybind] in H. apply G in E2. injection H as <-. rewrite map_app, asum_app, E1, E2. apply inj_signs.
  - injection H as <-. rewrite E1. apply inj_one_sub.
Qed.
Print Assumptions C65_cluster_operators.
(** two orbitals, one core and one virtual; all tensors 3, all operators distinguished by the first creator *)
Definition two_orbitals : system := {| norb := 2; olabel := fun n => Lab false (if Nat.eqb n 0 then Sc else Sv) |}.
Definition some_values : tvaluation Qc_alg := {| vtensor := fun _ _ _ _ => (Q2Qc (3 # 1) : Qc_alg); voper := fun c _ => Q2Qc (Z.of_nat (5 + hd 0 c) # 1) |}.
Example C65_example : exists ts, cluster_operators (1 :: nil) 4 true true = Ok ts /\ length ts = 2 /\
  asum (map (term_value two_orbitals some_values) ts) = Q2Qc (3 # 1) /\ exists tm, hamiltonian_operator 1 0 SpinOrbital = Ok tm /\ term_value two_orbitals some_values tm = Q2Qc (66 # 1).
Proof. eexists. split; [vm_compute; reflexivity|]. split; [reflexivity|]. split; [apply Qc_is_canon; vm_compute; reflexivity|]. eexists. split; [vm_compute; reflexivity|]. apply Qc_is_canon; vm_compute; reflexivity. Qed.
