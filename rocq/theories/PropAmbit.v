(** C53, C64: the generated C++ functions. *)
From Coq Require Import Ascii String ZArith QArith Qcanon Lia.
From Verif Require Import PyBase SortProofs OrderSpec OrderProofs SpaceModel IndexModel IndicesModel IterProofs IndicesProofs ElemModel MacroModel TermModel ValueSpec ValueProofs TermSpec SumProofs TermProofs CombineModel CombineProofs PermuteModel PermuteProofs OpenProofs RenameProofs AmbitModel AmbitSpec AmbitText AmbitPerm AmbitValue AmbitDriver AmbitMain.
Local Close Scope Q_scope.
Local Close Scope Qc_scope.
Local Open Scope nat_scope.
Local Notation length := List.length.

(** The texts read as programs: the text of the main function and the texts of the block functions are the lines of [main] and of
    [functions]. *)
Definition reads_as (ns fn : text) (r : driver_result) (main : list stmt) (functions : text -> option (list stmt)) : Prop :=
  (exists args, function_text ns fn (str "double factor, " ++ args) main (d_func r)) /\
  Forall (fun b => exists prog args, functions (b_name b) = Some prog /\ function_text ns (b_name b) args prog (b_func b)) (d_blocks r).
(** arrays for the tensors and for the results of the terms *)
Definition prepared {A : qalg} (v : tvaluation A) (input : list term) (arrays : text -> option (array A)) : Prop :=
  forall t, In t input -> arrays_hold v (ttensors t) arrays /\ exists f, arrays (target_name (target_of t)) = Some f.
(** the terms with n creators and n annihilators *)
Definition with_body (n : nat) (input : list term) : list term := filter (fun t => target_of t =? n) input.

Definition main_program (r : driver_result) (add destroy : bool) : list stmt :=
  driver_stmts (d_blocks r) (sort_by Nat.ltb (nodup Nat.eq_dec (map b_target (d_blocks r)))) add (keeps_h (d_blocks r) destroy).
Lemma lookup_names (blocks : list block_result) (progs : list (list stmt)) : NoDup (map b_name blocks) -> length blocks = length progs ->
  Forall2 (fun b g => lookup (combine (map b_name blocks) progs) (b_name b) = Some g) blocks progs.
Proof.
  intros N L. assert (G : forall b g, In (b, g) (combine blocks progs) -> lookup (combine (map b_name blocks) progs) (b_name b) = Some g).
  { intros b g H. apply in_dict_get.
    - replace (map fst (combine (map b_name blocks) progs)) with (map b_name blocks); [exact N|]. clear - L. revert progs L. induction blocks as [|b l IH]; intros [|g m] L; try discriminate; [reflexivity|]. cbn [map combine fst]. rewrite <- IH; [reflexivity|]. injection L as L. exact L.
    - clear - H. revert progs H. induction blocks as [|b' l IH]; intros [|g' m] H; try destruct H. { injection H as -> ->. left. reflexivity. } right. apply IH. exact H. }
  clear N. revert G. generalize (lookup (combine (map b_name blocks) progs)). intros lk G. revert progs L G. induction blocks as [|b l IH]; intros [|g m] L G; try discriminate; constructor; [apply G; left; reflexivity|]. apply IH; [injection L as L; exact L|]. intros b' g' H. apply G. right. exact H.
Qed.
Lemma row_filter n cat : concat (map (row_part n) cat) = filter (fun t => target_of t =? n) (concat (map row_terms cat)).
Proof. induction cat as [|kv cat IH]; [reflexivity|]. cbn [map concat]. rewrite filter_app, IH. reflexivity. Qed.
Lemma filter_perm {X} (p : X -> bool) l m : Permutation l m -> Permutation (filter p l) (filter p m).
Proof. induction 1 as [|x l m H IH|x y l|l m k H1 IH1 H2 IH2]; cbn [filter]; [reflexivity|destruct (p x); [constructor|]; exact IH|destruct (p x), (p y); try reflexivity; apply perm_swap|etransitivity; eassumption]. Qed.
(** targets of the blocks and of the terms *)
Lemma plan_target input fn ns cat blocks progs n : Forall printable input -> plan input fn ns cat blocks progs -> (In n (map b_target blocks) <-> exists t, In t input /\ target_of t = n).
Proof.
  intros P PL. destruct PL as [PB _ PM PK _]. rewrite Forall_forall in PK.
  assert (TB : forall kv b t, In kv cat -> save_terms_blocks (snd kv) (fst kv) fn ns = Ok b -> In t (row_terms kv) -> target_of t = b_target b).
  { intros kv b t Hk Hb Ht. pose proof (row_part_target input fn ns kv b (target_of t) P Hb (PK kv Hk)) as Q. destruct (Nat.eqb_spec (b_target b) (target_of t)) as [E|E]; [congruence|]. assert (X : In t (row_part (target_of t) kv)) by (apply filter_In; split; [exact Ht|apply Nat.eqb_refl]). rewrite Q in X. destruct X. }
  split.
  - intros H. apply in_map_iff in H. destruct H as (b & <- & Hb). destruct (forall2_in_r _ _ _ _ PB Hb) as (kv & Hk & Eb). destruct (row_term input kv (PK kv Hk)) as (t & Ht & _ & Hr). exists t. split; [exact Ht|]. apply (TB kv b t Hk Eb Hr).
  - intros (t & Ht & <-). apply (Permutation_in _ (Permutation_sym PM)) in Ht. apply in_concat in Ht. destruct Ht as (ts & Hts & Ht). apply in_map_iff in Hts. destruct Hts as (kv & <- & Hk). destruct (forall2_in_l _ _ _ _ PB Hk) as (b & Hb & Eb). rewrite (TB kv b t Hk Eb Ht). apply in_map. exact Hb.
Qed.
Lemma main_start input fn ns add destroy r : Forall printable input -> save_terms_ambit_functions input fn ns add destroy = Ok r ->
  exists functions, reads_as ns fn r (main_program r add destroy) functions /\
    (forall n, In n (map b_target (d_blocks r)) <-> exists t, In t input /\ target_of t = n) /\
    forall (A : qalg) (S : system) (v : tvaluation A) arrays, antisymmetric v -> prepared v input arrays ->
    exists st, run S functions (map SZero (sort_by Nat.ltb (nodup Nat.eq_dec (map b_target (d_blocks r)))) ++ map call_stmt (d_blocks r)) (Store arrays false None) = Some st /\ st_declared st = false /\
      (forall name, (forall t, In t input -> name <> target_name (target_of t)) -> st_arrays st name = arrays name) /\
      forall t, In t input -> exists f, st_arrays st (target_name (target_of t)) = Some f /\ array_operator S v (target_of t) f = asum (map (term_value S v) (with_body (target_of t) input)).
Proof.
  intros P E. destruct (planned input fn ns add destroy r P E) as (cat & progs & fp & PL & FT & BT). pose proof (plan_target input fn ns cat (d_blocks r) progs) as TG. destruct PL as [PB PP PM PK PN] eqn:EPL.
  assert (TG' : forall n, In n (map b_target (d_blocks r)) <-> exists t, In t input /\ target_of t = n) by (intros n; apply (TG n P PL)). clear TG EPL.
  assert (LK : Forall2 (fun b g => lookup (combine (map b_name (d_blocks r)) progs) (b_name b) = Some g) (d_blocks r) progs) by (apply lookup_names; [exact PN|rewrite <- (Forall2_len _ _ _ PB); apply (Forall2_len _ _ _ PP)]).
  exists (lookup (combine (map b_name (d_blocks r)) progs)). split; [|split; [exact TG'|]].
  - split; [exists fp; exact FT|]. apply Forall_forall. intros b Hb.
    assert (X : exists g, lookup (combine (map b_name (d_blocks r)) progs) (b_name b) = Some g /\ exists args, function_text ns (b_name b) args g (b_func b)).
    { revert LK BT Hb. generalize (lookup (combine (map b_name (d_blocks r)) progs)). intros lk LK BT Hb. clear - LK BT Hb. revert LK BT. generalize progs. clear progs. induction (d_blocks r) as [|b' l IH]; intros progs LK BT; [destruct Hb|]. inversion LK; subst. inversion BT; subst. destruct Hb as [->|Hb]; [eexists; split; [eassumption|assumption]|]. eapply IH; eassumption. }
    destruct X as (g & E1 & args & E2). exists g, args. auto.
  - intros A S v arrays HA PR. set (functions := lookup _) in *. set (targets := sort_by Nat.ltb _). set (st0 := Store arrays false None).
    assert (TI : forall n, In n targets <-> exists t, In t input /\ target_of t = n).
    { intros n. rewrite <- TG'. unfold targets. rewrite <- (nodup_In Nat.eq_dec (map b_target (d_blocks r)) n). split; apply Permutation_in; [|apply Permutation_sym]; apply sort_by_perm. }
    destruct (zeros_exec A S functions targets st0) as (st1 & X1 & D1 & _ & O1 & Z1).
    { intros n Hn. apply TI in Hn. destruct Hn as (t & Ht & <-). apply (PR t Ht). }
    assert (B1 : forall b, In b (d_blocks r) -> In (b_target b) targets) by (intros b Hb; apply TI, TG', in_map, Hb).
    destruct (calls_exec A S v HA functions input fn ns P cat (d_blocks r) progs PB PP PK LK st1) as (st2 & X2 & D2 & _ & O2 & V2).
    { intros t Ht x Hx. rewrite Forall_forall in P. destruct (P t Ht) as [_ _ _ Q]. rewrite Forall_forall in Q. rewrite O1 by (intros n _; apply Q, Hx). apply (PR t Ht). exact Hx. }
    { intros b Hb. eexists. apply Z1. apply B1, Hb. }
    exists st2. rewrite run_app, X1. split; [exact X2|]. split; [rewrite D2, D1; reflexivity|]. split.
    + intros name Hn. assert (NT : forall m, In m targets -> name <> target_name m) by (intros m Hm; apply TI in Hm; destruct Hm as (t & Ht & <-); apply Hn, Ht).
      rewrite O2 by (intros b Hb; apply NT, B1, Hb). rewrite O1 by exact NT. reflexivity.
    + intros t Ht. destruct (V2 (target_of t) (fun _ => q0)) as (f & Ef & V); [apply Z1, TI; exists t; auto|]. exists f. split; [exact Ef|]. rewrite V, from_zero, row_filter. apply asum_perm, Permutation_map, filter_perm. exact PM.
Qed.

(** arrays used by the blocks *)
Lemma used_arrays input fn ns add destroy r name : Forall printable input -> save_terms_ambit_functions input fn ns add destroy = Ok r ->
  In name (concat (map b_tensors (d_blocks r))) <-> exists t x, In t input /\ In x (ttensors t) /\ tensor_array x = name.
Proof.
  intros P E. destruct (planned input fn ns add destroy r P E) as (cat & progs & fp & [PB _ PM PK _] & _). rewrite Forall_forall in PK. rewrite in_concat. split.
  - intros (l & Hl & H). apply in_map_iff in Hl. destruct Hl as (b & <- & Hb). destruct (forall2_in_r _ _ _ _ PB Hb) as (kv & Hk & Eb). destruct (block_args_inv _ _ _ _ _ name Eb H) as (p & ts & t & x & H1 & H2 & H3 & H4).
    exists t, x. split; [|auto]. destruct (PK kv Hk) as [_ K]. rewrite Forall_forall in K. destruct (K _ H1) as [_ K']. rewrite Forall_forall in K'. apply (K' t H2).
  - intros (t & x & Ht & Hx & <-). apply (Permutation_in _ (Permutation_sym PM)) in Ht. apply in_concat in Ht. destruct Ht as (l & Hl & Ht). apply in_map_iff in Hl. destruct Hl as (kv & <- & Hk). destruct (forall2_in_l _ _ _ _ PB Hk) as (b & Hb & Eb).
    unfold row_terms in Ht. apply in_concat in Ht. destruct Ht as (ts & Hts & Ht). apply in_map_iff in Hts. destruct Hts as ([p ts'] & <- & He). exists (b_tensors b). split; [apply in_map, Hb|]. apply (block_args _ _ _ _ _ Eb p ts' t x He Ht Hx).
Qed.
Lemma kept_source input fn ns add destroy r n : Forall printable input -> save_terms_ambit_functions input fn ns add destroy = Ok r -> keeps_h (d_blocks r) destroy = true ->
  In n (map b_target (d_blocks r)) -> n <> 0 -> exists t x, In t input /\ In x (ttensors t) /\ tensor_array x = source n.
Proof.
  intros P E K Hn NZ. apply (used_arrays input fn ns add destroy r (source n) P E). unfold keeps_h in K. destruct (existsb _ _) eqn:X; [discriminate|]. destruct (in_dec (list_eq_dec ascii_dec) (source n) (concat (map b_tensors (d_blocks r)))) as [I|I]; [exact I|]. exfalso.
  assert (Y : existsb (fun n => negb (n =? 0) && negb (mem_text (str "H" ++ decimal n) (text_set (concat (map b_tensors (d_blocks r)))))) (nodup Nat.eq_dec (map b_target (d_blocks r))) = true); [|congruence].
  apply existsb_exists. exists n. split; [apply nodup_In, Hn|]. apply andb_true_intro. split; [apply Bool.negb_true_iff, Nat.eqb_neq, NZ|]. apply Bool.negb_true_iff. apply Bool.not_true_iff_false. rewrite mem_text_spec. intros Q. apply nodup_In in Q. exact (I Q).
Qed.
Lemma keeps_true input fn ns add destroy r : Forall printable input -> save_terms_ambit_functions input fn ns add destroy = Ok r ->
  (forall n, In n (map b_target (d_blocks r)) <-> exists t, In t input /\ target_of t = n) ->
  (forall t, In t input -> target_of t <> 0 -> exists t' x, In t' input /\ In x (ttensors t') /\ tensor_array x = source (target_of t)) ->
  keeps_h (d_blocks r) destroy = destroy.
Proof.
  intros P E TG H. unfold keeps_h. destruct (existsb _ _) eqn:X; [|reflexivity]. exfalso. apply existsb_exists in X. destruct X as (n & Hn & Q). apply andb_prop in Q. destruct Q as [Q1 Q2]. apply Bool.negb_true_iff, Nat.eqb_neq in Q1. apply Bool.negb_true_iff, Bool.not_true_iff_false in Q2. apply Q2. apply mem_text_spec, nodup_In.
  apply nodup_In, TG in Hn. destruct Hn as (t & Ht & <-). apply (used_arrays input fn ns add destroy r _ P E). apply (H t Ht Q1).
Qed.

(** ** C64 *)
(** Without add_t_dagger: the texts of the functions read as programs. Run on arrays that hold the values of the tensors, they end, and every array Cn holds
    the n-body part of the sum of the terms: as operator it has the value of the terms with n creators and annihilators. The other
    arrays keep their values. *)
Theorem C64_driver_value :
  forall input fn ns destroy r, Forall printable input -> save_terms_ambit_functions input fn ns false destroy = Ok r ->
  exists main functions, reads_as ns fn r main functions /\
    forall (A : qalg) (S : system) (v : tvaluation A) arrays, antisymmetric v -> prepared v input arrays ->
    exists st, run S functions main (Store arrays false None) = Some st /\
      (forall name, (forall t, In t input -> name <> target_name (target_of t)) -> st_arrays st name = arrays name) /\
      forall t, In t input -> exists f, st_arrays st (target_name (target_of t)) = Some f /\
        array_operator S v (target_of t) f = asum (map (term_value S v) (with_body (target_of t) input)).
Proof.
  intros input fn ns destroy r P E. destruct (main_start input fn ns false destroy r P E) as (functions & RA & TG & X). exists (main_program r false destroy), functions. split; [exact RA|].
  intros A S v arrays HA PR. destruct (X A S v arrays HA PR) as (st & R & _ & O & V). exists st. split; [unfold main_program, driver_stmts; rewrite app_nil_r; exact R|]. split; [|exact V].
  exact O.
Qed.
Print Assumptions C64_driver_value.
(** With add_t_dagger the transposed arrays are added at the end, provided H1, H2, ... may be overwritten (destroy_h) or some term
    has no operators, so that C0 is a target and temp is declared. *)
Theorem C64_conjugate_value :
  forall input fn ns destroy r, Forall printable input -> save_terms_ambit_functions input fn ns true destroy = Ok r ->
  (destroy = true /\ (forall t, In t input -> target_of t <> 0 -> exists t' x, In t' input /\ In x (ttensors t') /\ tensor_array x = source (target_of t))) \/ (exists t, In t input /\ target_of t = 0) ->
  exists main functions, reads_as ns fn r main functions /\
    forall (A : qalg) (S : system) (v : tvaluation A) arrays, all_general S -> antisymmetric v -> prepared v input arrays ->
    exists st, run S functions main (Store arrays false None) = Some st /\
      (forall name, (forall t, In t input -> name <> target_name (target_of t) /\ (destroy = true -> target_of t <> 0 -> name <> source (target_of t))) -> st_arrays st name = arrays name) /\
      forall t, In t input -> exists f f', array_operator S v (target_of t) f = asum (map (term_value S v) (with_body (target_of t) input)) /\
        st_arrays st (target_name (target_of t)) = Some f' /\ conjugated A S (target_of t) f f'.
Proof.
  intros input fn ns destroy r P E OK. destruct (main_start input fn ns true destroy r P E) as (functions & RA & TG & X). exists (main_program r true destroy), functions. split; [exact RA|].
  intros A S v arrays G HA PR. destruct (X A S v arrays HA PR) as (st & R & D & O1 & V).
  set (targets := sort_by Nat.ltb (nodup Nat.eq_dec (map b_target (d_blocks r)))) in *.
  assert (TI : forall n, In n targets <-> exists t, In t input /\ target_of t = n).
  { intros n. rewrite <- TG. unfold targets. rewrite <- (nodup_In Nat.eq_dec (map b_target (d_blocks r)) n). split; apply Permutation_in; [|apply Permutation_sym]; apply sort_by_perm. }
  assert (NT : NoDup targets) by (apply (Permutation_NoDup (Permutation_sym (sort_by_perm _ _))), NoDup_nodup).
  set (keep := keeps_h (d_blocks r) destroy).
  destruct (daggers_exec A S functions keep targets G NT st) as (st' & R' & O' & V').
  - intros n Hn. apply TI in Hn. destruct Hn as (t & Ht & <-). destruct (V t Ht) as (f & Ef & _). exists f. exact Ef.
  - intros Q n Hn NZ. rewrite O1 by (intros t _; apply source_not_target). destruct (kept_source input fn ns true destroy r n P E Q) as (t & x & Ht & Hx & Ex); [apply TG, TI, Hn|exact NZ|]. rewrite <- Ex. destruct (PR t Ht) as [AH _]. destruct (AH x Hx) as (h & Eh & _). exists h. exact Eh.
  - intros Q. right. apply zero_first. apply nodup_In. apply TG. destruct OK as [[Hd Hs]|OK]; [|exact OK]. exfalso. revert Q. unfold keep. rewrite (keeps_true input fn ns true destroy r P E TG Hs), Hd. discriminate.
  - exists st'. unfold main_program, driver_stmts. fold targets. rewrite app_assoc, run_app, R. split; [exact R'|]. split.
    + intros name Hn. rewrite O'.
      * apply O1. intros t Ht. apply (Hn t Ht).
      * intros n Hn'. apply TI in Hn'. destruct Hn' as (t & Ht & <-). destruct (Hn t Ht) as [H1 H2]. split; [exact H1|]. intros Q. apply H2. unfold keep, keeps_h in Q. destruct (existsb _ _); [discriminate|exact Q].
    + intros t Ht. destruct (V t Ht) as (f & Ef & Vf). destruct (V' (target_of t) f) as (f' & Ef' & C); [apply TI; exists t; auto|exact Ef|]. exists f, f'. auto.
Qed.
Print Assumptions C64_conjugate_value.

(** A term without tensors gives a line that is not C++. *)
Theorem C64_no_tensors_refuted : exists t, make_term SpinOrbital [] (Op [] []) (Q2Qc 1) = Ok t /\ term_ambit (str "C") false false true t = Ok (str "C0 += 1.0 * ;").
Proof. eexists. split; [vm_compute; reflexivity|]. vm_compute. reflexivity. Qed.
Print Assumptions C64_no_tensors_refuted.
(** A hole density C1 has the name of the result C1. *)
Theorem C64_hole_density_refuted : exists t r, let c n := (Lab false Sc, n) in let h n := (Lab false Sh, n) in
  make_term SpinOrbital [Ten THole SpinOrbital "C" 7 [h 0] [h 1]; Ten THamiltonian SpinOrbital "H" 0 [h 1] [c 0]] (Op [c 0] [h 0]) (Q2Qc 1) = Ok t /\
  save_terms_ambit_functions [t] (str "f") (str "N") false false = Ok r /\
  map b_func (d_blocks r) = [str "void N::f_hc(BlockedTensor& H1, BlockedTensor& C1, BlockedTensor& C1) {" ++ [nl] ++ str "    C1[""h0,c0""] += 1.0 * H1[""h1,c0""] * C1[""h0,h1""];" ++ [nl] ++ str "}"].
Proof. do 2 eexists. split; [vm_compute; reflexivity|]. split; [vm_compute; reflexivity|]. vm_compute. reflexivity. Qed.
Print Assumptions C64_hole_density_refuted.

(** The parameters of the functions: a reference to a double for C0, to a BlockedTensor for every other array. *)
Inductive parameter : text -> text -> Prop :=
| number_parameter : parameter (str "C0") (str "double& C0")
| array_parameter name : name <> str "C0" -> parameter name (str "BlockedTensor& " ++ name).
Definition declares (prefix fn : text) (params : list text) (s : text) : Prop := exists rest, s = str "void " ++ prefix ++ fn ++ str "(" ++ join (str ", ") params ++ str ")" ++ rest.
Local Ltac flat := unfold str; cbn [list_ascii_of_string app]; repeat (rewrite <- !app_assoc; cbn [app]); reflexivity.
Lemma join_cons sep (x : text) l : l <> [] -> join sep (x :: l) = x ++ sep ++ join sep l.
Proof. destruct l; [congruence|reflexivity]. Qed.
Lemma join_snoc sep (l : list text) x : l <> [] -> join sep l ++ sep ++ x = join sep (l ++ [x]).
Proof.
  induction l as [|a l IH]; intros N; [congruence|]. destruct l as [|b l]; [reflexivity|]. rewrite (join_cons sep a (b :: l)) by discriminate. rewrite <- app_comm_cons, (join_cons sep a ((b :: l) ++ [x])) by discriminate.
  rewrite <- IH by discriminate. rewrite <- !app_assoc. reflexivity.
Qed.
Lemma parameters_all (f : text -> text) l : (forall x, In x l -> parameter x (f x)) -> Forall2 parameter l (map f l).
Proof. induction l as [|x l IH]; intros H; cbn [map]; constructor; [apply H; left; reflexivity|]. apply IH. intros y Hy. apply H. right. exact Hy. Qed.
Lemma zero_target n : target_name n = str "C0" -> n = 0.
Proof. intros E. apply (target_name_inj n 0). rewrite E. vm_compute. reflexivity. Qed.

(** The main function has the parameter factor and one parameter for every array of the terms and every result, and is declared with
    these; so is the function of every block, and it is called with the arrays in the order of its parameters. *)
Theorem C64_parameters :
  forall input fn ns add destroy r, Forall printable input -> save_terms_ambit_functions input fn ns add destroy = Ok r ->
  (exists names params, NoDup names /\ Forall2 parameter names params /\
    (forall name, In name names <-> exists t, In t input /\ (name = target_name (target_of t) \/ exists x, In x (ttensors t) /\ name = tensor_array x)) /\
    (input <> [] -> declares (ns ++ str "::") fn (str "double factor" :: params) (d_func r) /\
      d_declarations r = join [nl] ((str "void " ++ fn ++ str "(" ++ join (str ", ") (str "double factor" :: params) ++ str ");") :: map b_declare (d_blocks r)))) /\
  forall b, In b (d_blocks r) -> exists names params, NoDup names /\ Forall2 parameter names params /\
    b_call b = stmt_text (SCall (b_name b) names) /\ declares (ns ++ str "::") (b_name b) params (b_func b) /\
    b_declare b = str "void " ++ b_name b ++ str "(" ++ join (str ", ") params ++ str ");".
Proof.
  intros input fn ns add destroy r P E. pose proof (main_start input fn ns add destroy r P E) as (_ & _ & TG & _). pose proof (fun name => used_arrays input fn ns add destroy r name P E) as UA.
  destruct (planned input fn ns add destroy r P E) as (cat & progs & fp & [PB _ PM PK _] & _). rewrite Forall_forall in P, PK.
  assert (NT : forall name n, In name (concat (map b_tensors (d_blocks r))) -> name <> target_name n).
  { intros name n H. apply UA in H. destruct H as (t & x & Ht & Hx & <-). destruct (P t Ht) as [_ _ _ Q]. rewrite Forall_forall in Q. apply Q, Hx. }
  assert (N0 : forall name, In name (concat (map b_tensors (d_blocks r))) -> name <> str "C0") by (intros name H; replace (str "C0") with (target_name 0) by (vm_compute; reflexivity); apply NT, H).
  split.
  - unfold save_terms_ambit_functions in E. destruct (categorize_contractions input) as [cat'|]; [|discriminate]. cbn [pybind] in E.
    destruct (pymap _ cat') as [blocks|] eqn:Eb; [|discriminate]. cbn [pybind] in E. destruct (sorted_names _) as [ft|] eqn:Ef; [|discriminate]. cbn [pybind] in E.
    destruct (pymap _ (nodup _ _)) as [tg|] eqn:Et; [|discriminate]. cbn [pybind] in E.
    assert (tg = nodup Nat.eq_dec (map b_target blocks)) as ->.
    { clear - Et. revert tg Et. induction (nodup _ _) as [|x l IH]; intros tg Et; [injection Et as <-; reflexivity|]. cbn [pymap] in Et. destruct (tensor_ordering _); [|discriminate]. cbn [pybind] in Et. destruct (pymap _ l) as [tl|]; [|discriminate]. injection Et as <-. f_equal. apply IH. reflexivity. }
    injection E as <-. cbn [d_blocks d_func d_declarations] in *. set (targets := sort_by Nat.ltb _). pose proof (sorted_names_perm _ _ Ef) as PF.
    assert (FI : forall name, In name ft <-> In name (concat (map b_tensors blocks))) by (intros name; rewrite <- (nodup_In (list_eq_dec ascii_dec) (concat (map b_tensors blocks))); split; apply Permutation_in; [|apply Permutation_sym]; exact PF).
    assert (TI : forall n, In n targets <-> In n (map b_target blocks)) by (intros n; rewrite <- (nodup_In Nat.eq_dec (map b_target blocks)); split; apply Permutation_in; [|apply Permutation_sym]; apply sort_by_perm).
    set (par := fun i : text => tensor_type i ++ str "& " ++ i). exists (ft ++ map target_name targets), (map par (ft ++ map target_name targets)). split; [|split; [|split]].
    + apply NoDup_app_intro. { apply (Permutation_NoDup (Permutation_sym PF)), NoDup_nodup. }
      { apply nodup_map_iff; [apply (Permutation_NoDup (Permutation_sym (sort_by_perm _ _))), NoDup_nodup|]. intros m n _ _. apply target_name_inj. }
      intros x Hx Hy. apply FI in Hx. apply in_map_iff in Hy. destruct Hy as (n & <- & _). exact (NT _ n Hx eq_refl).
    + apply parameters_all. intros x _. unfold par, tensor_type. destruct (text_eqb x (str "C0")) eqn:Q; [apply text_eqb_eq in Q; subst x; constructor|].
      replace (str "BlockedTensor" ++ str "& " ++ x) with (str "BlockedTensor& " ++ x) by reflexivity. constructor. intros ->. rewrite (proj2 (text_eqb_eq _ _) eq_refl) in Q. discriminate.
    + intros name. rewrite in_app_iff, FI, UA, in_map_iff. split.
      * intros [(t & x & Ht & Hx & <-)|(n & <- & Hn)]; [exists t; split; [exact Ht|]; right; exists x; auto|]. apply TI, TG in Hn. destruct Hn as (t & Ht & <-). exists t. auto.
      * intros (t & Ht & [->|(x & Hx & ->)]); [right; exists (target_of t); split; [reflexivity|]; apply TI, TG; exists t; auto|left; exists t, x; auto].
    + intros NE. assert (NP : map par (ft ++ map target_name targets) <> []).
      { destruct input as [|t input]; [congruence|]. assert (I : In (target_of t) targets) by (apply TI, TG; exists t; split; [left; reflexivity|reflexivity]). intros Q. apply map_eq_nil, app_eq_nil in Q. destruct Q as [_ Q]. apply map_eq_nil in Q. rewrite Q in I. destruct I. }
      unfold declares. rewrite (join_cons _ _ _ NP). fold par. split.
      * eexists. flat.
      * destruct (map b_declare blocks) as [|d ds] eqn:Q.
        { exfalso. apply map_eq_nil in Q. subst blocks. destruct input as [|t input]; [congruence|]. assert (I : In (target_of t) (map b_target [])) by (apply TG; exists t; split; [left; reflexivity|reflexivity]). destruct I. }
        rewrite (join_cons [nl] _ (d :: ds)) by discriminate. flat.
  - intros b Hb. destruct (forall2_in_r _ _ _ _ PB Hb) as (kv & Hk & Eb). destruct (row_term input kv (PK kv Hk)) as (t & Ht & _ & Hr). destruct (block_call _ _ _ _ _ Eb) as (EC & _ & _).
    exists (b_tensors b ++ [target_name (b_target b)]), (map (fun i => str "BlockedTensor& " ++ i) (b_tensors b) ++ [if b_target b =? 0 then str "double& C0" else str "BlockedTensor& " ++ target_name (b_target b)]).
    assert (BI : forall name, In name (b_tensors b) -> In name (concat (map b_tensors (d_blocks r)))) by (intros name H; apply in_concat; exists (b_tensors b); split; [apply in_map, Hb|exact H]).
    assert (BN : NoDup (b_tensors b)).
    { clear - Eb. unfold save_terms_blocks in Eb. destruct (perms_code _ _ _) as [[[out names] flag]|]; [|discriminate]. cbn [pybind] in Eb. destruct (sorted_names _) as [ts|] eqn:Es; [|discriminate]. cbn [pybind] in Eb. injection Eb as <-. cbn [b_tensors]. apply (Permutation_NoDup (Permutation_sym (sorted_names_perm _ _ Es))), NoDup_nodup. }
    assert (BE : b_tensors b <> []).
    { destruct (P t Ht) as [_ _ Q _]. destruct (ttensors t) as [|x xs] eqn:Ex; [congruence|]. unfold row_terms in Hr. apply in_concat in Hr. destruct Hr as (ts & Hts & Hr). apply in_map_iff in Hts. destruct Hts as ([p ts'] & <- & He).
      pose proof (block_args _ _ _ _ _ Eb p ts' t x He Hr) as I. rewrite Ex in I. specialize (I (or_introl eq_refl)). intros Z. rewrite Z in I. destruct I. }
    split; [|split; [|split; [|]]].
    + apply NoDup_app_intro; [exact BN|repeat constructor; intros []|]. intros x Hx [<-|[]]. exact (NT _ _ (BI _ Hx) eq_refl).
    + apply Forall2_app; [apply parameters_all; intros x Hx; constructor; apply N0, BI, Hx|]. constructor; [|constructor]. destruct (Nat.eqb_spec (b_target b) 0) as [->|Q]; [constructor|]. constructor. intros Z. apply Q, zero_target, Z.
    + exact EC.
    + clear - Eb BE. unfold save_terms_blocks in Eb. destruct (perms_code _ _ _) as [[[out names] flag]|]; [|discriminate]. cbn [pybind] in Eb. destruct (sorted_names _) as [ts|] eqn:Es; [|discriminate]. cbn [pybind] in Eb. remember (length (fst kv) / 2) as tgt. injection Eb as <-. cbn [b_tensors b_target b_func b_declare b_name] in *.
      assert (J : forall x, join (str ", ") (map (fun i => str "BlockedTensor& " ++ i) ts ++ [x]) = join (str ", ") (map (fun i => str "BlockedTensor& " ++ i) ts) ++ str ", " ++ x) by (intros x; symmetry; apply join_snoc; intros Z; apply map_eq_nil in Z; contradiction).
      unfold declares. split; [eexists|]; rewrite J; destruct (tgt =? 0); flat.
Qed.
Print Assumptions C64_parameters.

(** Example: a number, and two terms with permutations. *)
Definition vx (n : nat) : idx := (Lab false Sv, n).
Definition cx (n : nat) : idx := (Lab false Sc, n).
Definition amp (us ls : list idx) : tensor := Ten TCluster SpinOrbital "T" 1 us ls.
Definition ham (us ls : list idx) : tensor := Ten THamiltonian SpinOrbital "H" 0 us ls.
Definition made (x : pyres term) : list term := match x with Ok t => [t] | Raise _ => [] end.
Definition ex_terms : list term := flat_map made
  [make_term SpinOrbital [ham [vx 0] [cx 0]; amp [cx 0] [vx 0]] (Op [] []) (Q2Qc (1 # 2));
   make_term SpinOrbital [amp [cx 0] [vx 0]; amp [cx 1] [vx 1]] (Op [vx 0; vx 1] [cx 0; cx 1]) (Q2Qc (1 # 2));
   make_term SpinOrbital [ham [cx 2] [cx 1]; amp [cx 0; cx 2] [vx 0; vx 1]] (Op [vx 0; vx 1] [cx 0; cx 1]) (Q2Qc 1)].
Lemma printable_made n xs o c t : make_term SpinOrbital xs o c = Ok t -> tdiag t = [] -> make_typed SpinOrbital (cre o) = Ok (cre o) -> make_typed SpinOrbital (ann o) = Ok (ann o) ->
  length (cre o) = n -> length (ann o) = n -> (Z.pos (Qden (this (tcoeff t))) <=? 1000000000)%Z = true ->
  forallb (fun x => (String.eqb (tname x) "H" || String.eqb (tname x) "T")) (ttensors t) = true -> ttensors t <> [] -> printable t.
Proof.
  intros E D C1 C2 L1 L2 Q N NE. pose proof (make_term_fields _ _ _ _ _ E) as (_ & _ & _ & ES & _). rewrite forallb_forall in N.
  assert (NM : forall x, In x (ttensors t) -> tname x = "H"%string \/ tname x = "T"%string) by (intros x Hx; specialize (N x Hx); apply Bool.orb_prop in N; destruct N as [N|N]; apply String.eqb_eq in N; auto).
  constructor; [exists n; constructor; rewrite ?ES; try assumption; [exists xs, c; exact E|apply Z.leb_le, Q]| |exact NE|].
  - apply Forall_forall. intros x Hx. unfold name_ok. destruct (NM x Hx) as [-> | ->]; nonl_str.
  - apply Forall_forall. intros x Hx m. unfold tensor_array, array_name, target_name. destruct (NM x Hx) as [-> | ->]; destruct (_ =? _); discriminate.
Qed.
Lemma ex_terms_printable : length ex_terms = 3 /\ Forall printable ex_terms.
Proof.
  split; [vm_compute; reflexivity|]. unfold ex_terms. cbn [flat_map].
  assert (G : forall n xs o c (l : list term), (match make_term SpinOrbital xs o c with Ok t => match tdiag t, ttensors t with [], _ :: _ => (Z.pos (Qden (this (tcoeff t))) <=? 1000000000)%Z && forallb (fun x => (String.eqb (tname x) "H" || String.eqb (tname x) "T")) (ttensors t) | _, _ => false end | Raise _ => true end) = true ->
    make_typed SpinOrbital (cre o) = Ok (cre o) -> make_typed SpinOrbital (ann o) = Ok (ann o) -> length (cre o) = n -> length (ann o) = n -> Forall printable l -> Forall printable (made (make_term SpinOrbital xs o c) ++ l)).
  { intros n xs o c l Q C1 C2 L1 L2 F. destruct (make_term SpinOrbital xs o c) as [t|] eqn:E; [|exact F]. cbn [made app]. constructor; [|exact F]. destruct (tdiag t) eqn:D; [|discriminate]. destruct (ttensors t) eqn:T; [discriminate|]. apply andb_prop in Q. destruct Q as [Q1 Q2].
    apply (printable_made n xs o c t E D C1 C2 L1 L2 Q1); rewrite T; [exact Q2|discriminate]. }
  apply (G 0); [vm_compute; reflexivity ..|]. apply (G 2); [vm_compute; reflexivity ..|]. apply (G 2); [vm_compute; reflexivity ..|]. constructor.
Qed.
Definition lines_of (l : list string) : text := join [nl] (map str l).
Example C64_example : exists r, save_terms_ambit_functions ex_terms (str "f") (str "N") true false = Ok r /\
  d_func r = lines_of
    ["void N::f(double factor, BlockedTensor& H1, BlockedTensor& T1, BlockedTensor& T2, double& C0, BlockedTensor& C2) {";
     "    C0 = 0.0;"; "    C2.zero();"; ""; "    f_0(H1, T1, C0);"; "    f_ccvv(H1, T1, T2, C2);"; "";
     "    C0 *= 2.0;"; "    BlockedTensor temp;"; "    temp = ambit::BlockedTensor::build(ambit::CoreTensor, ""temp"", {""gggg""});";
     "    temp[""g0,g1,g2,g3""] = C2[""g0,g1,g2,g3""];"; "    C2[""g0,g1,g2,g3""] += temp[""g2,g3,g0,g1""];"; "}"]%string /\
  map b_func (d_blocks r) =
    [lines_of ["void N::f_0(BlockedTensor& H1, BlockedTensor& T1, double& C0) {"; "    C0 += (1.0 / 2.0) * H1[""v0,c0""] * T1[""c0,v0""];"; "}"]%string;
     lines_of
      ["void N::f_ccvv(BlockedTensor& H1, BlockedTensor& T1, BlockedTensor& T2, BlockedTensor& C2) {"; "    BlockedTensor temp;"; "";
       "    temp = ambit::BlockedTensor::build(ambit::CoreTensor, ""temp"", {""ccvv""});";
       "    temp[""c0,c1,v0,v1""] += 2.0 * H1[""c2,c1""] * T2[""c0,c2,v0,v1""];";
       "    C2[""c0,c1,v0,v1""] += temp[""c0,c1,v0,v1""];"; "    C2[""c1,c0,v0,v1""] -= temp[""c0,c1,v0,v1""];"; "";
       "    temp.zero();"; "    temp[""c0,c1,v0,v1""] += (1.0 / 2.0) * T1[""c0,v0""] * T1[""c1,v1""];";
       "    C2[""c0,c1,v0,v1""] += temp[""c0,c1,v0,v1""];"; "    C2[""c0,c1,v1,v0""] -= temp[""c0,c1,v0,v1""];";
       "    C2[""c1,c0,v0,v1""] -= temp[""c0,c1,v0,v1""];"; "    C2[""c1,c0,v1,v0""] += temp[""c0,c1,v0,v1""];"; "}"]%string].
Proof. eexists. split; [vm_compute; reflexivity|]. split; [vm_compute; reflexivity|]. vm_compute. reflexivity. Qed.

(** ** C53 *)
(** The main function: every target is set to zero, then every block function is called once with its arrays. *)
Theorem C53_zero_and_call :
  forall input fn ns add destroy r, save_terms_ambit_functions input fn ns add destroy = Ok r ->
  exists targets rest args, NoDup targets /\ (forall n, In n targets <-> In n (map b_target (d_blocks r))) /\
    function_text ns fn (str "double factor, " ++ args) (map SZero targets ++ map call_stmt (d_blocks r) ++ rest) (d_func r) /\ (add = false -> rest = []).
Proof.
  intros input fn ns add destroy r E. destruct (driver_text _ _ _ _ _ _ E) as (cat & targets & body & args & _ & _ & -> & L & Ef). eexists. eexists. exists args. split; [|split; [|split; [exists body; split; [exact L|]|]]].
  - apply (Permutation_NoDup (Permutation_sym (sort_by_perm _ _))), NoDup_nodup.
  - intros n. rewrite <- (nodup_In Nat.eq_dec (map b_target (d_blocks r)) n). split; apply Permutation_in; [|apply Permutation_sym]; apply sort_by_perm.
  - rewrite Ef, <- !app_assoc. reflexivity.
  - intros ->. reflexivity.
Qed.
Print Assumptions C53_zero_and_call.
(** With add_t_dagger, without destroy_h, and if every term has operators: temp is used and not declared. *)
Theorem C53_undeclared :
  forall input fn ns r, Forall printable input -> save_terms_ambit_functions input fn ns true false = Ok r ->
  input <> [] -> (forall t, In t input -> target_of t <> 0) ->
  exists main functions, reads_as ns fn r main functions /\ forall (A : qalg) (S : system) (arrays : text -> option (array A)), run S functions main (Store arrays false None) = None.
Proof.
  intros input fn ns r P E NE NZ. destruct (main_start input fn ns true false r P E) as (functions & RA & TG & _). exists (main_program r true false), functions. split; [exact RA|]. intros A S arrays.
  assert (KH : keeps_h (d_blocks r) false = false) by (unfold keeps_h; destruct (existsb _ _); reflexivity). unfold main_program, driver_stmts. rewrite KH. set (targets := sort_by Nat.ltb _).
  assert (TI : forall n, In n targets -> n <> 0). { intros n Hn ->. apply (Permutation_in _ (sort_by_perm _ _)), nodup_In, TG in Hn. destruct Hn as (t & Ht & Q). exact (NZ t Ht Q). }
  assert (TN : targets <> []). { intros Q. destruct input as [|t input]; [congruence|]. assert (X : In (target_of t) targets) by (apply (Permutation_in _ (Permutation_sym (sort_by_perm _ _))), nodup_In, TG; exists t; split; [left; reflexivity|reflexivity]). rewrite Q in X. destruct X. }
  assert (G : forall l (st : store A), Forall (fun s => match s with SZero _ | SCall _ _ => True | _ => False end) l -> st_declared st = false -> match run S functions l st with Some st' => st_declared st' = false | None => True end).
  { induction l as [|s l IH]; intros st F D; [exact D|]. inversion F; subst. cbn [run]. destruct (exec S functions s st) as [st1|] eqn:X; [|exact I]. apply IH; [assumption|]. destruct s; try contradiction; cbn [exec exec_leaf] in X.
    - destruct (st_arrays st (target_name n)); [|discriminate]. injection X as <-. exact D.
    - unfold call in X. destruct (functions name); [|discriminate]. destruct (exec_leaves _ _ _); [|discriminate]. injection X as <-. exact D. }
  rewrite app_assoc, run_app. specialize (G (map SZero targets ++ map call_stmt (d_blocks r)) (Store arrays false None)). destruct (run S functions (map SZero targets ++ map call_stmt (d_blocks r)) (Store arrays false None)) as [st|]; [|reflexivity].
  assert (D : st_declared st = false) by (apply G; [apply Forall_app; split; apply Forall_map, Forall_forall; intros; exact I|reflexivity]).
  destruct targets as [|n targets]; [congruence|]. cbn [flat_map]. unfold dagger_stmts at 1. destruct (Nat.eqb_spec n 0) as [Q|Q]; [exfalso; exact (TI n (or_introl eq_refl) Q)|]. cbn [app run exec exec_leaf]. rewrite D. reflexivity.
Qed.
Print Assumptions C53_undeclared.
Definition ex_two : list term := skipn 1 ex_terms.
Lemma ex_two_printable : Forall printable ex_two.
Proof. destruct ex_terms_printable as [_ P]. unfold ex_two. rewrite <- (firstn_skipn 1 ex_terms) in P. apply Forall_app in P. apply P. Qed.
Theorem C53_temp_refuted : exists input r main functions, Forall printable input /\ save_terms_ambit_functions input (str "f") (str "N") true false = Ok r /\ reads_as (str "N") (str "f") r main functions /\
  forall (A : qalg) (S : system) (arrays : text -> option (array A)), run S functions main (Store arrays false None) = None.
Proof.
  destruct (save_terms_ambit_functions ex_two (str "f") (str "N") true false) as [r|] eqn:E; [|exfalso; revert E; vm_compute; discriminate].
  destruct (C53_undeclared ex_two (str "f") (str "N") r ex_two_printable E) as (main & functions & RA & X).
  - intros Q. apply (f_equal (fun l => length l)) in Q. vm_compute in Q. discriminate.
  - assert (F : forallb (fun t => negb (target_of t =? 0)) ex_two = true) by (vm_compute; reflexivity). rewrite forallb_forall in F. intros t Ht Q. specialize (F t Ht). rewrite Q in F. discriminate.
  - exists ex_two, r, main, functions. split; [apply ex_two_printable|]. auto.
Qed.
Print Assumptions C53_temp_refuted.
(** one core and one virtual orbital; the one-body tensors are 1, and only the number 1 is kept of the operators *)
Definition two_orbitals : system := Sys 2 (fun p => if p =? 0 then Lab false Sc else Lab false Sv).
Definition ones : tvaluation Qc_alg :=
  TVal Qc_alg (fun _ _ u l => match u, l with [_], [_] => Q2Qc 1 | _, _ => Q2Qc 0 end) (fun u l => match u, l with [], [] => Q2Qc 1 | _, _ => Q2Qc 0 end).
Definition one_arrays : text -> option (array Qc_alg) := fun _ => Some (fun o => if length o =? 2 then Q2Qc 1 else Q2Qc 0).
Lemma ones_antisymmetric : antisymmetric ones.
Proof.
  constructor; intros; intros p x y q; cbn [ones vtensor voper].
  - destruct p as [|a [|b p]]; cbn [app]; apply Qc_is_canon; reflexivity.
  - destruct u as [|a [|b u]]; destruct p as [|c' [|d p]]; cbn [app]; apply Qc_is_canon; reflexivity.
  - destruct p as [|a p]; cbn [app]; apply Qc_is_canon; reflexivity.
  - destruct u, p as [|a p]; cbn [app]; apply Qc_is_canon; reflexivity.
Qed.
Lemma ones_general : all_general two_orbitals.
Proof. intros p H. cbn [norb two_orbitals] in H. destruct p as [|[|p]]; [vm_compute; auto|vm_compute; auto|lia]. Qed.
Lemma ones_prepared : prepared ones ex_terms one_arrays.
Proof.
  assert (F : forallb (fun t => forallb (fun x => (length (tupper x) =? length (tlower x)) && (negb (length (tupper x) =? 0))) (ttensors t)) ex_terms = true) by (vm_compute; reflexivity).
  rewrite forallb_forall in F. intros t Ht. split; [|eexists; reflexivity]. specialize (F t Ht). rewrite forallb_forall in F. intros x Hx. specialize (F x Hx). apply andb_prop in F. destruct F as [F1 F2]. apply Nat.eqb_eq in F1. apply Bool.negb_true_iff, Nat.eqb_neq in F2.
  eexists. split; [reflexivity|]. intros p q Lp Lq. assert (E1 : length (p ++ q) = 2 * length p) by (rewrite app_length; lia). assert (E2 : length (q ++ p) = 2 * length p) by (rewrite app_length; lia). assert (G : forall l : list nat, length l = 2 * length p -> (if length l =? 2 then Q2Qc 1 else Q2Qc 0) = vtensor ones (tcls x) (tname x) p q).
  { intros l E. rewrite E. cbn [ones vtensor]. destruct p as [|a [|b p]], q as [|c [|d q]]; cbn [length] in *; try lia; [reflexivity|]. destruct (Nat.eqb_spec (2 * Datatypes.S (Datatypes.S (length p))) 2); [lia|reflexivity]. }
  split; intros; apply G; assumption.
Qed.
Example C64_hypotheses : antisymmetric ones /\ all_general two_orbitals /\ prepared ones ex_terms one_arrays /\ Forall printable ex_terms /\
  asum (map (term_value two_orbitals ones) (with_body 0 ex_terms)) = Q2Qc (1 # 2).
Proof. split; [apply ones_antisymmetric|]. split; [apply ones_general|]. split; [apply ones_prepared|]. split; [apply ex_terms_printable|]. vm_compute. apply Qc_is_canon. reflexivity. Qed.
(** The argument factor has no effect: for any factor other than 1 some result is not factor times the terms. *)
Theorem C53_factor_refuted : exists input r main functions, Forall printable input /\ save_terms_ambit_functions input (str "f") (str "N") false false = Ok r /\ reads_as (str "N") (str "f") r main functions /\
  forall factor : Qc, factor <> Q2Qc 1 -> exists (A : qalg) (S : system) (v : tvaluation A) arrays st f, antisymmetric v /\ prepared v input arrays /\
    run S functions main (Store arrays false None) = Some st /\ st_arrays st (target_name 0) = Some f /\
    array_operator S v 0 f <> (inj factor * asum (map (term_value S v) (with_body 0 input)))%alg.
Proof.
  destruct (save_terms_ambit_functions ex_terms (str "f") (str "N") false false) as [r|] eqn:E; [|exfalso; revert E; vm_compute; discriminate].
  destruct (C64_driver_value ex_terms (str "f") (str "N") false r (proj2 ex_terms_printable) E) as (main & functions & RA & X). exists ex_terms, r, main, functions. split; [apply ex_terms_printable|]. split; [exact E|]. split; [exact RA|].
  intros factor NF. destruct C64_hypotheses as (HA & _ & PR & _ & VAL). destruct (X Qc_alg two_orbitals ones one_arrays HA PR) as (st & R & _ & V).
  assert (H0 : exists t, In t ex_terms /\ target_of t = 0).
  { assert (F : existsb (fun t => target_of t =? 0) ex_terms = true) by (vm_compute; reflexivity). apply existsb_exists in F. destruct F as (t & Ht & Q). exists t. split; [exact Ht|apply Nat.eqb_eq, Q]. }
  destruct H0 as (t & Ht & Q). destruct (V t Ht) as (f & Ef & Vf). rewrite Q in *.
  exists Qc_alg, two_orbitals, ones, one_arrays, st, f. split; [exact HA|]. split; [exact PR|]. split; [exact R|]. split; [exact Ef|]. rewrite Vf, VAL. intros B. apply NF. change (Q2Qc (1 # 2) = Qcmult factor (Q2Qc (1 # 2))) in B.
  assert (Y : Qcmult (Q2Qc (1 # 2)) (Q2Qc 2) = Q2Qc 1) by (apply Qc_is_canon; reflexivity). apply (f_equal (fun x => Qcmult x (Q2Qc 2))) in B. rewrite <- Qcmult_assoc, Y, Qcmult_1_r in B. symmetry. exact B.
Qed.
Print Assumptions C53_factor_refuted.
