(** The generated text is the text of a program. *)
From Coq Require Import Ascii String ZArith QArith Qcanon Lia.
From Verif Require Import PyBase SpaceModel IndexModel IndexProofs IndicesModel ElemModel MacroModel TermModel ValueSpec IndicesProofs TermSpec SymmetryModel CombineModel TextProofs PermuteModel PermuteProofs OpenProofs AmbitModel AmbitSpec RenameProofs.
Local Close Scope Q_scope.
Local Close Scope Qc_scope.
Local Open Scope nat_scope.
Local Notation length := List.length.

(** ** Programs *)
Definition factors (t : term) : list access := map (fun x => Access (tensor_array x) (fst (array_order x)) (snd (array_order x))) (ttensors t).
Definition result_array (t : term) : text := array_name (str "C") (length (ann (tsq t))) (length (cre (tsq t))).
Definition on_op (name : text) (o : op) : access := Access name (ann o) (cre o).
(** coefficient of the array entries *)
Definition entry_coeff (t : term) (n_perm : nat) : Qc :=
  Qcdiv (Qcmult (tcoeff t) (Qc_of_Z (Z.of_nat (fact (length (cre (tsq t))) * fact (length (ann (tsq t))))))) (Qc_of_Z (Z.of_nat n_perm)).
Definition term_stmts (last : bool) (t : term) : pyres (list stmt) :=
  let o := tsq t in
  let '(p_cre, p_ann) := perm_partition_open t in
  pybind (op_n_multiset_permutation (ttype t) o p_cre p_ann) (fun n_perm =>
  let c := limit_denominator 1000000000 (entry_coeff t n_perm) in
  pybind (op_exist_permute_format (ttype t) o p_cre p_ann) (fun exist =>
  pybind (if exist && last then permute_indices (ttype t) o p_cre p_ann false else Ok []) (fun perms =>
  Ok (match tdiag t with [] => [] | _ => [SDiagonal] end ++
      [SContract (on_op (if exist then temp_name else result_array t) o) c (factors t)] ++
      map (fun e => let '(s, a, b) := e in SAdd (Access (result_array t) a b) (s =? 1)%Z (on_op temp_name o)) perms)))).
Definition start_stmts (block perm : text) (initiate : bool) : list stmt :=
  match perm with [] => [] | _ => [if initiate then SBuild block else SClear] end.
Definition group_stmts (block perm : text) (initiate : bool) (terms : list term) : pyres (list stmt) :=
  pybind (pymap (fun it => term_stmts (last_index terms (fst it)) (snd it)) (enumerate 0 terms)) (fun l =>
  Ok (match terms with [] => [] | _ => start_stmts block perm initiate end ++ concat l)).
Fixpoint groups_stmts (block : text) (perm_terms : inner) (initiate : bool) : pyres (list (list stmt)) :=
  match perm_terms with
  | [] => Ok []
  | (perm, terms) :: rest =>
      pybind (group_stmts block perm initiate terms) (fun g =>
      pybind (groups_stmts block rest (initiate && match perm, terms with [], _ => true | _, [] => true | _, _ => false end)) (fun gs => Ok (g :: gs)))
  end.
Definition declares (perm_terms : inner) : bool := existsb (fun pt => match fst pt, snd pt with [], _ => false | _, [] => false | _, _ => true end) perm_terms.

(** ** Texts *)
Definition nonl (s : text) : Prop := ~ In nl s.
Lemma nonl_app a b : nonl (a ++ b) <-> nonl a /\ nonl b.
Proof. unfold nonl. rewrite in_app_iff. tauto. Qed.
Lemma nonl_app2 a b : nonl a -> nonl b -> nonl (a ++ b).
Proof. intros H H'. apply nonl_app. auto. Qed.
Ltac nn := repeat match goal with |- nonl (_ ++ _) => apply nonl_app2 end.
Lemma nonl_cons a b : nonl (a :: b) <-> a <> nl /\ nonl b.
Proof. unfold nonl. cbn. intuition congruence. Qed.
Lemma replace_nonl sep s : nonl s -> replace_char nl sep s = s.
Proof.
  unfold replace_char, nonl. induction s as [|a s IH]; intros H; [reflexivity|]. cbn [flat_map]. destruct (ascii_dec a nl) as [->|D]; [exfalso; apply H; left; reflexivity|]. rewrite IH by (intros Q; apply H; right; exact Q). reflexivity.
Qed.
Lemma replace_app c sep a b : replace_char c sep (a ++ b) = replace_char c sep a ++ replace_char c sep b.
Proof. apply flat_map_app. Qed.
Lemma replace_join sep l : Forall nonl l -> replace_char nl sep (join [nl] l) = join sep l.
Proof.
  induction l as [|a [|b l] IH]; intros F; [reflexivity| |].
  - inversion F; subst. cbn [join]. apply replace_nonl. assumption.
  - inversion F; subst. change (join [nl] (a :: b :: l)) with (a ++ [nl] ++ join [nl] (b :: l)). change (join sep (a :: b :: l)) with (a ++ sep ++ join sep (b :: l)). rewrite !replace_app, IH by assumption. rewrite (replace_nonl sep a) by assumption. f_equal.
    unfold replace_char at 1. cbn [flat_map]. destruct (ascii_dec nl nl); [|congruence]. rewrite app_nil_r. reflexivity.
Qed.
Lemma lstrip_keep s a s' : s = a :: s' -> is_blank a = false -> lstrip s = s.
Proof. intros -> H. cbn [lstrip]. rewrite H. reflexivity. Qed.
Lemma lstrip_blanks b s : Forall (fun a => is_blank a = true) b -> lstrip (b ++ s) = lstrip s.
Proof. induction 1 as [|a b H _ IH]; [reflexivity|]. cbn [lstrip app]. rewrite H. exact IH. Qed.
(** text between non-blanks, followed by blanks *)
Lemma strip_ok s b a m z : s = a :: m -> (exists s', s = s' ++ [z]) -> is_blank a = false -> is_blank z = false -> Forall (fun a => is_blank a = true) b -> strip (s ++ b) = s.
Proof.
  intros E (s' & E') Ha Hz Hb. unfold strip. rewrite (lstrip_keep (s ++ b) a (m ++ b)) by (try assumption; rewrite E; reflexivity).
  rewrite rev_app_distr, lstrip_blanks by (apply Forall_rev; exact Hb). rewrite E', rev_app_distr. rewrite (lstrip_keep _ z (rev s')) by (try assumption; reflexivity). rewrite <- rev_app_distr, rev_involutive. reflexivity.
Qed.
Lemma join_cons (sep a : text) l : join sep (a :: l) = a ++ flat_map (fun x => sep ++ x) l.
Proof. revert a. induction l as [|b l IH]; intros a; [cbn; rewrite app_nil_r; reflexivity|]. change (join sep (a :: b :: l)) with (a ++ sep ++ join sep (b :: l)). rewrite IH. cbn [flat_map]. rewrite <- app_assoc. reflexivity. Qed.
(** starts and ends with a visible character *)
Definition framed (s : text) : Prop := (exists a m, s = a :: m /\ is_blank a = false) /\ (exists m z, s = m ++ [z] /\ is_blank z = false).
Lemma framed_app a b c : framed a -> framed c -> framed (a ++ b ++ c).
Proof.
  intros [(x & m & -> & Hx) _] [_ (m' & z & -> & Hz)]. split; [exists x, (m ++ b ++ m' ++ [z]); split; [reflexivity|exact Hx]|]. exists ((x :: m) ++ b ++ m'), z. rewrite <- !app_assoc. auto.
Qed.
Lemma framed_join sep l : l <> [] -> Forall framed l -> framed (join sep l).
Proof.
  induction l as [|a [|b l] IH]; intros N F; [congruence|inversion F; assumption|]. inversion F; subst. change (join sep (a :: b :: l)) with (a ++ sep ++ join sep (b :: l)). apply framed_app; [assumption|]. apply IH; [discriminate|assumption].
Qed.
Lemma strip_framed s b : framed s -> Forall (fun a => is_blank a = true) b -> strip (s ++ b) = s.
Proof. intros [(a & m & E & Ha) (m' & z & E' & Hz)] Hb. apply (strip_ok s b a m z); eauto. Qed.
Lemma lines_join l : l <> [] -> lines l = indent ++ join indent (map stmt_text l).
Proof. destruct l as [|s l]; intros N; [congruence|]. cbn [map]. rewrite join_cons. unfold lines. cbn [flat_map]. change (nl :: str "    " ++ stmt_text s) with (indent ++ stmt_text s). rewrite <- app_assoc. do 2 f_equal. rewrite flat_map_concat_map, flat_map_concat_map, map_map. reflexivity. Qed.

(** ** Line breaks occur only in names *)
Definition name_ok (x : tensor) : Prop := nonl (list_ascii_of_string (tname x)).
Lemma decimal_nonl n : nonl (decimal n).
Proof. intros H. apply decimal_digits in H. vm_compute in H. discriminate. Qed.
Lemma str_nonl (s : string) : forallb (fun a => negb (Ascii.eqb a nl)) (str s) = true -> nonl (str s).
Proof. intros H Q. rewrite forallb_forall in H. apply H in Q. rewrite Ascii.eqb_refl in Q. discriminate. Qed.
Ltac nonl_str := apply str_nonl; vm_compute; reflexivity.
Lemma join_nonl (sep : text) l : nonl sep -> Forall nonl l -> nonl (join sep l).
Proof.
  intros Hs. destruct l as [|a l]; intros F; [intros []|]. rewrite join_cons. inversion F; subst. apply nonl_app. split; [assumption|].
  unfold nonl. rewrite in_flat_map. intros (x & Hx & Q). rewrite in_app_iff in Q. destruct Q as [Q|Q]; [exact (Hs Q)|]. rewrite Forall_forall in H2. exact (H2 x Hx Q).
Qed.
Lemma label_char_nonl l : label_char l <> nl.
Proof. destruct l as [[] []]; vm_compute; discriminate. Qed.
Lemma indices_str_nonl l : nonl (indices_str l).
Proof.
  apply join_nonl; [vm_compute; intuition discriminate|]. apply Forall_forall. intros s Hs. apply in_map_iff in Hs. destruct Hs as (i & <- & _). rewrite index_name_chars. apply nonl_cons. split; [apply label_char_nonl|apply decimal_nonl].
Qed.
Lemma array_name_nonl name n m : nonl name -> nonl (array_name name n m).
Proof. intros H. unfold array_name. destruct (n =? m); nn; auto using decimal_nonl; nonl_str. Qed.
Lemma access_nonl a : nonl (a_array a) -> nonl (access_text a).
Proof.
  intros H. unfold access_text. apply nonl_app. split; [exact H|].
  assert (G : nonl (str "[""" ++ indices_str (a_first a) ++ str "," ++ indices_str (a_second a) ++ str """]")) by (nn; auto using indices_str_nonl; nonl_str).
  destruct (a_first a), (a_second a); try exact G. intros [].
Qed.
Lemma z_text_nonl z : nonl (z_text z).
Proof. unfold z_text. destruct (z <? 0)%Z; [apply nonl_cons; split; [vm_compute; discriminate|]|]; apply decimal_nonl. Qed.
Lemma number_nonl c : nonl (number_text c).
Proof. unfold number_text. destruct (Pos.eqb _ 1); nn; auto using z_text_nonl; nonl_str. Qed.

(** ** Shape of the texts *)
Definition stmt_clean (s : stmt) : Prop := nonl (stmt_text s) /\ framed (stmt_text s).
Lemma framed_make a m m' z : is_blank a = false -> is_blank z = false -> a :: m = m' ++ [z] -> framed (a :: m).
Proof. intros Ha Hz E. split; [exists a, m; auto|exists m', z; auto]. Qed.
(** a visible first character, some text and ";" *)
Lemma framed_stmt a m : is_blank a = false -> framed ((a :: m) ++ str ";").
Proof. intros Ha. apply (framed_make a (m ++ str ";") (a :: m) ";"%char); [exact Ha|reflexivity|reflexivity]. Qed.
Definition visible (s : text) : Prop := exists a m, s = a :: m /\ is_blank a = false.
Lemma visible_framed s m : visible s -> framed (s ++ m ++ str ";").
Proof. intros (a & m' & -> & Ha). rewrite app_assoc. apply (framed_stmt a (m' ++ m) Ha). Qed.
Lemma visible_app s m : visible s -> visible (s ++ m).
Proof. intros (a & m' & -> & Ha). exists a, (m' ++ m). auto. Qed.
Lemma result_visible t : visible (result_array t).
Proof. unfold result_array, array_name. destruct (_ =? _); apply visible_app; exists "C"%char, []; vm_compute; auto. Qed.
Lemma result_nonl t : nonl (result_array t).
Proof. apply array_name_nonl. nonl_str. Qed.
Lemma temp_visible : visible temp_name.
Proof. exists "t"%char, (str "emp"). vm_compute. auto. Qed.
Lemma temp_nonl : nonl temp_name.
Proof. unfold temp_name. nonl_str. Qed.
Lemma framed_visible s : visible s -> (exists m, s = m ++ str ";") -> framed s.
Proof. intros V (m & E). split; [exact V|]. exists m, ";"%char. split; [exact E|reflexivity]. Qed.
Lemma access_visible a : visible (a_array a) -> visible (access_text a).
Proof. apply visible_app. Qed.
Lemma contract_clean_stmt lhs c rhs : visible (a_array lhs) -> nonl (a_array lhs) -> Forall (fun a => nonl (a_array a)) rhs -> stmt_clean (SContract lhs c rhs).
Proof.
  intros V N F. split; cbn [stmt_text].
  - nn; try nonl_str; [apply access_nonl; exact N|apply number_nonl|]. apply join_nonl; [nonl_str|]. apply Forall_map. revert F. apply Forall_impl. intros a. apply access_nonl.
  - apply framed_visible; [apply visible_app, access_visible, V|]. rewrite !app_assoc. eexists. reflexivity.
Qed.
Lemma add_clean lhs plus rhs : visible (a_array lhs) -> nonl (a_array lhs) -> nonl (a_array rhs) -> stmt_clean (SAdd lhs plus rhs).
Proof.
  intros V N N'. split; cbn [stmt_text].
  - nn; try nonl_str; auto using access_nonl. destruct plus; nonl_str.
  - apply framed_visible; [apply visible_app, access_visible, V|]. rewrite !app_assoc. eexists. reflexivity.
Qed.
Lemma start_clean block perm initiate : nonl block -> Forall stmt_clean (start_stmts block perm initiate).
Proof.
  intros N. unfold start_stmts. destruct perm; constructor; [|constructor]. destruct initiate; split; cbn [stmt_text].
  - nn; [nonl_str|exact N|nonl_str].
  - apply framed_visible; [apply visible_app; exists "t"%char; eexists; split; [reflexivity|reflexivity]|]. exists (str "temp = ambit::BlockedTensor::build(ambit::CoreTensor, ""temp"", {""" ++ block ++ str """})"). rewrite <- !app_assoc. reflexivity.
  - nonl_str.
  - apply framed_visible; [exists "t"%char; eexists; split; [reflexivity|reflexivity]|]. exists (str "temp.zero()"). reflexivity.
Qed.
Lemma access_pair name u l : access_text (Access name u l) = name ++ pair_ambit u l.
Proof. destruct u, l; reflexivity. Qed.
Lemma format_number c : format_coeff c = number_text (limit_denominator 1000000000 c).
Proof. unfold format_coeff, number_text. reflexivity. Qed.
Lemma tensors_text t : map tensor_ambit (ttensors t) = map access_text (factors t).
Proof. unfold factors. rewrite map_map. apply map_ext. intros x. rewrite access_pair. reflexivity. Qed.
Lemma contract_text lhs c t : stmt_text (SContract lhs (limit_denominator 1000000000 c) (factors t)) = access_text lhs ++ str " += " ++ (format_coeff c ++ str " * " ++ join (str " * ") (map tensor_ambit (ttensors t))) ++ str ";".
Proof. cbn [stmt_text]. rewrite format_number, tensors_text, <- !app_assoc. reflexivity. Qed.
(** blank tail *)
Definition tail_ok (s : text) : Prop := s = [] \/ s = [nl].
Lemma join_nl_concat l : l <> [] -> concat (map (fun s => s ++ [nl]) l) = join [nl] l ++ [nl].
Proof.
  induction l as [|a [|b l] IH]; intros N; [congruence|cbn; rewrite app_nil_r; reflexivity|]. change (concat (map (fun s => s ++ [nl]) (a :: b :: l))) with ((a ++ [nl]) ++ concat (map (fun s => s ++ [nl]) (b :: l))). rewrite IH by discriminate. change (join [nl] (a :: b :: l)) with (a ++ [nl] ++ join [nl] (b :: l)). rewrite <- !app_assoc. reflexivity.
Qed.
Lemma factors_nonl t : Forall name_ok (ttensors t) -> Forall (fun a => nonl (a_array a)) (factors t).
Proof. intros F. unfold factors. apply Forall_map. revert F. apply Forall_impl. intros x H. apply array_name_nonl. exact H. Qed.
Lemma diag_head t (s : text) (l : list stmt) : map stmt_text (match tdiag t with [] => [] | _ :: _ => [SDiagonal] end ++ l) = match tdiag t with [] => map stmt_text l | _ => diagonal_warning :: map stmt_text l end.
Proof. destruct (tdiag t); reflexivity. Qed.
Lemma diag_join t (l : list stmt) s : l <> [] -> (match tdiag t with [] => [] | _ :: _ => diagonal_warning ++ [nl] end) ++ join [nl] (map stmt_text l) ++ s =
  join [nl] (map stmt_text (match tdiag t with [] => [] | _ :: _ => [SDiagonal] end ++ l)) ++ s.
Proof. intros N. rewrite (diag_head t []). destruct (tdiag t); [reflexivity|]. destruct l; [congruence|]. cbn [map join]. rewrite <- !app_assoc. reflexivity. Qed.
Lemma exist_nonempty t o p_cre p_ann : op_exist_permute_format t o p_cre p_ann = Ok true -> op_is_empty o = false.
Proof.
  unfold op_exist_permute_format, exist_permute_format, op_is_empty. destruct (valid_partition (cre o) p_cre); [|discriminate]. cbn [pybind].
  destruct (cre o), (ann o); try reflexivity. cbn [length Nat.eqb]. rewrite !Bool.andb_false_r. destruct (valid_partition _ p_ann); cbn [pybind]; rewrite ?Bool.andb_false_r; discriminate.
Qed.

Lemma permuted_nonempty t self part r s l : permuted_indices t self part = Ok r -> In (s, l) r -> self <> [] -> l <> [].
Proof.
  unfold permuted_indices. destruct (valid_partition self part); [|discriminate]. cbn [pybind]. destruct (itype_antisymmetric t).
  - destruct (pymap _ _) as [rs|] eqn:E; [|discriminate]. cbn [pybind]. intros [= <-] Hin N. apply in_concat in Hin. destruct Hin as (x & Hx & Hin).
    apply pymap_forall2 in E. assert (G : forall (P : list Z -> list (Z * list idx) -> Prop) l1 l2, Forall2 P l1 l2 -> In x l2 -> exists y, P y x).
    { intros P l1 l2. induction 1; intros []; [subst; eauto|auto]. }
    destruct (G _ _ _ E Hx) as (y & Hy). clear G. destruct (pick _ _ y) as [li|]; [|discriminate]. cbn [pybind] in Hy. destruct (same_spins _ _); [|injection Hy as <-; destruct Hin].
    destruct (make_typed t li) as [p|] eqn:M; [|discriminate]. cbn [pybind] in Hy. destruct (count_permutations self p) as [n|] eqn:C; [|discriminate]. injection Hy as <-. destruct Hin as [[= <- <-]|[]].
    intros ->. unfold make_typed in M. destruct self; [congruence|]. assert (p = []) as -> by (destruct t; cbn in M; congruence). unfold count_permutations, is_permutation in C. discriminate C.
  - intros [= <-] [[= <- <-]|[]] N. exact N.
Qed.
Lemma permute_nonempty t o p1 p2 r s a b : op_is_empty o = false -> permute_indices t o p1 p2 false = Ok r -> In (s, a, b) r -> a ++ b <> [].
Proof.
  intros Em. unfold permute_indices. rewrite Em. destruct (permuted_indices t (ann o) p2) as [r1|] eqn:E1; [|discriminate]. cbn [pybind].
  destruct r1 as [|x1 r1]; [intros [= <-] []|]. destruct (permuted_indices t (cre o) p1) as [r2|] eqn:E2; [|discriminate]. cbn [pybind]. intros [= <-] Hin.
  change (map (fun y => ((fst x1 * fst y)%Z, snd x1, snd y)) r2 ++ flat_map (fun x => map (fun y => ((fst x * fst y)%Z, snd x, snd y)) r2) r1) with (flat_map (fun x => map (fun y => ((fst x * fst y)%Z, snd x, snd y)) r2) (x1 :: r1)) in Hin.
  apply in_flat_map in Hin. destruct Hin as ([s1 a1] & H1 & Hin). apply in_map_iff in Hin. destruct Hin as ([s2 b2] & [= <- <- <-] & H2). cbn [snd].
  intros Q. apply app_eq_nil in Q. destruct Q as [-> ->]. unfold op_is_empty in Em. destruct (ann o) eqn:Ea; [destruct (cre o) eqn:Ec; [discriminate Em|]|].
  - apply (permuted_nonempty _ _ _ _ _ _ E2 H2); [discriminate|reflexivity].
  - apply (permuted_nonempty _ _ _ _ _ _ E1 H1); [discriminate|reflexivity].
Qed.

Theorem term_text last t code : Forall name_ok (ttensors t) -> term_ambit (str "C") (negb last) false true t = Ok code ->
  exists l tl, term_stmts last t = Ok l /\ l <> [] /\ Forall stmt_clean l /\ code = join [nl] (map stmt_text l) ++ tl /\ tail_ok tl.
Proof.
  intros F E. unfold term_ambit, term_stmts in *. destruct (perm_partition_open t) as [p_cre p_ann].
  destruct (op_n_multiset_permutation _ _ _ _) as [n_perm|]; [|discriminate]. cbn [pybind] in *.
  destruct (op_exist_permute_format _ _ _ _) as [exist|] eqn:Ex; [|discriminate]. cbn [pybind] in *.
  assert (CD : Forall stmt_clean (match tdiag t with [] => [] | _ :: _ => [SDiagonal] end)).
  { destruct (tdiag t); constructor; [|constructor]. split; cbn [stmt_text]; [nonl_str|]. apply (framed_make "/"%char _ (str "// Error: diagonal indices are not supported by ambit") "."%char); reflexivity. }
  destruct exist; cbn [negb] in E.
  - replace (negb (negb last || false || true)) with false in E by (destruct last; reflexivity). cbn [orb app] in E. rewrite app_nil_r in E.
    destruct last; cbn [negb andb] in *.
    + unfold op_ambit_permute_format in E. rewrite (exist_nonempty _ _ _ _ Ex) in E. cbn [pybind] in E.
      destruct (permute_indices _ _ _ _ _) as [perms|] eqn:Pe; [|discriminate]. cbn [pybind] in *. injection E as <-.
      eexists. exists [nl]. split; [reflexivity|]. split; [destruct (tdiag t); discriminate|]. split; [|split; [|right; reflexivity]].
      * apply Forall_app. split; [exact CD|]. constructor; [apply contract_clean_stmt; [apply temp_visible|apply temp_nonl|apply factors_nonl, F]|]. apply Forall_map, Forall_forall. intros [[s a] b] _. apply add_clean; [apply result_visible|apply result_nonl|apply temp_nonl].
      * rewrite <- diag_join by discriminate. f_equal. cbn [app]. rewrite <- join_nl_concat by discriminate. cbn [map concat]. rewrite contract_text. unfold on_op at 1. rewrite access_pair. fold (op_ambit (tsq t)). rewrite <- !app_assoc. unfold temp_name.
        match goal with |- ?L = ?R => match L with context [concat (map ?f ?l)] => match R with context [concat (map ?g ?k)] => enough (G : map f l = map g k) by (rewrite G; reflexivity) end end end.
        rewrite !map_map. apply map_ext_in. intros [[s a] b] Hin. cbn [fst snd stmt_text]. rewrite access_pair. unfold on_op. rewrite access_pair. fold (op_ambit (tsq t)).
        assert (G : pair_ambit a b = str "[""" ++ indices_str a ++ str "," ++ indices_str b ++ str """]").
        { pose proof (permute_nonempty _ _ _ _ _ _ _ _ (exist_nonempty _ _ _ _ Ex) Pe Hin) as Q. unfold pair_ambit. destruct a, b; try reflexivity. exfalso. apply Q. reflexivity. }
        rewrite G. unfold result_array, temp_name, str. cbn [list_ascii_of_string app]. repeat (rewrite <- !app_assoc; cbn [app]). reflexivity.
    + injection E as <-. eexists. exists []. split; [reflexivity|]. split; [destruct (tdiag t); discriminate|]. split; [|split; [|left; reflexivity]].
      * apply Forall_app. split; [exact CD|]. constructor; [apply contract_clean_stmt; [apply temp_visible|apply temp_nonl|apply factors_nonl, F]|constructor].
      * rewrite <- diag_join by discriminate. f_equal. cbn [app map join]. rewrite contract_text. unfold on_op. rewrite access_pair, app_nil_r, <- !app_assoc. reflexivity.
  - cbn [andb pybind] in *. injection E as <-. eexists. exists []. split; [reflexivity|]. split; [destruct (tdiag t); discriminate|]. split; [|split; [|left; reflexivity]].
    + apply Forall_app. split; [exact CD|]. constructor; [apply contract_clean_stmt; [apply result_visible|apply result_nonl|apply factors_nonl, F]|constructor].
    + rewrite <- diag_join by discriminate. f_equal. cbn [app map join]. rewrite contract_text. unfold on_op. rewrite access_pair, app_nil_r, <- !app_assoc. reflexivity.
Qed.
Lemma replace_tail (l : list stmt) tl : Forall stmt_clean l -> tail_ok tl -> l <> [] -> indent ++ strip (replace_char nl indent (join [nl] (map stmt_text l) ++ tl)) = lines l.
Proof.
  intros F T N. rewrite replace_app, replace_join by (apply Forall_map; revert F; apply Forall_impl; intros s [H _]; exact H).
  rewrite strip_framed.
  - symmetry. apply lines_join. exact N.
  - apply framed_join; [destruct l; [congruence|discriminate]|]. apply Forall_map. revert F. apply Forall_impl. intros s [_ H]. exact H.
  - destruct T as [->| ->]; [constructor|]. unfold replace_char. cbn [flat_map]. destruct (ascii_dec nl nl); [|congruence]. rewrite app_nil_r. repeat constructor.
Qed.
Lemma term_code_text block perm terms initiate i t s : nonl block -> Forall name_ok (ttensors t) -> term_code block perm terms initiate i t = Ok s ->
  exists l, term_stmts (last_index terms i) t = Ok l /\ s = lines ((if i =? 0 then start_stmts block perm initiate else []) ++ l).
Proof.
  intros B F E. unfold term_code in E. destruct (term_ambit _ _ _ _ t) as [code|] eqn:A; [|discriminate]. cbn [pybind] in E. injection E as <-.
  destruct (term_text _ _ _ F A) as (l & tl & E & N & C & -> & T). exists l. split; [exact E|]. rewrite <- (replace_tail _ tl).
  - do 2 f_equal. f_equal. rewrite map_app. destruct l as [|x l]; [congruence|]. unfold start_stmts. destruct perm as [|a perm]; [destruct (i =? 0); reflexivity|]. destruct (i =? 0); [|reflexivity]. destruct initiate; cbn [map app join]; unfold build_temp; cbn [stmt_text]; rewrite <- !app_assoc; reflexivity.
  - apply Forall_app. split; [|exact C]. destruct (i =? 0); [apply start_clean; exact B|constructor].
  - exact T.
  - destruct l; [congruence|]. destruct (if i =? 0 then _ else _); discriminate.
Qed.
Lemma lines_app a b : lines (a ++ b) = lines a ++ lines b.
Proof. apply flat_map_app. Qed.
Lemma pymap_texts {X} (f : X -> pyres text) (g : X -> pyres (list stmt)) : forall l r, (forall x s, In x l -> f x = Ok s -> exists p, g x = Ok p /\ s = lines p) -> pymap f l = Ok r -> exists ps, pymap g l = Ok ps /\ concat r = lines (concat ps).
Proof.
  induction l as [|x l IH]; intros r H E; [injection E as <-; exists []; auto|]. cbn [pymap] in *. destruct (f x) as [s|] eqn:Ef; [|discriminate]. cbn [pybind] in E. destruct (pymap f l) as [r'|] eqn:El; [|discriminate]. injection E as <-.
  destruct (H x s (or_introl eq_refl) Ef) as (p & -> & ->). destruct (IH r' (fun y t Hy => H y t (or_intror Hy)) eq_refl) as (ps & -> & E). cbn [pybind]. exists (p :: ps). split; [reflexivity|]. cbn [concat]. rewrite E, lines_app. reflexivity.
Qed.
Lemma enumerate_in {X} (l : list X) k i x : In (i, x) (enumerate k l) -> k <= i /\ In x l.
Proof. revert k. induction l as [|y l IH]; intros k []; [injection H as -> ->; split; [lia|left; reflexivity]|]. apply IH in H. destruct H. split; [lia|right; assumption]. Qed.
Lemma terms_code_text block perm terms initiate s : nonl block -> Forall (fun t => Forall name_ok (ttensors t)) terms -> terms_code block perm terms initiate = Ok s ->
  exists g, group_stmts block perm initiate terms = Ok g /\ s = lines g.
Proof.
  intros B F E. unfold terms_code, group_stmts in *. destruct terms as [|t terms]; [injection E as <-; exists []; split; reflexivity|].
  change (enumerate 0 (t :: terms)) with ((0, t) :: enumerate 1 terms) in *. cbn [pymap] in *. inversion F as [|? ? F1 F2]; subst.
  destruct (term_code _ _ _ _ _ _) as [s0|] eqn:E0; [|discriminate]. cbn [pybind fst snd] in *.
  destruct (term_code_text _ _ _ _ _ _ _ B F1 E0) as (p & -> & ->). cbn [pybind].
  match type of E with context [pymap ?f ?l] => destruct (pymap f l) as [r|] eqn:El; [|discriminate] end. injection E as <-.
  apply pymap_texts with (g := fun it => term_stmts (last_index (t :: terms) (fst it)) (snd it)) in El.
  - destruct El as (ps & -> & Er). cbn [pybind]. eexists. split; [reflexivity|]. cbn [concat Nat.eqb]. rewrite Er, <- lines_app, <- app_assoc. reflexivity.
  - intros [i x] s Hin Hx. apply enumerate_in in Hin. destruct Hin as [Hi Hin]. rewrite Forall_forall in F2. destruct (term_code_text _ _ _ _ _ _ _ B (F2 _ Hin) Hx) as (q & Eq & ->). exists q. split; [exact Eq|]. cbn [fst] in *. destruct (Nat.eqb_spec i 0); [lia|]. reflexivity.
Qed.
Lemma perms_code_text block : nonl block -> forall perm_terms initiate out names flag, Forall (fun pt => Forall (fun t => Forall name_ok (ttensors t)) (snd pt)) perm_terms -> perms_code block perm_terms initiate = Ok (out, names, flag) ->
  exists gs, groups_stmts block perm_terms initiate = Ok gs /\ out = concat (map (fun g => lines g ++ [nl]) gs) /\ flag = initiate && negb (declares perm_terms) /\
    exists nss, pymap (fun pt => pymap tensor_names (snd pt)) perm_terms = Ok nss /\ names = concat (concat nss).
Proof.
  intros B. induction perm_terms as [|[perm terms] rest IH]; intros initiate out names flag F E.
  - injection E as <- <- <-. exists []. repeat split; [rewrite Bool.andb_true_r; reflexivity|exists []; split; reflexivity].
  - inversion F as [|? ? F1 F2]; subst. cbn [perms_code groups_stmts pymap snd] in *.
    destruct (pymap tensor_names terms) as [ns|]; [|discriminate]. cbn [pybind] in *.
    destruct (terms_code _ _ _ _) as [o|] eqn:Eo; [|discriminate]. cbn [pybind] in *. destruct (terms_code_text _ _ _ _ _ B F1 Eo) as (g & -> & ->). cbn [pybind].
    destruct (perms_code _ _ _) as [[[out' names'] flag']|] eqn:Er; [|discriminate]. cbn [pybind] in E. injection E as <- <- <-.
    destruct (IH _ _ _ _ F2 Er) as (gs & -> & -> & -> & nss & -> & ->). cbn [pybind]. exists (g :: gs). split; [reflexivity|]. cbn [map concat]. split; [rewrite <- app_assoc; reflexivity|]. split.
    + unfold declares. cbn [existsb fst snd]. destruct perm, terms, initiate; cbn [andb orb negb]; reflexivity.
    + exists (ns :: nss). split; [reflexivity|]. cbn [concat]. rewrite concat_app. reflexivity.
Qed.
(** The body of the function of a block *)
Definition block_program (perm_terms : inner) (block : text) : pyres (list stmt) :=
  pybind (groups_stmts (match block with [] => str "0" | _ => block end) perm_terms true) (fun gs => Ok ((if declares perm_terms then [SDeclare] else []) ++ concat gs)).
(** the text of a list of statements with empty lines between some of them *)
Inductive layout : list stmt -> text -> Prop :=
| layout_nil : layout [] []
| layout_line s l t : layout l t -> layout (s :: l) (lines [s] ++ t)
| layout_blank k l t : layout l t -> layout l ((nl :: repeat " "%char k) ++ t).
Lemma layout_lines l m t : layout m t -> layout (l ++ m) (lines l ++ t).
Proof.
  intros H. induction l as [|s l IH]; [exact H|]. change (lines (s :: l)) with (lines ([s] ++ l)). rewrite lines_app, <- app_assoc. change ((s :: l) ++ m) with (s :: (l ++ m)). constructor. exact IH.
Qed.
Lemma layout_groups gs : layout (concat gs) (concat (map (fun g => lines g ++ [nl]) gs)).
Proof. induction gs as [|g gs IH]; [constructor|]. cbn [concat map]. rewrite <- app_assoc. apply layout_lines. apply (layout_blank 0). exact IH. Qed.
Theorem block_text perm_terms block fn ns r : nonl block -> Forall (fun pt => Forall (fun t => Forall name_ok (ttensors t)) (snd pt)) perm_terms -> save_terms_blocks perm_terms block fn ns = Ok r ->
  exists prog body, block_program perm_terms block = Ok prog /\ layout prog body /\
    b_func r = str "void " ++ ns ++ str "::" ++ b_name r ++ str "(" ++ (join (str ", ") (map (fun i => str "BlockedTensor& " ++ i) (b_tensors r)) ++ (if b_target r =? 0 then str ", double& C0" else str ", BlockedTensor& " ++ target_name (b_target r))) ++ str ") {" ++ body ++ str "}".
Proof.
  intros B F E. unfold save_terms_blocks, block_program in *. set (bl := match block with [] => str "0" | _ => block end) in *.
  assert (B' : nonl bl) by (unfold bl; destruct block; [nonl_str|exact B]).
  destruct (perms_code bl perm_terms true) as [[[out names] flag]|] eqn:P; [|discriminate]. cbn [pybind] in E. destruct (sorted_names _) as [ts|]; [|discriminate]. cbn [pybind] in E. injection E as <-. cbn [b_name b_tensors b_target b_func].
  destruct (perms_code_text _ B' _ _ _ _ _ F P) as (gs & -> & -> & -> & _). cbn [pybind andb].
  eexists. exists ((if declares perm_terms then lines [SDeclare] ++ [nl] else []) ++ concat (map (fun g => lines g ++ [nl]) gs)). split; [reflexivity|]. split.
  - destruct (declares perm_terms); cbn [app]; [|apply layout_groups]. rewrite <- app_assoc. apply (layout_lines [SDeclare]). apply (layout_blank 0). apply layout_groups.
  - clear. destruct (declares perm_terms); cbn [negb]; unfold indent, lines; cbn [flat_map stmt_text]; unfold str; cbn [list_ascii_of_string app]; repeat (rewrite <- !app_assoc; cbn [app]); reflexivity.
Qed.

(** ** The main function *)
Definition g_idx (i : nat) : idx := (Lab false Sg, i).
Definition dagger_stmts (destroy_h : bool) (n : nat) : list stmt :=
  if n =? 0 then SDouble :: (if destroy_h then [] else [SDeclare])
  else
    let upper := map g_idx (seq 0 n) in
    let lower := map g_idx (seq n n) in
    let name := if destroy_h then str "H" ++ decimal n else temp_name in
    (if destroy_h then [] else [SBuild (repeat "g"%char (2 * n))]) ++
    [SCopy (Access name upper lower) (Access (target_name n) upper lower); SAdd (Access (target_name n) upper lower) true (Access name lower upper)].
Definition call_stmt (b : block_result) : stmt := SCall (b_name b) (b_tensors b ++ [target_name (b_target b)]).
Definition driver_stmts (blocks : list block_result) (targets : list nat) (add_t_dagger destroy_h : bool) : list stmt :=
  map SZero targets ++ map call_stmt blocks ++ (if add_t_dagger then flat_map (dagger_stmts destroy_h) targets else []).
Lemma g_indices_str a n : indices_str (map g_idx (seq a n)) = g_indices a n.
Proof. unfold indices_str, g_indices. rewrite map_map. f_equal. apply map_ext. intros i. unfold g_idx. cbn [fst snd]. rewrite index_name_chars. reflexivity. Qed.
Lemma dagger_text destroy_h n : map stmt_text (dagger_stmts destroy_h n) = dagger_lines destroy_h n.
Proof.
  unfold dagger_stmts, dagger_lines. destruct (Nat.eqb_spec n 0) as [->|N]; [destruct destroy_h; reflexivity|].
  assert (G : forall name a b, access_text (Access name (map g_idx (seq a n)) (map g_idx (seq b n))) = name ++ str "[""" ++ g_indices a n ++ str "," ++ g_indices b n ++ str """]").
  { intros name a b. rewrite access_pair. f_equal. unfold pair_ambit. rewrite <- !g_indices_str. destruct n; [congruence|]. reflexivity. }
  rewrite map_app. f_equal; [destruct destroy_h; reflexivity|]. cbn [map stmt_text]. rewrite !G. unfold temp_name. unfold str; cbn [list_ascii_of_string app]; repeat (rewrite <- !app_assoc; cbn [app]); destruct destroy_h; cbn [app]; repeat (rewrite <- !app_assoc; cbn [app]); reflexivity.
Qed.
Lemma zero_text n : stmt_text (SZero n) = zero_line n.
Proof. unfold zero_line, target_name. cbn [stmt_text]. destruct (n =? 0); [reflexivity|]. rewrite <- app_assoc. reflexivity. Qed.
Lemma block_call perm_terms block fn ns b : save_terms_blocks perm_terms block fn ns = Ok b ->
  b_call b = stmt_text (call_stmt b) /\ b_target b = length block / 2 /\ b_name b = fn ++ str "_" ++ match block with [] => str "0" | _ => block end.
Proof.
  unfold save_terms_blocks. destruct (perms_code _ _ _) as [[[out names] flag]|]; [|discriminate]. cbn [pybind]. destruct (sorted_names _) as [ts|]; [|discriminate]. cbn [pybind]. intros [= <-]. unfold call_stmt. cbn [b_call b_name b_tensors b_target stmt_text]. rewrite <- !app_assoc. auto.
Qed.
Lemma layout_join l t : layout [] t -> exists u, layout l (u ++ t) /\ (indent ++ join indent (map stmt_text l)) = u.
Proof.
  intros H. destruct l as [|s l].
  - exists indent. split; [|cbn [map join]; rewrite app_nil_r; reflexivity]. apply (layout_blank 4). exact H.
  - exists (lines (s :: l)). split; [|symmetry; apply lines_join; discriminate]. replace (s :: l) with ((s :: l) ++ []) at 1 by apply app_nil_r. apply layout_lines. exact H.
Qed.
Lemma layout_app l m t u : layout l t -> layout m u -> layout (l ++ m) (t ++ u).
Proof. induction 1 as [|s l t H IH|k l t H IH]; intros M; [exact M| |]; rewrite <- app_assoc; [cbn [app]; constructor|constructor]; auto. Qed.
Lemma layout_indented l : layout l (indent ++ join indent (map stmt_text l)).
Proof. destruct (layout_join l [] layout_nil) as (u & H & <-). rewrite app_nil_r in H. exact H. Qed.
Lemma layout_newline : layout [] [nl].
Proof. apply (layout_blank 0 [] []). constructor. Qed.
Definition keeps_h (blocks : list block_result) (destroy_h : bool) : bool :=
  if existsb (fun n => negb (n =? 0) && negb (mem_text (str "H" ++ decimal n) (text_set (concat (map b_tensors blocks))))) (nodup Nat.eq_dec (map b_target blocks)) then false else destroy_h.
Theorem driver_text input fn ns add destroy r : save_terms_ambit_functions input fn ns add destroy = Ok r ->
  exists cat targets body footprint, categorize_contractions input = Ok cat /\
    pymap (fun kv => save_terms_blocks (snd kv) (fst kv) fn ns) cat = Ok (d_blocks r) /\
    targets = sort_by Nat.ltb (nodup Nat.eq_dec (map b_target (d_blocks r))) /\
    layout (driver_stmts (d_blocks r) targets add (keeps_h (d_blocks r) destroy)) body /\
    d_func r = str "void " ++ ns ++ str "::" ++ fn ++ str "(double factor, " ++ footprint ++ str ") {" ++ body ++ str "}".
Proof.
  unfold save_terms_ambit_functions. intros E. destruct (categorize_contractions input) as [cat|]; [|discriminate]. cbn [pybind] in E.
  destruct (pymap _ cat) as [blocks|] eqn:Eb; [|discriminate]. cbn [pybind] in E. destruct (sorted_names _) as [ft|]; [|discriminate]. cbn [pybind] in E.
  destruct (pymap _ (nodup _ _)) as [tg|] eqn:Et; [|discriminate]. cbn [pybind] in E.
  assert (tg = nodup Nat.eq_dec (map b_target blocks)) as ->.
  { clear - Et. revert tg Et. induction (nodup _ _) as [|x l IH]; intros tg Et; [injection Et as <-; reflexivity|]. cbn [pymap] in Et. destruct (tensor_ordering _); [|discriminate]. cbn [pybind] in Et. destruct (pymap _ l) as [tl|]; [|discriminate]. injection Et as <-. f_equal. apply IH. reflexivity. }
  injection E as <-. cbn [d_blocks d_func].
  set (targets := sort_by _ _). fold (keeps_h blocks destroy).
  assert (Ec : map b_call blocks = map stmt_text (map call_stmt blocks)).
  { rewrite map_map. apply pymap_forall2 in Eb. clear - Eb. induction Eb as [|kv b l l' H _ IH]; [reflexivity|]. cbn [map]. rewrite IH. f_equal. apply (block_call _ _ _ _ _ H). }
  rewrite Ec. assert (Ez : map zero_line targets = map stmt_text (map SZero targets)) by (rewrite map_map; apply map_ext; intros n; symmetry; apply zero_text).
  rewrite Ez. set (suffix := if add then _ else _).
  assert (Es : suffix = map stmt_text (if add then flat_map (dagger_stmts (keeps_h blocks destroy)) targets else [])).
  { unfold suffix. destruct add; [|reflexivity]. clear. induction targets as [|n l IH]; [reflexivity|]. cbn [flat_map]. rewrite map_app, IH, dagger_text. reflexivity. }
  rewrite Es. clear Es suffix. set (ss := if add then _ else _).
  exists cat, targets, ((indent ++ join indent (map stmt_text (map SZero targets)) ++ [nl]) ++ (indent ++ join indent (map stmt_text (map call_stmt blocks)) ++ [nl]) ++ (match map stmt_text ss with [] => [] | _ => indent end ++ join indent (map stmt_text ss)) ++ [nl]).
  exists (join (str ", ") (map (fun i : text => tensor_type i ++ str "& " ++ i) (ft ++ map target_name targets))). split; [reflexivity|]. split; [exact Eb|]. split; [reflexivity|]. split.
  - unfold driver_stmts. apply layout_app; [|apply layout_app].
    + replace (map SZero targets) with (map SZero targets ++ []) at 1 by apply app_nil_r. rewrite app_assoc. apply layout_app; [apply layout_indented|apply layout_newline].
    + replace (map call_stmt blocks) with (map call_stmt blocks ++ []) at 1 by apply app_nil_r. rewrite app_assoc. apply layout_app; [apply layout_indented|apply layout_newline].
    + fold ss. replace ss with (ss ++ []) at 1 by apply app_nil_r. apply layout_app; [|apply layout_newline]. destruct ss as [|s0 ss]; [constructor|]. apply (layout_indented (s0 :: ss)).
  - clear. unfold str. cbn [list_ascii_of_string app]. repeat (rewrite <- !app_assoc; cbn [app]). reflexivity.
Qed.
