(** C83: constructors, clones and small methods. *)
From Coq Require Import Ascii String ZArith Lia.
From Verif Require Import PyBase SpaceModel IndexModel SpaceProofs IndexProofs IndicesModel IndicesProofs TermModel ConstructModel.
Local Open Scope nat_scope.
Local Notation length := List.length.

(** The Index object of a space and a number, made from its name *)
Definition object (i : idx) : pyindex := PyIndex (index_name (fst i) (snd i)) (fst i) (snd i).
Definition blank (c : ascii) : Prop := c = " "%char \/ exists n, (9 <= n <= 13 \/ 28 <= n <= 31) /\ c = ascii_of_nat n.
Definition item_for (x : item) (i : idx) : Prop := x = Name (index_name (fst i) (snd i)) \/ x = Obj (object i).
(** pieces joined by commas *)
Definition with_commas (p : list ascii) (ps : list (list ascii)) : list ascii := p ++ concat (map (cons ","%char) ps).
Definition padded (p : list ascii) (i : idx) : Prop :=
  exists a b, Forall blank a /\ Forall blank b /\ p = a ++ list_ascii_of_string (index_name (fst i) (snd i)) ++ b.
(** The ways to write indices: a list or tuple of names and Index objects, or a string of names with commas and blanks *)
Inductive written : arg -> list idx -> Prop :=
| w_list l ixs : Forall2 item_for l ixs -> written (AList l) ixs
| w_tuple l ixs : Forall2 item_for l ixs -> written (ATuple l) ixs
| w_empty : written (AStr EmptyString) []
| w_string s p ps i ixs : list_ascii_of_string s = with_commas p ps -> padded p i -> Forall2 padded ps ixs -> written (AStr s) (i :: ixs).

Lemma blank_space c : blank c -> is_space c = true /\ c <> ","%char.
Proof.
  intros [->|(n & [H|H] & ->)]; [split; [reflexivity|discriminate]|..].
  - assert (n = 9 \/ n = 10 \/ n = 11 \/ n = 12 \/ n = 13) as [->|[->|[->|[->| ->]]]] by lia; (split; [reflexivity|discriminate]).
  - assert (n = 28 \/ n = 29 \/ n = 30 \/ n = 31) as [->|[->|[->| ->]]] by lia; (split; [reflexivity|discriminate]).
Qed.
Lemma name_plain i : Forall plain (list_ascii_of_string (index_name (fst i) (snd i))).
Proof. exact (valid_plain _ _ (make_index_name (fst i) (snd i))). Qed.
Lemma padded_strip p i : padded p i -> strip p = list_ascii_of_string (index_name (fst i) (snd i)) /\ Forall (fun c => c <> ","%char) p.
Proof.
  intros (a & b & Ha & Hb & ->). pose proof (name_plain i) as P. set (s := list_ascii_of_string _) in *.
  assert (Ns : s <> []) by (unfold s; rewrite index_name_chars; discriminate). split.
  - unfold strip. assert (E1 : lstrip (a ++ s ++ b) = s ++ b).
    { induction Ha as [|c a Hc _ IH]; cbn [app lstrip].
      - destruct s as [|c s]; [contradiction|]. inversion P as [|? ? [_ Hc] _]. cbn [app lstrip]. rewrite Hc. reflexivity.
      - rewrite (proj1 (blank_space c Hc)). exact IH. }
    rewrite E1, rev_app_distr. assert (E2 : lstrip (rev b ++ rev s) = rev s).
    { apply Forall_rev in Hb. induction Hb as [|c r Hc _ IH]; cbn [app lstrip].
      - apply lstrip_plain; [intros E; apply (f_equal (@rev ascii)) in E; rewrite rev_involutive in E; contradiction|apply Forall_rev, P].
      - rewrite (proj1 (blank_space c Hc)). exact IH. }
    rewrite E2. apply rev_involutive.
  - apply Forall_app. split; [|apply Forall_app; split]; [eapply Forall_impl; [|exact Ha]; intros c H; apply blank_space, H|eapply Forall_impl; [|exact P]; intros c [H _]; exact H|eapply Forall_impl; [|exact Hb]; intros c H; apply blank_space, H].
Qed.
Lemma split_pieces ps : forall p cur, Forall (Forall (fun c => c <> ","%char)) (p :: ps) -> split_comma (with_commas p ps) cur = (cur ++ p) :: ps.
Proof.
  induction ps as [|q ps IH]; intros p cur F; apply Forall_cons_iff in F as [Fp F]; unfold with_commas; cbn [map concat].
  - rewrite app_nil_r. revert cur. induction Fp as [|c p Hc _ IHp]; intros cur; cbn [split_comma]; [rewrite app_nil_r; reflexivity|].
    destruct (Ascii.eqb_spec c ","%char); [contradiction|]. rewrite IHp, <- app_assoc. reflexivity.
  - rewrite <- app_comm_cons, split_comma_app by exact Fp. f_equal. specialize (IH q [] F). cbn [app] in IH. exact IH.
Qed.
Lemma names_written s p ps i ixs : list_ascii_of_string s = with_commas p ps -> padded p i -> Forall2 padded ps ixs ->
  names_of_string s = map (fun i => index_name (fst i) (snd i)) (i :: ixs).
Proof.
  intros E Hp Hps. unfold names_of_string. rewrite E.
  assert (NE : with_commas p ps <> []).
  { intros Z. unfold with_commas in Z. apply app_eq_nil in Z as [Z _]. subst p. destruct Hp as (a & b & _ & _ & Z). symmetry in Z. apply app_eq_nil in Z as [_ Z]. apply app_eq_nil in Z as [Z _]. rewrite index_name_chars in Z. discriminate. }
  destruct (with_commas p ps) as [|c0 r] eqn:W; [contradiction|]. rewrite <- W. rewrite split_pieces.
  - cbn [app map]. f_equal; [rewrite (proj1 (padded_strip p i Hp)); apply string_of_list_ascii_of_string|]. clear - Hps. induction Hps as [|q j qs js Hq _ IH]; cbn [map]; [reflexivity|].
    f_equal; [rewrite (proj1 (padded_strip q j Hq)); apply string_of_list_ascii_of_string|exact IH].
  - constructor; [apply (padded_strip p i Hp)|]. clear - Hps. induction Hps as [|q j qs js Hq _ IH]; constructor; [apply (padded_strip q j Hq)|exact IH].
Qed.
Lemma convert_for l ixs : Forall2 item_for l ixs -> pymap convert l = Ok (map object ixs).
Proof.
  intros F. apply pymap_ok. induction F as [|x i l ixs H _ IH]; cbn [map]; constructor; [|exact IH]. destruct H as [->| ->]; [|reflexivity]. cbn [convert]. rewrite make_index_name. reflexivity.
Qed.
Lemma objects_for ixs : Forall2 item_for (map Obj (map object ixs)) ixs.
Proof. induction ixs as [|i l IH]; cbn [map]; constructor; [right; reflexivity|exact IH]. Qed.
Lemma objects_distinct h ixs : (length (set_of h (map object ixs) []) =? length (map object ixs)) = nodup_idx ixs.
Proof.
  destruct (make_indices_canonical h ixs) as [H1 H2]. cbv zeta in H1, H2. unfold make_indices in H1, H2.
  match type of H1 with context [pymap entry ?x] => assert (E : pymap entry x = Ok (map object ixs)) end.
  { apply pymap_ok. clear. induction ixs as [|i ixs IH]; cbn [map]; constructor; [apply entry_ok, make_index_name|exact IH]. }
  rewrite E in H1, H2. cbn [pybind] in H1, H2. destruct (nodup_idx ixs) eqn:N.
  - apply nodup_idx_spec in N. specialize (H1 N). destruct (_ =? _); [reflexivity|discriminate].
  - assert (N' : ~ NoDup ixs) by (intros X; apply nodup_idx_spec in X; congruence). specialize (H2 N'). destruct (_ =? _); [discriminate|reflexivity].
Qed.
Lemma object_beta ixs : existsb is_beta (map object ixs) = existsb idx_beta ixs.
Proof. induction ixs as [|i ixs IH]; cbn [map existsb]; [reflexivity|]. rewrite IH. f_equal. unfold is_beta, object, idx_beta. cbn [ispace]. apply is_upper_label. Qed.
Lemma check_objects h t ixs : check_indices h t (map object ixs) = pybind (make_typed t ixs) (fun l => Ok (map object l)).
Proof.
  unfold check_indices, make_typed. rewrite objects_distinct, object_beta. destruct (nodup_idx ixs); [|reflexivity]. destruct (itype_eqb t SpinOrbital && existsb idx_beta ixs); reflexivity.
Qed.
Lemma written_pymap a ixs : written a ixs -> exists l, (a = AList l \/ a = ATuple l \/ exists s, a = AStr s /\ l = map Name (names_of_string s)) /\ pymap convert l = Ok (map object ixs).
Proof.
  intros W. destruct W as [l ixs F|l ixs F| |s p ps i ixs E Hp Hps].
  - exists l. split; [auto|apply convert_for, F].
  - exists l. split; [auto|apply convert_for, F].
  - exists []. split; [right; right; exists EmptyString; auto|reflexivity].
  - exists (map Name (names_of_string s)). split; [right; right; exists s; auto|]. apply convert_for. rewrite (names_written s p ps i ixs E Hp Hps). clear. induction (i :: ixs) as [|j l IH]; cbn [map]; constructor; [left; reflexivity|exact IH].
Qed.

Lemma filter_length_le' (l : list idx) : length (filter (fun i : idx => negb (lbeta (fst i))) l) <= length l.
Proof. induction l as [|i l IH]; cbn [filter length]; [lia|]. destruct (negb _); cbn [length]; lia. Qed.

(** C83. All ways of writing the same indices build the same object: with the Index objects in the order written, if no index is
    repeated and, for spin-orbital indices, all are lowercase; ValueError otherwise. *)
Theorem C83_ways_of_writing :
  forall h t a ixs, written a ixs ->
  (NoDup ixs -> (t = SpinOrbital -> forall i, In i ixs -> lbeta (fst i) = false) -> init_indices h t a = Ok (map object ixs)) /\
  (~ NoDup ixs \/ (t = SpinOrbital /\ exists i, In i ixs /\ lbeta (fst i) = true) -> init_indices h t a = Raise ValueError).
Proof.
  intros h t a ixs W. destruct (written_pymap a ixs W) as (l & Ha & E).
  assert (EI : init_indices h t a = check_indices h t (map object ixs)) by (destruct Ha as [->|[->|(s & -> & ->)]]; cbn [init_indices]; rewrite E; reflexivity).
  rewrite EI, check_objects. unfold make_typed. split.
  - intros N B. apply nodup_idx_spec in N. rewrite N. destruct (itype_eqb t SpinOrbital && existsb idx_beta ixs) eqn:X; [|reflexivity]. exfalso. apply andb_true_iff in X as [X1 X2].
    apply existsb_exists in X2 as (i & Hi & X2). assert (t = SpinOrbital) by (destruct t; try discriminate; reflexivity). unfold idx_beta in X2. rewrite (B H i Hi) in X2. discriminate.
  - intros [N|(-> & i & Hi & Bi)].
    + destruct (nodup_idx ixs) eqn:X; [apply nodup_idx_spec in X; contradiction|reflexivity].
    + destruct (nodup_idx ixs); [|reflexivity]. assert (existsb idx_beta ixs = true) as -> by (apply existsb_exists; exists i; auto). reflexivity.
Qed.
Print Assumptions C83_ways_of_writing.

(** The first entry that is no index decides about the exception: ValueError for a wrong name or an object of another type, but
    IndexError for an empty name, as after a trailing comma. *)
Theorem C83_bad_entry :
  forall h t good ixs bad rest, Forall2 item_for good ixs ->
  (bad = Name EmptyString -> init_indices h t (AList (good ++ bad :: rest)) = Raise IndexError) /\
  (bad = OtherItem \/ (exists s, bad = Name s /\ s <> EmptyString /\ forall l ds, ~ valid_name s l ds) -> init_indices h t (AList (good ++ bad :: rest)) = Raise ValueError).
Proof.
  intros h t good ixs bad rest F.
  assert (G : forall e, convert bad = Raise e -> init_indices h t (AList (good ++ bad :: rest)) = Raise e).
  { intros e E. cbn [init_indices]. assert (P : pymap convert (good ++ bad :: rest) = Raise e); [|rewrite P; reflexivity].
    induction F as [|x i good ixs H _ IH]; cbn [app pymap]; [rewrite E; reflexivity|]. assert (Ex : convert x = Ok (object i)) by (destruct H as [->| ->]; [|reflexivity]; cbn [convert]; rewrite make_index_name; reflexivity). rewrite Ex. cbn [pybind]. rewrite IH. reflexivity. }
  split.
  - intros ->. apply G. reflexivity.
  - intros [->|(s & -> & N & B)]; apply G; [reflexivity|]. cbn [convert]. assert (E : make_index s = Raise ValueError); [|rewrite E; reflexivity].
    apply make_index_raise. right. split; [exact N|]. split; [reflexivity|]. intros (l & ds & H). exact (B l ds H).
Qed.
Print Assumptions C83_bad_entry.
Example C83_trailing_comma : forall h, init_indices h SpinOrbital (AStr "g0,") = Raise IndexError /\ init_indices h SpinOrbital (AStr "g0,q1") = Raise ValueError.
Proof. intros h. split; reflexivity. Qed.

(** Pairs of written indices: the two must have the same Python type (str, list, tuple); then both are built with the named type of
    indices. *)
Theorem C83_pair_written :
  forall h u l us ls name, written u us -> written l ls ->
  (forall t, In (name, t) indices_alias -> make_typed t us = Ok us -> make_typed t ls = Ok ls ->
    init_pair h u l name = if same_type u l then Ok ((t, map object us), (t, map object ls)) else Raise TypeError) /\
  ((forall t, ~ In (name, t) indices_alias) -> init_pair h u l name = Raise KeyError).
Proof.
  intros h u l us ls name Wu Wl.
  assert (A : forall a x, written a x -> as_indices h a name = make_indices_of h a name) by (intros a x [| | |]; reflexivity).
  assert (I : forall a x t, written a x -> make_typed t x = Ok x -> init_indices h t a = Ok (map object x)).
  { intros a x t W M. destruct (written_pymap a x W) as (q & Ha & E). assert (EI : init_indices h t a = check_indices h t (map object x)) by (destruct Ha as [->|[->|(s & -> & ->)]]; cbn [init_indices]; rewrite E; reflexivity). rewrite EI, check_objects, M. reflexivity. }
  unfold init_pair. rewrite (A u us Wu), (A l ls Wl). split.
  - intros t Ht Mu Ml. assert (D : dict_get String.eqb name indices_alias = Some t) by (cbn in Ht; intuition (match goal with H : (_, _) = (_, _) |- _ => injection H as <- <- end; reflexivity)).
    unfold make_indices_of. rewrite D, (I u us t Wu Mu), (I l ls t Wl Ml). reflexivity.
  - intros N. unfold make_indices_of. destruct (dict_get String.eqb name indices_alias) as [t|] eqn:D; [|reflexivity]. exfalso. apply (N t). revert D. generalize indices_alias. clear. induction l as [|[k v] m IH]; cbn [dict_get]; [discriminate|].
    destruct (String.eqb_spec name k) as [->|]; [intros [= ->]; left; reflexivity|]. intros D. right. exact (IH D).
Qed.
Print Assumptions C83_pair_written.
(** Pairs of Indices objects: taken as they are, whatever type is named, if they are of the same subclass. *)
Theorem C83_pair_objects :
  forall h t us t' ls name, init_pair h (AIndices t us) (AIndices t' ls) name = if itype_eqb t t' then Ok ((t, us), (t', ls)) else Raise TypeError.
Proof. intros. reflexivity. Qed.
Print Assumptions C83_pair_objects.
(** An Indices object together with written indices is never accepted, nor an object of another type. *)
Theorem C83_pair_rejected :
  forall h t us a ixs k name, written a ixs ->
  (forall p, init_pair h (AIndices t us) a name <> Ok p) /\ (forall p, init_pair h a (AIndices t us) name <> Ok p) /\
  (forall b p, init_pair h (AOther k) b name <> Ok p) /\ (forall b p, init_pair h b (AOther k) name <> Ok p).
Proof.
  intros h t us a ixs k name W. unfold init_pair.
  assert (O : forall x, as_indices h (AOther k) name <> Ok x) by (intros x; cbn [as_indices]; unfold make_indices_of; destruct (dict_get _ _ _); cbn; discriminate).
  repeat split; intros.
  - destruct W; cbn [as_indices pybind]; (destruct (make_indices_of _ _ _); cbn; discriminate).
  - destruct W; cbn [as_indices pybind]; (destruct (make_indices_of _ _ _); cbn; discriminate).
  - destruct (as_indices h (AOther k) name) eqn:E; [exfalso; exact (O _ eq_refl)|discriminate].
  - destruct (as_indices h b name); [|discriminate]. cbn [pybind]. destruct (as_indices h (AOther k) name) eqn:E; [exfalso; exact (O _ eq_refl)|discriminate].
Qed.
Print Assumptions C83_pair_rejected.

(** Tensors of written indices: what the constructors on spaces and numbers say (they are the ones of all other theorems). *)
Definition tensor_objects (x : tensor) : pytensor := PyTensor (tcls x) (titype x) (tname x) (tpriority x) (map object (tupper x)) (map object (tlower x)).
Lemma at_objects l : map at_idx (map object l) = l.
Proof. induction l as [|[a n] l IH]; cbn [map]; [reflexivity|]. rewrite IH. reflexivity. Qed.
Lemma checked x y : check_tensor x = Ok y -> x = y.
Proof.
  unfold check_tensor. destruct (tcls x); try (intros [= <-]; reflexivity);
  repeat match goal with |- context [if ?b then _ else _] => destruct b | |- context [pybind (is_spin_conserving ?a ?b) _] => destruct (is_spin_conserving a b) as [[]|]; cbn [pybind] end; try discriminate; intros [= <-]; reflexivity.
Qed.
Theorem C83_tensor_written :
  forall h c u l us ls type_name t name priority, written u us -> written l ls -> same_type u l = true -> In (type_name, t) indices_alias ->
  init_tensor h c u l type_name (Some name) (Some priority) = pybind (make_tensor c t name priority us ls) (fun x => Ok (tensor_objects x)).
Proof.
  intros h c u l us ls tn t name p Wu Wl S Ht. cbn [init_tensor].
  assert (D : dict_get String.eqb tn indices_alias = Some t) by (cbn in Ht; intuition (match goal with H : (_, _) = (_, _) |- _ => injection H as <- <- end; reflexivity)).
  assert (A : forall a x, written a x -> as_indices h a tn = pybind (make_typed t x) (fun x => Ok (t, map object x))).
  { intros a x W. destruct (written_pymap a x W) as (q & Ha & E). assert (EI : as_indices h a tn = pybind (check_indices h t (map object x)) (fun l => Ok (t, l))).
    { destruct Ha as [->|[->|(s & -> & ->)]]; cbn [as_indices]; unfold make_indices_of; rewrite D; cbn [init_indices]; rewrite E; reflexivity. }
    rewrite EI, check_objects. destruct (make_typed t x); reflexivity. }
  unfold init_pair. rewrite (A u us Wu), (A l ls Wl), S. unfold make_tensor.
  destruct (make_typed t us) as [us'|]; [|reflexivity]. cbn [pybind]. destruct (make_typed t ls) as [ls'|]; [|reflexivity]. cbn [pybind fst snd].
  unfold as_tensor. cbn [pcls ptype pname ppriority pupper plower]. rewrite !at_objects. destruct (check_tensor (Ten c t name p us' ls')) as [x|] eqn:E; [|reflexivity]. cbn [pybind]. apply checked in E. subst x. reflexivity.
Qed.
Print Assumptions C83_tensor_written.
(** A name that is no string and a priority that is no integer are TypeErrors, before anything else is looked at. *)
Theorem C83_tensor_types : forall h c u l tn name priority, name = None \/ priority = None -> init_tensor h c u l tn name priority = Raise TypeError.
Proof. intros h c u l tn [n|] [p|] [H|H]; try discriminate; reflexivity. Qed.
Print Assumptions C83_tensor_types.

(** make_tensor knows fifteen names for five classes and raises KeyError for all others; the class decides name and priority. *)
Theorem C83_make_tensor :
  forall h name u l tn,
  (In name ["cumulant"; "lambda"; "L"]%string -> make_tensor_of h name u l tn = init_tensor h TCumulant u l tn (Some "L"%string) (Some 2%Z)) /\
  (In name ["hole_density"; "eta"; "C"]%string -> make_tensor_of h name u l tn = init_tensor h THole u l tn (Some "C"%string) (Some 2%Z)) /\
  (In name ["Kronecker"; "delta"; "K"]%string -> make_tensor_of h name u l tn = init_tensor h TKronecker u l tn (Some "K"%string) (Some (-1)%Z)) /\
  (In name ["cluster_amplitude"; "T"; "t"]%string -> make_tensor_of h name u l tn = init_tensor h TCluster u l tn (Some "T"%string) (Some 1%Z)) /\
  (In name ["HamiltonianTensor"; "Hamiltonian"; "H"]%string -> make_tensor_of h name u l tn = init_tensor h THamiltonian u l tn (Some "H"%string) (Some 0%Z)) /\
  (~ In name ["cumulant"; "lambda"; "L"; "hole_density"; "eta"; "C"; "Kronecker"; "delta"; "K"; "cluster_amplitude"; "T"; "t"; "HamiltonianTensor"; "Hamiltonian"; "H"]%string ->
    make_tensor_of h name u l tn = Raise KeyError).
Proof.
  intros h name u l tn. split; [|split; [|split; [|split; [|split]]]].
  1,2,3,4,5: cbn [In]; intros H; repeat (destruct H as [<-|H]; [reflexivity|]); destruct H.
  intros N. unfold make_tensor_of. cbn [dict_get tensor_alias]. cbn [In] in N.
  repeat match goal with |- context [String.eqb name ?x] => destruct (String.eqb_spec name x) as [->|]; [exfalso; apply N; tauto|] end. reflexivity.
Qed.
Print Assumptions C83_make_tensor.

(** Clones are equal to the original and never raise; the conjugate of a pair swaps the indices. *)
Theorem C83_clone_tensor : forall h c u l tn name priority x, init_tensor h c u l tn name priority = Ok x -> clone_tensor h x = Ok x.
Proof.
  intros h c u l tn [n|] [p|] x E; try discriminate. cbn [init_tensor] in E. destruct (init_pair h u l tn) as [ul|]; [|discriminate]. cbn [pybind] in E.
  destruct (check_tensor _) as [y|] eqn:C in E; [|discriminate]. cbn [pybind] in E. injection E as <-. unfold clone_tensor. cbn [pcls ptype pname ppriority pupper plower init_tensor].
  unfold init_pair. cbn [as_indices pybind same_type]. assert (T : forall t, itype_eqb t t = true) by (intros []; reflexivity). rewrite T. cbn [pybind fst snd]. rewrite C. reflexivity.
Qed.
Print Assumptions C83_clone_tensor.
(** from_indices: a tensor with other indices keeps the class, the name and the priority, whatever they are. *)
Theorem C83_from_indices :
  forall h x u l us ls type_name t, written u us -> written l ls -> same_type u l = true -> In (type_name, t) indices_alias ->
  from_indices_of h x u l type_name = pybind (make_tensor (pcls x) t (pname x) (ppriority x) us ls) (fun y => Ok (tensor_objects y)).
Proof. intros h x u l us ls tn t Wu Wl S Ht. exact (C83_tensor_written h (pcls x) u l us ls tn t (pname x) (ppriority x) Wu Wl S Ht). Qed.
Print Assumptions C83_from_indices.
Lemma pair_types h u l tn p : init_pair h u l tn = Ok p -> fst (fst p) = fst (snd p).
Proof.
  unfold init_pair. destruct (as_indices h u tn) as [[t us]|] eqn:Eu; [|discriminate]. cbn [pybind]. destruct (as_indices h l tn) as [[t' ls]|] eqn:El; [|discriminate]. cbn [pybind]. destruct (same_type u l) eqn:S; [|discriminate]. intros [= <-]. cbn [fst snd].
  assert (M : forall a t x, make_indices_of h a tn = Ok (t, x) -> dict_get String.eqb tn indices_alias = Some t).
  { intros a t0 x H. unfold make_indices_of in H. destruct (dict_get String.eqb tn indices_alias) as [t1|]; [|discriminate]. destruct (init_indices h t1 a); [|discriminate]. cbn in H. congruence. }
  destruct u, l; try discriminate S; cbn [as_indices] in Eu, El; try (apply M in Eu; apply M in El; congruence).
  cbn [same_type] in S. injection Eu as <- _. injection El as <- _. destruct t0, t1; try discriminate S; reflexivity.
Qed.
Theorem C83_clone_pair :
  forall h u l tn p, init_pair h u l tn = Ok p -> clone_pair h false p = Ok p /\ clone_pair h true p = Ok (snd p, fst p).
Proof.
  intros h u l tn p E. apply pair_types in E. destruct p as [[t us] [t' ls]]. cbn [fst snd] in E. subst t'. unfold clone_pair, init_pair. cbn [as_indices pybind same_type fst snd].
  assert (T : itype_eqb t t = true) by (destruct t; reflexivity). rewrite T. split; reflexivity.
Qed.
Print Assumptions C83_clone_pair.

(** a + b has the class of a and holds the indices of a and then those of b; ValueError if they share one (or a is spin-orbital and b
    has an uppercase index). *)
Theorem C83_add :
  forall h t (us : list idx) t' (ls : list idx),
  (NoDup (us ++ ls) -> (t = SpinOrbital -> forall i, In i (us ++ ls) -> lbeta (fst i) = false) ->
    add_indices h (t, map object us) (t', map object ls) = Ok (t, map object (us ++ ls))) /\
  (~ NoDup (us ++ ls) \/ (t = SpinOrbital /\ exists i, In i (us ++ ls) /\ lbeta (fst i) = true) -> add_indices h (t, map object us) (t', map object ls) = Raise ValueError).
Proof.
  intros h t us t' ls. unfold add_indices. cbn [fst snd]. assert (W : written (AList (map Obj (map object us ++ map object ls))) (us ++ ls)).
  { constructor. rewrite <- map_app. apply objects_for. }
  destruct (C83_ways_of_writing h t _ _ W) as [H1 H2]. split; [intros N B; rewrite (H1 N B); reflexivity|intros H; rewrite (H2 H); reflexivity].
Qed.
Print Assumptions C83_add.
(** any_overlap: whether there is a common index, between objects of the same class. *)
Theorem C83_any_overlap :
  forall h t us t' ls, (t <> t' -> any_overlap h (t, us) (t', ls) = Raise TypeError) /\
  forall x y, exists b, any_overlap h (t, map object x) (t, map object y) = Ok b /\ (b = true <-> exists i, In i x /\ In i y).
Proof.
  intros h t us t' ls. split; [intros N; unfold any_overlap; cbn [fst snd]; destruct t, t'; try reflexivity; contradiction|]. intros x y. unfold any_overlap. cbn [fst snd].
  assert (T : itype_eqb t t = true) by (destruct t; reflexivity). rewrite T. eexists. split; [reflexivity|]. rewrite existsb_exists. split.
  - intros (a & Ha & H). apply existsb_exists in H as (b & Hb & H). apply in_map_iff in Ha as (i & <- & Hi). apply in_map_iff in Hb as (j & <- & Hj). apply same_entry_canonical in H; [|reflexivity|reflexivity].
    assert (i = j) by (destruct i, j; exact H). subst j. eauto.
  - intros (i & Hi & Hj). exists (object i). split; [apply in_map, Hi|]. apply existsb_exists. exists (object i). split; [apply in_map, Hj|]. apply same_entry_canonical; reflexivity.
Qed.
Print Assumptions C83_any_overlap.
(** Spins of spin-integrated indices; the other classes raise TypeError except for n_beta. *)
Theorem C83_spins :
  forall ixs : list idx,
  let a := (SpinIntegrated, map object ixs) in
  let alpha := filter (fun i : idx => negb (lbeta (fst i))) ixs in let beta := filter (fun i : idx => lbeta (fst i)) ixs in
  alpha_indices a = Ok (map object alpha) /\ beta_indices a = Ok (map object beta) /\ spin_count a = Ok (length alpha, length beta) /\
  n_alpha_of a = Ok (length alpha) /\ n_beta_of a = length beta /\ length alpha + length beta = length ixs /\
  exists b, spin_pure a = Ok b /\ (b = true <-> forall i j, In i ixs -> In j ixs -> lbeta (fst i) = lbeta (fst j)).
Proof.
  intros ixs a alpha beta.
  assert (B : forall i, is_beta (object i) = lbeta (fst i)) by (intros i; unfold is_beta, object; cbn [ispace]; apply is_upper_label).
  assert (Fa : filter (fun i => negb (is_beta i)) (map object ixs) = map object alpha) by (unfold alpha; clear a alpha beta; induction ixs as [|i l IH]; cbn [map filter]; [reflexivity|]; rewrite B; destruct (lbeta (fst i)); cbn [negb map]; rewrite IH; reflexivity).
  assert (Fb : filter is_beta (map object ixs) = map object beta) by (unfold beta; clear a alpha beta Fa; induction ixs as [|i l IH]; cbn [map filter]; [reflexivity|]; rewrite B; destruct (lbeta (fst i)); cbn [negb map]; rewrite IH; reflexivity).
  assert (L : length alpha + length beta = length ixs) by (unfold alpha, beta; clear; induction ixs as [|i l IH]; cbn [filter length]; [reflexivity|]; destruct (lbeta (fst i)); cbn [negb length]; lia).
  unfold alpha_indices, beta_indices, spin_count, n_alpha_of, n_beta_of, spin_pure, alpha_indices, beta_indices, spin_count. unfold a. cbn [fst snd]. rewrite Fa, Fb.
  split; [reflexivity|]. split; [reflexivity|]. cbn [pybind]. unfold spin_count, alpha_indices, beta_indices. cbn [fst snd]. rewrite Fa, Fb. cbn [pybind fst snd]. rewrite !map_length.
  split; [reflexivity|]. split; [reflexivity|]. split; [reflexivity|]. split; [exact L|]. eexists. split; [reflexivity|]. rewrite orb_true_iff, !Nat.eqb_eq.
  assert (Na : length alpha = length ixs <-> forall i, In i ixs -> lbeta (fst i) = false).
  { unfold alpha. clear. induction ixs as [|i l IH]; cbn [filter length]; [split; [intros _ i []|reflexivity]|]. pose proof (filter_length_le' l) as FL. destruct (lbeta (fst i)) eqn:E; cbn [negb length].
    - split; [lia|]. intros H. rewrite (H i (or_introl eq_refl)) in E. discriminate.
    - split; [intros H j [<-|Hj]; [exact E|apply IH; [lia|exact Hj]]|]. intros H. f_equal. apply IH. intros j Hj. apply H. right. exact Hj. }
  assert (Nb : length beta = length ixs <-> forall i, In i ixs -> lbeta (fst i) = true).
  { rewrite <- L. transitivity (length alpha = 0); [lia|]. unfold alpha. clear. induction ixs as [|i l IH]; cbn [filter length]; [split; [intros _ i []|reflexivity]|]. destruct (lbeta (fst i)) eqn:E; cbn [negb length].
    - split; [intros H j [<-|Hj]; [exact E|apply IH; [exact H|exact Hj]]|]. intros H. apply IH. intros j Hj. apply H. right. exact Hj.
    - split; [lia|]. intros H. rewrite (H i (or_introl eq_refl)) in E. discriminate. }
  rewrite Na, Nb. split.
  - intros [H|H] i j Hi Hj; rewrite (H i Hi), (H j Hj); reflexivity.
  - intros H. destruct ixs as [|i0 l]; [left; intros i []|]. destruct (lbeta (fst i0)) eqn:E; [right|left]; intros i Hi; rewrite (H i i0 Hi (or_introl eq_refl)); exact E.
Qed.
Print Assumptions C83_spins.
Theorem C83_spins_rejected :
  forall t l, t <> SpinIntegrated -> alpha_indices (t, l) = Raise TypeError /\ beta_indices (t, l) = Raise TypeError /\ spin_count (t, l) = Raise TypeError /\ spin_pure (t, l) = Raise TypeError /\ n_alpha_of (t, l) = Raise TypeError.
Proof. intros t l N. destruct t; try contradiction; repeat split. Qed.
Print Assumptions C83_spins_rejected.

(** "g0 , v1" as a string, a list and a mixed tuple *)
Definition ex_i0 : idx := (Lab false Sg, 0).
Definition ex_i1 : idx := (Lab false Sv, 1).
Example C83_written : written (AStr "g0 , v1") [ex_i0; ex_i1] /\ written (AList [Name "g0"; Name "v1"]) [ex_i0; ex_i1] /\ written (ATuple [Obj (object ex_i0); Name "v1"]) [ex_i0; ex_i1].
Proof.
  split; [|split].
  - apply (w_string _ (list_ascii_of_string "g0 ") [list_ascii_of_string " v1"]); [reflexivity|exists [], [" "%char]; repeat split; repeat constructor|]. constructor; [|constructor]. exists [" "%char], []. repeat split; repeat constructor.
  - constructor. repeat constructor.
  - constructor. constructor; [right; reflexivity|]. repeat constructor.
Qed.
Example C83_example : forall h,
  init_tensor h THamiltonian (AStr "g0 , v1") (AStr "g2,g3") "so" (Some "H"%string) (Some 0%Z) = Ok (PyTensor THamiltonian SpinOrbital "H" 0 [object ex_i0; object ex_i1] [object (Lab false Sg, 2); object (Lab false Sg, 3)]) /\
  init_pair h (AStr "g0") (AList [Name "g1"]) "so" = Raise TypeError /\ init_pair h (AStr "g0") (AStr "g1") "xy" = Raise KeyError /\
  make_tensor_of h "Lambda" (AStr "a0") (AStr "a1") "so" = Raise KeyError.
Proof.
  intros h. split; [|split; [|split]]; try reflexivity.
  rewrite (C83_tensor_written h THamiltonian (AStr "g0 , v1") (AStr "g2,g3") [ex_i0; ex_i1] [(Lab false Sg, 2); (Lab false Sg, 3)] "so" SpinOrbital "H" 0); [reflexivity|apply C83_written| |reflexivity|cbn; tauto].
  apply (w_string _ (list_ascii_of_string "g2") [list_ascii_of_string "g3"]); [reflexivity|exists [], []; repeat split; constructor|]. constructor; [|constructor]. exists [], []. repeat split; constructor.
Qed.
