(** Properties C01-C06 and C60: index names, index lists, iteration. *)
From Verif Require Import PyBase OrderSpec OrderProofs SpaceModel SpaceProofs IndexModel IndexProofs.
From Coq Require Import Ascii String.

(** C01. Accepted names are exactly letter + digits; the fields are the letter and
    the decimal value; errors as documented; printing then parsing is the identity. *)
Theorem C01_index_accepts :
  forall name i, make_index name = Ok i <->
    exists ds, valid_name name (ispace i) ds /\ iname i = name /\ inumber i = int_of ds.
Proof. exact make_index_ok. Qed.
Print Assumptions C01_index_accepts.

Theorem C01_index_rejects :
  forall name e, make_index name = Raise e <->
    (name = EmptyString /\ e = IndexError) \/
    (name <> EmptyString /\ e = ValueError /\ ~ exists l ds, valid_name name l ds).
Proof. exact make_index_raise. Qed.
Print Assumptions C01_index_rejects.

Theorem C01_index_roundtrip :
  (forall l n, make_index (index_name l n) = Ok (PyIndex (index_name l n) l n)) /\
  (forall l n l' n', index_name l n = index_name l' n' -> l = l' /\ n = n').
Proof. exact (conj make_index_name index_name_inj). Qed.
Print Assumptions C01_index_roundtrip.

Example C01_example :
  make_index "g017" = Ok (PyIndex "g017" (Lab false Sg) 17) /\
  index_name (Lab true Sv) 120 = "V120"%string /\
  make_index "x1" = Raise ValueError /\ make_index "g" = Raise ValueError /\ make_index "" = Raise IndexError.
Proof. repeat split. Qed.

(** C02. Comparison of indices is a total order, by priority then number. *)
Theorem C02_index_order : lawful index_ord.
Proof. exact index_lawful. Qed.
Print Assumptions C02_index_order.

Theorem C02_index_order_meaning :
  forall a b, plt index_ord a b = true <->
    priority (ispace a) < priority (ispace b) \/ (ispace a = ispace b /\ inumber a < inumber b).
Proof. exact index_lt_spec. Qed.
Print Assumptions C02_index_order_meaning.

Theorem C02_priority_order :
  map priority mo_space = seq 0 12 /\
  map label_char mo_space = list_ascii_of_string "gphvcaGPHVCA".
Proof. split; reflexivity. Qed.
Print Assumptions C02_priority_order.

Example C02_example :
  plt index_ord (PyIndex "a9" (Lab false Sa) 9) (PyIndex "G0" (Lab true Sg) 0) = true /\
  plt index_ord (PyIndex "v2" (Lab false Sv) 2) (PyIndex "v10" (Lab false Sv) 10) = true.
Proof. split; reflexivity. Qed.

(** C03. Equal indices hash equally: false in general, true for canonical names. *)
Theorem C03_hash_consistent_refuted :
  forall h : string -> nat, h "g1"%string <> h "g01"%string ->
  exists a b, make_index "g1" = Ok a /\ make_index "g01" = Ok b /\
              peq index_ord a b = true /\ index_hash h a <> index_hash h b.
Proof.
  intros h Hh. eexists; eexists. split; [reflexivity|]. split; [reflexivity|].
  split; [reflexivity|exact Hh].
Qed.
Print Assumptions C03_hash_consistent_refuted.

Theorem C03_hash_consistent_canonical :
  forall h a b, canonical a -> canonical b -> peq index_ord a b = true -> index_hash h a = index_hash h b.
Proof. exact canonical_hash. Qed.
Print Assumptions C03_hash_consistent_canonical.

Example C03_example : canonical (PyIndex "h12" (Lab false Sh) 12).
Proof. reflexivity. Qed.

(** C04. Spin flips. *)
Theorem C04_to_beta :
  forall name i, make_index name = Ok i ->
  exists j, to_beta i = Ok j /\ ispace j = Lab true (lsp (ispace i)) /\ inumber j = inumber i /\
            is_beta j = true.
Proof. exact to_beta_ok. Qed.
Print Assumptions C04_to_beta.

Theorem C04_to_alpha :
  forall name i, make_index name = Ok i ->
  exists j, to_alpha i = Ok j /\ ispace j = Lab false (lsp (ispace i)) /\ inumber j = inumber i /\
            is_beta j = false.
Proof. exact to_alpha_ok. Qed.
Print Assumptions C04_to_alpha.

Theorem C04_flip_inverse :
  (forall name i, make_index name = Ok i -> is_beta i = false -> pybind (to_beta i) to_alpha = Ok i) /\
  (forall name i, make_index name = Ok i -> is_beta i = true -> pybind (to_alpha i) to_beta = Ok i) /\
  (forall i j, to_beta i = Ok j -> to_beta j = Ok j) /\
  (forall i j, to_alpha i = Ok j -> to_alpha j = Ok j).
Proof.
  exact (conj alpha_beta_roundtrip (conj beta_alpha_roundtrip (conj to_beta_idem to_alpha_idem))).
Qed.
Print Assumptions C04_flip_inverse.

Example C04_example :
  exists i, make_index "v3" = Ok i /\ is_beta i = false /\
            to_beta i = Ok (PyIndex "V3" (Lab true Sv) 3).
Proof. eexists. repeat split. Qed.

(** C05. Indices rejects repeated entries: true for canonical names (for every
    string hash), false for names such as g1, g01. *)
Theorem C05_indices_canonical :
  forall h (ixs : list idx),
  let names := map (fun i => index_name (fst i) (snd i)) ixs in
  let objs := map (fun i => PyIndex (index_name (fst i) (snd i)) (fst i) (snd i)) ixs in
  (NoDup ixs -> make_indices h names = Ok objs) /\
  (~ NoDup ixs -> make_indices h names = Raise ValueError).
Proof. exact make_indices_canonical. Qed.
Print Assumptions C05_indices_canonical.

Theorem C05_indices_accepts :
  forall h names is, make_indices h names = Ok is <->
    Forall2 (fun s i => make_index s = Ok i) names is /\
    ForallOrdPairs (fun a b => same_entry h b a = false) is.
Proof. exact make_indices_ok. Qed.
Print Assumptions C05_indices_accepts.

Theorem C05_indices_distinct_names :
  forall h names is, make_indices h names = Ok is -> NoDup names.
Proof. exact make_indices_distinct_names. Qed.
Print Assumptions C05_indices_distinct_names.

Theorem C05_indices_spin_orbital :
  forall h names is, make_indices_so h names = Ok is <->
    make_indices h names = Ok is /\ forall i, In i is -> lbeta (ispace i) = false.
Proof. exact make_indices_so_ok. Qed.
Print Assumptions C05_indices_spin_orbital.

Theorem C05_no_repeated_index_refuted :
  forall h : string -> nat, h "g1"%string <> h "g01"%string ->
  exists a b, make_indices h ["g1"; "g01"]%string = Ok [a; b] /\ peq index_ord a b = true.
Proof.
  intros h Hh. exists (PyIndex "g1" (Lab false Sg) 1), (PyIndex "g01" (Lab false Sg) 1).
  split; [|reflexivity]. apply C05_indices_accepts. split.
  - repeat constructor.
  - repeat constructor. unfold same_entry, index_hash; cbn [iname].
    destruct (Nat.eqb_spec (h "g01"%string) (h "g1"%string)); [congruence|reflexivity].
Qed.
Print Assumptions C05_no_repeated_index_refuted.

Example C05_example : NoDup [(Lab false Sg, 0); (Lab false Sg, 1); (Lab true Sg, 0)].
Proof. repeat constructor; simpl; intuition congruence. Qed.

(** C06. A single loop visits every index once, in order... *)
Theorem C06_iteration_single :
  forall A fuel (l : list A), List.length l < fuel -> visit_all fuel l = Some l.
Proof. exact @visit_all_ok. Qed.
Print Assumptions C06_iteration_single.

(** ... but two nested loops over the same object only see the first outer element. *)
Theorem C06_iteration_nested_behaviour :
  forall A fuel (x : A) (l : list A), List.length (x :: l) < fuel ->
  visit_pairs fuel (x :: l) = Some (map (pair x) (x :: l)).
Proof. exact @visit_pairs_nested. Qed.
Print Assumptions C06_iteration_nested_behaviour.

Theorem C06_iteration_nested_refuted :
  exists (l : list nat) r, visit_pairs 10 l = Some r /\ r <> list_prod l l.
Proof. exists [1; 2]. eexists. split; [reflexivity|discriminate]. Qed.
Print Assumptions C06_iteration_nested_refuted.

(** C60. str(indices) and indices.ambit() parse back to the same list of names. *)
Theorem C60_printed_indices_parse_back :
  forall h names is, make_indices h names = Ok is ->
    names_of_string (repr_indices is) = names /\ names_of_string (ambit_indices is) = names.
Proof. exact repr_roundtrip. Qed.
Print Assumptions C60_printed_indices_parse_back.

Example C60_example :
  names_of_string " g0 ,v12,A3"%string = ["g0"; "v12"; "A3"]%string.
Proof. reflexivity. Qed.
