(** Model of dsrg_generator/mo_space.py and of the space logic of
    Tensor.downgrade_indices. *)
From Verif Require Import PyBase.
From Coq Require Import Ascii String ZArith.

(** mo_space.py:2 [so_space = ['g','p','h','v','c','a']]; the beta spaces are the
    upper-case letters (mo_space.py:14). *)
Inductive space : Set := Sg | Sp | Sh | Sv | Sc | Sa.
Record label : Set := Lab { lbeta : bool; lsp : space }.

Definition space_eqb (a b : space) : bool :=
  match a, b with
  | Sg, Sg | Sp, Sp | Sh, Sh | Sv, Sv | Sc, Sc | Sa, Sa => true
  | _, _ => false
  end.
Definition label_eqb (a b : label) : bool := Bool.eqb (lbeta a) (lbeta b) && space_eqb (lsp a) (lsp b).

(** str.lower / str.upper / str.isupper of one ASCII character. *)
Definition is_upper (c : ascii) : bool := (65 <=? nat_of_ascii c) && (nat_of_ascii c <=? 90).
Definition is_lower (c : ascii) : bool := (97 <=? nat_of_ascii c) && (nat_of_ascii c <=? 122).
Definition to_lower (c : ascii) : ascii := if is_upper c then ascii_of_nat (nat_of_ascii c + 32) else c.
Definition to_upper (c : ascii) : ascii := if is_lower c then ascii_of_nat (nat_of_ascii c - 32) else c.

Definition space_char (s : space) : ascii :=
  match s with Sg => "g"%char | Sp => "p"%char | Sh => "h"%char | Sv => "v"%char | Sc => "c"%char | Sa => "a"%char end.
Definition label_char (l : label) : ascii :=
  if lbeta l then to_upper (space_char (lsp l)) else space_char (lsp l).

(** mo_space.py:22 [mo_space = so_space + mo_space_b] *)
Definition so_space : list space := [Sg; Sp; Sh; Sv; Sc; Sa].
Definition mo_space : list label := map (Lab false) so_space ++ map (Lab true) so_space.

(** Membership of a key in [space_priority]/[space_relation] (mo_space.py:23-24). *)
Definition char_label (c : ascii) : option label :=
  find (fun l => Ascii.eqb (label_char l) c) mo_space.

(** mo_space.py:3,15,23 [space_priority = {k: v for v, k in enumerate(mo_space)}] *)
Definition space_rank (s : space) : nat :=
  match s with Sg => 0 | Sp => 1 | Sh => 2 | Sv => 3 | Sc => 4 | Sa => 5 end.
Definition priority (l : label) : nat := space_rank (lsp l) + (if lbeta l then 6 else 0).

(** mo_space.py:4-7, 16-19, 24 [space_relation] *)
Definition space_elems (s : space) : list space :=
  match s with
  | Sc => [Sc] | Sa => [Sa] | Sv => [Sv]
  | Sp => [Sa; Sv] | Sh => [Sc; Sa] | Sg => [Sc; Sa; Sv]
  end.
Definition relation (l : label) : list label := map (Lab (lbeta l)) (space_elems (lsp l)).

Definition mem_label (l : label) (s : list label) : bool := existsb (label_eqb l) s.
(** [a & b], [a <= b] on sets of labels *)
Definition inter_label (a b : list label) : list label := filter (fun x => mem_label x b) a.
Definition subset_label (a b : list label) : bool := forallb (fun x => mem_label x b) a.

(** mo_space.py:27-52 [find_space_label]. The set is given by its elements in
    iteration order; [Ok None] is the implicit [return None] at the end. *)
Definition find_space_label (s : list ascii) : pyres (option ascii) :=
  if forallb (fun c => match char_label c with Some _ => true | None => false end) s then
    match s with
    | [] => Raise ValueError
    | c0 :: _ =>
        let is_beta := is_upper c0 in
        if List.length s =? 1 then Ok (Some c0)
        else if List.length s =? 2 then
          if existsb (Ascii.eqb "v"%char) s || existsb (Ascii.eqb "V"%char) s
          then Ok (Some (if is_beta then "P"%char else "p"%char))
          else if existsb (Ascii.eqb "c"%char) s || existsb (Ascii.eqb "C"%char) s
               then Ok (Some (if is_beta then "H"%char else "h"%char))
               else Ok None
        else Ok (Some (if is_beta then "G"%char else "g"%char))
    end
  else Raise ValueError.

(** ** MOSpaceCounter (mo_space.py:55-130) *)

(** Python dictionaries as association lists in insertion order: assignment
    overwrites in place or appends. *)
Fixpoint dict_set {K V} (eqk : K -> K -> bool) (k : K) (v : V) (d : list (K * V)) : list (K * V) :=
  match d with
  | [] => [(k, v)]
  | (k', v') :: d' => if eqk k k' then (k', v) :: d' else (k', v') :: dict_set eqk k v d'
  end.
Fixpoint dict_get {K V} (eqk : K -> K -> bool) (k : K) (d : list (K * V)) : option V :=
  match d with
  | [] => None
  | (k', v') :: d' => if eqk k k' then Some v' else dict_get eqk k d'
  end.
Definition dict_eq {K V} (eqk : K -> K -> bool) (eqv : V -> V -> bool) (d1 d2 : list (K * V)) : bool :=
  (List.length d1 =? List.length d2) &&
  forallb (fun kv => match dict_get eqk (fst kv) d2 with
                     | Some v => eqv (snd kv) v | None => false end) d1.

Definition Z_ord : pyord Z := PyOrd Z.eqb Z.ltb Z.leb Z.gtb Z.geb.

Record counter : Type := Counter {
  raw : list (ascii * Z);             (* _input_counter: dict keyed by lower-case label *)
  parsed : list Z;                    (* _parsed_counter = [v, c, a] *)
  overall : Z }.                      (* _overall_scaling *)

(** mo_space.py:70-79: counts of c, a, v; 'h' counts as core, 'g' and 'p' as virtual. *)
Fixpoint parse_counter (d : list (ascii * Z)) (nv nc na : Z) : Z * Z * Z :=
  match d with
  | [] => (nv, nc, na)
  | (k, n) :: d' =>
      let k := to_lower k in
      if Ascii.eqb k "c"%char then parse_counter d' nv (nc + n) na
      else if Ascii.eqb k "a"%char then parse_counter d' nv nc (na + n)
      else if Ascii.eqb k "v"%char then parse_counter d' (nv + n) nc na
      else if Ascii.eqb k "h"%char then parse_counter d' nv (nc + n) na
      else parse_counter d' (nv + n) nc na
  end%Z.

(** mo_space.py:62-84 [MOSpaceCounter.__init__] *)
Definition make_counter (d : list (ascii * Z)) : pyres counter :=
  if forallb (fun kv => existsb (Ascii.eqb (to_lower (fst kv))) (map space_char so_space)) d then
    let '(nv, nc, na) := parse_counter d 0 0 0 in
    Ok (Counter (fold_left (fun acc kv => dict_set Ascii.eqb (to_lower (fst kv)) (snd kv) acc) d [])
                [nv; nc; na] (nv + nc + na)%Z)
  else Raise ValueError.

(** mo_space.py:108-130: == compares the raw dictionary, the other operators
    compare (overall_scaling, parsed_counter). *)
Definition counter_key (c : counter) : Z * list Z := (overall c, parsed c).
Definition counter_key_ord : pyord counter := key_ord counter_key (pair_ord Z_ord (list_ord Z_ord)).
Definition counter_ord : pyord counter :=
  PyOrd (fun a b => dict_eq Ascii.eqb Z.eqb (raw a) (raw b))
        (plt counter_key_ord) (ple counter_key_ord) (pgt counter_key_ord) (pge counter_key_ord).

(** ** downgrade_indices (Tensor.py:172-196, 208-228, 250-263)
    Arguments: upper and lower index as (label, number). [None] stands for ''. *)
Definition idx : Set := (label * nat)%type.

Definition idx_lt (a b : idx) : bool :=
  if priority (fst a) =? priority (fst b) then snd a <? snd b else priority (fst a) <? priority (fst b).

(** Tensor.py:172-193, n_body = 1 *)
Definition downgrade_cumulant (u l : idx) : option label :=
  let overlap := inter_label (relation (fst u)) (relation (fst l)) in
  match overlap with
  | [] => None
  | [s] => if space_eqb (lsp s) Sv then None else Some s
  | _ => let b := lbeta (fst u) in
         if subset_label (relation (Lab b Sh)) overlap then Some (Lab b Sh) else Some (Lab b Sa)
  end.

(** Tensor.py:208-228 *)
Definition downgrade_hole (u l : idx) : option label :=
  let overlap := inter_label (relation (fst u)) (relation (fst l)) in
  match overlap with
  | [] => None
  | [s] => if space_eqb (lsp s) Sc then None else Some s
  | _ => let b := lbeta (fst u) in
         if subset_label (relation (Lab b Sp)) overlap then Some (Lab b Sp) else Some (Lab b Sa)
  end.

(** Tensor.py:250-263; [sorted] puts the index of smaller priority value first. *)
Definition downgrade_kronecker (u l : idx) : option label :=
  let '(high, low) := if idx_lt l u then (l, u) else (u, l) in
  match inter_label (relation (fst high)) (relation (fst low)) with
  | [] => None
  | _ => if space_eqb (lsp (fst high)) Sp && space_eqb (lsp (fst low)) Sh
         then Some (Lab (lbeta (fst high)) Sa)
         else Some (fst low)
  end.
