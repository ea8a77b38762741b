(** Model of dsrg_generator/Index.py and of the constructor, iterator and
    printers of dsrg_generator/Indices.py, at the level of ASCII strings. *)
From Verif Require Import PyBase SpaceModel.
From Coq Require Import Ascii String.

(** ** Decimal numerals *)
Definition is_digit (c : ascii) : bool := (48 <=? nat_of_ascii c) && (nat_of_ascii c <=? 57).

(** [str.isdigit] on ASCII strings: non-empty and all digits. *)
Definition isdigit (s : list ascii) : bool :=
  match s with [] => false | _ => forallb is_digit s end.

(** [int(s)] of a digit string. *)
Definition int_of (s : list ascii) : nat :=
  fold_left (fun acc c => 10 * acc + (nat_of_ascii c - 48)) s 0.

Definition digit_char (d : nat) : ascii := ascii_of_nat (48 + d).

(** [f"{n}"] for a non-negative integer. *)
Fixpoint decimal_fuel (fuel n : nat) : list ascii :=
  match fuel with
  | 0 => []
  | S fuel' => if n <? 10 then [digit_char n]
               else decimal_fuel fuel' (n / 10) ++ [digit_char (n mod 10)]
  end.
Definition decimal (n : nat) : list ascii := decimal_fuel (S n) n.

(** ** Index *)
Record pyindex : Type := PyIndex { iname : string; ispace : label; inumber : nat }.

(** Index.py:5-29 [Index.__init__] for a string argument ([name[0]] of the
    empty string raises IndexError). *)
Definition make_index (name : string) : pyres pyindex :=
  match list_ascii_of_string name with
  | [] => Raise IndexError
  | s :: n =>
      match char_label s with
      | None => Raise ValueError
      | Some l => if isdigit n then Ok (PyIndex name l (int_of n)) else Raise ValueError
      end
  end.

(** Index.py:51-73: [==] on (space, number), the others on (priority, number). *)
Definition index_ord : pyord pyindex :=
  let k i := (priority (ispace i), inumber i) in
  let o := pair_ord nat_ord nat_ord in
  PyOrd (fun a b => label_eqb (ispace a) (ispace b) && (inumber a =? inumber b))
        (fun a b => plt o (k a) (k b)) (fun a b => ple o (k a) (k b))
        (fun a b => pgt o (k a) (k b)) (fun a b => pge o (k a) (k b)).

(** Index.py:75-76 [hash(self.name)], for a given string hash. *)
Definition index_hash (h : string -> nat) (i : pyindex) : nat := h (iname i).

(** Index.py:78-82 [latex] *)
Definition latex_index (i : pyindex) : string :=
  string_of_list_ascii ([label_char (ispace i); "_"%char; "{"%char] ++ decimal (inumber i) ++ ["}"%char]).

(** Index.py:84-85 *)
Definition is_beta (i : pyindex) : bool := is_upper (label_char (ispace i)).

(** Index.py:87-91; [str.upper]/[str.lower] act character-wise on ASCII. *)
Definition str_map (f : ascii -> ascii) (s : string) : string :=
  string_of_list_ascii (map f (list_ascii_of_string s)).
Definition to_beta (i : pyindex) : pyres pyindex := make_index (str_map to_upper (iname i)).
Definition to_alpha (i : pyindex) : pyres pyindex := make_index (str_map to_lower (iname i)).

(** The name [f"{space}{number}"] used wherever the program generates an index
    (e.g. Term.py:596-599 and 804-811). *)
Definition index_name (l : label) (n : nat) : string :=
  string_of_list_ascii (label_char l :: decimal n).

(** ** Sets of Index objects: two entries collide iff hashes agree and == holds. *)
Definition same_entry (h : string -> nat) (a b : pyindex) : bool :=
  (index_hash h a =? index_hash h b) && peq index_ord a b.

(** [set(indices)]: keeps the first of colliding entries. *)
Fixpoint set_of (h : string -> nat) (l : list pyindex) (acc : list pyindex) : list pyindex :=
  match l with
  | [] => acc
  | x :: l' => if existsb (same_entry h x) acc then set_of h l' acc else set_of h l' (acc ++ [x])
  end.

(** Indices.py:95-117: entries are converted to Index (ValueError/TypeError become
    ValueError, IndexError escapes), then repeated entries are rejected. *)
Definition entry (s : string) : pyres pyindex :=
  match make_index s with
  | Raise ValueError => Raise ValueError
  | Raise TypeError => Raise ValueError
  | r => r
  end.

Definition make_indices (h : string -> nat) (names : list string) : pyres (list pyindex) :=
  pybind (pymap entry names) (fun is =>
    if List.length (set_of h is []) =? List.length is then Ok is else Raise ValueError).

(** Indices.py:498-506 [IndicesSpinOrbital.__init__] *)
Definition make_indices_so (h : string -> nat) (names : list string) : pyres (list pyindex) :=
  pybind (make_indices h names) (fun is => if existsb is_beta is then Raise ValueError else Ok is).

(** Indices.py:92-93: a string argument is split at commas and stripped. *)
Fixpoint split_comma (s : list ascii) (cur : list ascii) : list (list ascii) :=
  match s with
  | [] => [cur]
  | c :: s' => if Ascii.eqb c ","%char then cur :: split_comma s' [] else split_comma s' (cur ++ [c])
  end.
(** ASCII characters removed by [str.strip()]: \t \n \v \f \r, \x1c-\x1f and space. *)
Definition is_space (c : ascii) : bool :=
  let n := nat_of_ascii c in ((9 <=? n) && (n <=? 13)) || ((28 <=? n) && (n <=? 32)).
Fixpoint lstrip (s : list ascii) : list ascii :=
  match s with c :: s' => if is_space c then lstrip s' else s | [] => [] end.
Definition strip (s : list ascii) : list ascii := rev (lstrip (rev (lstrip s))).

Definition names_of_string (s : string) : list string :=
  match list_ascii_of_string s with
  | [] => []
  | cs => map (fun x => string_of_list_ascii (strip x)) (split_comma cs [])
  end.

(** [sep.join(names)] *)
Fixpoint join (sep : list ascii) (l : list (list ascii)) : list ascii :=
  match l with
  | [] => []
  | [x] => x
  | x :: l' => x ++ sep ++ join sep l'
  end.
(** Indices.py:134-135 [__repr__] and Indices.py:245-247 [ambit] *)
Definition repr_indices (is : list pyindex) : string :=
  string_of_list_ascii (join [","%char; " "%char] (map (fun i => list_ascii_of_string (iname i)) is)).
Definition ambit_indices (is : list pyindex) : string :=
  string_of_list_ascii (join [","%char] (map (fun i => list_ascii_of_string (iname i)) is)).

(** ** Iteration (Indices.py:170-179): [__iter__] resets the cursor stored in the
    object and returns the object itself; [__next__] advances that cursor.
    A loop [for x in obj: body] where [body] may itself move the cursor: *)
Fixpoint for_loop {A S} (fuel : nat) (l : list A) (body : A -> nat -> S -> nat * S)
  (cursor : nat) (s : S) : option (nat * S) :=
  match fuel with
  | 0 => None
  | S fuel' =>
      if cursor <? List.length l then
        match nth_error l cursor with
        | None => None
        | Some x => let '(c', s') := body x (Datatypes.S cursor) s in for_loop fuel' l body c' s'
        end
      else Some (cursor, s)
  end.

(** [for x in obj: body]: [iter(obj)] sets the cursor to 0. *)
Definition for_in {A S} (fuel : nat) (l : list A) (body : A -> nat -> S -> nat * S) (s : S) :=
  for_loop fuel l body 0 s.

(** A loop recording the visited elements (the body does not touch the object). *)
Definition visit_all {A} (fuel : nat) (l : list A) : option (list A) :=
  option_map snd (for_in fuel l (fun x c acc => (c, acc ++ [x])) []).

(** Two nested loops over the same object, recording the visited pairs. *)
Definition visit_pairs {A} (fuel : nat) (l : list A) : option (list (A * A)) :=
  option_map snd
    (for_in fuel l
       (fun x c acc =>
          match for_in fuel l (fun y c' acc' => (c', acc' ++ [(x, y)])) acc with
          | Some (c', acc') => (c', acc')
          | None => (c, acc)
          end) []).
