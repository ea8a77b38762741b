(** Model of dsrg_generator/helper/file_utils.py (multi_gsub, ChangeDir). *)
From Coq Require Import Ascii String.
From Verif Require Import PyBase.
Local Notation length := List.length.

(** ** Text substitution *)
Definition text := list ascii.

(** the rest of the string after a literal key, if the string starts with it *)
Fixpoint after (k s : text) : option text :=
  match k, s with
  | [], _ => Some s
  | a :: k', b :: s' => if Ascii.eqb a b then after k' s' else None
  | _ :: _, [] => None
  end.
(** re.sub(k, v, s) for a key without special characters and not empty, [v] being the processed replacement: the string is
    scanned from the left, a match is replaced and skipped. Each step consumes a character, so the length is enough fuel. *)
Fixpoint sub_fuel (fuel : nat) (k v s : text) : text :=
  match fuel with
  | 0 => s
  | S fuel' =>
      match s with
      | [] => []
      | a :: s' => match after k s with Some r => v ++ sub_fuel fuel' k v r | None => a :: sub_fuel fuel' k v s' end
      end
  end.
Definition sub_literal (k v s : text) : text := sub_fuel (length s) k v s.

Definition backslash : ascii := "\"%char.
Definition newline : ascii := Ascii.ascii_of_nat 10.
(** The replacement is a template: a backslash and n, t, r is the control character, two backslashes are one, a backslash and
    another letter or a digit from 1 is an error (re.error, written ValueError here), a backslash and other characters stay.
    Octal numbers and the remaining control characters are left out (treated as errors). *)
Fixpoint expand_replacement (v : text) : pyres text :=
  match v with
  | [] => Ok []
  | a :: v' =>
      if Ascii.eqb a backslash then
        match v' with
        | [] => Raise ValueError
        | b :: v'' =>
            pybind (expand_replacement v'') (fun r =>
            if Ascii.eqb b backslash then Ok (backslash :: r)
            else if Ascii.eqb b "n"%char then Ok (newline :: r)
            else if Ascii.eqb b "t"%char then Ok (Ascii.ascii_of_nat 9 :: r)
            else if Ascii.eqb b "r"%char then Ok (Ascii.ascii_of_nat 13 :: r)
            else
              let n := nat_of_ascii b in
              if ((48 <=? n) && (n <=? 57)) || ((65 <=? n) && (n <=? 90)) || ((97 <=? n) && (n <=? 122)) then Raise ValueError
              else Ok (backslash :: b :: r))
        end
      else pybind (expand_replacement v') (fun r => Ok (a :: r))
  end.
(** keys made of letters, digits, blanks and _ match themselves only; other keys are regular expressions, which are not modelled *)
Definition literal_char (a : ascii) : bool :=
  let n := nat_of_ascii a in
  ((48 <=? n) && (n <=? 57)) || ((65 <=? n) && (n <=? 90)) || ((97 <=? n) && (n <=? 122)) || (n =? 95) || (n =? 32).
Definition literal_key (k : text) : bool := negb (match k with [] => true | _ => false end) && forallb literal_char k.

(** helper/file_utils.py:6-9. Keys other than literal ones: not modelled. The replacement is only looked at if there is a
    match in CPython as well when it contains no backslash; with one it is parsed first. *)
Fixpoint multi_gsub (subs : list (text * text)) (s : text) : pyres text :=
  match subs with
  | [] => Ok s
  | (k, v) :: subs' =>
      if literal_key k then pybind (expand_replacement v) (fun v' => multi_gsub subs' (sub_literal k v' s))
      else Raise NotImplementedErr
  end.

(** ** Directories: paths are lists of names, the root is []; no links *)
Definition path := list string.
Record fs : Type := Fs { cwd : path; dirs : list path; files : list path; locked : list path }.
Definition path_dec : forall a b : path, {a = b} + {a <> b} := list_eq_dec string_dec.
Definition mem_path (p : path) (l : list path) : bool := if in_dec path_dec p l then true else false.

(** f'{cwd}/{dir_name}': the names of dir_name are followed from cwd; "." and "" stay, ".." goes up *)
Definition step (p : path) (name : string) : path :=
  if string_dec name "." then p else if string_dec name "" then p
  else if string_dec name ".." then removelast p else p ++ [name].
Definition resolve (p : path) (dir_name : list string) : path := fold_left step dir_name p.

Inductive errno : Set := EEXIST | EOTHER.
(** os.mkdir: an existing name, a missing parent, a directory that must not be written *)
Definition mkdir (s : fs) (p : path) : fs * option errno :=
  if mem_path p (dirs s) || mem_path p (files s) then (s, Some EEXIST)
  else if negb (mem_path (removelast p) (dirs s)) || mem_path (removelast p) (locked s) then (s, Some EOTHER)
  else (Fs (cwd s) (p :: dirs s) (files s) (locked s), None).
(** os.chdir fails unless the path is a directory *)
Definition chdir (s : fs) (p : path) : fs * bool :=
  if mem_path p (dirs s) then (Fs p (dirs s) (files s) (locked s), true) else (s, false).

(** file_utils.py:12-18: both directories are fixed at construction *)
Record change_dir : Type := CDir { cd_cwd : path; cd_dir : path }.
Definition make_change_dir (s : fs) (dir_name : list string) : change_dir := CDir (cwd s) (resolve (cwd s) dir_name).

Inductive outcome : Set := Done | Failed (e : string).
(** file_utils.py:20-27 *)
Definition enter (cd : change_dir) (s : fs) : fs * outcome :=
  let '(s1, e) := mkdir s (cd_dir cd) in
  match e with
  | Some EOTHER => (s1, Failed "ValueError")
  | _ => let '(s2, ok) := chdir s1 (cd_dir cd) in (s2, if ok then Done else Failed "OSError")
  end.
(** file_utils.py:29-30; returns None, so that an exception of the block goes on *)
Definition exit (cd : change_dir) (s : fs) : fs * outcome :=
  let '(s', ok) := chdir s (cd_cwd cd) in (s', if ok then Done else Failed "OSError").

(** the statement  with cd: body *)
Definition with_block (cd : change_dir) (body : fs -> fs * outcome) (s : fs) : fs * outcome :=
  match enter cd s with
  | (s1, Failed e) => (s1, Failed e)
  | (s1, Done) =>
      let '(s2, r) := body s1 in
      match exit cd s2 with
      | (s3, Failed e) => (s3, Failed e)
      | (s3, Done) => (s3, r)
      end
  end.
(** with ChangeDir(dir_name): body *)
Definition with_change_dir (dir_name : list string) (body : fs -> fs * outcome) (s : fs) : fs * outcome :=
  with_block (make_change_dir s dir_name) body s.
