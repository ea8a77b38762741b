(** Model of dsrg_generator/helper/integer_partition.py. *)
From Verif Require Import PyBase.
From Coq Require Import ZArith.

(** Python list indexing: negative positions count from the end. *)
Definition py_pos (n : nat) (i : Z) : option nat :=
  if (0 <=? i)%Z then (if (i <? Z.of_nat n)%Z then Some (Z.to_nat i) else None)
  else if (0 <=? i + Z.of_nat n)%Z then Some (Z.to_nat (i + Z.of_nat n)) else None.
Definition py_get {A} (x : list A) (i : Z) : pyres A :=
  match py_pos (length x) i with
  | Some k => match nth_error x k with Some a => Ok a | None => Raise IndexError end
  | None => Raise IndexError
  end.
Fixpoint list_set {A} (x : list A) (k : nat) (a : A) : list A :=
  match x, k with
  | [], _ => []
  | _ :: x', 0 => a :: x'
  | b :: x', S k' => b :: list_set x' k' a
  end.
Definition py_set {A} (x : list A) (i : Z) (a : A) : pyres (list A) :=
  match py_pos (length x) i with
  | Some k => Ok (list_set x k a)
  | None => Raise IndexError
  end.

(** integer_partition.py:24-27 [while t >= r: h += 1; x[h - 1] = r; t -= r] *)
Fixpoint fill_loop (fuel : nat) (x : list Z) (h t r : Z) : pyres (list Z * Z * Z) :=
  if (r <=? t)%Z then
    match fuel with
    | 0 => Raise FuelExhausted
    | S fuel' =>
        let h := (h + 1)%Z in
        pybind (py_set x (h - 1) r) (fun x => fill_loop fuel' x h (t - r)%Z r)
    end
  else Ok (x, h, t).

(** Body of the outer loop, integer_partition.py:16-34: new (x, m, h). *)
Definition ip_body (x : list Z) (m h : Z) : pyres (list Z * Z * Z) :=
  pybind (py_get x (h - 1)) (fun s =>
  if (s =? 2)%Z then
    pybind (py_set x (h - 1) 1%Z) (fun x => Ok (x, (m + 1)%Z, (h - 1)%Z))
  else
    let r := (s - 1)%Z in
    let t := (m - h + 1)%Z in
    pybind (py_set x (h - 1) r) (fun x =>
    pybind (fill_loop (Z.to_nat t) x h t r) (fun xht =>
    let '(x, h, t) := xht in
    if (t =? 0)%Z then Ok (x, h, h)
    else
      let m := (h + 1)%Z in
      if (1 <? t)%Z then
        let h := (h + 1)%Z in
        pybind (py_set x (h - 1) t) (fun x => Ok (x, m, h))
      else Ok (x, m, h)))).

(** x[:k] for 0 <= k *)
Definition py_prefix {A} (x : list A) (k : Z) : list A := firstn (Z.to_nat k) x.

(** The outer while loop (integer_partition.py:12-35): list of yielded values. *)
Fixpoint ip_loop (fuel : nat) (n : Z) (x : list Z) (m h : Z) : pyres (list (list Z)) :=
  pybind (py_get x 0) (fun x0 =>
  if (x0 =? 1)%Z then Ok []
  else
    match fuel with
    | 0 => Raise FuelExhausted
    | S fuel' =>
        let first := if (x0 =? n)%Z then [py_prefix x 1] else [] in
        pybind (ip_body x m h) (fun xmh =>
        let '(x, m, h) := xmh in
        pybind (ip_loop fuel' n x m h) (fun rest => Ok (first ++ py_prefix x m :: rest)))
    end).

(** integer_partition(n) for n >= 0; at most 2^n partitions, so 2^n rounds suffice (proved). *)
Definition integer_partition (n : nat) : pyres (list (list Z)) :=
  let x := repeat 1%Z n in
  pybind (py_set x 0 (Z.of_nat n)) (fun x => ip_loop (2 ^ n) (Z.of_nat n) x 1 1).

(** range(a, b) and range(a, b, -1) *)
Definition z_range (a b : Z) : list Z := map (fun k => (a + Z.of_nat k)%Z) (seq 0 (Z.to_nat (b - a))).
Definition z_range_down (a b : Z) : list Z := map (fun k => (a - Z.of_nat k)%Z) (seq 0 (Z.to_nat (a - b))).

(** integer_partition.py:38-45 *)
Definition integer_separation (integer : Z) (include_zero : bool) : list (Z * Z) :=
  let start := (if include_zero then 0 else 1)%Z in
  let end_ := (if include_zero then 1 else 0)%Z in
  combine (z_range start (integer + end_)) (z_range_down (integer - start) (0 - end_)).
