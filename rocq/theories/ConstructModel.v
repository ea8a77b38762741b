(** Constructors from raw arguments, clones and small methods of Indices, IndicesPair, Tensor and SecondQuantizedOperator, at the level of strings. *)
From Coq Require Import Ascii String ZArith.
From Verif Require Import PyBase SpaceModel IndexModel IndicesModel TermModel.
Local Open Scope nat_scope.
Local Notation length := List.length.

(** An entry of a sequence: a string, an Index, or an object of another type. *)
Inductive item : Type := Name (s : string) | Obj (i : pyindex) | OtherItem.
(** An argument: str, list, tuple, an Indices object of a subclass, or an object of another type (number [k]) that is not a collections.Sequence. *)
Inductive arg : Type := AStr (s : string) | AList (l : list item) | ATuple (l : list item) | AIndices (t : itype) (l : list pyindex) | AOther (k : nat).

(** Indices.py:96-107: an Index is kept, the rest is converted; ValueError and TypeError become ValueError *)
Definition convert (x : item) : pyres pyindex :=
  match x with
  | Obj i => Ok i
  | Name s => match make_index s with Raise TypeError => Raise ValueError | r => r end
  | OtherItem => Raise ValueError
  end.
(** Indices.py:109-113 and, for spin-orbital indices, 503-506 *)
Definition check_indices (h : string -> nat) (t : itype) (is : list pyindex) : pyres (list pyindex) :=
  if length (set_of h is []) =? length is
  then if itype_eqb t SpinOrbital && existsb is_beta is then Raise ValueError else Ok is
  else Raise ValueError.
(** Indices.py:78-120 with the constructors of the subclasses (369-374, 428-433, 498-506, 533-548) *)
Definition init_indices (h : string -> nat) (t : itype) (a : arg) : pyres (list pyindex) :=
  match a with
  | AStr s => pybind (pymap convert (map Name (names_of_string s))) (check_indices h t)
  | AList l | ATuple l => pybind (pymap convert l) (check_indices h t)
  | AIndices _ _ | AOther _ => Raise TypeError
  end.
(** Indices.py:57-62 *)
Definition indices_alias : list (string * itype) :=
  [("antisymmetric", Antisymmetric); ("asymm", Antisymmetric); ("spin-orbital", SpinOrbital); ("so", SpinOrbital);
   ("spin-integrated", SpinIntegrated); ("si", SpinIntegrated); ("spin-adapted", SpinAdapted); ("sa", SpinAdapted)]%string.
(** Indices.py:71-76 with the registrations of 65-69, 367, 426, 496 and 531 *)
Definition make_indices_of (h : string -> nat) (a : arg) (type_name : string) : pyres (itype * list pyindex) :=
  match dict_get String.eqb type_name indices_alias with
  | None => Raise KeyError
  | Some t => pybind (init_indices h t a) (fun l => Ok (t, l))
  end.
(** type(a) == type(b) *)
Definition same_type (a b : arg) : bool :=
  match a, b with
  | AStr _, AStr _ | AList _, AList _ | ATuple _, ATuple _ => true
  | AIndices t _, AIndices t' _ => itype_eqb t t'
  | AOther k, AOther k' => k =? k'
  | _, _ => false
  end.
(** IndicesPair.py:10-27: (type of the upper indices, upper, type of the lower indices, lower) *)
Definition as_indices (h : string -> nat) (a : arg) (type_name : string) : pyres (itype * list pyindex) :=
  match a with AIndices t l => Ok (t, l) | _ => make_indices_of h a type_name end.
Definition init_pair (h : string -> nat) (u l : arg) (type_name : string) : pyres ((itype * list pyindex) * (itype * list pyindex)) :=
  pybind (as_indices h u type_name) (fun upper =>
  pybind (as_indices h l type_name) (fun lower =>
  if same_type u l then Ok (upper, lower) else Raise TypeError)).
(** IndicesPair.py:72-81 [clone] of a pair or operator *)
Definition clone_pair (h : string -> nat) (hc : bool) (p : (itype * list pyindex) * (itype * list pyindex)) : pyres ((itype * list pyindex) * (itype * list pyindex)) :=
  let obj x := AIndices (fst x) (snd x) in
  if hc then init_pair h (obj (snd p)) (obj (fst p)) "so" else init_pair h (obj (fst p)) (obj (snd p)) "so".

(** A tensor with Index objects; [None] for a name that is no str and for a priority that is no int *)
Record pytensor : Type := PyTensor { pcls : tclass; ptype : itype; pname : string; ppriority : Z; pupper : list pyindex; plower : list pyindex }.
Definition at_idx (i : pyindex) : idx := (ispace i, inumber i).
Definition as_tensor (x : pytensor) : tensor := Ten (pcls x) (ptype x) (pname x) (ppriority x) (map at_idx (pupper x)) (map at_idx (plower x)).
(** Tensor.py:28-45 with the checks of the subclasses (166-170, 201-206, 243-248, 268-300, 314-317) *)
Definition init_tensor (h : string -> nat) (c : tclass) (u l : arg) (type_name : string) (name : option string) (priority : option Z) : pyres pytensor :=
  match name, priority with
  | None, _ => Raise TypeError
  | _, None => Raise TypeError
  | Some n, Some p =>
      pybind (init_pair h u l type_name) (fun ul =>
      let x := PyTensor c (fst (fst ul)) n p (snd (fst ul)) (snd (snd ul)) in
      pybind (check_tensor (as_tensor x)) (fun _ => Ok x))
  end.
(** Tensor.py:7-13, 22-26 *)
Definition tensor_alias : list (string * tclass) :=
  [("cumulant", TCumulant); ("lambda", TCumulant); ("L", TCumulant); ("hole_density", THole); ("eta", THole); ("C", THole);
   ("Kronecker", TKronecker); ("delta", TKronecker); ("K", TKronecker); ("cluster_amplitude", TCluster); ("T", TCluster); ("t", TCluster);
   ("HamiltonianTensor", THamiltonian); ("Hamiltonian", THamiltonian); ("H", THamiltonian)]%string.
(** the default arguments (Tensor.py:28, 167, 201, 243, 268, 314) *)
Definition default_name (c : tclass) : string :=
  match c with TTensor => "Tensor" | TCumulant => "L" | THole => "C" | TKronecker => "K" | TCluster => "T" | THamiltonian => "H" end%string.
Definition default_priority (c : tclass) : Z := match c with TTensor | THamiltonian => 0 | TCumulant | THole => 2 | TKronecker => -1 | TCluster => 1 end%Z.
(** Tensor.make_tensor(tensor_type, upper, lower, indices_type) *)
Definition make_tensor_of (h : string -> nat) (tensor_type : string) (u l : arg) (type_name : string) : pyres pytensor :=
  match dict_get String.eqb tensor_type tensor_alias with
  | None => Raise KeyError
  | Some c => init_tensor h c u l type_name (Some (default_name c)) (Some (default_priority c))
  end.
(** Tensor.py:55-57; the method takes no [hc] *)
Definition clone_tensor (h : string -> nat) (x : pytensor) : pyres pytensor :=
  init_tensor h (pcls x) (AIndices (ptype x) (pupper x)) (AIndices (ptype x) (plower x)) "so" (Some (pname x)) (Some (ppriority x)).
(** Tensor.py:59-67; also canonicalize and generate_spin_cases (145-160) build tensors in this way *)
Definition from_indices_of (h : string -> nat) (x : pytensor) (u l : arg) (type_name : string) : pyres pytensor :=
  init_tensor h (pcls x) u l type_name (Some (pname x)) (Some (ppriority x)).

(** Indices.py:194-197 [a + b] for two Indices objects, 199-201 *)
Definition add_indices (h : string -> nat) (a b : itype * list pyindex) : pyres (itype * list pyindex) :=
  pybind (init_indices h (fst a) (AList (map Obj (snd a ++ snd b)))) (fun l => Ok (fst a, l)).
Definition clone_indices (h : string -> nat) (a : itype * list pyindex) : pyres (itype * list pyindex) :=
  pybind (init_indices h (fst a) (AList (map Obj (snd a)))) (fun l => Ok (fst a, l)).
(** Indices.py:270-277 *)
Definition any_overlap (h : string -> nat) (a b : itype * list pyindex) : pyres bool :=
  if itype_eqb (fst a) (fst b) then Ok (existsb (fun x => existsb (same_entry h x) (snd b)) (snd a)) else Raise TypeError.
(** Indices.py:336-356, 541-565: the spins of the indices *)
Definition alpha_indices (a : itype * list pyindex) : pyres (list pyindex) :=
  match fst a with SpinIntegrated => Ok (filter (fun i => negb (is_beta i)) (snd a)) | _ => Raise TypeError end.
Definition beta_indices (a : itype * list pyindex) : pyres (list pyindex) :=
  match fst a with SpinIntegrated => Ok (filter is_beta (snd a)) | _ => Raise TypeError end.
Definition spin_count (a : itype * list pyindex) : pyres (nat * nat) :=
  pybind (alpha_indices a) (fun x => pybind (beta_indices a) (fun y => Ok (length x, length y))).
Definition spin_pure (a : itype * list pyindex) : pyres bool :=
  pybind (spin_count a) (fun n => Ok ((fst n =? length (snd a)) || (snd n =? length (snd a)))).
Definition n_alpha_of (a : itype * list pyindex) : pyres nat := pybind (spin_count a) (fun n => Ok (fst n)).
Definition n_beta_of (a : itype * list pyindex) : nat := length (filter is_beta (snd a)).
