(** A small language for the generated C++ code, and its meaning on arrays of numbers. *)
From Coq Require Import Ascii String ZArith QArith Qcanon.
From Verif Require Import PyBase SpaceModel IndexModel IndicesModel ElemModel MacroModel TermModel ValueSpec IndicesProofs TermSpec SymmetryModel CombineModel PermuteModel AmbitModel.
Local Close Scope Q_scope.
Local Close Scope Qc_scope.
Local Open Scope nat_scope.
Local Notation length := List.length.

(** ** Statements *)
(** an array with two groups of indices, A["i,j,a,b"] *)
Record access : Type := Access { a_array : text; a_first : list idx; a_second : list idx }.
Definition a_indices (a : access) : list idx := a_first a ++ a_second a.
Inductive stmt : Type :=
| SDiagonal                                        (* a comment *)
| SDeclare                                         (* BlockedTensor temp; *)
| SBuild (spaces : text)                           (* temp = ambit::BlockedTensor::build(...) *)
| SClear                                           (* temp.zero(); *)
| SZero (n : nat)                                  (* C2.zero();  C0 = 0.0; *)
| SDouble                                          (* C0 *= 2.0; *)
| SContract (lhs : access) (c : Qc) (rhs : list access)       (* A["i,a"] += c * B["i,b"] * D["b,a"]; *)
| SAdd (lhs : access) (plus : bool) (rhs : access)            (* A["i,j"] -= B["j,i"]; *)
| SCopy (lhs rhs : access)                                    (* A["i,j"] = B["i,j"]; *)
| SCall (name : text) (args : list text).                     (* f(H1, T1, C1); *)

Definition access_text (a : access) : text :=
  a_array a ++ match a_first a, a_second a with [], [] => [] | f, s => str "[""" ++ indices_str f ++ str "," ++ indices_str s ++ str """]" end.
(** a rational number as quotient of floating point literals *)
Definition number_text (c : Qc) : text :=
  if Pos.eqb (Qden (this c)) 1 then z_text (Qnum (this c)) ++ str ".0"
  else str "(" ++ z_text (Qnum (this c)) ++ str ".0 / " ++ z_text (Z.pos (Qden (this c))) ++ str ".0)".
Definition stmt_text (s : stmt) : text :=
  match s with
  | SDiagonal => str "// Error: diagonal indices are not supported by ambit."
  | SDeclare => str "BlockedTensor temp;"
  | SBuild spaces => str "temp = ambit::BlockedTensor::build(ambit::CoreTensor, ""temp"", {""" ++ spaces ++ str """});"
  | SClear => str "temp.zero();"
  | SZero n => if n =? 0 then str "C0 = 0.0;" else str "C" ++ decimal n ++ str ".zero();"
  | SDouble => str "C0 *= 2.0;"
  | SContract lhs c rhs => access_text lhs ++ str " += " ++ number_text c ++ str " * " ++ join (str " * ") (map access_text rhs) ++ str ";"
  | SAdd lhs plus rhs => access_text lhs ++ (if plus then str " += " else str " -= ") ++ access_text rhs ++ str ";"
  | SCopy lhs rhs => access_text lhs ++ str " = " ++ access_text rhs ++ str ";"
  | SCall name args => name ++ str "(" ++ join (str ", ") args ++ str ");"
  end.
(** statements on lines of their own, indented *)
Definition lines (l : list stmt) : text := flat_map (fun s => nl :: str "    " ++ stmt_text s) l.

(** ** Meaning *)
(** no upper index can be virtual and no lower one core *)
Definition holes_above (x : tensor) : Prop :=
  (forall i, In i (tupper x) -> ~ In Sv (space_elems (lsp (fst i)))) /\ (forall i, In i (tlower x) -> ~ In Sc (space_elems (lsp (fst i)))).
Section Meaning.
  Context {A : qalg} (S : system).
  Definition array : Type := list nat -> A.
  (** named arrays; the local variable temp is a BlockedTensor that must be declared, then built for some spaces *)
  Record store : Type := Store { st_arrays : text -> option array; st_declared : bool; st_temp : option (text * array) }.
  Definition temp_name : text := str "temp".
  (** [None]: the array does not exist, or temp has been built for other spaces *)
  Definition read (st : store) (a : access) : option array :=
    if text_eqb (a_array a) temp_name then
      match st_temp st with Some (spaces, f) => if text_eqb spaces (map (fun i => label_char (fst i)) (a_indices a)) then Some f else None | None => None end
    else st_arrays st (a_array a).
  Definition write (st : store) (a : access) (f : array) : store :=
    if text_eqb (a_array a) temp_name then Store (st_arrays st) (st_declared st) (Some (map (fun i => label_char (fst i)) (a_indices a), f))
    else Store (fun name => if text_eqb name (a_array a) then Some f else st_arrays st name) (st_declared st) (st_temp st).
  Definition set_array (st : store) (name : text) (f : array) : store :=
    Store (fun name' => if text_eqb name' name then Some f else st_arrays st name') (st_declared st) (st_temp st).
  Fixpoint all_some {B} (l : list (option B)) : option (list B) :=
    match l with
    | [] => Some []
    | Some x :: l' => match all_some l' with Some r => Some (x :: r) | None => None end
    | None :: _ => None
    end.
  (** Einstein summation: for every assignment of orbitals to all indices the product is added to the entry of the left hand side *)
  Definition einsum (lhs : list idx) (rhs : list (list idx * array)) (o : list nat) : A :=
    sum_over S (nodup idx_eq_dec (lhs ++ flat_map fst rhs)) (fun e =>
      if list_eq_dec Nat.eq_dec (map e lhs) o then aprod (map (fun f => snd f (map e (fst f))) rhs) else q0).
  (** the entry belongs to the spaces of the indices *)
  Definition in_spaces (lhs : list idx) (o : list nat) : bool := if in_dec (list_eq_dec Nat.eq_dec) o (assignments S lhs) then true else false.

  Definition exec_leaf (s : stmt) (st : store) : option store :=
    match s with
    | SDiagonal => Some st
    | SDeclare => Some (Store (st_arrays st) true None)
    | SBuild spaces => if st_declared st then Some (Store (st_arrays st) true (Some (spaces, fun _ => q0))) else None
    | SClear => match st_temp st with Some (spaces, _) => Some (Store (st_arrays st) (st_declared st) (Some (spaces, fun _ => q0))) | None => None end
    | SZero n => match st_arrays st (target_name n) with Some _ => Some (set_array st (target_name n) (fun _ => q0)) | None => None end
    | SDouble => match st_arrays st (target_name 0) with Some f => Some (set_array st (target_name 0) (fun o => (f o + f o)%alg)) | None => None end
    | SContract lhs c rhs =>
        match read st lhs, all_some (map (read st) rhs) with
        | Some f, Some fs => Some (write st lhs (fun o => (f o + inj c * einsum (a_indices lhs) (combine (map a_indices rhs) fs) o)%alg))
        | _, _ => None
        end
    | SAdd lhs plus rhs =>
        match read st lhs, read st rhs with
        | Some f, Some g => Some (write st lhs (fun o => (f o + (if plus then einsum (a_indices lhs) [(a_indices rhs, g)] o else - einsum (a_indices lhs) [(a_indices rhs, g)] o))%alg))
        | _, _ => None
        end
    | SCopy lhs rhs =>
        match read st lhs, read st rhs with
        | Some f, Some g => Some (write st lhs (fun o => if in_spaces (a_indices lhs) o then einsum (a_indices lhs) [(a_indices rhs, g)] o else f o))
        | _, _ => None
        end
    | SCall _ _ => None
    end.
  Fixpoint exec_leaves (l : list stmt) (st : store) : option store :=
    match l with [] => Some st | s :: l' => match exec_leaf s st with Some st' => exec_leaves l' st' | None => None end end.
  (** A call runs the body of the function with a fresh temp. The arguments are references to the arrays of the same names, and
      the body sees no other arrays. *)
  Context (functions : text -> option (list stmt)).
  Definition call (name : text) (args : list text) (st : store) : option store :=
    match functions name with
    | Some body =>
        match exec_leaves body (Store (fun x => if mem_text x args then st_arrays st x else None) false None) with
        | Some st' => Some (Store (fun x => if mem_text x args then st_arrays st' x else st_arrays st x) (st_declared st) (st_temp st))
        | None => None
        end
    | None => None
    end.
  Definition exec (s : stmt) (st : store) : option store := match s with SCall name args => call name args st | _ => exec_leaf s st end.
  Fixpoint run (l : list stmt) (st : store) : option store :=
    match l with [] => Some st | s :: l' => match exec s st with Some st' => run l' st' | None => None end end.

  (** ** Arrays and operators *)
  (** all n-tuples of orbitals *)
  Definition tuples (n : nat) : list (list nat) := iproduct (repeat (seq 0 (norb S)) n).
  (** the operator 1/(n! n!) sum C[a.., c..] a^+_c.. a_a..: annihilators first in the array *)
  Definition array_operator (v : tvaluation A) (n : nat) (f : array) : A :=
    (inj (Qcinv (Qc_of_Z (Z.of_nat (fact n * fact n)))) * asum (map (fun o => f o * voper v (skipn n o) (firstn n o)) (tuples (2 * n))))%alg.
  (** The array of a tensor holds its values. Arrays of amplitudes start with the hole indices: these are the lower ones if an
      upper index can be virtual or a lower one core. *)
  Definition holds (v : tvaluation A) (x : tensor) (f : array) : Prop :=
    forall p q, length p = length (tupper x) -> length q = length (tlower x) ->
      (tcls x <> TCluster \/ holes_above x -> f (p ++ q) = vtensor v (tcls x) (tname x) p q) /\
      (tcls x = TCluster -> ~ holes_above x -> f (q ++ p) = vtensor v (tcls x) (tname x) p q).
  Definition arrays_hold (v : tvaluation A) (xs : list tensor) (arrays : text -> option array) : Prop :=
    forall x, In x xs -> exists f, arrays (tensor_array x) = Some f /\ holds v x f.
End Meaning.
Arguments store : clear implicits.
Arguments array : clear implicits.
