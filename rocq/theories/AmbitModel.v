(** Model of the generated C++ code: Term.format_coeff and Term.ambit (Term.py:314-408), the text of tensors and operators
    (Tensor.py:119-127 and 297-303, IndicesPair.py:130-140, SQOperator.py:58-64, Indices.py:245-247), and
    write_forte_functions.py:6-143 (save_terms_ambit_functions, save_terms_blocks_ambit_function). Files are pairs of a name and a
    text; the C++ functions are given before they are put into the template (see FileModel.v for the template). *)
From Coq Require Import Ascii String ZArith QArith Qcanon.
From Verif Require Import PyBase SpaceModel IndexModel IndicesModel ElemModel MacroModel TermModel SymmetryModel CombineModel PermuteModel.
Local Close Scope Q_scope.
Local Close Scope Qc_scope.
Local Open Scope nat_scope.
Local Notation length := List.length.

Definition nl : ascii := Ascii.ascii_of_nat 10.
Definition quote : text := str """".
Definition z_text (z : Z) : text := if (z <? 0)%Z then "-"%char :: decimal (Z.to_nat (- z)) else decimal (Z.to_nat z).

(** ** Coefficients *)
(** fractions.Fraction.limit_denominator of the standard library; the loop runs at most once per bit of the denominator, twice *)
Fixpoint limit_loop (fuel : nat) (bound p0 q0 p1 q1 n d : Z) : Z * Z * Z * Z :=
  match fuel with
  | 0 => (p0, q0, p1, q1)
  | S f => let a := (n / d)%Z in let q2 := (q0 + a * q1)%Z in
           if (bound <? q2)%Z then (p0, q0, p1, q1) else limit_loop f bound p1 q1 (p0 + a * p1)%Z q2 d (n - a * d)%Z
  end.
Definition limit_denominator (bound : Z) (q : Qc) : Qc :=
  if (Z.pos (Qden (this q)) <=? bound)%Z then q
  else
    let n := Qnum (this q) in let d := Z.pos (Qden (this q)) in
    let '(p0, q0, p1, q1) := limit_loop (2 * Z.to_nat (Z.log2 d) + 3) bound 0 1 1 0 n d in
    let k := ((bound - q0) / q1)%Z in
    let bound1 := Qcdiv (Qc_of_Z (p0 + k * p1)) (Qc_of_Z (q0 + k * q1)) in
    let bound2 := Qcdiv (Qc_of_Z p1) (Qc_of_Z q1) in
    if Qclt_le_dec (Qc_abs (Qcminus bound1 q)) (Qc_abs (Qcminus bound2 q)) then bound1 else bound2.
(** Term.py:314-327 with form = 'ambit' *)
Definition format_coeff (value : Qc) : text :=
  let fraction := this (limit_denominator 1000000000 value) in
  if Pos.eqb (Qden fraction) 1 then z_text (Qnum fraction) ++ str ".0"
  else str "(" ++ z_text (Qnum fraction) ++ str ".0 / " ++ z_text (Z.pos (Qden fraction)) ++ str ".0)".

(** ** Tensors *)
(** IndicesPair.py:130-140 with the indices in the order in which they are printed *)
Definition pair_ambit (first second : list idx) : text :=
  match first, second with
  | [], [] => []
  | _, _ => str "[""" ++ indices_str first ++ str "," ++ indices_str second ++ str """]"
  end.
(** Tensor.py:275-300: amplitudes with virtual upper or core lower indices are de-excitations *)
Definition contains_space (s : space) (i : idx) : bool := mem_label (Lab false s) (relation (lower_label i)).
Definition is_excitation (x : tensor) : bool := negb (existsb (contains_space Sv) (tupper x) || existsb (contains_space Sc) (tlower x)).
Definition upper_first (x : tensor) : bool := match tcls x with TCluster => is_excitation x | _ => true end.
(** the name of the array and its indices in the order of the array *)
Definition array_name (name : text) (n1 n2 : nat) : text :=
  if n1 =? n2 then name ++ decimal n1 else name ++ str "_" ++ decimal n1 ++ str "_" ++ decimal n2.
Definition tensor_array (x : tensor) : text := array_name (list_ascii_of_string (tname x)) (length (tupper x)) (length (tlower x)).
Definition array_order (x : tensor) : list idx * list idx := if upper_first x then (tupper x, tlower x) else (tlower x, tupper x).
(** Tensor.py:119-127, 302-303 *)
Definition tensor_ambit (x : tensor) : text := tensor_array x ++ pair_ambit (fst (array_order x)) (snd (array_order x)).
Definition op_ambit (o : op) : text := pair_ambit (ann o) (cre o).

(** ** Term.py:355-408 *)
Definition diagonal_warning : text := str "// Error: diagonal indices are not supported by ambit.".
Definition build_temp (spaces : text) : text := str "temp = ambit::BlockedTensor::build(ambit::CoreTensor, ""temp"", {""" ++ spaces ++ str """});".
Definition term_ambit (name : text) (ignore_permutations init_temp declared_temp : bool) (t : term) : pyres text :=
  let out := match tdiag t with [] => [] | _ => diagonal_warning ++ [nl] end in
  let o := tsq t in
  let factor := fact (length (cre o)) * fact (length (ann o)) in
  let '(p_cre, p_ann) := perm_partition_open t in
  pybind (op_n_multiset_permutation (ttype t) o p_cre p_ann) (fun n_perm =>
  let coeff_str := format_coeff (Qcdiv (Qcmult (tcoeff t) (Qc_of_Z (Z.of_nat factor))) (Qc_of_Z (Z.of_nat n_perm))) in
  let tensors_str := join (str " * ") (map tensor_ambit (ttensors t)) in
  let real_name := array_name name (length (ann o)) (length (cre o)) in
  let rhs := coeff_str ++ str " * " ++ tensors_str in
  pybind (op_exist_permute_format (ttype t) o p_cre p_ann) (fun exist =>
  if negb exist then Ok (out ++ real_name ++ op_ambit o ++ str " += " ++ rhs ++ str ";")
  else if negb (ignore_permutations || init_temp || declared_temp) then Ok (out ++ real_name ++ op_ambit o ++ str " += " ++ rhs ++ str ";" ++ [nl])
  else
    let out := out ++ (if init_temp then build_temp (space_str t) ++ [nl] else []) in
    let declared_temp := init_temp || declared_temp in
    let t_name := if declared_temp then str "temp" else real_name in
    if ignore_permutations then Ok (out ++ t_name ++ op_ambit o ++ str " += " ++ rhs ++ str ";")
    else
      pybind (op_ambit_permute_format (ttype t) o p_cre p_ann false) (fun perms =>
      if declared_temp then
        Ok (out ++ str "temp" ++ op_ambit o ++ str " += " ++ rhs ++ str ";" ++ [nl] ++
            concat (map (fun sl => real_name ++ snd sl ++ (if (fst sl =? 1)%Z then str " += " else str " -= ") ++ str "temp" ++ op_ambit o ++ str ";" ++ [nl]) perms))
      else
        Ok (out ++ concat (map (fun sl => real_name ++ snd sl ++ (if (fst sl =? 1)%Z then str " += " else str " -= ") ++ rhs ++ str ";") perms))))).

(** ** write_forte_functions.py:86-143 *)
(** 'sep'.join(s.split(c)) for a one-character string c *)
Definition replace_char (c : ascii) (sep s : text) : text := flat_map (fun a => if ascii_dec a c then sep else [a]) s.
(** str.strip() *)
Definition is_blank (a : ascii) : bool := existsb (Nat.eqb (Ascii.nat_of_ascii a)) [9; 10; 11; 12; 13; 28; 29; 30; 31; 32].
Fixpoint lstrip (s : text) : text := match s with a :: s' => if is_blank a then lstrip s' else s | [] => [] end.
Definition strip (s : text) : text := rev (lstrip (rev (lstrip s))).
Definition indent : text := nl :: str "    ".

(** the dictionary tensor_ordering of lines 18-20 *)
Definition ordering_items : list (text * nat) :=
  map (fun i => (str "H" ++ decimal i, i)) (seq 1 9) ++ map (fun i => (str "T" ++ decimal i, i + 100)) (seq 1 9) ++ map (fun i => (str "C" ++ decimal i, i + 200)) (seq 0 10).
Definition tensor_ordering (name : text) : pyres nat := dict_item text_eqb name ordering_items.
(** sorted(s, key=lambda x: tensor_ordering[x]) of a set of names *)
Definition sorted_names (s : list text) : pyres (list text) :=
  pybind (pymap (fun x => pybind (tensor_ordering x) (fun k => Ok (x, k))) s) (fun ks =>
  Ok (map fst (sort_by (fun a b => snd a <? snd b) ks))).
Definition text_set (l : list text) : list text := nodup (list_eq_dec ascii_dec) l.
(** lines 110-112: the name with the number of bodies; n_body raises unless there are as many upper as lower indices *)
Definition tensor_names (t : term) : pyres (list text) :=
  pymap (fun x => if length (tupper x) =? length (tlower x) then Ok (list_ascii_of_string (tname x) ++ decimal (length (tlower x))) else Raise ValueError) (ttensors t).

Definition last_index {A} (l : list A) (i : nat) : bool := i =? length l - 1.
(** lines 107-128: the loop; the flag is initiate_temp *)
Definition term_code (block perm : text) (terms : list term) (initiate : bool) (i : nat) (t : term) : pyres text :=
  let start := match perm with
    | [] => []
    | _ => if i =? 0 then if initiate then build_temp block ++ [nl] else str "temp.zero();" ++ [nl] else []
    end in
  pybind (term_ambit (str "C") (negb (last_index terms i)) false true t) (fun code =>
  Ok (indent ++ strip (replace_char nl indent (start ++ code)))).
Definition terms_code (block perm : text) (terms : list term) (initiate : bool) : pyres text :=
  pybind (pymap (fun it => term_code block perm terms initiate (fst it) (snd it)) (enumerate 0 terms)) (fun l => Ok (concat l)).
Fixpoint perms_code (block : text) (perm_terms : inner) (initiate : bool) : pyres (text * list text * bool) :=
  match perm_terms with
  | [] => Ok ([], [], initiate)
  | (perm, terms) :: rest =>
      pybind (pymap tensor_names terms) (fun names =>
      pybind (terms_code block perm terms initiate) (fun out =>
      let initiate' := initiate && match perm, terms with [], _ => true | _, [] => true | _, _ => false end in
      pybind (perms_code block rest initiate') (fun r =>
      let '(out', names', flag) := r in Ok (out ++ [nl] ++ out', concat names ++ names', flag))))
  end.
(** ({contracted tensor names}, number of bodies of the target, call, declaration, C++ function, its name) *)
Record block_result : Type := BlockResult { b_tensors : list text; b_target : nat; b_call : text; b_declare : text; b_func : text; b_name : text }.
Definition target_name (n : nat) : text := str "C" ++ decimal n.
Definition save_terms_blocks (perm_terms : inner) (block func_name namespace : text) : pyres block_result :=
  let target := length block / 2 in
  let block := match block with [] => str "0" | _ => block end in
  pybind (perms_code block perm_terms true) (fun r =>
  let '(out, names, initiate) := r in
  pybind (sorted_names (text_set names)) (fun tensors =>
  let func_footprint := join (str ", ") (map (fun i => str "BlockedTensor& " ++ i) tensors) ++
                        (if target =? 0 then str ", double& C0" else str ", BlockedTensor& " ++ target_name target) in
  let name := func_name ++ str "_" ++ block in
  let func := str "void " ++ namespace ++ str "::" ++ name ++ str "(" ++ func_footprint ++ str ") {" ++
              (if initiate then [] else indent ++ str "BlockedTensor temp;" ++ [nl]) in
  Ok (BlockResult tensors target (name ++ str "(" ++ join (str ", ") (tensors ++ [target_name target]) ++ str ");")
                  (str "void " ++ name ++ str "(" ++ func_footprint ++ str ");") (func ++ out ++ str "}") name))).

(** ** write_forte_functions.py:6-83 *)
Definition mem_text (x : text) (l : list text) : bool := if in_dec (list_eq_dec ascii_dec) x l then true else false.
Definition g_indices (a n : nat) : text := join (str ",") (map (fun i => str "g" ++ decimal i) (seq a n)).
(** lines 60-79: one target of the suffix *)
Definition dagger_lines (destroy_h : bool) (n_body : nat) : list text :=
  let upper := g_indices 0 n_body in
  let lower := g_indices n_body n_body in
  let i := target_name n_body in
  if n_body =? 0 then str "C0 *= 2.0;" :: (if destroy_h then [] else [str "BlockedTensor temp;"])
  else
    let name := if destroy_h then str "H" ++ decimal n_body else str "temp" in
    (if destroy_h then [] else [build_temp (repeat "g"%char (2 * n_body))]) ++
    [name ++ str "[""" ++ upper ++ str "," ++ lower ++ str """] = " ++ i ++ str "[""" ++ upper ++ str "," ++ lower ++ str """];";
     i ++ str "[""" ++ upper ++ str "," ++ lower ++ str """] += " ++ name ++ str "[""" ++ lower ++ str "," ++ upper ++ str """];"].
Definition zero_line (n_body : nat) : text := if n_body =? 0 then str "C0 = 0.0;" else target_name n_body ++ str ".zero();".
(** built in lines 47-56 and not used *)
Definition scale_line (n_body : nat) : text := if n_body =? 0 then str "C0 *= factor;" else target_name n_body ++ str ".scale(factor);".
Definition tensor_type (name : text) : text := if text_eqb name (str "C0") then str "double" else str "BlockedTensor".
(** the name and the C++ text of the main function, the declarations, and the functions of the blocks *)
Record driver_result : Type := DriverResult { d_func : text; d_declarations : text; d_blocks : list block_result }.
Definition save_terms_ambit_functions (input_terms : list term) (func_name namespace : text) (add_t_dagger destroy_h : bool) : pyres driver_result :=
  pybind (categorize_contractions input_terms) (fun cat_cons =>
  pybind (pymap (fun kv => save_terms_blocks (snd kv) (fst kv) func_name namespace) cat_cons) (fun blocks =>
  let func_tensors := text_set (concat (map b_tensors blocks)) in
  let func_targets := nodup Nat.eq_dec (map b_target blocks) in
  let destroy_h := if existsb (fun n => negb (n =? 0) && negb (mem_text (str "H" ++ decimal n) func_tensors)) func_targets then false else destroy_h in
  pybind (sorted_names func_tensors) (fun func_tensors =>
  pybind (pymap (fun n => pybind (tensor_ordering (target_name n)) (fun _ => Ok n)) func_targets) (fun func_targets =>
  let func_targets := sort_by Nat.ltb func_targets in
  let footprint := str "double factor, " ++ join (str ", ") (map (fun i => tensor_type i ++ str "& " ++ i) (func_tensors ++ map target_name func_targets)) in
  let suffix := if add_t_dagger then flat_map (dagger_lines destroy_h) func_targets else [] in
  let func := str "void " ++ namespace ++ str "::" ++ func_name ++ str "(" ++ footprint ++ str ") {" ++ indent ++
              join indent (map zero_line func_targets) ++ [nl] ++ indent ++
              join indent (map b_call blocks) ++ [nl] ++
              (match suffix with [] => [] | _ => indent end) ++ join indent suffix ++ nl :: str "}" in
  Ok (DriverResult func (str "void " ++ func_name ++ str "(" ++ footprint ++ str ");" ++ [nl] ++ join [nl] (map b_declare blocks)) blocks))))).
