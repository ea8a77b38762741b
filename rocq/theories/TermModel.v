(** Model of dsrg_generator/Tensor.py (constructors) and of the core of
    dsrg_generator/Term.py: construction, simplification, canonicalization and
    expansion of terms. Indices are canonical (label, number); coefficients are
    exact rationals where the program uses floats. *)
From Coq Require Import Ascii String ZArith QArith Qcanon.
From Verif Require Import PyBase SpaceModel IndicesModel ElemModel MacroModel.
Local Close Scope Q_scope.
Local Close Scope Qc_scope.
Local Open Scope nat_scope.
Local Notation length := List.length.

(** ** Tensors (Tensor.py) *)
Inductive tclass : Set := TTensor | TCumulant | THole | TKronecker | TCluster | THamiltonian.
Definition tclass_eqb (a b : tclass) : bool :=
  match a, b with
  | TTensor, TTensor | TCumulant, TCumulant | THole, THole | TKronecker, TKronecker
  | TCluster, TCluster | THamiltonian, THamiltonian => true
  | _, _ => false
  end.
Record tensor : Set := Ten {
  tcls : tclass; titype : itype; tname : string; tpriority : Z; tupper : list idx; tlower : list idx }.

(** IndicesSpinAdapted(l), IndicesSpinOrbital(l), ... (Indices.py:109-113, 503-506) on canonical indices *)
Definition make_typed (t : itype) (l : list idx) : pyres (list idx) :=
  if nodup_idx l then
    if itype_eqb t SpinOrbital && existsb idx_beta l then Raise ValueError else Ok l
  else Raise ValueError.

(** IndicesPair.py:221-225 *)
Definition is_spin_conserving (u l : list idx) : pyres bool :=
  if length u =? length l then Ok (n_beta u =? n_beta l) else Raise ValueError.

(** Tensor.py:275-296: an index of elementary space {'a'} is skipped *)
Definition lower_label (i : idx) : label := Lab false (lsp (fst i)).
Definition hole_like (i : idx) : bool :=
  negb (space_eqb (lsp (fst i)) Sa) && subset_label (relation (lower_label i)) (relation (Lab false Sh)).
Definition particle_like (i : idx) : bool :=
  negb (space_eqb (lsp (fst i)) Sa) && subset_label (relation (lower_label i)) (relation (Lab false Sp)).
Definition mixed_block (l : list idx) : bool := existsb hole_like l && existsb particle_like l.

(** The checks of the constructors (Tensor.py:166-170, 201-206, 243-248, 268-300, 314-317);
    the base class Tensor has none. *)
Definition check_tensor (x : tensor) : pyres tensor :=
  let conserving (k : pyres tensor) :=
    pybind (is_spin_conserving (tupper x) (tlower x)) (fun b => if b then k else Raise ValueError) in
  match tcls x with
  | TTensor => Ok x
  | TCumulant | THamiltonian => conserving (Ok x)
  | THole | TKronecker =>
      if (length (tupper x) =? 1) && (length (tlower x) =? 1) then conserving (Ok x) else Raise ValueError
  | TCluster => conserving (if mixed_block (tupper x) || mixed_block (tlower x) then Raise ValueError else Ok x)
  end.
(** Tensor.make_tensor / the class constructors applied to lists of index names *)
Definition make_tensor (c : tclass) (t : itype) (name : string) (prio : Z) (u l : list idx) : pyres tensor :=
  pybind (make_typed t u) (fun u => pybind (make_typed t l) (fun l => check_tensor (Ten c t name prio u l))).

(** tensor.from_indices(upper_indices, lower_indices) (Tensor.py:59-67) *)
Definition from_indices (x : tensor) (u l : list idx) : pyres tensor :=
  check_tensor (Ten (tcls x) (titype x) (tname x) (tpriority x) u l).

Definition tkey (x : tensor) : tensor_key := TensorKey (tpriority x) (tname x) (tupper x) (tlower x).
(** Tensor.py:69-97 *)
Definition tensor_ord : pyord tensor := key_ord tkey tensor_key_ord.

(** IndicesPair.py:59-63 *)
Definition tensor_indices (x : tensor) : list idx := tupper x ++ tlower x.
Definition op_indices (o : op) : list idx := cre o ++ ann o.
(** IndicesPair.py:142-147 *)
Definition op_diagonal (o : op) : list idx := filter (fun i => mem_idx i (ann o)) (cre o).
Definition tensor_diagonal (x : tensor) : list idx := filter (fun i => mem_idx i (tlower x)) (tupper x).

(** ** Terms (Term.py:109-171) *)
Record term : Type := MkTerm {
  ttype : itype;                    (* the index class of the operator and of all tensors *)
  ttensors : list tensor;           (* _list_of_tensors *)
  tsq : op;                         (* _sq_op *)
  tcoeff : Qc;                      (* _coeff *)
  tindices : list idx;              (* _indices_set, in insertion order *)
  tnext : label -> nat;             (* _next_index_number *)
  tdiag : list (idx * nat) }.       (* _diagonal_indices *)

Definition dedup (l : list idx) : list idx :=
  fold_left (fun s i => if mem_idx i s then s else s ++ [i]) l [].
Definition occurrences (i : idx) (l : list idx) : nat := length (filter (idx_eqb i) l).

(** all indices in the order in which they are counted (Term.py:128-149) *)
Definition content_indices (tensors : list tensor) (o : op) : list idx :=
  op_indices o ++ flat_map tensor_indices tensors.
Definition content_diagonal (tensors : list tensor) (o : op) : list idx :=
  dedup (op_diagonal o ++ flat_map tensor_diagonal tensors).

(** Term.py:165-169 *)
Definition next_numbers (l : list idx) (s : label) : nat :=
  fold_left (fun m i => if label_eqb (fst i) s then Nat.max m (snd i + 1) else m) l 0.

(** Term.py:109-171; the conversion of coeff to float and the isinstance tests are the types here *)
Definition make_term (t : itype) (tensors : list tensor) (o : op) (c : Qc) : pyres term :=
  if forallb (fun x => itype_eqb (titype x) t) tensors then
    let all := content_indices tensors o in
    let keys := dedup all in
    let diagonal := content_diagonal tensors o in
    if existsb (fun i => negb (mem_idx i diagonal) && negb (occurrences i all =? 2)) keys then Raise ValueError
    else if existsb (fun i => Nat.odd (occurrences i all)) diagonal then Raise ValueError
    else Ok (MkTerm t (sort_by (plt tensor_ord) tensors) o c keys (next_numbers keys)
                    (map (fun i => (i, occurrences i all)) diagonal))
  else Raise TypeError.

(** Term.py:306-308: abs(coeff) < 1.0e-15 *)
Definition Qc_abs (q : Qc) : Qc := if Qclt_le_dec q (Q2Qc 0) then Qcopp q else q.
Definition tiny : Qc := Q2Qc (1 # 1000000000000000).
Definition is_void_coeff (c : Qc) : bool := if Qclt_le_dec (Qc_abs c) tiny then true else false.
Definition is_void (t : term) : bool := is_void_coeff (tcoeff t).

(** Term.py:292-304: Term([], sq_op.void(), 0.0) and void_self *)
Definition void_term (t : itype) (next : label -> nat) : term := MkTerm t [] (Op [] []) (Q2Qc 0) [] next [].
Definition void (t : term) : term := void_term (ttype t) (fun _ => 0).
Definition void_self (t : term) : term := void_term (ttype t) (tnext t).

(** ** Fresh indices (Term.py:464-477) *)
Definition bump (next : label -> nat) (s : label) : label -> nat :=
  fun s' => if label_eqb s s' then S (next s') else next s'.
Definition generate_next_index (s : label) (next : label -> nat) : idx * (label -> nat) := ((s, next s), bump next s).

(** ** Replacement of indices (Term.py:479-506) *)
Definition repl := list (idx * idx).
Definition replace (r : repl) (l : list idx) : pyres (list idx) := pymap (fun i => dict_item idx_eqb i r) l.
Definition replace_tensor (r : repl) (x : tensor) : pyres tensor :=
  pybind (replace r (tupper x)) (fun u => pybind (make_typed (titype x) u) (fun u =>
  pybind (replace r (tlower x)) (fun l => pybind (make_typed (titype x) l) (fun l => from_indices x u l)))).
Definition replace_tensors_indices (xs : list tensor) (r : repl) : pyres (list tensor) :=
  match xs with [] => Raise ValueError | _ => pymap (replace_tensor r) xs end.
Definition replace_op_indices (t : itype) (o : op) (r : repl) : pyres op :=
  pybind (replace r (cre o)) (fun u => pybind (make_typed t u) (fun u =>
  pybind (replace r (ann o)) (fun l => pybind (make_typed t l) (fun l => Ok (Op u l))))).

(** ** simplify (Term.py:508-641) *)
(** replacement_diagonal: {diagonal index: set of indices} *)
Definition rdiag := list (idx * list idx).
Definition diag_init (d : list (idx * nat)) : rdiag := map (fun p => (fst p, [fst p])) d.
(** Term.py:596-599 *)
Definition diag_add (i i_new : idx) (rd : rdiag) : rdiag :=
  map (fun p => if idx_eqb i (fst p) then (fst p, if mem_idx i_new (snd p) then snd p else snd p ++ [i_new]) else p) rd.

Definition active_label (i : idx) : label := Lab (lbeta (fst i)) Sa.

(** state of the loops: (replacement, next_index, replacement_diagonal) *)
Definition sstate := (repl * (label -> nat) * rdiag)%type.
(** replacement[i] = generate_next_index(space); _add_replacement_diagonal *)
Definition assign_fresh (i : idx) (s : label) (st : sstate) : sstate :=
  let '(r, next, rd) := st in
  let '(f, next') := generate_next_index s next in
  (dict_set idx_eqb i f r, next', diag_add i f rd).

(** Tensor.py:172-196 for a Cumulant with one upper and one lower index *)
Definition downgrade_tensor_cumulant (x : tensor) : option label :=
  match tupper x, tlower x with u :: _, l :: _ => downgrade_cumulant u l | _, _ => None end.

(** Term.py:561-589, the body of the loop; returns the tensor kept in the list *)
Definition downgrade_step (core : bool) (x : tensor) (st : sstate) : pyres (tensor * sstate) :=
  match tcls x with
  | TCumulant =>
      if length (tupper x) =? 1 then
        match tupper x, tlower x with
        | [u], [l] =>
            match downgrade_cumulant u l with
            | None => Raise ValueError
            | Some s =>
                if space_eqb (lsp s) Sc && core
                then pybind (check_tensor (Ten TKronecker (titype x) "K" (-1)%Z [u] [l])) (fun k => Ok (k, st))
                else Ok (x, assign_fresh l s (assign_fresh u s st))
            end
        | _, _ => Raise IndexError
        end
      else Ok (x, fold_left (fun st i => assign_fresh i (active_label i) st) (tupper x ++ tlower x) st)
  | _ => Ok (x, st)
  end.
Fixpoint downgrade_loop (core : bool) (xs : list tensor) (st : sstate) : pyres (list tensor * sstate) :=
  match xs with
  | [] => Ok ([], st)
  | x :: xs' =>
      pybind (downgrade_step core x st) (fun r =>
      pybind (downgrade_loop core xs' (snd r)) (fun r' => Ok (fst r :: fst r', snd r')))
  end.

(** sorted([upper, lower]) of two indices *)
Definition high_low (u l : idx) : idx * idx := if idx_lt l u then (l, u) else (u, l).

(** Term.py:614-633, the body of the loop over the Kronecker deltas *)
Definition delta_step (x : tensor) (st : sstate) : pyres sstate :=
  match tupper x, tlower x with
  | u :: _, l :: _ =>
      match downgrade_kronecker u l with
      | None => Raise ValueError
      | Some _ =>
          let '(high, low) := high_low u l in
          let '(r, next, rd) := st in
          if space_eqb (lsp (fst high)) Sp && space_eqb (lsp (fst low)) Sh then
            let '(f, next') := generate_next_index (active_label high) next in
            Ok (dict_set idx_eqb low f (dict_set idx_eqb high f r), next', diag_add low f (diag_add high f rd))
          else Ok (dict_set idx_eqb high low r, next, diag_add high low rd)
      end
  | _, _ => Raise IndexError
  end.
Fixpoint delta_loop (xs : list tensor) (st : sstate) : pyres (list tensor * sstate) :=
  match xs with
  | [] => Ok ([], st)
  | x :: xs' =>
      if tclass_eqb (tcls x) TKronecker
      then pybind (delta_step x st) (fun st' => delta_loop xs' st')
      else pybind (delta_loop xs' st) (fun r => Ok (x :: fst r, snd r))
  end.

(** find_space_label of a set of labels, used as a key of next_index *)
Definition space_label_of (s : list label) : pyres label :=
  pybind (find_space_label (map label_char s)) (fun c =>
  match c with
  | None => Raise KeyError
  | Some ch => match char_label ch with Some l => Ok l | None => Raise KeyError end
  end).

(** set.intersection of the relations of a non-empty list of indices *)
Definition common_spaces (l : list idx) : list label :=
  match l with
  | [] => []
  | i :: l' => fold_left (fun s j => inter_label s (relation (fst j))) l' (relation (fst i))
  end.

(** Term.py:526-532 *)
Fixpoint diagonal_loop (d : list (idx * nat)) (rcu rdelta : rdiag) (r : repl) (next : label -> nat)
  : pyres (repl * (label -> nat)) :=
  match d with
  | [] => Ok (r, next)
  | (i, _) :: d' =>
      pybind (dict_item idx_eqb i rcu) (fun a => pybind (dict_item idx_eqb i rdelta) (fun b =>
      let all := dedup (a ++ b) in
      pybind (space_label_of (common_spaces all)) (fun s =>
      let '(f, next') := generate_next_index s next in
      let r' := fold_left (fun r j => dict_set idx_eqb j f r) all (dict_set idx_eqb i f r) in
      diagonal_loop d' rcu rdelta r' next')))
  end.

Definition all_active (r : repl) (x : tensor) : pyres bool :=
  pybind (replace r (tensor_indices x)) (fun l => Ok (forallb (fun i => space_eqb (lsp (fst i)) Sa) l)).
(** Term.py:535-543: Ok true if some cluster amplitude became all-active *)
Fixpoint any_active_amplitude (r : repl) (xs : list tensor) : pyres bool :=
  match xs with
  | [] => Ok false
  | x :: xs' =>
      if tclass_eqb (tcls x) TCluster
      then pybind (all_active r x) (fun b => if b then Ok true else any_active_amplitude r xs')
      else any_active_amplitude r xs'
  end.

(** Term.py:508-548. The term is changed in place; the new state of the object is returned
    (what an exception leaves behind is not modelled). *)
Definition simplify (core remove_active : bool) (t : term) : pyres term :=
  let r0 : repl := map (fun i => (i, i)) (tindices t) in
  pybind (downgrade_loop core (ttensors t) ([], tnext t, diag_init (tdiag t))) (fun cu =>
  let '(tensors1, (rcu, next1, rd1)) := cu in
  pybind (delta_loop tensors1 ([], next1, diag_init (tdiag t))) (fun de =>
  let '(tensors2, (rde, next2, rd2)) := de in
  let r1 := dict_update idx_eqb (dict_update idx_eqb r0 rcu) rde in
  pybind (diagonal_loop (tdiag t) rd1 rd2 r1 next2) (fun rn =>
  let '(r, next3) := rn in
  pybind (replace_op_indices (ttype t) (tsq t) r) (fun o =>
  pybind (if remove_active then any_active_amplitude r tensors2 else Ok false) (fun active =>
  if active then Ok (void_term (ttype t) next3)
  else
    pybind (replace_tensors_indices tensors2 r) (fun tensors3 =>
    pybind (pymap (fun p => pybind (dict_item idx_eqb (fst p) r) (fun i => Ok (i, snd p))) (tdiag t)) (fun d =>
    Ok (MkTerm (ttype t) tensors3 o (tcoeff t) (dedup (map snd r)) next3
               (fold_left (fun acc p => dict_set idx_eqb (fst p) (snd p) acc) d []))))))))).

(** ** canonicalize_simple (Term.py:663-679, 795-831) *)
(** Term.py:795-812; next_index_number starts at 0 for every space *)
Definition minimal_step (st : repl * (label -> nat)) (i : idx) : repl * (label -> nat) :=
  let '(r, next) := st in
  match dict_get idx_eqb i r with
  | Some _ => st
  | None => let '(f, next') := generate_next_index (fst i) next in (dict_set idx_eqb i f r, next')
  end.
Definition minimal_indices (t : term) : repl :=
  fst (fold_left minimal_step (content_indices (ttensors t) (tsq t)) ([], fun _ => 0)).

(** Tensor.py:146-153 *)
Definition canonicalize_tensor (x : tensor) : pyres (tensor * Z) :=
  pybind (canonicalize_pair (titype x) (tupper x) (tlower x)) (fun r =>
  let '(u, l, s) := r in pybind (from_indices x u l) (fun y => Ok (y, s))).
(** SQOperator.py:169-175 *)
Definition canonicalize_op (t : itype) (o : op) : pyres (op * Z) :=
  pybind (canonicalize_pair t (cre o) (ann o)) (fun r => let '(u, l, s) := r in Ok (Op u l, s)).

(** Term.py:814-831 *)
Definition relabel_indices (t : term) (r : repl) : pyres (Z * list tensor * op) :=
  pybind (replace_op_indices (ttype t) (tsq t) r) (fun o =>
  pybind (canonicalize_op (ttype t) o) (fun os =>
  pybind (replace_tensors_indices (ttensors t) r) (fun xs =>
  pybind (pymap canonicalize_tensor xs) (fun ys =>
  Ok ((snd os * fold_left Z.mul (map snd ys) 1)%Z, map fst ys, fst os))))).

Definition Qc_of_Z (z : Z) : Qc := Q2Qc (inject_Z z).

(** Term.py:663-679 *)
Definition canonicalize_simple (core remove_active : bool) (t : term) : pyres term :=
  pybind (simplify core remove_active t) (fun t' =>
  if is_void t' then Ok (void t')
  else
    pybind (relabel_indices t' (minimal_indices t')) (fun r =>
    let '(sign, xs, o) := r in make_term (ttype t') xs o (Qcmult (tcoeff t') (Qc_of_Z sign)))).

(** ** Expansion of composite indices (Term.py:1109-1151) *)
Definition count_in (s : space) (l : list label) : nat := length (filter (fun x => space_eqb (lsp x) s) l).

(** Term.py:1123-1131 *)
Definition ddca_kept (max_core max_virt : Z) (single_ref : bool) (spaces : list label) : bool :=
  negb ((max_core <? Z.of_nat (count_in Sc spaces))%Z || (max_virt <? Z.of_nat (count_in Sv spaces))%Z)
  && negb (negb (count_in Sa spaces =? 0) && single_ref).

(** Term.py:1132-1138. The iteration order of indices_set is the order of [tindices]. *)
Definition ddca_replacement (start : nat) (t : term) (spaces : list label) : repl :=
  let st := fold_left (fun st p =>
              let '(r, next) := st in
              let '(f, next') := generate_next_index (snd p) next in (dict_set idx_eqb (fst p) f r, next'))
              (combine (op_indices (tsq t)) spaces) ([] : repl, fun _ => start) in
  fst (fold_left minimal_step (tindices t) st).

(** Term.py:1109-1141; the sets space_relation[...] are iterated in the order of [relation] *)
Definition make_ddca (max_core max_virt : Z) (single_ref : bool) (start : nat) (t : term) : pyres (list term) :=
  pymap (fun spaces =>
    let r := ddca_replacement start t spaces in
    pybind (replace_op_indices (ttype t) (tsq t) r) (fun o =>
    pybind (replace_tensors_indices (ttensors t) r) (fun xs => make_term (ttype t) xs o (tcoeff t))))
    (filter (ddca_kept max_core max_virt single_ref)
            (iproduct (map (fun i => relation (fst i)) (op_indices (tsq t))))).

(** Term.py:1143-1151 *)
Definition expand_composite_indices (single_ref : bool) (start : nat) (t : term) : pyres (list term) :=
  let n := Z.of_nat (length (op_indices (tsq t))) in make_ddca n n single_ref start t.

(** ** Operators (Term.py:17-34, 73-95) *)
Definition indices_range (s : label) (from to : nat) : list idx := map (pair s) (seq from (to - from)).
Definition inv_fact_sq (k : nat) : Qc := Qcinv (Qc_of_Z (Z.of_nat (fact k * fact k))).

(** Term.py:17-34 *)
Definition hamiltonian_operator (k start : nat) (t : itype) : pyres term :=
  let g := Lab false Sg in
  let lowr := indices_range g start (start + k) in
  let highr := indices_range g (start + k) (start + 2 * k) in
  pybind (make_tensor THamiltonian t "H" 0%Z highr lowr) (fun x =>
  pybind (make_typed t lowr) (fun c => pybind (make_typed t highr) (fun a =>
  make_term t [x] (Op c a) (inv_fact_sq k)))).

(** Term.py:73-95 *)
Definition cluster_operator (k start : nat) (excitation : bool) (name : string) (scale_factor : Qc)
  (hole_label particle_label : label) (t : itype) : pyres term :=
  let hole := indices_range hole_label start (start + k) in
  let particle := indices_range particle_label start (start + k) in
  let '(first, second) := if excitation then (particle, hole) else (hole, particle) in
  pybind (make_tensor TCluster t name 1%Z hole particle) (fun x =>
  pybind (make_typed t first) (fun c => pybind (make_typed t second) (fun a =>
  make_term t [x] (Op c a) (Qcmult scale_factor (inv_fact_sq k))))).
