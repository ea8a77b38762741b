(** Model of the optional arguments of compatible_elementary_contractions and composite_contractions
    (dsrg_generator/sqop_contraction.py:324-360). *)
From Verif Require Import PyBase SpaceModel IndicesModel ElemModel CodeModel.
From Coq Require Import ZArith.

(** The argument [categories] left out, given as a list, or as the view dict.keys(). A view can be iterated but not sliced. *)
Inductive cats_arg : Set := CatsNone | CatsList (l : list (list nat)) | CatsKeys (l : list (list nat)).
(** sqop_contraction.py:335-340 on a view: the first category with a contraction reaches categories[i_c:], a TypeError *)
Fixpoint keys_pairs (E : ecc econ) (cats : list (list nat)) : pyres (list (nat * nat)) :=
  match cats with
  | [] => Ok []
  | c1 :: rest =>
      pybind (dict_item key_eqb c1 (ele_con E)) (fun es =>
      match es with
      | [] => keys_pairs E rest
      | _ :: _ => pybind (encode E c1 0) (fun _ => Raise TypeError)
      end)
  end.
(** sqop_contraction.py:324-346 *)
Definition compatible_elementary (E : ecc econ) (arg : cats_arg) : pyres (list (nat * list nat)) :=
  pybind (match arg with CatsNone => compatible_pairs E (categories E) | CatsList l => compatible_pairs E l | CatsKeys l => keys_pairs E l end)
    (fun ps => Ok (fold_left add_compatible ps [])).
(** sqop_contraction.py:348-360 *)
Definition composite_contractions_of (pick : popper) (E : ecc econ) (target : list (list nat * Z)) (compatible : option (list (nat * list nat)))
  : pyres (list (list nat) * (list nat * list (list nat * Z) * list nat)) :=
  pybind (match compatible with Some m => Ok m | None => compatible_elementary E (CatsKeys (map fst target)) end)
    (fun m => composite_contractions pick E target m).
