(** Specification: what a user expects of a family of comparison methods. *)
From Verif Require Import PyBase.

(** [==] is an equivalence, exactly one of <, ==, > holds, < is transitive and
    the remaining operators are the ones determined by < and ==. *)
Record lawful {A} (o : pyord A) : Prop := Lawful {
  lw_refl  : forall a, peq o a a = true;
  lw_sym   : forall a b, peq o a b = true -> peq o b a = true;
  lw_tran  : forall a b c, peq o a b = true -> peq o b c = true -> peq o a c = true;
  lw_tri   : forall a b,
      (plt o a b = true /\ peq o a b = false /\ pgt o a b = false) \/
      (plt o a b = false /\ peq o a b = true /\ pgt o a b = false) \/
      (plt o a b = false /\ peq o a b = false /\ pgt o a b = true);
  lw_lt_tran : forall a b c, plt o a b = true -> plt o b c = true -> plt o a c = true;
  lw_gt    : forall a b, pgt o a b = plt o b a;
  lw_le    : forall a b, ple o a b = plt o a b || peq o a b;
  lw_ge    : forall a b, pge o a b = pgt o a b || peq o a b }.

(** [==] is moreover identity of the modelled data. *)
Definition extensional {A} (o : pyord A) : Prop := forall a b, peq o a b = true <-> a = b.
