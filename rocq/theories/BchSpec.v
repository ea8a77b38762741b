(** Algebras that need not be commutative, nested commutators in them, and the value of symbolic sums of products. *)
From Coq Require Import Ascii String ZArith QArith Qcanon.
From Verif Require Import PyBase IterProofs TermModel BchModel.
Local Close Scope Q_scope.
Local Close Scope Qc_scope.
Local Open Scope nat_scope.

(** associative algebras over the rationals *)
Record ncalg : Type := NcAlg {
  ncar :> Type;
  n0 : ncar; n1 : ncar;
  nadd : ncar -> ncar -> ncar; nmul : ncar -> ncar -> ncar; nopp : ncar -> ncar;
  nadd_comm : forall x y, nadd x y = nadd y x;
  nadd_assoc : forall x y z, nadd x (nadd y z) = nadd (nadd x y) z;
  nadd_0 : forall x, nadd n0 x = x;
  nadd_opp : forall x, nadd x (nopp x) = n0;
  nmul_assoc : forall x y z, nmul x (nmul y z) = nmul (nmul x y) z;
  nmul_1l : forall x, nmul n1 x = x;
  nmul_1r : forall x, nmul x n1 = x;
  nmul_addl : forall x y z, nmul (nadd x y) z = nadd (nmul x z) (nmul y z);
  nmul_addr : forall x y z, nmul x (nadd y z) = nadd (nmul x y) (nmul x z);
  nscal : Qc -> ncar -> ncar;
  nscal_1 : forall x, nscal (Q2Qc 1) x = x;
  nscal_mul : forall a b x, nscal (Qcmult a b) x = nscal a (nscal b x);
  nscal_add : forall a b x, nscal (Qcplus a b) x = nadd (nscal a x) (nscal b x);
  nscal_addr : forall a x y, nscal a (nadd x y) = nadd (nscal a x) (nscal a y);
  nscal_mull : forall a x y, nmul (nscal a x) y = nscal a (nmul x y);
  nscal_mulr : forall a x y, nmul x (nscal a y) = nscal a (nmul x y) }.
Arguments n0 {_}. Arguments n1 {_}. Arguments nadd {_}. Arguments nmul {_}. Arguments nopp {_}. Arguments nscal {_}.

Section Algebra.
  Context {A : ncalg}.
  Definition nsum (l : list A) : A := fold_right nadd n0 l.
  Definition nprod (l : list A) : A := fold_right nmul n1 l.
  Definition npow (x : A) (k : nat) : A := nprod (repeat x k).
  Definition bracket (x y : A) : A := nadd (nmul x y) (nopp (nmul y x)).
  (** [[..[a, b], ..], b] with n copies of b *)
  Fixpoint nested (n : nat) (a b : A) : A := match n with 0 => a | S n' => bracket (nested n' a b) b end.
  (** the sum over k of (-1)^k C(n,k) b^k a b^(n-k) *)
  Definition signed_binomial (n k : nat) : Z := ((if Nat.even k then 1 else -1) * Z.of_nat (binomial n k))%Z.
  Definition binomial_sum (n : nat) (a b : A) : A :=
    nsum (map (fun k => nscal (Qc_of_Z (signed_binomial n k)) (nmul (npow b k) (nmul a (npow b (n - k))))) (seq 0 (n + 1))).

  (** values of symbolic expressions *)
  Context (v : symbol -> A).
  Definition word_value (w : word) : A := nprod (map v w).
  Definition poly_value (p : poly) : A := nsum (map (fun m => nscal (Qc_of_Z (fst m)) (word_value (snd m))) p).
  Fixpoint expr_value (e : expr) : A :=
    match e with Poly p => poly_value p | Commutator a b => bracket (expr_value a) (expr_value b) end.
End Algebra.

(** 2 x 2 matrices of rationals, an algebra that is not commutative *)
Definition m22 : Type := Qc * Qc * (Qc * Qc).
Definition m22_add (x y : m22) : m22 :=
  (fst (fst x) + fst (fst y), snd (fst x) + snd (fst y), (fst (snd x) + fst (snd y), snd (snd x) + snd (snd y)))%Qc.
Definition m22_mul (x y : m22) : m22 :=
  (fst (fst x) * fst (fst y) + snd (fst x) * fst (snd y), fst (fst x) * snd (fst y) + snd (fst x) * snd (snd y),
   (fst (snd x) * fst (fst y) + snd (snd x) * fst (snd y), fst (snd x) * snd (fst y) + snd (snd x) * snd (snd y)))%Qc.
Definition m22_scal (a : Qc) (x : m22) : m22 := (a * fst (fst x), a * snd (fst x), (a * fst (snd x), a * snd (snd x)))%Qc.
Ltac m22_ring := intros; repeat match goal with x : m22 |- _ => destruct x as [[? ?] [? ?]] end;
  unfold m22_add, m22_mul, m22_scal; cbn [fst snd]; f_equal; [f_equal|f_equal]; ring.
Definition M22 : ncalg.
Proof.
  refine (NcAlg m22 (0, 0, (0, 0))%Qc (1, 0, (0, 1))%Qc m22_add m22_mul (fun x => m22_scal (- (1))%Qc x)
    _ _ _ _ _ _ _ _ _ m22_scal _ _ _ _ _ _).
  all: try m22_ring.
  all: intros; repeat match goal with x : m22 |- _ => destruct x as [[? ?] [? ?]] end; unfold m22_add, m22_mul, m22_scal; cbn [fst snd].
  all: f_equal; [f_equal|f_equal]; ring.
Defined.
