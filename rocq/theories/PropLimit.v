(** C92: the fraction printed for a coefficient. *)
From Coq Require Import Ascii String ZArith QArith Qcanon Qabs Lia.
From Verif Require Import PyBase TermModel CombineModel PermuteModel AmbitModel LatexModel LatexSpec LatexProofs LimitProofs.
Local Close Scope Q_scope.
Local Close Scope Qc_scope.
Local Open Scope Z_scope.

(** |x - y| as a rational number *)
Definition distance (x y : Qc) : Q := Qabs (this x - this y).
Lemma distance_abs x y : (this (Qc_abs (x - y)%Qc) == distance x y)%Q.
Proof. rewrite Qc_abs_this, Qc_minus_this. reflexivity. Qed.
(** the denominator of the reduced fraction *)
Definition denominator (x : Qc) : Z := Z.pos (Qden (this x)).

(** limit_denominator finds a fraction with a denominator up to the bound, and no such fraction is closer. *)
Theorem C92_closest :
  forall bound q, 1 <= bound ->
  denominator (limit_denominator bound q) <= bound /\ forall p, denominator p <= bound -> (distance (limit_denominator bound q) q <= distance p q)%Q.
Proof.
  intros bound q H. destruct (limit_closest bound q H) as [D C]. split; [exact D|]. intros p Hp. specialize (C p Hp). unfold Qcle in C. rewrite !distance_abs in C. exact C.
Qed.
Print Assumptions C92_closest.

(** What is printed is off by at most half of 10^-9, and exact for denominators up to 10^9. *)
Theorem C92_error :
  forall q, (distance (limit_denominator 1000000000 q) q <= 1 # 2000000000)%Q /\ (denominator q <= 1000000000 -> limit_denominator 1000000000 q = q).
Proof.
  intros q. split; [|apply limit_exact]. destruct (C92_closest 1000000000 q ltac:(lia)) as [_ C].
  set (N := Qnum (this q)). set (D := Qden (this q)). set (b := 1000000000%positive) in *. set (a := (2 * N * Z.pos b + Z.pos D) / (2 * Z.pos D)).
  assert (A : Z.abs (2 * (N * Z.pos b - a * Z.pos D)) <= Z.pos D).
  { pose proof (Z.div_mod (2 * N * Z.pos b + Z.pos D) (2 * Z.pos D) ltac:(lia)) as DM. pose proof (Z.mod_pos_bound (2 * N * Z.pos b + Z.pos D) (2 * Z.pos D) ltac:(lia)) as MB. fold a in DM. apply Z.abs_le. lia. }
  eapply Qle_trans; [apply (C (Qcdiv (Qc_of_Z a) (Qc_of_Z (Z.pos b)))); apply quotient_den; lia|]. unfold distance. rewrite (quotient_this a (Z.pos b)) by lia.
  setoid_replace (this q) with (N # D)%Q by (unfold N, D; destruct (this q); reflexivity). change (Z.to_pos (Z.pos b)) with b. change (1 # 2000000000)%Q with (1 # (2 * b))%Q.
  unfold Qle, Qabs, Qminus, Qplus, Qopp. cbn [Qnum Qden]. rewrite !Pos2Z.inj_mul. replace (a * Z.pos D + - N * Z.pos b) with (- (N * Z.pos b - a * Z.pos D)) by ring. rewrite Z.abs_opp, Z.abs_mul in *. change (Z.abs 2) with 2 in A. clearbody b. nia.
Qed.
Print Assumptions C92_error.

(** A number with a rounding error is printed as the fraction it stands for, in C++ and in LaTeX, if the denominator of the fraction
    times the error is below half of 10^-9. *)
Theorem C92_recovers :
  forall q p, denominator p <= 1000000000 -> (distance p q * inject_Z (denominator p) < 1 # 2000000000)%Q ->
  latex_coeff q = rational_text p /\
  (denominator p = 1 -> format_coeff q = z_text (Qnum (this p)) ++ str ".0") /\
  (denominator p <> 1 -> format_coeff q = str "(" ++ z_text (Qnum (this p)) ++ str ".0 / " ++ z_text (denominator p) ++ str ".0)").
Proof.
  intros q p Hp L. assert (E : limit_denominator 1000000000 q = p). { apply (limit_recovers 1000000000 q p Hp). rewrite distance_abs. unfold denominator in L. generalize dependent (distance p q). intros [a b] L. unfold Qlt, Qmult, inject_Z in *. cbn [Qnum Qden] in *. rewrite !Pos2Z.inj_mul in *. change (Z.pos 1) with 1 in L. nia. }
  rewrite latex_coeff_printed. unfold format_coeff. rewrite E. split; [reflexivity|]. cbv zeta. unfold denominator. split; intros H; destruct (Pos.eqb_spec (Qden (this p)) 1) as [P|P]; try reflexivity; exfalso; [apply P; lia|rewrite P in H; contradiction].
Qed.
Print Assumptions C92_recovers.

(** The double next to -1/12 is printed as -1/12; the double next to pi is printed with a denominator below 10^9, and 355/113 is further away. *)
Definition twelfth : Qc := Q2Qc (-6004799503160661 # 72057594037927936).
Definition pi_double : Qc := Q2Qc (884279719003555 # 281474976710656).
Example C92_example :
  denominator (Q2Qc (-1 # 12)) <= 1000000000 /\ (distance (Q2Qc (-1 # 12)) twelfth * inject_Z 12 < 1 # 2000000000)%Q /\ ~ denominator twelfth <= 1000000000 /\
  latex_coeff twelfth = str "-1/12" /\ format_coeff twelfth = str "(-1.0 / 12.0)" /\
  this (limit_denominator 1000 pi_double) = (355 # 113)%Q /\ (distance (limit_denominator 1000000000 pi_double) pi_double < distance (Q2Qc (355 # 113)) pi_double)%Q.
Proof. repeat split; try (vm_compute; congruence); vm_compute; reflexivity. Qed.
