(** Fraction.limit_denominator returns a closest fraction. *)
From Coq Require Import Ascii String ZArith QArith Qcanon Qabs Lia Znumtheory.
From Verif Require Import PyBase TermModel CombineModel AmbitModel.
Local Close Scope Q_scope.
Local Close Scope Qc_scope.
Local Open Scope Z_scope.

(** ** The loop: x = (p1 n + p0 d) / (q1 n + q0 d) *)
Record loop_state (N D bound p0 q0 p1 q1 n d : Z) : Prop := {
  ls_num : N = p1 * n + p0 * d;
  ls_den : D = q1 * n + q0 * d;
  ls_det : p1 * q0 - p0 * q1 = 1 \/ p1 * q0 - p0 * q1 = -1;
  ls_q0 : 0 <= q0 <= bound;
  ls_q1 : 1 <= q1 <= bound;
  ls_rest : 0 < d <= n }.
Lemma state_next N D bound p0 q0 p1 q1 n d : rel_prime N D -> bound < D -> loop_state N D bound p0 q0 p1 q1 n d -> q0 + (n / d) * q1 <= bound ->
  loop_state N D bound p1 q1 (p0 + (n / d) * p1) (q0 + (n / d) * q1) d (n - (n / d) * d).
Proof.
  intros RP BD [H1 H2 H3 H4 H5 H6] HB. assert (E : n - n / d * d = n mod d) by (rewrite Z.mod_eq by lia; lia). rewrite E. pose proof (Z.mod_pos_bound n d ltac:(lia)) as MB. assert (A1 : 1 <= n / d) by (apply Z.div_le_lower_bound; lia).
  assert (N1 : N = (p0 + n / d * p1) * d + p1 * (n mod d)) by (rewrite <- E; nia). assert (D1 : D = (q0 + n / d * q1) * d + q1 * (n mod d)) by (rewrite <- E; nia).
  constructor; try assumption; try nia. split; [|lia]. destruct (Z.eq_dec (n mod d) 0) as [Z0|]; [exfalso|lia]. rewrite Z0 in N1, D1.
  destruct RP as [_ _ RP]. assert (DV : (d | 1)) by (apply RP; [exists (p0 + n / d * p1); lia|exists (q0 + n / d * q1); lia]). assert (d = 1) by (apply Z.divide_1_r_nonneg in DV; lia). nia.
Qed.
Lemma loop_ends : forall fuel N D bound p0 q0 p1 q1 n d, rel_prime N D -> bound < D -> loop_state N D bound p0 q0 p1 q1 n d -> n * d < 2 ^ Z.of_nat fuel ->
  exists p0' q0' p1' q1' n' d', limit_loop fuel bound p0 q0 p1 q1 n d = (p0', q0', p1', q1') /\ loop_state N D bound p0' q0' p1' q1' n' d' /\ bound < q0' + (n' / d') * q1'.
Proof.
  induction fuel as [|f IH]; intros N D bound p0 q0 p1 q1 n d RP BD ST FU.
  - exfalso. destruct ST as [_ _ _ _ _ H]. change (2 ^ Z.of_nat 0) with 1 in FU. nia.
  - cbn [limit_loop]. destruct (Z.ltb_spec bound (q0 + n / d * q1)) as [L|L]; [exists p0, q0, p1, q1, n, d; auto|].
    apply IH; [exact RP|exact BD|apply (state_next _ _ _ _ _ _ _ _ _ RP BD ST L)|]. destruct ST as [_ _ _ _ _ H6]. rewrite Nat2Z.inj_succ, Z.pow_succ_r in FU by lia.
    assert (E : n - n / d * d = n mod d) by (rewrite Z.mod_eq by lia; lia). rewrite E. pose proof (Z.mod_pos_bound n d ltac:(lia)) as MB. assert (A1 : 1 <= n / d) by (apply Z.div_le_lower_bound; lia). nia.
Qed.
Lemma loop_result N D bound : rel_prime N D -> 1 <= bound < D ->
  exists p0 q0 p1 q1 n d, limit_loop (2 * Z.to_nat (Z.log2 D) + 3) bound 0 1 1 0 N D = (p0, q0, p1, q1) /\ loop_state N D bound p0 q0 p1 q1 n d /\ bound < q0 + (n / d) * q1.
Proof.
  intros RP BD. replace (2 * Z.to_nat (Z.log2 D) + 3)%nat with (S (2 * Z.to_nat (Z.log2 D) + 2)) by lia. cbn [limit_loop].
  destruct (Z.ltb_spec bound (1 + N / D * 0)) as [L|_]; [exfalso; lia|]. assert (E : N - N / D * D = N mod D) by (rewrite Z.mod_eq by lia; lia). rewrite E. pose proof (Z.mod_pos_bound N D ltac:(lia)) as MB.
  apply (loop_ends _ N D); [exact RP|lia| |].
  - constructor; try lia. split; [|lia]. destruct (Z.eq_dec (N mod D) 0) as [Z0|]; [exfalso|lia]. destruct RP as [_ _ RP]. assert (DV : (D | 1)) by (apply RP; [exists (N / D); lia|exists 1; lia]). apply Z.divide_1_r_nonneg in DV; lia.
  - pose proof (Z.log2_spec D ltac:(lia)) as [_ L2]. pose proof (Z.log2_nonneg D) as LN. replace (Z.of_nat (2 * Z.to_nat (Z.log2 D) + 2)) with (Z.succ (Z.log2 D) + Z.succ (Z.log2 D)) by lia. rewrite Z.pow_add_r by lia. nia.
Qed.

(** ** Two neighbours: every fraction with a denominator up to the bound is at least as far away as one of them *)
Lemma neighbours N D bound p1 q1 A B m d P S : 0 < D -> N = p1 * m + A * d -> D = q1 * m + B * d -> p1 * B - A * q1 = 1 \/ p1 * B - A * q1 = -1 ->
  1 <= q1 -> 1 <= B -> 0 < m -> 0 < d -> bound < q1 + B -> 1 <= S <= bound ->
  Z.abs (N * q1 - p1 * D) * S <= Z.abs (N * S - P * D) * q1 \/ Z.abs (N * B - A * D) * S <= Z.abs (N * S - P * D) * B.
Proof.
  intros HD EN ED DET Q1 B1 HM Hd HB HS. set (e := p1 * B - A * q1) in *.
  set (u := e * (P * B - A * S)). set (v := e * (p1 * S - P * q1)).
  assert (EE : e * e = 1) by (destruct DET as [-> | ->]; reflexivity).
  assert (EP : P = p1 * u + A * v) by (transitivity (e * e * P); [rewrite EE; ring|unfold u, v, e; ring]). assert (ES : S = q1 * u + B * v) by (transitivity (e * e * S); [rewrite EE; ring|unfold u, v, e; ring]).
  clearbody u v.
  assert (X1 : N * q1 - p1 * D = - (e * d)) by (rewrite EN, ED; unfold e; ring).
  assert (X2 : N * B - A * D = e * m) by (rewrite EN, ED; unfold e; ring).
  assert (X3 : N * S - P * D = e * (m * v - d * u)) by (rewrite EN, ED, EP, ES; unfold e; ring).
  rewrite X1, X2, X3, Z.abs_opp, !Z.abs_mul. assert (AE : Z.abs e = 1) by (destruct DET as [-> | ->]; reflexivity). rewrite AE, (Z.abs_eq d), (Z.abs_eq m) by lia. rewrite !Z.mul_1_l.
  clear X1 X2 X3 EN ED EP DET EE AE. clearbody e.
  assert (C : (1 <= u /\ v <= 0) \/ (u <= 0 /\ 1 <= v)).
  { destruct (Z_le_gt_dec u 0), (Z_le_gt_dec v 0); [exfalso; nia|right; lia|left; lia|exfalso; nia]. }
  destruct C as [[U V]|[U V]]; [left|right].
  - rewrite Z.abs_neq by nia. assert (S <= q1 * u) by nia. apply Z.le_trans with (d * (q1 * u)); [nia|]. assert (0 <= m * (- v) * q1) by (apply Z.mul_nonneg_nonneg; nia). lia.
  - rewrite Z.abs_eq by nia. assert (S <= B * v) by nia. apply Z.le_trans with (m * (B * v)); [nia|]. assert (0 <= d * (- u) * B) by (apply Z.mul_nonneg_nonneg; nia). lia.
Qed.

(** ** Rational numbers *)
Lemma Qc_abs_this x : (this (Qc_abs x) == Qabs (this x))%Q.
Proof.
  unfold Qc_abs. destruct (Qclt_le_dec x (Q2Qc 0)) as [L|L].
  - unfold Qclt in L. cbn [Qcopp this Q2Qc] in L |- *. rewrite Qred_correct in L |- *. symmetry. apply Qabs_neg, Qlt_le_weak, L.
  - unfold Qcle in L. cbn [this Q2Qc] in L. rewrite Qred_correct in L. symmetry. apply Qabs_pos, L.
Qed.
Lemma Qc_minus_this x y : (this (Qcminus x y) == this x - this y)%Q.
Proof. unfold Qcminus, Qcplus, Qcopp, Q2Qc, Qminus. cbn [this]. rewrite !Qred_correct. reflexivity. Qed.
Lemma quotient_this a b : 0 < b -> (this (Qcdiv (Qc_of_Z a) (Qc_of_Z b)) == a # Z.to_pos b)%Q.
Proof.
  intros H. unfold Qcdiv, Qcmult, Qcinv, Qc_of_Z, Q2Qc. cbn [this]. rewrite !Qred_correct. destruct b as [|b|b]; try lia. unfold Qeq, Qmult, Qinv, inject_Z. cbn. lia.
Qed.
Lemma quotient_den a b : 0 < b -> Z.pos (Qden (this (Qcdiv (Qc_of_Z a) (Qc_of_Z b)))) <= b.
Proof.
  intros H. pose proof (quotient_this a b H) as E. set (r := Qcdiv (Qc_of_Z a) (Qc_of_Z b)) in *. pose proof (canon r) as C. apply Qred_complete in E. rewrite C in E.
  rewrite E. unfold Qred. pose proof (Z.ggcd_gcd a (Z.pos (Z.to_pos b))) as G. pose proof (Z.ggcd_correct_divisors a (Z.pos (Z.to_pos b))) as GC. destruct (Z.ggcd a (Z.pos (Z.to_pos b))) as [g [aa bb]]. cbn [fst snd Qden] in *. rewrite Z2Pos.id in * by lia.
  destruct GC as [_ GC]. pose proof (Z.gcd_nonneg a b). assert (0 < g) by (destruct (Z.eq_dec g 0) as [G0|]; [rewrite G0 in GC; lia|lia]). assert (0 < bb) by nia. rewrite Z2Pos.id by lia. nia.
Qed.
Lemma this_reduced (q : Qc) : rel_prime (Qnum (this q)) (Z.pos (Qden (this q))).
Proof.
  pose proof (canon q) as C. apply Zgcd_1_rel_prime. pose proof (Z.ggcd_gcd (Qnum (this q)) (Z.pos (Qden (this q)))) as G. pose proof (Z.ggcd_correct_divisors (Qnum (this q)) (Z.pos (Qden (this q)))) as GC.
  unfold Qred in C. destruct (this q) as [n d]. cbn [Qnum Qden] in *. destruct (Z.ggcd n (Z.pos d)) as [g [aa bb]]. cbn [fst snd] in *. injection C as Ea Eb. destruct GC as [_ GC].
  rewrite <- G. pose proof (Z.gcd_nonneg n (Z.pos d)). assert (0 < bb) by nia. assert (Z.pos d = bb) by (rewrite <- Eb; apply Z2Pos.id; lia). nia.
Qed.
(** comparing distances is comparing integers *)
Lemma closer (q r p : Qc) N D A B P S : (this q == N # D)%Q -> (this r == A # B)%Q -> (this p == P # S)%Q ->
  Z.abs (N * Z.pos B - A * Z.pos D) * Z.pos S <= Z.abs (N * Z.pos S - P * Z.pos D) * Z.pos B -> (Qc_abs (r - q) <= Qc_abs (p - q))%Qc.
Proof.
  intros Eq Er Ep H. unfold Qcle. rewrite !Qc_abs_this, !Qc_minus_this, Eq, Er, Ep. unfold Qle, Qabs, Qminus, Qplus, Qopp. cbn [Qnum Qden].
  replace (A * Z.pos D + - N * Z.pos B) with (- (N * Z.pos B - A * Z.pos D)) by ring. replace (P * Z.pos D + - N * Z.pos S) with (- (N * Z.pos S - P * Z.pos D)) by ring.
  rewrite !Z.abs_opp, !Pos2Z.inj_mul. pose proof (Pos2Z.is_pos D). nia.
Qed.

(** ** limit_denominator *)
Lemma limit_closest bound q : 1 <= bound ->
  Z.pos (Qden (this (limit_denominator bound q))) <= bound /\
  forall p, Z.pos (Qden (this p)) <= bound -> (Qc_abs (limit_denominator bound q - q) <= Qc_abs (p - q))%Qc.
Proof.
  intros B1. unfold limit_denominator. destruct (Z.leb_spec (Z.pos (Qden (this q))) bound) as [L|L].
  - split; [exact L|]. intros p _. unfold Qcle. rewrite !Qc_abs_this, !Qc_minus_this. setoid_replace (this q - this q)%Q with 0%Q by ring. apply Qabs_nonneg.
  - cbv zeta. set (N := Qnum (this q)). set (D := Z.pos (Qden (this q))) in *. pose proof (this_reduced q) as RP. fold N D in RP.
    destruct (loop_result N D bound RP (conj B1 L)) as (p0 & q0 & p1 & q1 & n & d & -> & [H1 H2 H3 H4 H5 H6] & HB).
    set (k := (bound - q0) / q1). assert (K0 : 0 <= k) by (apply Z.div_pos; lia).
    assert (K1 : k * q1 <= bound - q0 < (k + 1) * q1). { pose proof (Z.div_mod (bound - q0) q1 ltac:(lia)) as DM. pose proof (Z.mod_pos_bound (bound - q0) q1 ltac:(lia)). fold k in DM. nia. }
    set (A := p0 + k * p1). set (B := q0 + k * q1). assert (BB : 1 <= B) by (unfold B; nia). assert (BL : B <= bound) by (unfold B; lia).
    assert (K2 : k < n / d) by nia. assert (M : 0 < n - k * d). { pose proof (Z.mul_div_le n d ltac:(lia)). nia. }
    assert (NE : forall p, Z.pos (Qden (this p)) <= bound ->
      (Qc_abs (Qcdiv (Qc_of_Z p1) (Qc_of_Z q1) - q) <= Qc_abs (p - q))%Qc \/ (Qc_abs (Qcdiv (Qc_of_Z A) (Qc_of_Z B) - q) <= Qc_abs (p - q))%Qc).
    { intros p Hp. set (P := Qnum (this p)). set (S := Z.pos (Qden (this p))) in *.
      assert (Eq : (this q == N # Qden (this q))%Q) by (unfold N; destruct (this q); reflexivity). assert (Ep : (this p == P # Qden (this p))%Q) by (unfold P; destruct (this p); reflexivity).
      destruct (neighbours N D bound p1 q1 A B (n - k * d) d P S) as [C|C]; try lia; try (unfold A, B; lia); try (unfold D; lia).
      - left. refine (closer _ _ _ _ _ _ _ _ _ Eq (quotient_this p1 q1 ltac:(lia)) Ep _). rewrite Z2Pos.id by lia. exact C.
      - right. refine (closer _ _ _ _ _ _ _ _ _ Eq (quotient_this A B ltac:(lia)) Ep _). rewrite Z2Pos.id by lia. exact C. }
    assert (D1 := quotient_den p1 q1 ltac:(lia)). assert (D2 := quotient_den A B ltac:(lia)).
    destruct (Qclt_le_dec _ _) as [X|X].
    + split; [lia|]. intros p Hp. destruct (NE p Hp) as [C|C]; [|exact C]. apply Qclt_le_weak in X. exact (Qcle_trans _ _ _ X C).
    + split; [lia|]. intros p Hp. destruct (NE p Hp) as [C|C]; [exact C|]. exact (Qcle_trans _ _ _ X C).
Qed.
(** Two fractions with denominators up to the bound are the same if both are close to a third number. *)
Lemma abs_triangle (p r q : Qc) e : (Qc_abs (r - q) <= Qc_abs (p - q))%Qc -> (this (Qc_abs (p - q)) < e)%Q -> (Qabs (this p - this r) < e + e)%Q.
Proof.
  intros H L. unfold Qcle in H. rewrite !Qc_abs_this, !Qc_minus_this in H. rewrite Qc_abs_this, Qc_minus_this in L.
  setoid_replace (this p - this r)%Q with ((this p - this q) + - (this r - this q))%Q by ring. eapply Qle_lt_trans; [apply Qabs_triangle|]. rewrite Qabs_opp.
  apply Qplus_lt_le_compat; [exact L|]. apply Qlt_le_weak. eapply Qle_lt_trans; [exact H|exact L].
Qed.
Lemma far_apart (p r : Qc) bound : Z.pos (Qden (this r)) <= Z.pos bound -> (Qabs (this p - this r) < 1 # (bound * Qden (this p)))%Q -> p = r.
Proof.
  intros Hr L. apply Qc_is_canon. destruct (this p) as [P S], (this r) as [A B]. cbn [Qden] in Hr, L. unfold Qlt, Qabs, Qminus, Qplus, Qopp in L. cbn [Qnum Qden] in L. rewrite !Pos2Z.inj_mul in L.
  unfold Qeq. cbn [Qnum Qden]. assert (Z.pos S * Z.pos B <= Z.pos bound * Z.pos S) by nia. assert (Z.abs (P * Z.pos B + - A * Z.pos S) < 1); [|lia].
  pose proof (Z.abs_nonneg (P * Z.pos B + - A * Z.pos S)) as AN. set (x := Z.abs _) in *. set (y := Z.pos bound * Z.pos S) in *. destruct (Z_lt_ge_dec x 1) as [|G]; [assumption|]. exfalso. assert (0 < y) by (unfold y; lia). nia.
Qed.
Lemma limit_recovers bound (q p : Qc) : Z.pos (Qden (this p)) <= Z.pos bound -> (this (Qc_abs (p - q)) < 1 # (2 * (bound * Qden (this p))))%Q -> limit_denominator (Z.pos bound) q = p.
Proof.
  intros Hp L. destruct (limit_closest (Z.pos bound) q ltac:(lia)) as [D C]. symmetry. apply (far_apart _ _ bound D). pose proof (abs_triangle _ _ _ _ (C p Hp) L) as T.
  eapply Qlt_le_trans; [exact T|]. unfold Qle, Qplus. cbn [Qnum Qden]. rewrite !Pos2Z.inj_mul. nia.
Qed.
