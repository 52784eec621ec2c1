(* Jexp3, Jlog3 and Hlog3. *)
Require Import Reals Arith Lra Lia Psatz.
From Verif Require Import Vec3 Spatial Rot ExpLog Spec_Exp Deriv JointFacts ExpFacts ExpFacts2 ExpFacts3 Spec_ExpJac ExpJac ExpJacFacts.
Local Open Scope R_scope.

(* p I + q [w] + r w w^T *)
Definition poly (p q r : R) (w : V3) : M3 := m3add (m3add (m3scale p m3id) (m3scale q (skew w))) (m3scale r (m3outer w w)).
Ltac m3 := unfold poly, m3add, m3sub, m3scale, m3id, m3mul, m3outer, m3vec, skew, addSkew, v3dot, v3scale; cbn; f_equal; ring.
Lemma Jr_poly w : Jr w = poly (sinc (v3norm w)) (- cosc (v3norm w)) (sinc3 (v3norm w)) w. Proof. unfold Jr. destruct w. m3. Qed.
Lemma Jlog3_poly eps th w : Jlog3 eps th w = let st := sin th / (1 - cos th) in
  poly (if Rlt_dec th (ts3 eps) then 1 / 2 * (2 - th * th / 6) else 1 / 2 * (th * st)) (1 / 2)
    (if Rlt_dec th (ts3 eps) then 1 / 12 + th * th / 720 else 1 / (th * th) - st / (2 * th)) w.
Proof. unfold Jlog3. destruct (Rlt_dec th (ts3 eps)); destruct w; m3. Qed.
Lemma poly_mul p q r p' q' r' w : let N := v3dot w w in
  m3mul (poly p q r w) (poly p' q' r' w) = poly (p * p' - q * q' * N) (p * q' + q * p') (p * r' + q * q' + r * p' + r * r' * N) w.
Proof. destruct w. cbv zeta. m3. Qed.
Lemma poly_id w : poly 1 0 0 w = m3id. Proof. destruct w. m3. Qed.
Lemma jexp_set eps r J a b c : jexpCoeffs eps r = (a, b, c) -> Jexp3 eps SETTO r J = poly a b c r.
Proof. intros E. unfold Jexp3. rewrite E. destruct r. m3. Qed.
Theorem jexp_ops eps r J K : Jexp3 eps ADDTO r J = m3add J (Jexp3 eps SETTO r K) /\ Jexp3 eps RMTO r J = m3sub J (Jexp3 eps SETTO r K).
Proof.
  unfold Jexp3. destruct (jexpCoeffs eps r) as [[a b] c]. destruct r, J. split; unfold m3add, m3sub, m3scale, m3outer; cbn; f_equal; ring.
Qed.
Lemma ts3_pos eps : 0 < eps -> 0 < ts3 eps. Proof. intros H. unfold ts3. now apply sqrt_lt_R0, sqrt_lt_R0. Qed.
Lemma norm2_sqrt v : sqrt (v3norm2 v) = v3norm v. Proof. reflexivity. Qed.
Theorem jexp_big eps r J : 0 < eps -> ts3 eps <= v3norm r -> Jexp3 eps SETTO r J = Jr r.
Proof.
  intros He Hr. pose proof (ts3_pos eps He) as P. assert (N : v3norm r <> 0) by lra. rewrite Jr_poly. apply jexp_set. unfold jexpCoeffs. rewrite norm2_sqrt.
  destruct (Rlt_dec (v3norm r) (ts3 eps)) as [L|_]; [lra|]. rewrite sinc_nz, cosc_nz, sinc3_nz by exact N. f_equal; [f_equal|]; field; exact N.
Qed.
Lemma sinc3_near x : 0 <= x <= 1 -> 1 / 6 - x * x / 120 <= sinc3 x <= 1 / 6 - x * x / 120 + x * x * x * x / 5040.
Proof.
  intros H. destruct (Req_dec x 0) as [->|N].
  - unfold sinc3. destruct (Req_EM_T 0 0); [|contradiction]. lra.
  - pose proof (taylor_sinc x H) as [[A B] C]. pose proof (sinc3_mul x) as M. assert (P : 0 < x * x) by nra. split; apply (Rmult_le_reg_l (x * x) _ _ P); rewrite M; nra.
Qed.
Lemma v3_comp w : Rabs (vx w) <= v3norm w /\ Rabs (vy w) <= v3norm w /\ Rabs (vz w) <= v3norm w.
Proof. apply comp_le. Qed.
(* two polynomials in [w] are near when their coefficients are *)
Lemma poly_rot p q r w : poly p q r w = rotCoeffs r q p w. Proof. destruct w. unfold rotCoeffs. m3. Qed.
Lemma poly_close p q r p' q' r' w dp dq dr : v3norm w * v3norm w * Rabs (r - r') <= dr -> v3norm w * Rabs (q - q') <= dq -> Rabs (p - p') <= dp ->
  m3close (dr + dq + dp) (poly p q r w) (poly p' q' r' w).
Proof. intros A B C. rewrite !poly_rot. now apply coeffs_close. Qed.
Lemma m3close_mono d e A B : d <= e -> m3close d A B -> m3close e A B.
Proof. intros L H. unfold m3close in *. repeat match goal with H : _ /\ _ |- _ => destruct H end. repeat split; lra. Qed.
Lemma pow4 x T e : 0 <= x < T -> T <= 1 -> T * T * T * T = e -> 0 <= x * x * x * x <= e /\ 0 <= x * x * x <= T * T * T /\ 0 <= x * x <= 1 /\ 0 <= x * x * x * x * x <= x * x * x * x.
Proof.
  intros H HT E. assert (A : 0 <= x * x <= T * T) by (split; nra). assert (B : 0 <= x * x * x <= T * T * T) by (split; nra). assert (C : 0 <= x * x * x * x <= T * T * T * T) by (split; nra).
  assert (Dd : T * T <= 1) by nra. rewrite E in C. repeat split; try lra; nra.
Qed.
Theorem jexp_small eps r J : 0 < eps <= 1 / 4 -> v3norm r < ts3 eps -> m3close (ts3 eps ^ 3 / 12 + eps) (Jexp3 eps SETTO r J) (Jr r).
Proof.
  intros He Hr. destruct (ts3_spec eps ltac:(lra)) as (P & E4 & _ & _). pose proof (norm_nonneg r) as N0. set (x := v3norm r) in *.
  destruct (pow4 x (ts3 eps) eps (conj N0 Hr) ltac:(lra) E4) as (B4 & B3 & B2 & B5).
  assert (X1 : 0 <= x <= 1) by lra. pose proof (taylor_sinc x X1) as [[S1 S2] _]. pose proof (taylor_cosc x X1) as [K1 K2]. pose proof (sinc3_near x X1) as [R1 R2].
  rewrite Jr_poly. fold x. rewrite (jexp_set eps r J (1 - x * x / 6) (- 1 / 2 - x * x / 24) (1 / 6 - x * x / 120)).
  2:{ unfold jexpCoeffs. rewrite norm2_sqrt, norm2_norm. fold x. destruct (Rlt_dec x (ts3 eps)); [|contradiction]. reflexivity. }
  eapply m3close_mono; [|apply (poly_close _ _ _ _ _ _ r (eps / 120) (ts3 eps * ts3 eps * ts3 eps / 12 + eps / 720) (eps / 5040))].
  - replace (ts3 eps ^ 3) with (ts3 eps * ts3 eps * ts3 eps) by ring. lra.
  - fold x. rewrite Rabs_left1 by lra. assert (Q : sinc3 x - (1 / 6 - x * x / 120) <= x * x * x * x / 5040) by lra. assert (Q0 : 0 <= sinc3 x - (1 / 6 - x * x / 120)) by lra.
    apply Rle_trans with (1 * (x * x * x * x / 5040)); [|lra]. apply Rmult_le_compat; lra.
  - fold x. replace (- 1 / 2 - x * x / 24 - - cosc x) with (cosc x - 1 / 2 - x * x / 24) by field.
    rewrite Rabs_left1 by nra. assert (Q : 1 / 2 + x * x / 24 - cosc x <= x * x / 12) by lra.
    apply Rle_trans with (x * (x * x / 12)); [apply Rmult_le_compat_l; lra|]. replace (x * (x * x / 12)) with (x * x * x / 12) by field. lra.
  - rewrite Rabs_left1 by lra. lra.
Qed.
