(* exp6 and the quaternion exponentials against the exact ones. *)
Require Import Reals Lra Lia Psatz.
From Verif Require Import Vec3 Spatial InertiaFacts Deriv Joints Rot RotFacts ExpLog Spec_Exp ExpFacts ExpFacts2 ExpFacts3.
Local Open Scope R_scope.

Lemma cauchy u v : Rabs (v3dot u v) <= v3norm u * v3norm v.
Proof.
  apply Rsqr_incr_0_var; [|apply Rmult_le_pos; apply norm_nonneg]. rewrite <- Rsqr_abs. unfold Rsqr. replace (v3norm u * v3norm v * (v3norm u * v3norm v)) with (v3norm u * v3norm u * (v3norm v * v3norm v)) by ring. rewrite !norm_sq.
  destruct u as [a b c], v as [p q r]. unfold v3dot. cbn [vx vy vz]. pose proof (Rle_0_sqr (a * q - b * p)). pose proof (Rle_0_sqr (a * r - c * p)). pose proof (Rle_0_sqr (b * r - c * q)). unfold Rsqr in *. lra.
Qed.
Lemma norm_cross u v : v3norm (v3cross u v) <= v3norm u * v3norm v.
Proof.
  apply Rsqr_incr_0_var; [|apply Rmult_le_pos; apply norm_nonneg]. unfold Rsqr. replace (v3norm u * v3norm v * (v3norm u * v3norm v)) with (v3norm u * v3norm u * (v3norm v * v3norm v)) by ring. rewrite !norm_sq.
  destruct u as [a b c], v as [p q r]. unfold v3dot, v3cross. cbn [vx vy vz]. pose proof (Rle_0_sqr (a * p + b * q + c * r)). unfold Rsqr in *. lra.
Qed.
Lemma trans_close av aw ax av' aw' ax' v w dv dw dx : Rabs (av - av') <= dv -> v3norm w * v3norm w * Rabs (aw - aw') <= dw -> v3norm w * Rabs (ax - ax') <= dx ->
  v3close ((dv + dw + dx) * v3norm v)
    (v3add (v3add (v3scale av v) (v3scale (aw * v3dot w v) w)) (v3scale ax (v3cross w v)))
    (v3add (v3add (v3scale av' v) (v3scale (aw' * v3dot w v) w)) (v3scale ax' (v3cross w v))).
Proof.
  intros HA HB HC. destruct (comp_le v) as (X & Y & Z). destruct (comp_le w) as (U & V & W). destruct (comp_le (v3cross w v)) as (P & Q & R). assert (D := cauchy w v). assert (N := norm_cross w v). assert (Pv := norm_nonneg v). assert (Pw := norm_nonneg w).
  set (nv := v3norm v) in *. set (nw := v3norm w) in *. set (d := v3dot w v) in *. set (c := v3cross w v) in *.
  assert (G : forall x u p, Rabs x <= nv -> Rabs u <= nw -> Rabs p <= v3norm c -> Rabs ((av * x + aw * d * u + ax * p) - (av' * x + aw' * d * u + ax' * p)) <= (dv + dw + dx) * nv).
  { intros x u p Hx Hu Hp. replace ((av * x + aw * d * u + ax * p) - (av' * x + aw' * d * u + ax' * p)) with ((av - av') * x + (aw - aw') * (d * u) + (ax - ax') * p) by ring.
    replace ((dv + dw + dx) * nv) with (dv * nv + dw * nv + dx * nv) by ring. apply tri2; [apply tri2|].
    - now apply prod_le.
    - apply (lin_le _ _ (nw * nv * nw)); [now apply prod_le|]. replace (nw * nv * nw * Rabs (aw - aw')) with (nw * nw * Rabs (aw - aw') * nv) by ring. now apply Rmult_le_compat_r.
    - apply (lin_le _ _ (nw * nv)); [lra|]. replace (nw * nv * Rabs (ax - ax')) with (nw * Rabs (ax - ax') * nv) by ring. now apply Rmult_le_compat_r. }
  unfold v3close, v3add, v3scale. cbn [vx vy vz]. repeat split; apply G; assumption.
Qed.
Theorem exp6_close eps nu : 0 < eps <= 1 / 4 ->
  m3close (4 * eps) (rot (exp6 eps nu)) (rot (SE3exp nu)) /\ v3close (12 * eps * v3norm (lin nu)) (trans (exp6 eps nu)) (trans (SE3exp nu)).
Proof.
  intros He. destruct nu as [v w]. unfold SE3exp, Texp. cbn [rot trans lin ang]. rewrite Rexp_coeffs. unfold exp6. cbv zeta. cbn [rot trans lin ang]. rewrite norm2_norm. set (s := v3norm w). assert (Hs : 0 <= s) by apply norm_nonneg. set (t2 := s * s + eps * eps). set (t := sqrt t2).
  destruct (Rlt_dec t (ts3 eps)) as [B|B].
  - destruct (small_close eps s He Hs ltac:(fold t2 t; lra)) as (X & Y & Z). destruct (small_trans eps s He Hs ltac:(fold t2 t; lra)) as (X' & Y' & Z'). fold t2 in X, Y, Z, X', Y', Z'. split.
    + replace (4 * eps) with (eps / 2 + eps / 2 + (3 * eps)) by field. apply coeffs_close; try assumption. lra.
    + replace (12 * eps) with (eps + eps + (10 * eps)) by field. apply trans_close; try assumption. fold s. lra.
  - destruct (big_close eps s He Hs ltac:(fold t2 t; lra)) as (X & Y & Z). destruct (big_trans eps s He Hs ltac:(fold t2 t; lra)) as (X' & Y' & Z'). fold t2 in X, Y, Z, X', Y', Z'. fold t in X, Y, Z, X', Y', Z'. split.
    + replace ((1 - cos t) * (1 / t2)) with ((1 - cos t) / t2) by (unfold Rdiv; ring). replace (4 * eps) with (eps + 2 * eps + (eps / 2 + eps / 2)) by field. apply coeffs_close; try assumption. lra.
    + replace (12 * eps) with (4 * eps + 6 * eps + (2 * eps)) by field. apply trans_close; assumption.
Qed.
Theorem exp6_translation eps v : 0 < eps <= 1 / 4 -> exp6 eps (mkV6 v v3zero) = mkSE3 (m3scale (1 - eps * eps / 2) m3id) (v3scale (1 - eps * eps / 6) v).
Proof.
  intros He. unfold exp6. cbv zeta. cbn [lin ang]. rewrite norm2_norm, norm0. destruct (ts3_spec eps ltac:(lra)) as (T0 & T4 & T2 & T1). rewrite Rmult_0_l, Rplus_0_l, (sqrt_square eps) by lra.
  destruct (Rlt_dec eps (ts3 eps)) as [B|B]; [|exfalso; assert (ts3 eps < 1) by nra; nra].
  destruct v. f_equal; [unfold rotCoeffs, m3scale, m3id, v3zero; cbn; f_equal; field | unfold v3add, v3scale, v3cross, v3dot, v3zero; cbn; f_equal; field].
Qed.
(* the exact exponential leaves its own twist invariant *)
Theorem SE3exp_screw nu : motion_act (SE3exp nu) nu = nu.
Proof.
  destruct nu as [v w]. unfold motion_act, SE3exp, Texp. cbn [rot trans lin ang]. rewrite Rexp_coeffs. assert (N := norm_sq w). set (s := v3norm w) in *. assert (C := cosc_mul s). rewrite N in C.
  set (a := cosc s) in *. set (b := sinc s) in *. set (g := cos s) in *. set (k := sinc3 s) in *. clearbody a b g k. clear N. destruct v as [x y z], w as [p q r]. unfold v3dot in C. cbn [vx vy vz] in C. assert (g = 1 - (p * p + q * q + r * r) * a) by lra. subst g.
  unfold m3vec, rotCoeffs, v3add, v3cross, v3scale, v3dot. cbn [vx vy vz m00 m01 m02 m10 m11 m12 m20 m21 m22]. f_equal; f_equal; ring.
Qed.
(* the screw defect of the computed exponential *)
Lemma exp6_c3 eps nu : exists big aw, let t2 := v3norm (ang nu) * v3norm (ang nu) + eps * eps in let a := fst (fst (c3 eps t2 big)) in let b := snd (fst (c3 eps t2 big)) in let g := snd (c3 eps t2 big) in
  exp6 eps nu = mkSE3 (rotCoeffs a b g (ang nu)) (v3add (v3add (v3scale b (lin nu)) (v3scale (aw * v3dot (ang nu) (lin nu)) (ang nu))) (v3scale a (v3cross (ang nu) (lin nu)))) /\
  (if big : bool then ts3 eps <= sqrt t2 else sqrt t2 <= ts3 eps).
Proof.
  unfold exp6. cbv zeta. rewrite norm2_norm. destruct (Rlt_dec (sqrt (v3norm (ang nu) * v3norm (ang nu) + eps * eps)) (ts3 eps)) as [B|B].
  - exists false. eexists. split; [reflexivity | lra].
  - exists true. eexists. split; [|lra]. unfold c3. cbn [fst snd]. set (q := v3norm (ang nu) * v3norm (ang nu) + eps * eps). replace ((1 - cos (sqrt q)) * (1 / q)) with ((1 - cos (sqrt q)) / q) by (unfold Rdiv; ring). reflexivity.
Qed.
Lemma screw_defect a b g aw v w : let l := a * v3dot w w + g in
  motion_act (mkSE3 (rotCoeffs a b g w) (v3add (v3add (v3scale b v) (v3scale (aw * v3dot w v) w)) (v3scale a (v3cross w v)))) (mkV6 v w) =
  mkV6 (v3add v (v3scale (1 - l) (v3add (v3add (v3scale (- (1 + a * v3dot w w)) v) (v3scale (a * v3dot w v) w)) (v3scale b (v3cross w v))))) (v3scale l w).
Proof. cbv zeta. destruct v as [x y z], w as [p q r]. unfold motion_act. cbn [rot trans lin ang]. unfold m3vec, rotCoeffs, v3add, v3cross, v3scale, v3dot. cbn [vx vy vz m00 m01 m02 m10 m11 m12 m20 m21 m22]. f_equal; f_equal; ring. Qed.
Theorem exp6_screw eps nu : 0 < eps <= 1 / 4 ->
  v3close (4 * eps * v3norm (lin nu)) (lin (motion_act (exp6 eps nu) nu)) (lin nu) /\ exists l, ang (motion_act (exp6 eps nu) nu) = v3scale l (ang nu) /\ Rabs (l - 1) <= eps / 4.
Proof.
  intros He. destruct (exp6_c3 eps nu) as (big & aw & E & HB). cbv zeta in *. rewrite E. destruct nu as [v w]. cbn [lin ang] in *. rewrite screw_defect. cbn [lin ang]. set (s := v3norm w) in *. assert (Hs : 0 <= s) by apply norm_nonneg.
  assert (A := c3_axis eps s big He Hs HB). set (t2 := s * s + eps * eps) in *. rewrite <- norm_sq. fold s.
  assert (K : s * s * Rabs (fst (fst (c3 eps t2 big))) <= 3 /\ s * Rabs (snd (fst (c3 eps t2 big))) <= 2).
  { assert (X : s * s * Rabs (fst (fst (c3 eps t2 big)) - cosc s) <= eps /\ s * Rabs (snd (fst (c3 eps t2 big)) - sinc s) <= 2 * eps).
    { unfold c3. destruct big; cbn [fst snd]; [destruct (big_close eps s He Hs HB) as (X & Y & Z) | destruct (small_close eps s He Hs HB) as (X & Y & Z)]; fold t2 in X, Y, Z; split; lra. }
    destruct X as [X Y]. split.
    - rewrite <- (Rabs_right (s * s)) in X |- * by nra. rewrite <- Rabs_mult in X |- *. rewrite Rmult_minus_distr_l, cosc_mul in X. apply rabs_inv in X. pose proof (COS_bound s). apply Rabs_le. lra.
    - rewrite <- (Rabs_right s) in Y at 1 by lra. rewrite <- (Rabs_right s) at 1 by lra. rewrite <- Rabs_mult in Y |- *. rewrite Rmult_minus_distr_l, sinc_mul in Y. apply rabs_inv in Y. pose proof (SIN_bound s). apply Rabs_le. lra. }
  destruct K as [K1 K2]. set (a := fst (fst (c3 eps t2 big))) in *. set (b := snd (fst (c3 eps t2 big))) in *. set (l := a * (s * s) + snd (c3 eps t2 big)) in *. clearbody l. split; [|exists l; split; [reflexivity|exact A]].
  assert (T := trans_close (- (1 + a * (s * s))) a b 0 0 0 v w 4 3 2). fold s in T.
  assert (T1 : Rabs (- (1 + a * (s * s)) - 0) <= 4). { rewrite Rminus_0_r, Rabs_Ropp. apply Rle_trans with (1 + 3); [|lra]. apply tri2; [rewrite Rabs_R1; lra|]. rewrite Rmult_comm, Rabs_mult, (Rabs_right (s * s)) by nra. exact K1. }
  specialize (T T1 ltac:(rewrite Rminus_0_r; exact K1) ltac:(rewrite Rminus_0_r; exact K2)). set (vec := v3add (v3add (v3scale (- (1 + a * (s * s))) v) (v3scale (a * v3dot w v) w)) (v3scale b (v3cross w v))) in *. clearbody vec.
  assert (Pv := norm_nonneg v). set (nv := v3norm v) in *. clearbody nv. rewrite Rabs_minus_sym in A.
  assert (F : forall x y z, Rabs (x - (0 * y + 0 * v3dot w v * z + 0 * y)) <= (4 + 3 + 2) * nv -> Rabs x <= 9 * nv) by (intros x y z Hx; replace (x - (0 * y + 0 * v3dot w v * z + 0 * y)) with x in Hx by ring; lra).
  unfold v3close in *. unfold v3add, v3scale in *. cbn [vx vy vz] in *. destruct T as (P & Q & R).
  assert (F2 : forall x y, Rabs x <= 9 * nv -> Rabs (y + (1 - l) * x - y) <= 4 * eps * nv).
  { intros x y Hx. replace (y + (1 - l) * x - y) with ((1 - l) * x) by ring. apply Rle_trans with (eps / 4 * (9 * nv)); [now apply prod_le|]. nra. }
  repeat split; apply F2.
  - replace (vx vec) with (vx vec - (0 * vx v + 0 * v3dot w v * vx w + 0 * vx (v3cross w v))) by ring. lra.
  - replace (vy vec) with (vy vec - (0 * vy v + 0 * v3dot w v * vy w + 0 * vy (v3cross w v))) by ring. lra.
  - replace (vz vec) with (vz vec - (0 * vz v + 0 * v3dot w v * vz w + 0 * vz (v3cross w v))) by ring. lra.
Qed.
