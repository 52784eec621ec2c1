(* The quaternion exponentials. *)
Require Import Reals Lra Lia Psatz.
From Verif Require Import Vec3 Spatial InertiaFacts Deriv Joints Rot RotFacts ExpLog Spec_Exp ExpFacts ExpFacts2 ExpFacts3 ExpFacts4.
Local Open Scope R_scope.

Lemma Qexp_spec v : qnorm2 (Qexp v) = 1 /\ qmat (Qexp v) = Rexp v.
Proof.
  rewrite Rexp_coeffs. unfold Qexp. cbv zeta. assert (N := norm_sq v). set (s := v3norm v) in *. assert (S := sinc_mul (s / 2)). assert (T := sin2_cos2 (s / 2)). unfold Rsqr in T.
  assert (C2 : cos s = 1 - 2 * (sin (s / 2) * sin (s / 2))) by apply half_cos. assert (S2 : sin s = 2 * (sin (s / 2) * cos (s / 2))) by apply half_sin.
  (* sinc s = sinc (s/2) cos (s/2), cosc s = sinc (s/2)^2 / 2 *)
  assert (A : sinc s = sinc (s / 2) * cos (s / 2)). { unfold sinc. destruct (Req_EM_T s 0) as [Z|Z], (Req_EM_T (s / 2) 0) as [Z2|Z2]; try lra; [rewrite Z2, cos_0; ring|]. rewrite S2. field. exact Z. }
  assert (B : cosc s = sinc (s / 2) * sinc (s / 2) / 2). { unfold cosc, sinc. destruct (Req_EM_T s 0) as [Z|Z], (Req_EM_T (s / 2) 0) as [Z2|Z2]; try lra. rewrite C2. field. exact Z. }
  rewrite A, B, C2. rewrite <- S in *. set (k := sinc (s / 2)) in *. set (c := cos (s / 2)) in *. clearbody k c. clear S S2 A B C2. destruct v as [x y z]. unfold v3dot in N. cbn [vx vy vz] in *.
  assert (E : k * k * (x * x + y * y + z * z) / 4 + c * c = 1) by (rewrite <- N; lra). split.
  - unfold qnorm2, qdot. cbn [qx qy qz qw]. lra.
  - unfold qmat, quatMatrix, rotCoeffs. cbn [qx qy qz qw vx vy vz]. replace (s / 2 * k * (s / 2 * k)) with (k * k * (s * s) / 4) by field. rewrite N. f_equal; field.
Qed.
Section Q.
  Variables (eps s : R). Hypothesis He : 0 < eps <= 1 / 4. Hypothesis Hs : 0 <= s.
  Let t := sqrt (s * s + eps * eps).
  Let u := ts3 eps.
  Lemma qbig : u < s * s -> Rabs (cos (t / 2) - cos (s / 2)) <= eps /\ s * Rabs (sin (t / 2) / t - sinc (s / 2) / 2) <= eps /\ t * t = s * s + eps * eps /\ 0 < t.
  Proof.
    intros H. destruct (ts3_spec eps ltac:(lra)) as (T0 & T4 & T2 & T1). fold u in T0, T4, T2, T1. destruct (hyp_spec s eps Hs ltac:(lra)) as (E & L & M & P). fold t in E, L, M, P.
    assert (U : u <= t) by nra. destruct (big_facts eps s He Hs U) as (_ & _ & _ & _ & D & D1 & _ & D3). fold t in D, D1. repeat split; try assumption.
    - eapply Rle_trans; [apply cos_diff; lra|]. lra.
    - rewrite <- (Rabs_right s) at 1 by lra. rewrite <- Rabs_mult. replace (s * (sin (t / 2) / t - sinc (s / 2) / 2)) with (s / 2 * (sin (t / 2) / (t / 2)) - sin (s / 2)) by (rewrite <- (sinc_mul (s / 2)); field; lra).
      eapply Rle_trans; [apply sinc_shift; lra|]. lra.
  Qed.
  Lemma qsmall : s * s <= u -> let x2 := s * s / 4 in 0 <= x2 /\ x2 * x2 * x2 <= u * u * u / 64 /\ x2 <= 1 / 4 /\
    Rabs ((1 - x2 / 2 + x2 * x2 / 24) - cos (s / 2)) <= u * u * u / 46080 /\ s * Rabs (/ 2 * (1 - x2 / 6 + x2 * x2 / 120) - sinc (s / 2) / 2) <= u * u * u / 46080.
  Proof.
    intros H. cbv zeta. destruct (ts3_spec eps ltac:(lra)) as (T0 & T4 & T2 & T1). fold u in T0, T4, T2, T1. assert (S1 : s <= 1) by nra. set (x := s / 2). assert (X : 0 <= x <= 1 / 2) by (unfold x; lra). assert (X2 : s * s / 4 = x * x) by (unfold x; field). rewrite X2.
    destruct (taylor_sin x ltac:(lra)) as [A A']. destruct (taylor_cos x ltac:(lra)) as [B B']. assert (Q : 0 <= x * x <= u / 4) by (split; [nra|lra]).
    assert (Q3 : x * x * x * x * x * x <= u * u * u / 64). { replace (x * x * x * x * x * x) with (x * x * (x * x) * (x * x)) by ring. replace (u * u * u / 64) with (u / 4 * (u / 4) * (u / 4)) by field. apply Rmult_le_compat; [nra|lra|apply Rmult_le_compat; lra|lra]. }
    assert (P6 : 0 <= x * x * x * x * x * x) by (repeat apply Rmult_le_pos; lra). assert (Q7 : x * x * x * x * x * x * x <= x * x * x * x * x * x) by nra. assert (P7 : 0 <= x * x * x * x * x * x * x) by (apply Rmult_le_pos; lra).
    repeat split; [lra|lra|nra| |].
    - apply Rabs_le. lra.
    - rewrite <- (Rabs_right s) at 1 by lra. rewrite <- Rabs_mult. replace (s * (/ 2 * (1 - x * x / 6 + x * x * (x * x) / 120) - sinc x / 2)) with (x - x * x * x / 6 + x * x * x * x * x / 120 - sin x) by (rewrite <- (sinc_mul x); unfold x; field). apply Rabs_le. lra.
  Qed.
End Q.
Theorem qexp3_close eps v : 0 < eps <= 1 / 4 -> qclose (eps + ts3 eps ^ 3 / 46080) (qexp3 eps v) (Qexp v).
Proof.
  intros He. unfold qexp3, Qexp. cbv zeta. rewrite norm2_norm. destruct (comp_le v) as (X & Y & Z). set (s := v3norm v) in *. assert (Hs : 0 <= s) by apply norm_nonneg. clearbody s. destruct (ts3_spec eps ltac:(lra)) as (T0 & T4 & T2 & T1). assert (U3 : 0 <= ts3 eps ^ 3) by (apply pow_le; lra). destruct v as [x y z]. cbn [vx vy vz] in *.
  destruct (Rlt_dec (ts3 eps) (s * s)) as [B|B].
  - destruct (qbig eps s He Hs B) as (C & S & T & P). set (t := sqrt (s * s + eps * eps)) in *. unfold qclose, qAngleAxis. cbn [vx vy vz qx qy qz qw].
    assert (G : forall a, Rabs a <= s -> Rabs (sin (t / 2) * (a / t) - sinc (s / 2) / 2 * a) <= eps + ts3 eps ^ 3 / 46080).
    { intros a Ha. replace (sin (t / 2) * (a / t) - sinc (s / 2) / 2 * a) with ((sin (t / 2) / t - sinc (s / 2) / 2) * a) by (field; lra). apply Rle_trans with eps; [|lra]. now apply (lin_le _ _ s). }
    repeat split; try (apply G; assumption). lra.
  - destruct (qsmall eps s He Hs ltac:(lra)) as (_ & _ & _ & C & S). set (k := / 2 * _) in *. unfold qclose. cbn [qx qy qz qw]. replace (ts3 eps * ts3 eps * ts3 eps) with (ts3 eps ^ 3) in * by ring.
    assert (G : forall a, Rabs a <= s -> Rabs (k * a - sinc (s / 2) / 2 * a) <= eps + ts3 eps ^ 3 / 46080).
    { intros a Ha. replace (k * a - sinc (s / 2) / 2 * a) with ((k - sinc (s / 2) / 2) * a) by ring. apply Rle_trans with (ts3 eps ^ 3 / 46080); [|lra]. now apply (lin_le _ _ s). }
    repeat split; try (apply G; assumption). lra.
Qed.
Theorem qexp3_norm eps v : 0 < eps <= 1 / 4 -> 1 - eps * eps / 4 <= qnorm2 (qexp3 eps v) <= 1 + ts3 eps ^ 3 / 23040.
Proof.
  intros He. unfold qexp3. cbv zeta. rewrite norm2_norm. assert (N := norm_sq v). set (s := v3norm v) in *. assert (Hs : 0 <= s) by apply norm_nonneg. clearbody s. destruct (ts3_spec eps ltac:(lra)) as (T0 & T4 & T2 & T1). assert (U3 : 0 <= ts3 eps ^ 3) by (apply pow_le; lra). destruct v as [x y z]. unfold v3dot in N. cbn [vx vy vz] in *.
  destruct (Rlt_dec (ts3 eps) (s * s)) as [B|B].
  - destruct (qbig eps s He Hs B) as (C & S & T & P). set (t := sqrt (s * s + eps * eps)) in *. unfold qnorm2, qdot, qAngleAxis. cbn [vx vy vz qx qy qz qw].
    replace (sin (t / 2) * (x / t) * (sin (t / 2) * (x / t)) + sin (t / 2) * (y / t) * (sin (t / 2) * (y / t)) + sin (t / 2) * (z / t) * (sin (t / 2) * (z / t)) + cos (t / 2) * cos (t / 2)) with (sin (t / 2) / t * (sin (t / 2) / t) * (x * x + y * y + z * z) + cos (t / 2) * cos (t / 2)) by (field; lra).
    rewrite <- N. assert (O := sin2_cos2 (t / 2)). unfold Rsqr in O. set (r := sin (t / 2) / t). assert (R : sin (t / 2) = r * t) by (unfold r; field; lra). rewrite R in O. replace (s * s) with (t * t - eps * eps) by lra.
    assert (Rb : 0 <= r * r <= 1 / 4). { split; [nra|]. assert (L := sin_le (t / 2) ltac:(lra)). rewrite R, Rabs_mult, (Rabs_right t) in L by lra. assert (Rabs r <= 1 / 2) by nra. assert (Q : Rabs r * Rabs r = r * r) by (rewrite <- Rabs_mult; apply Rabs_right; nra). pose proof (Rabs_pos r). nra. }
    assert (Ee : 0 <= eps * eps) by nra. nra.
  - destruct (qsmall eps s He Hs ltac:(lra)) as (P & P3 & P1 & _ & _). set (x2 := s * s / 4) in *. unfold qnorm2, qdot. cbn [qx qy qz qw].
    set (k := / 2 * _). replace (k * x * (k * x) + k * y * (k * y) + k * z * (k * z)) with (k * k * (x * x + y * y + z * z)) by ring. rewrite <- N. replace (s * s) with (4 * x2) by (unfold x2; field). unfold k. replace (ts3 eps * ts3 eps * ts3 eps) with (ts3 eps ^ 3) in * by ring.
    replace (/ 2 * (1 - x2 / 6 + x2 * x2 / 120) * (/ 2 * (1 - x2 / 6 + x2 * x2 / 120)) * (4 * x2) + (1 - x2 / 2 + x2 * x2 / 24) * (1 - x2 / 2 + x2 * x2 / 24)) with (1 + x2 * x2 * x2 * (1 / 360 - x2 / 960 + x2 * x2 / 14400)) by field.
    assert (0 <= x2 * x2 * x2) by (repeat apply Rmult_le_pos; lra). assert (0 <= eps * eps) by nra. assert (0 <= 1 / 360 - x2 / 960 + x2 * x2 / 14400 <= 1 / 360) by nra. nra.
Qed.
Theorem qexp3_zero eps : 0 < eps <= 1 / 4 -> qexp3 eps v3zero = mkQ 0 0 0 1.
Proof.
  intros He. unfold qexp3. cbv zeta. rewrite norm2_norm, norm0, Rmult_0_l. destruct (ts3_spec eps ltac:(lra)) as (T0 & _). destruct (Rlt_dec (ts3 eps) 0); [lra|]. unfold v3zero. cbn. f_equal; field.
Qed.
Lemma Texp_alt v w : Texp (mkV6 v w) = v3add (v3add v (v3scale (cosc (v3norm w)) (v3cross w v))) (v3scale (sinc3 (v3norm w)) (v3cross w (v3cross w v))).
Proof.
  unfold Texp. cbn [lin ang]. assert (S := sinc3_mul (v3norm w)). rewrite norm_sq in S. set (a := sinc (v3norm w)) in *. set (k := sinc3 (v3norm w)) in *. set (c := cosc (v3norm w)). clearbody a k c. unfold v3dot in *. destruct v as [x y z], w as [p q r]. cbn [vx vy vz] in *.
  assert (a = 1 - (p * p + q * q + r * r) * k) by lra. subst a. unfold v3add, v3scale, v3cross. cbn [vx vy vz]. f_equal; ring.
Qed.
Theorem qexp6_close eps nu : 0 < eps <= 1 / 4 -> snd (qexp6 eps nu) = qexp3 eps (ang nu) /\ v3close (14 * eps * v3norm (lin nu)) (fst (qexp6 eps nu)) (Texp nu).
Proof.
  intros He. split; [reflexivity|]. destruct nu as [v w]. rewrite Texp_alt. unfold qexp6. cbv zeta. cbn [fst lin ang]. rewrite norm2_norm. set (s := v3norm w). assert (Hs : 0 <= s) by apply norm_nonneg. set (t2 := s * s + eps * eps). set (t := sqrt t2).
  (* w x (w x v) = (w.v) w - |w|^2 v *)
  assert (G : forall ax aw ax' aw' dw dx, s * s * Rabs (aw - aw') <= dw -> s * Rabs (ax - ax') <= dx -> v3close ((dw + dw + dx) * v3norm v)
    (v3add (v3add v (v3scale ax (v3cross w v))) (v3scale aw (v3cross w (v3cross w v)))) (v3add (v3add v (v3scale ax' (v3cross w v))) (v3scale aw' (v3cross w (v3cross w v))))).
  { intros ax aw ax' aw' dw dx H1 H2. assert (R : forall ax aw, v3add (v3add v (v3scale ax (v3cross w v))) (v3scale aw (v3cross w (v3cross w v))) = v3add (v3add (v3scale (1 - aw * (s * s)) v) (v3scale (aw * v3dot w v) w)) (v3scale ax (v3cross w v))).
    { intros. unfold s. rewrite norm_sq. destruct v as [x y z], w as [p q r]. unfold v3add, v3scale, v3cross, v3dot. cbn [vx vy vz]. f_equal; ring. }
    rewrite !R. apply trans_close; try assumption. replace (1 - aw * (s * s) - (1 - aw' * (s * s))) with (- ((s * s) * (aw - aw'))) by ring. rewrite Rabs_Ropp, Rabs_mult, (Rabs_right (s * s)) by nra. exact H1. }
  destruct (Rlt_dec t (ts3 eps)) as [B|B].
  - destruct (small_trans eps s He Hs ltac:(fold t2 t; lra)) as (X & Y & Z). fold t2 in X, Y, Z. replace (14 * eps) with (eps + eps + (12 * eps)) by ring. apply G; [assumption|]. replace (/ 2) with (1 / 2) by field. lra.
  - destruct (big_trans eps s He Hs ltac:(fold t2 t; lra)) as (X & Y & Z). destruct (hyp_spec s eps Hs ltac:(lra)) as (E & L & M & P). fold t2 in X, Y, Z, E, L, M, P. fold t in X, Y, Z, E, L, M, P.
    assert (big : ts3 eps <= t) by lra. replace ((t - sin t) * (1 / t2) / t) with ((1 - sin t / t) * (1 / t2)) by (rewrite <- E; field; lra).
    replace (14 * eps) with (6 * eps + 6 * eps + 2 * eps) by ring. apply G; assumption.
Qed.
(* a case off the threshold *)
Lemma exp_ex : sqrt (v3norm2 (mkV3 3 4 0) + 0 * 0) <> ts3 (1 / 16) /\ sqrt (v3norm2 (mkV3 3 4 0) + 1 / 16 * (1 / 16)) <> ts3 (1 / 16).
Proof.
  destruct (ts3_spec (1 / 16) ltac:(lra)) as (T & _). assert (1 < sqrt (v3norm2 (mkV3 3 4 0) + 0 * 0) /\ 1 < sqrt (v3norm2 (mkV3 3 4 0) + 1 / 16 * (1 / 16))); [|lra].
  unfold v3norm2, v3dot. cbn [vx vy vz]. split; rewrite <- sqrt_1 at 1; apply sqrt_lt_1; lra.
Qed.
