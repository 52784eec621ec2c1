(* exp3 on the axis, exp6 and the quaternion exponentials. *)
Require Import Reals Lra Lia Psatz.
From Verif Require Import Vec3 Spatial InertiaFacts Deriv Joints Rot RotFacts ExpLog Spec_Exp ExpFacts ExpFacts2.
Local Open Scope R_scope.

Lemma coeffs_axis a b g v : m3vec (rotCoeffs a b g v) v = v3scale (a * v3dot v v + g) v.
Proof. destruct v. unfold m3vec, rotCoeffs, v3scale, v3dot. cbn. f_equal; ring. Qed.
(* the coefficients chosen by exp3 *)
Definition c3 (eps t2 : R) (big : bool) : R * R * R :=
  let t := sqrt t2 in
  if big then ((1 - cos t) / t2, sin t / t, cos t) else (1 / 2 - t2 / 24, 1 - t2 / 6, 1 - t2 / 2).
Lemma exp3_c3 eps v : exists big, let t2 := v3norm v * v3norm v + eps * eps in
  exp3 eps v = rotCoeffs (fst (fst (c3 eps t2 big))) (snd (fst (c3 eps t2 big))) (snd (c3 eps t2 big)) v /\
  (if big : bool then ts3 eps <= sqrt t2 else sqrt t2 <= ts3 eps).
Proof.
  unfold exp3. cbv zeta. rewrite norm2_norm. destruct (Rlt_dec (ts3 eps) (sqrt (v3norm v * v3norm v + eps * eps))) as [B|B]; [exists true | exists false]; (split; [reflexivity | lra]).
Qed.
(* how far the coefficients are from fixing the axis *)
Lemma c3_axis eps s big : 0 < eps <= 1 / 4 -> 0 <= s -> let t2 := s * s + eps * eps in
  (if big : bool then ts3 eps <= sqrt t2 else sqrt t2 <= ts3 eps) ->
  Rabs (fst (fst (c3 eps t2 big)) * (s * s) + snd (c3 eps t2 big) - 1) <= eps / 4.
Proof.
  intros He Hs. cbv zeta. intros HB. set (t2 := s * s + eps * eps) in *. destruct (hyp_spec s eps Hs ltac:(lra)) as (E & L & M & P). fold t2 in E, L, M, P. set (t := sqrt t2) in *. unfold c3. fold t. assert (eps * eps <= eps / 4) by nra.
  destruct big; cbn [fst snd].
  - replace ((1 - cos t) / t2 * (s * s) + cos t - 1) with (- ((1 - cos t) / (t * t) * (eps * eps))).
    + rewrite Rabs_Ropp. pose proof (one_cos t ltac:(lra)) as [A B]. assert (0 < t * t) by nra. assert (I : 0 <= (1 - cos t) / (t * t) <= 1 / 2).
      { split; [apply Rmult_le_pos; [lra|left; now apply Rinv_0_lt_compat]|]. apply (Rmult_le_reg_r (t * t)); [assumption|]. unfold Rdiv at 1. rewrite Rmult_assoc, Rinv_l by lra. lra. }
      rewrite Rabs_right by nra. nra.
    + rewrite E. unfold t2. field. unfold t2 in *. nra.
  - destruct (small_facts eps s He Hs HB) as (S & S4 & E2 & E3). unfold t2. assert (S2 : s * s * (eps * eps) <= eps * eps) by nra. assert (0 <= s * s * (eps * eps)) by (apply Rmult_le_pos; nra). assert (0 <= s * s * s * s) by (repeat apply Rmult_le_pos; lra). apply Rabs_le. lra.
Qed.
Theorem exp3_axis eps v : 0 < eps <= 1 / 4 -> exists l, m3vec (exp3 eps v) v = v3scale l v /\ Rabs (l - 1) <= eps / 4.
Proof.
  intros He. destruct (exp3_c3 eps v) as (big & E & HB). cbv zeta in *. rewrite E, coeffs_axis. eexists. split; [reflexivity|]. rewrite <- norm_sq. apply c3_axis; [exact He | apply norm_nonneg | exact HB].
Qed.
Theorem exp3_zero eps : 0 < eps <= 1 / 4 -> exp3 eps v3zero = m3scale (1 - eps * eps / 2) m3id.
Proof.
  intros He. unfold exp3. cbv zeta. rewrite norm2_norm, norm0. destruct (ts3_spec eps ltac:(lra)) as (T0 & T4 & T2 & T1). rewrite Rmult_0_l, Rplus_0_l.
  rewrite (sqrt_square eps) by lra. destruct (Rlt_dec (ts3 eps) eps); [lra|]. unfold rotCoeffs, m3scale, m3id, v3zero. cbn. f_equal; field.
Qed.

(* ---- exp6 ---- *)
Lemma exp6_rot eps nu : sqrt (v3norm2 (ang nu) + eps * eps) <> ts3 eps -> rot (exp6 eps nu) = exp3 eps (ang nu).
Proof.
  intros H. unfold exp6, exp3. cbv zeta. cbn [rot]. set (t2 := v3norm2 (ang nu) + eps * eps) in *. set (t := sqrt t2) in *.
  destruct (Rlt_dec t (ts3 eps)), (Rlt_dec (ts3 eps) t); try lra; try reflexivity. f_equal. unfold Rdiv. ring.
Qed.
Lemma exp6_rot_boundary eps : 0 < eps <= 1 / 4 -> exists w, forall v, rot (exp6 eps (mkV6 v w)) <> exp3 eps w.
Proof.
  intros He. destruct (ts3_spec eps ltac:(lra)) as (T0 & T4 & T2 & T1). set (u := ts3 eps) in *.
  assert (Q : 0 <= u * u - eps * eps) by nra. exists (mkV3 (sqrt (u * u - eps * eps)) 0 0). intros v H.
  assert (K : sqrt (v3norm2 (mkV3 (sqrt (u * u - eps * eps)) 0 0) + eps * eps) = u).
  { rewrite norm2_norm, norm_sq. unfold v3dot. cbn [vx vy vz]. rewrite sqrt_sqrt by exact Q. replace (u * u - eps * eps + 0 * 0 + 0 * 0 + eps * eps) with (u * u) by ring. apply sqrt_square. lra. }
  apply (f_equal m11) in H. unfold exp6, exp3 in H. cbv zeta in H. cbn [rot ang] in H. rewrite K in H. fold u in H. destruct (Rlt_dec u u) as [B|_]; [lra|].
  unfold rotCoeffs in H. cbn [vx vy vz m11] in H. assert (K2 : v3norm2 (mkV3 (sqrt (u * u - eps * eps)) 0 0) + eps * eps = u * u).
  { rewrite norm2_norm, norm_sq. unfold v3dot. cbn [vx vy vz]. rewrite sqrt_sqrt by exact Q. ring. }
  rewrite K2 in H. destruct (taylor_cos u ltac:(lra)) as [_ C]. assert (0 < u * u * u * u) by lra. assert (u * u <= 1) by nra. assert (u * u * u * u * (u * u) <= u * u * u * u) by nra. lra.
Qed.
(* Taylor bounds for the quotients *)
Lemma taylor_sinc s : 0 <= s <= 1 -> 1 - s * s / 6 <= sinc s <= 1 - s * s / 6 + s * s * s * s / 120 /\ 1 - s * s / 6 + s * s * s * s / 120 - s * s * s * s * s * s / 5040 <= sinc s.
Proof.
  intros H. unfold sinc. destruct (Req_EM_T s 0) as [->|N]; [lra|]. destruct (taylor_sin s ltac:(lra)) as [[A B] C]. assert (P : 0 < s) by lra.
  assert (U : forall a, s * a <= sin s -> a <= sin s / s). { intros a Ha. apply (Rmult_le_reg_r s); [exact P|]. unfold Rdiv. rewrite Rmult_assoc, Rinv_l by lra. lra. }
  assert (V : forall a, sin s <= s * a -> sin s / s <= a). { intros a Ha. apply (Rmult_le_reg_r s); [exact P|]. unfold Rdiv. rewrite Rmult_assoc, Rinv_l by lra. lra. }
  repeat split; [apply U|apply V|apply U]; lra.
Qed.
Lemma taylor_cosc s : 0 <= s <= 1 -> 1 / 2 - s * s / 24 <= cosc s <= 1 / 2 - s * s / 24 + s * s * s * s / 720.
Proof.
  intros H. unfold cosc. destruct (Req_EM_T s 0) as [->|N]; [lra|]. destruct (taylor_cos s ltac:(lra)) as [[A B] C]. assert (P : 0 < s * s) by nra.
  assert (U : forall a, s * s * a <= 1 - cos s -> a <= (1 - cos s) / (s * s)). { intros a Ha. apply (Rmult_le_reg_r (s * s)); [exact P|]. unfold Rdiv. rewrite Rmult_assoc, Rinv_l by lra. lra. }
  assert (V : forall a, 1 - cos s <= s * s * a -> (1 - cos s) / (s * s) <= a). { intros a Ha. apply (Rmult_le_reg_r (s * s)); [exact P|]. unfold Rdiv. rewrite Rmult_assoc, Rinv_l by lra. lra. }
  split; [apply U|apply V]; lra.
Qed.
Lemma div_le a b d : 0 < b -> a <= d * b -> a / b <= d.
Proof. intros Hb H. apply (Rmult_le_reg_r b); [exact Hb|]. unfold Rdiv. rewrite Rmult_assoc, Rinv_l by lra. lra. Qed.
Section Trans.
  Variables (eps s : R). Hypothesis He : 0 < eps <= 1 / 4. Hypothesis Hs : 0 <= s.
  Let t2 := s * s + eps * eps.
  Let t := sqrt t2.
  Lemma big_trans : ts3 eps <= t -> Rabs (sin t / t - sinc s) <= 4 * eps /\ s * s * Rabs ((1 - sin t / t) * (1 / t2) - sinc3 s) <= 6 * eps /\ s * Rabs ((1 - cos t) * (1 / t2) - cosc s) <= 2 * eps.
  Proof.
    intros H. destruct (big_facts eps s He Hs H) as (E & P & L & M & D & D1 & D2 & D3). fold t2 in E, P, L, M, D, D1, D2. fold t in E, P, L, M, D, D1, D2. rewrite <- E in *. unfold t2 in E.
    assert (Ps : 0 < s) by lra. assert (R1 : Rabs (sin t / t - sinc s) <= 4 * eps).
    { apply (Rmult_le_reg_l s); [exact Ps|]. rewrite <- (Rabs_right s) at 1 by lra. rewrite <- Rabs_mult. replace (s * (sin t / t - sinc s)) with (s * (sin t / t) - sin s) by (rewrite <- (sinc_mul s); ring).
      eapply Rle_trans; [apply sinc_shift; lra|]. apply Rle_trans with (2 * (eps * eps / t)); [lra|]. replace (eps * eps / t) with (eps * eps / (t * t) * t) by (field; lra). nra. }
    assert (B1 : Rabs (sin t / t) <= 1). { unfold Rdiv. rewrite Rabs_mult, (Rabs_right (/ t)) by (left; apply Rinv_0_lt_compat; exact P). apply (Rmult_le_reg_r t); [exact P|]. rewrite Rmult_assoc, Rinv_l by lra. pose proof (sin_le t ltac:(lra)). lra. }
    repeat split; [exact R1| |].
    - rewrite <- (Rabs_right (s * s)) at 1 by nra. rewrite <- Rabs_mult.
      replace (s * s * ((1 - sin t / t) * (1 / (t * t)) - sinc3 s)) with (- (sin t / t - sinc s) + - (eps * eps / (t * t) * (1 - sin t / t))).
      + replace (6 * eps) with (4 * eps + eps * 2) by ring. apply tri2; rewrite Rabs_Ropp; [exact R1|]. apply prod_le.
        * rewrite Rabs_right; [exact D2|]. apply Rle_ge. apply Rmult_le_pos; [nra|]. left. apply Rinv_0_lt_compat. nra.
        * apply rabs_inv in B1. apply Rabs_le. lra.
      + rewrite (Rmult_minus_distr_l (s * s)), sinc3_mul. replace (eps * eps) with (t * t - s * s) by lra. field. lra.
    - apply (Rmult_le_reg_l s); [exact Ps|]. rewrite <- Rmult_assoc. rewrite <- (Rabs_right (s * s)) at 1 by nra. rewrite <- Rabs_mult. replace (s * s * ((1 - cos t) * (1 / (t * t)) - cosc s)) with (s * s * ((1 - cos t) / (t * t)) - (1 - cos s)) by (rewrite <- (cosc_mul s); field; lra).
      eapply Rle_trans; [apply cosc_shift; lra|]. replace (t * t - s * s) with (eps * eps / t * t) by (rewrite E; field; lra). nra.
  Qed.
  Lemma small_trans : t <= ts3 eps -> Rabs (1 - t2 / 6 - sinc s) <= eps /\ s * s * Rabs (1 / 6 - t2 / 120 - sinc3 s) <= eps /\ s * Rabs (1 / 2 - t2 / 24 - cosc s) <= eps.
  Proof.
    intros H. destruct (small_facts eps s He Hs H) as (S & S4 & E2 & E3). destruct (pow_small s eps S S4) as (S5 & S6 & S7). destruct (taylor_sinc s S) as [A A']. assert (B := taylor_cosc s S).
    assert (Se2 : s * s * (eps * eps) <= eps * eps) by nra. assert (0 <= s * s * (eps * eps)) by (apply Rmult_le_pos; nra). assert (0 <= s * s * s * s) by (repeat apply Rmult_le_pos; lra). assert (0 <= s * s * s * s * s * s) by (repeat apply Rmult_le_pos; lra).
    unfold t2. repeat split.
    - apply Rabs_le. lra.
    - rewrite <- (Rabs_right (s * s)) at 1 by nra. rewrite <- Rabs_mult. replace (s * s * (1 / 6 - (s * s + eps * eps) / 120 - sinc3 s)) with (s * s / 6 - s * s * s * s / 120 - s * s * (eps * eps) / 120 - (1 - sinc s)) by (rewrite <- (sinc3_mul s); field). apply Rabs_le. lra.
    - assert (Rabs (1 / 2 - (s * s + eps * eps) / 24 - cosc s) <= eps) by (apply Rabs_le; lra). pose proof (Rabs_pos (1 / 2 - (s * s + eps * eps) / 24 - cosc s)). nra.
  Qed.
End Trans.
