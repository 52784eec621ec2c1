(* Distance between the exponentials of the code and the exact ones. *)
Require Import Reals Lra Lia Psatz.
From Verif Require Import Vec3 Spatial InertiaFacts Deriv Rot ExpLog Spec_Exp ExpFacts.
Local Open Scope R_scope.

(* ---- trigonometric bounds ---- *)
Lemma rabs_inv x a : Rabs x <= a -> - a <= x <= a. Proof. unfold Rabs. destruct (Rcase_abs x); lra. Qed.
Lemma PI_big : 3 / 2 < PI / 2 /\ 3 < PI. Proof. pose proof PI2_3_2. lra. Qed.
Lemma taylor_sin x : 0 <= x <= 3 / 2 -> x - x * x * x / 6 <= sin x <= x - x * x * x / 6 + x * x * x * x * x / 120 /\ x - x * x * x / 6 + x * x * x * x * x / 120 - x * x * x * x * x * x * x / 5040 <= sin x.
Proof.
  intros [H0 H1]. pose proof PI_big as [P Q]. destruct (sin_bound x 0 H0 ltac:(lra)) as [A B]. destruct (sin_bound x 1 H0 ltac:(lra)) as [C _].
  unfold sin_approx, sin_term in *. cbn [sum_f_R0 Nat.mul Nat.add pow] in *. change (fact 1) with 1%nat in *. change (fact 3) with 6%nat in *. change (fact 5) with 120%nat in *. change (fact 7) with (7 * 6 * 120)%nat in *. rewrite ?mult_INR in *.
  replace (INR 1) with 1 in * by (cbn; lra). replace (INR 6) with 6 in * by (cbn; lra). replace (INR 7) with 7 in * by (cbn; lra). replace (INR 120) with 120 in * by (rewrite INR_IZR_INZ; reflexivity).
  repeat split; lra.
Qed.
Lemma taylor_cos x : 0 <= x <= 3 / 2 -> 1 - x * x / 2 <= cos x <= 1 - x * x / 2 + x * x * x * x / 24 /\ 1 - x * x / 2 + x * x * x * x / 24 - x * x * x * x * x * x / 720 <= cos x.
Proof.
  intros [H0 H1]. pose proof PI_big as [P Q]. destruct (cos_bound x 0 ltac:(lra) ltac:(lra)) as [A B]. destruct (cos_bound x 1 ltac:(lra) ltac:(lra)) as [C _].
  unfold cos_approx, cos_term in *. cbn [sum_f_R0 Nat.mul Nat.add pow] in *. change (fact 0) with 1%nat in *. change (fact 2) with 2%nat in *. change (fact 4) with 24%nat in *. change (fact 6) with (6 * 5 * 24)%nat in *. rewrite ?mult_INR in *.
  replace (INR 1) with 1 in * by (cbn; lra). replace (INR 2) with 2 in * by (cbn; lra). replace (INR 6) with 6 in * by (cbn; lra). replace (INR 5) with 5 in * by (cbn; lra). replace (INR 24) with 24 in * by (rewrite INR_IZR_INZ; reflexivity).
  repeat split; lra.
Qed.
Lemma cube_pos x : 0 <= x -> 0 <= x * x * x. Proof. intros. apply Rmult_le_pos; [apply Rmult_le_pos|]; assumption. Qed.
Lemma sin_le x : 0 <= x -> Rabs (sin x) <= x.
Proof.
  intros H. destruct (Rle_or_lt x 1) as [L|L].
  - destruct (taylor_sin x ltac:(lra)) as [[A B] _]. assert (C := cube_pos x H). assert (D : 0 <= x * x * x * (20 - x * x)). { apply Rmult_le_pos; [exact C|]. assert (x * x <= 1 * 1) by (apply Rmult_le_compat; lra). lra. }
    apply Rabs_le. split; [|lra]. assert (x * x * x <= x). { rewrite <- (Rmult_1_l x) at 4. apply Rmult_le_compat_r; [exact H|]. rewrite <- (Rmult_1_l 1). apply Rmult_le_compat; lra. } lra.
  - pose proof (SIN_bound x). apply Rabs_le. lra.
Qed.
Lemma sin_diff s t : s <= t -> Rabs (sin t - sin s) <= t - s.
Proof.
  intros H. rewrite form4. assert (A := sin_le ((t - s) / 2) ltac:(lra)). assert (B : Rabs (cos ((t + s) / 2)) <= 1) by (pose proof (COS_bound ((t + s) / 2)); apply Rabs_le; lra).
  rewrite !Rabs_mult, (Rabs_right 2) by lra. pose proof (Rabs_pos (cos ((t + s) / 2))). pose proof (Rabs_pos (sin ((t - s) / 2))). nra.
Qed.
Lemma cos_diff s t : 0 <= s <= t -> Rabs (cos t - cos s) <= (t * t - s * s) / 2.
Proof.
  intros H. rewrite form2. assert (A := sin_le ((t - s) / 2) ltac:(lra)). assert (B := sin_le ((t + s) / 2) ltac:(lra)). rewrite !Rabs_mult. replace (Rabs (-2)) with 2 by (rewrite Rabs_left; lra).
  pose proof (Rabs_pos (sin ((t + s) / 2))). pose proof (Rabs_pos (sin ((t - s) / 2))).
  apply Rle_trans with (2 * ((t - s) / 2) * ((t + s) / 2)); [|right; field]. apply Rmult_le_compat; try lra; nra.
Qed.
Lemma one_cos t : 0 <= t -> 0 <= 1 - cos t <= t * t / 2.
Proof. intros H. pose proof (COS_bound t). pose proof (cos_diff 0 t ltac:(lra)) as C. rewrite cos_0 in C. apply rabs_inv in C. lra. Qed.
(* the three coefficients at t instead of s <= t *)
Lemma sinc_shift s t : 0 <= s <= t -> 0 < t -> Rabs (s * (sin t / t) - sin s) <= 2 * (t - s).
Proof.
  intros H Ht. replace (s * (sin t / t) - sin s) with ((sin t - sin s) + - ((t - s) * (sin t / t))) by (field; lra).
  eapply Rle_trans; [apply Rabs_triang|]. rewrite Rabs_Ropp, Rabs_mult, (Rabs_right (t - s)) by lra. pose proof (sin_diff s t ltac:(lra)) as A.
  assert (B : Rabs (sin t / t) <= 1). { unfold Rdiv. rewrite Rabs_mult, (Rabs_right (/ t)) by (left; apply Rinv_0_lt_compat; exact Ht). apply (Rmult_le_reg_r t); [exact Ht|]. rewrite Rmult_assoc, Rinv_l by lra. pose proof (sin_le t ltac:(lra)). lra. }
  pose proof (Rabs_pos (sin t / t)). nra.
Qed.
Lemma cosc_shift s t : 0 <= s <= t -> 0 < t -> Rabs (s * s * ((1 - cos t) / (t * t)) - (1 - cos s)) <= t * t - s * s.
Proof.
  intros H Ht. replace (s * s * ((1 - cos t) / (t * t)) - (1 - cos s)) with ((cos s - cos t) + - ((t * t - s * s) * ((1 - cos t) / (t * t)))) by (field; lra).
  assert (P : 0 <= t * t - s * s) by nra. eapply Rle_trans; [apply Rabs_triang|]. rewrite Rabs_Ropp, Rabs_mult, (Rabs_right (t * t - s * s)) by lra. pose proof (cos_diff s t ltac:(lra)) as A. rewrite Rabs_minus_sym in A.
  pose proof (one_cos t ltac:(lra)) as [B C]. assert (D : Rabs ((1 - cos t) / (t * t)) <= 1 / 2).
  { assert (0 < t * t) by nra. rewrite Rabs_right. - apply (Rmult_le_reg_r (t * t)); [assumption|]. unfold Rdiv at 1. rewrite Rmult_assoc, Rinv_l by lra. lra. - apply Rle_ge. apply Rmult_le_pos; [lra|]. left. now apply Rinv_0_lt_compat. }
  pose proof (Rabs_pos ((1 - cos t) / (t * t))). nra.
Qed.

(* ---- the threshold ---- *)
Lemma ts3_spec eps : 0 < eps <= 1 -> 0 < ts3 eps <= 1 /\ ts3 eps * ts3 eps * ts3 eps * ts3 eps = eps /\ eps <= ts3 eps * ts3 eps /\ eps <= ts3 eps.
Proof.
  intros [H0 H1]. unfold ts3. set (a := sqrt eps). assert (A : a * a = eps) by (apply sqrt_sqrt; lra). assert (Pa : 0 < a) by (apply sqrt_lt_R0; exact H0).
  set (b := sqrt a). assert (B : b * b = a) by (apply sqrt_sqrt; lra). assert (Pb : 0 < b) by (apply sqrt_lt_R0; exact Pa).
  assert (a <= 1) by nra. assert (b <= 1) by nra. repeat split; [exact Pb|exact H2| | |]; nra.
Qed.
Lemma norm2_norm v : v3norm2 v = v3norm v * v3norm v. Proof. rewrite norm_sq. unfold v3norm2. destruct v. cbn. reflexivity. Qed.
(* t = sqrt (s^2 + eps^2) *)
Lemma hyp_spec s eps : 0 <= s -> 0 < eps -> let t := sqrt (s * s + eps * eps) in t * t = s * s + eps * eps /\ s <= t /\ eps <= t /\ 0 < t.
Proof.
  intros Hs He. cbv zeta. assert (P : 0 < s * s + eps * eps) by nra. set (t := sqrt _). assert (T : t * t = s * s + eps * eps) by (apply sqrt_sqrt; lra). assert (0 < t) by (apply sqrt_lt_R0; exact P).
  repeat split; try assumption; nra.
Qed.
Lemma comp_le v : Rabs (vx v) <= v3norm v /\ Rabs (vy v) <= v3norm v /\ Rabs (vz v) <= v3norm v.
Proof.
  assert (N := norm_sq v). assert (P := norm_nonneg v). set (n := v3norm v) in *. clearbody n. destruct v as [x y z]. unfold v3dot in N. cbn [vx vy vz] in *.
  assert (L : forall a, a * a <= n * n -> Rabs a <= n). { intros a Ha. apply Rsqr_incr_0_var; [|exact P]. rewrite <- Rsqr_abs. exact Ha. }
  repeat split; apply L; pose proof (Rle_0_sqr x); pose proof (Rle_0_sqr y); pose proof (Rle_0_sqr z); unfold Rsqr in *; lra.
Qed.
Lemma prod_le a b n m : Rabs a <= n -> Rabs b <= m -> Rabs (a * b) <= n * m.
Proof. intros A B. rewrite Rabs_mult. apply Rmult_le_compat; try assumption; apply Rabs_pos. Qed.
Lemma lin_le x y n d : Rabs x <= n -> n * Rabs y <= d -> Rabs (y * x) <= d.
Proof. intros A B. rewrite Rabs_mult. pose proof (Rabs_pos y). pose proof (Rabs_pos x). nra. Qed.
Lemma tri2 a b d e : Rabs a <= d -> Rabs b <= e -> Rabs (a + b) <= d + e.
Proof. intros A B. eapply Rle_trans; [apply Rabs_triang|]. lra. Qed.
Lemma coeffs_close a b g a' b' g' v da db dg : v3norm v * v3norm v * Rabs (a - a') <= da -> v3norm v * Rabs (b - b') <= db -> Rabs (g - g') <= dg ->
  m3close (da + db + dg) (rotCoeffs a b g v) (rotCoeffs a' b' g' v).
Proof.
  intros HA HB HG. destruct (comp_le v) as (X & Y & Z). set (n := v3norm v) in *. assert (0 <= dg) by (eapply Rle_trans; [apply Rabs_pos|exact HG]).
  assert (0 <= n) by (eapply Rle_trans; [apply Rabs_pos|exact X]). assert (0 <= db) by (eapply Rle_trans; [|exact HB]; apply Rmult_le_pos; [assumption|apply Rabs_pos]).
  clearbody n. destruct v as [x y z]. unfold m3close, rotCoeffs. cbn [vx vy vz m00 m01 m02 m10 m11 m12 m20 m21 m22] in *.
  assert (D : forall p q, Rabs p <= n -> Rabs q <= n -> Rabs ((a * p * q + g) - (a' * p * q + g')) <= da + db + dg).
  { intros p q Hp Hq. replace ((a * p * q + g) - (a' * p * q + g')) with ((a - a') * (p * q) + (g - g')) by ring. apply Rle_trans with (da + dg); [|lra]. apply tri2; [|exact HG]. apply (lin_le _ _ (n * n)); [now apply prod_le | exact HA]. }
  assert (O1 : forall p q r, Rabs p <= n -> Rabs q <= n -> Rabs r <= n -> Rabs ((a * p * q - b * r) - (a' * p * q - b' * r)) <= da + db + dg).
  { intros p q r Hp Hq Hr. replace ((a * p * q - b * r) - (a' * p * q - b' * r)) with ((a - a') * (p * q) + - ((b - b') * r)) by ring. apply Rle_trans with (da + db); [|lra]. apply tri2; [apply (lin_le _ _ (n * n)); [now apply prod_le | exact HA] | rewrite Rabs_Ropp; now apply (lin_le _ _ n)]. }
  assert (O2 : forall p q r, Rabs p <= n -> Rabs q <= n -> Rabs r <= n -> Rabs ((a * p * q + b * r) - (a' * p * q + b' * r)) <= da + db + dg).
  { intros p q r Hp Hq Hr. replace ((a * p * q + b * r) - (a' * p * q + b' * r)) with ((a - a') * (p * q) + ((b - b') * r)) by ring. apply Rle_trans with (da + db); [|lra]. apply tri2; [apply (lin_le _ _ (n * n)); [now apply prod_le | exact HA] | now apply (lin_le _ _ n)]. }
  repeat split; auto.
Qed.
(* powers of a small number *)
Lemma pow_small s e : 0 <= s <= 1 -> s * s * s * s <= e -> s * s * s * s * s <= e /\ s * s * s * s * s * s <= e /\ s * s * s * s * s * s * s <= e.
Proof.
  intros H E. assert (P : 0 <= s * s * s * s) by (repeat apply Rmult_le_pos; lra). assert (A : s * s * s * s * s <= s * s * s * s) by nra. assert (0 <= s * s * s * s * s) by (apply Rmult_le_pos; lra).
  assert (B : s * s * s * s * s * s <= s * s * s * s * s) by nra. assert (0 <= s * s * s * s * s * s) by (apply Rmult_le_pos; lra). assert (C : s * s * s * s * s * s * s <= s * s * s * s * s * s) by nra. repeat split; lra.
Qed.
Section Coeffs.
  Variables (eps s : R). Hypothesis He : 0 < eps <= 1 / 4. Hypothesis Hs : 0 <= s.
  Let t2 := s * s + eps * eps.
  Let t := sqrt t2.
  Lemma big_facts : ts3 eps <= t -> t * t = t2 /\ 0 < t /\ s <= t /\ t <= 2 * s /\ t - s <= eps * eps / t /\ eps * eps / t <= eps /\ eps * eps / (t * t) <= eps /\ eps * eps <= eps.
  Proof.
    intros H. destruct (ts3_spec eps ltac:(lra)) as (T0 & T4 & T2 & T1). destruct (hyp_spec s eps Hs ltac:(lra)) as (E & L & M & P). fold t2 in E, L, M, P. fold t in E, L, M, P. unfold t2 in E.
    set (u := ts3 eps) in *. assert (U : u * u <= t * t) by nra. assert (S2 : t * t <= 4 * (s * s)) by nra.
    assert (I : 0 < / t) by (apply Rinv_0_lt_compat; exact P). repeat split; try assumption.
    - nra.
    - apply (Rmult_le_reg_r t); [exact P|]. unfold Rdiv. rewrite Rmult_assoc, Rinv_l by lra. nra.
    - apply (Rmult_le_reg_r t); [exact P|]. unfold Rdiv. rewrite Rmult_assoc, Rinv_l by lra. nra.
    - apply (Rmult_le_reg_r (t * t)); [nra|]. unfold Rdiv. rewrite Rmult_assoc, Rinv_l by nra. nra.
    - nra.
  Qed.
  (* trigonometric branch *)
  Lemma big_close : ts3 eps <= t -> Rabs (cos t - cos s) <= eps / 2 /\ s * Rabs (sin t / t - sinc s) <= 2 * eps /\ s * s * Rabs ((1 - cos t) / t2 - cosc s) <= eps.
  Proof.
    intros H. destruct (big_facts H) as (E & P & L & M & D & D1 & D2 & D3). rewrite <- E in *. unfold t2 in E. repeat split.
    - eapply Rle_trans; [apply cos_diff; lra|]. lra.
    - rewrite <- (Rabs_right s) at 1 by lra. rewrite <- Rabs_mult. replace (s * (sin t / t - sinc s)) with (s * (sin t / t) - sin s) by (rewrite <- (sinc_mul s); ring). eapply Rle_trans; [apply sinc_shift; lra|]. lra.
    - rewrite <- (Rabs_right (s * s)) at 1 by nra. rewrite <- Rabs_mult. replace (s * s * ((1 - cos t) / (t * t) - cosc s)) with (s * s * ((1 - cos t) / (t * t)) - (1 - cos s)) by (rewrite <- (cosc_mul s); ring). eapply Rle_trans; [apply cosc_shift; lra|]. lra.
  Qed.
  Lemma small_facts : t <= ts3 eps -> 0 <= s <= 1 /\ s * s * s * s <= eps /\ eps * eps <= eps /\ eps * eps <= eps / 4.
  Proof.
    intros H. destruct (ts3_spec eps ltac:(lra)) as (T0 & T4 & T2 & T1). destruct (hyp_spec s eps Hs ltac:(lra)) as (E & L & M & P). fold t2 in E, L, M, P. fold t in E, L, M, P.
    assert (s <= ts3 eps) by lra. assert (S2 : s * s <= ts3 eps * ts3 eps) by nra. repeat split; try lra; [|nra|nra]. apply Rle_trans with (ts3 eps * ts3 eps * ts3 eps * ts3 eps); [|lra]. replace (s * s * s * s) with ((s * s) * (s * s)) by ring. replace (ts3 eps * ts3 eps * ts3 eps * ts3 eps) with ((ts3 eps * ts3 eps) * (ts3 eps * ts3 eps)) by ring. apply Rmult_le_compat; try assumption; nra.
  Qed.
  Lemma small_close : t <= ts3 eps -> Rabs ((1 - t2 / 2) - cos s) <= eps / 2 /\ s * Rabs ((1 - t2 / 6) - sinc s) <= eps / 2 /\ s * s * Rabs ((1 / 2 - t2 / 24) - cosc s) <= eps / 2.
  Proof.
    intros H. destruct (small_facts H) as (S & S4 & E2 & E3). destruct (pow_small s eps S S4) as (S5 & S6 & S7). destruct (taylor_sin s ltac:(lra)) as [A A']. destruct (taylor_cos s ltac:(lra)) as [B B'].
    assert (Se : s * (eps * eps) <= eps) by nra. assert (Se2 : s * s * (eps * eps) <= eps * eps) by nra. assert (0 <= s * (eps * eps)) by (apply Rmult_le_pos; nra). assert (0 <= s * s * (eps * eps)) by (apply Rmult_le_pos; nra). assert (0 <= s * s * s * s) by (repeat apply Rmult_le_pos; lra). assert (0 <= s * s * s * s * s) by (apply Rmult_le_pos; lra). assert (0 <= s * s * s * s * s * s) by (apply Rmult_le_pos; lra).
    unfold t2. repeat split.
    - apply Rabs_le. lra.
    - rewrite <- (Rabs_right s) at 1 by lra. rewrite <- Rabs_mult. replace (s * (1 - (s * s + eps * eps) / 6 - sinc s)) with (s - s * s * s / 6 - s * (eps * eps) / 6 - sin s) by (rewrite <- (sinc_mul s); field). apply Rabs_le. lra.
    - rewrite <- (Rabs_right (s * s)) at 1 by nra. rewrite <- Rabs_mult. replace (s * s * (1 / 2 - (s * s + eps * eps) / 24 - cosc s)) with (s * s / 2 - s * s * s * s / 24 - s * s * (eps * eps) / 24 - (1 - cos s)) by (rewrite <- (cosc_mul s); field). apply Rabs_le. lra.
  Qed.
End Coeffs.
Theorem exp3_close eps v : 0 < eps <= 1 / 4 -> m3close (4 * eps) (exp3 eps v) (Rexp v).
Proof.
  intros He. rewrite Rexp_coeffs. unfold exp3. cbv zeta. rewrite norm2_norm. set (s := v3norm v). assert (Hs : 0 <= s) by apply norm_nonneg. set (t2 := s * s + eps * eps). set (t := sqrt t2).
  destruct (Rlt_dec (ts3 eps) t) as [B|B].
  - destruct (big_close eps s He Hs ltac:(fold t2 t; lra)) as (X & Y & Z). fold t2 in X, Y, Z. fold t in X, Y, Z. replace (4 * eps) with (eps + 2 * eps + (eps / 2 + eps / 2)) by field. apply coeffs_close; try assumption. lra.
  - destruct (small_close eps s He Hs ltac:(fold t2 t; lra)) as (X & Y & Z). fold t2 in X, Y, Z. replace (4 * eps) with (eps / 2 + eps / 2 + (3 * eps)) by field. apply coeffs_close; try assumption. lra.
Qed.
