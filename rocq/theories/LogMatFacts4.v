(* log3 of every rotation. *)
Require Import Reals Arith Lra Lia Psatz.
From Verif Require Import Vec3 Spatial Rot RotFacts Joints JointFacts ExpLog LieGroup LieFacts Spec_Exp ExpFacts ExpFacts2 ExpFacts3 ExpFacts5 LogFacts LogFacts2 LieFacts10 ExpJac ExpJacFacts ExpJacFacts2 ExpJacFacts3 LogMat LogMatFacts LogMatFacts2 LogMatFacts3.
Local Open Scope R_scope.

Lemma qexp_scale k v d : Rabs (k - 1) <= d -> qclose (d * (v3norm v / 2)) (Qexp (v3scale k v)) (Qexp v).
Proof.
  intros Hk. set (w := v3norm v / 2). pose proof (norm_nonneg v) as N0. pose proof (Rabs_pos (k - 1)) as P.
  assert (E1 : Qexp v = Qexp (v3scale 1 v)) by (f_equal; destruct v; unfold v3scale; cbn; f_equal; ring). rewrite E1, !Qexp_line. fold w.
  assert (B : forall f : R -> R, (forall a b, Rabs (f a - f b) <= Rabs (a - b)) -> Rabs (f (k * w) - f (1 * w)) <= d * w).
  { intros f L. eapply Rle_trans; [apply L|]. replace (k * w - 1 * w) with ((k - 1) * w) by ring. rewrite Rabs_mult, (Rabs_pos_eq w) by (unfold w; lra). apply Rmult_le_compat_r; [unfold w; lra | exact Hk]. }
  pose proof (B sin sin_lip) as Bs. pose proof (B cos cos_lip) as Bc.
  destruct (Req_dec (v3norm v) 0) as [Z|Z].
  - rewrite (norm_zero v Z). unfold v3zero, qclose. cbn [qx qy qz qw vx vy vz]. rewrite !Rmult_0_r. replace (0 - 0) with 0 by ring. rewrite Rabs_R0. assert (0 <= d * w) by (unfold w; rewrite Z; lra). repeat split; assumption.
  - assert (W : w <> 0) by (unfold w; lra). assert (Ws : 0 < w) by (unfold w; lra).
    assert (S : forall s, s * sinc (s * w) / 2 = sin (s * w) / (2 * w)).
    { intros s. unfold sinc. destruct (Req_EM_T (s * w) 0) as [E|E]; [|field; split; [exact W | intros C; apply E; rewrite C; ring]]. apply Rmult_integral in E. destruct E as [E|E]; [|contradiction]. rewrite E, !Rmult_0_l, sin_0. field. exact W. }
    rewrite !S. destruct (v3_comp v) as (V1 & V2 & V3').
    assert (G : forall a, Rabs a <= v3norm v -> Rabs (sin (k * w) / (2 * w) * a - sin (1 * w) / (2 * w) * a) <= d * w).
    { intros a Ha. replace (sin (k * w) / (2 * w) * a - sin (1 * w) / (2 * w) * a) with ((sin (k * w) - sin (1 * w)) * (a / (2 * w))) by (field; exact W). rewrite Rabs_mult.
      assert (Q : Rabs (a / (2 * w)) <= 1). { unfold Rdiv. rewrite Rabs_mult, (Rabs_pos_eq (/ (2 * w))) by (left; apply Rinv_0_lt_compat; lra). apply (Rmult_le_reg_r (2 * w)); [lra|]. rewrite Rmult_assoc, Rinv_l by lra. unfold w. lra. }
      replace (d * w) with (d * w * 1) by ring. apply Rmult_le_compat; try apply Rabs_pos; assumption. }
    unfold qclose. cbn [qx qy qz qw]. repeat split; try (apply G; assumption). exact Bc.
Qed.
Lemma rexp_scale k v d : Rabs (k - 1) <= d -> m3close (4 * d * v3norm v) (Rexp (v3scale k v)) (Rexp v).
Proof.
  intros Hk. destruct (Qexp_spec v) as [U <-]. destruct (Qexp_spec (v3scale k v)) as [U' <-]. replace (4 * d * v3norm v) with (8 * (d * (v3norm v / 2))) by field. apply qmat_close; [assumption | assumption | now apply qexp_scale].
Qed.
Lemma m3close_refl d A : 0 <= d -> m3close d A A.
Proof. intros H. unfold m3close. rewrite !Rminus_diag_eq, Rabs_R0 by reflexivity. repeat split; exact H. Qed.
Lemma log3_near eps v : 0 < eps <= 1 / 4096 -> v3norm v <= PI -> 2 * (1 - cos (v3norm v)) < ts2 eps ->
  log3 eps (Rexp v) = (v3scale (kNear eps v) v, sqrt (2 * (1 - cos (v3norm v)) + eps * eps)).
Proof.
  intros He L N. destruct (ts2_bounds eps He) as [B1 B2]. rewrite log3_exp by lra. set (x := v3norm v) in *.
  assert (E : logT eps (cos x) (v3norm2 (unSkew (Rexp v))) (1 + 2 * cos x) = sqrt (2 * (1 - cos x) + eps * eps)). { unfold logT. destruct (Rle_dec _ _) as [B|_]; [lra | reflexivity]. }
  rewrite E. reflexivity.
Qed.
Definition angErr (eps : R) : R := sqrt eps / 16 + eps.
Lemma sqrt_T eps : 0 < eps -> sqrt eps = ts2 eps * sqrt (ts2 eps).
Proof.
  intros He. pose proof (ts2_pos eps) as P. rewrite <- (ts2_cube eps He) at 1. rewrite sqrt_mult by nra. rewrite sqrt_square by lra. reflexivity.
Qed.
Theorem log3_all eps A : 0 < eps <= 1 / 4096 -> isRotation A -> let l := log3 eps A in
  m3close (ts2 eps ^ 2 / 16 + 8 * eps) (Rexp (fst l)) A /\ Rabs (snd l - v3norm (fst l)) <= angErr eps /\ 0 <= snd l <= PI.
Proof.
  intros He H l. destruct (ts2_bounds eps He) as [B1 B2]. pose proof (ts2_pos eps) as B0. assert (E0 : 0 <= angErr eps) by (unfold angErr; pose proof (sqrt_pos eps); lra). assert (Sq : 0 <= ts2 eps ^ 2) by apply pow2_ge_0.
  destruct (Rlt_dec (m3trace A) (-1 + 2 * ts2 eps)) as [P|P]; [|destruct (Rle_dec (ts2 eps) (3 - m3trace A)) as [Q|Q]].
  - destruct (log3_pi eps A He H P) as (C & E & D). fold l in C, E, D. rewrite E in *. split; [eapply m3close_mono; [|exact C]; lra|]. rewrite Rminus_diag_eq, Rabs_R0 by reflexivity. split; [exact E0 | lra].
  - destruct (log3_rot eps A He H Q ltac:(lra)) as (C & E & D). fold l in C, E, D. rewrite C. split; [apply m3close_refl; lra|]. rewrite E in *. rewrite Rminus_diag_eq, Rabs_R0 by reflexivity. split; [exact E0 | lra].
  - apply Rnot_le_lt in Q. destruct (rot_is_exp A H) as (v & L & EA). assert (N : 2 * (1 - cos (v3norm v)) < ts2 eps) by (rewrite EA, rexp_trace in Q; lra). assert (N' := Rlt_le _ _ N).
    unfold l. rewrite EA, (log3_near eps v He L N). cbn [fst snd]. pose proof (kNear_close eps v He L N') as K. pose proof (th_close eps v He L N') as TH. pose proof (th_small eps v He L N') as TS. pose proof (th_pos eps v He) as TP.
    destruct (x_sq eps v He L N') as (X1 & X2 & _). pose proof (norm_nonneg v) as X0. set (x := v3norm v) in *. set (th := sqrt (2 * (1 - cos x) + eps * eps)) in *. set (T := ts2 eps) in *. 
    split; [|split].
    + eapply m3close_mono; [|apply rexp_scale, K]. fold x. replace (T ^ 2) with (T * T) by ring. assert (T * T * x <= T * T * (3 / 10)) by (apply Rmult_le_compat_l; nra). assert (0 <= T * T) by nra. lra.
    + rewrite norm_scale. fold x. assert (KP : 0 <= kNear eps v). { apply rabs_inv in K. assert (T * T <= 1 / 256) by nra. lra. } rewrite (Rabs_pos_eq (kNear eps v)) by exact KP.
      replace (th - kNear eps v * x) with ((th - x) + (1 - kNear eps v) * x) by ring. eapply Rle_trans; [apply Rabs_triang|]. rewrite Rabs_mult, (Rabs_minus_sym 1), (Rabs_pos_eq x) by exact X0.
      assert (KX : Rabs (kNear eps v - 1) * x <= T * T / 20 * x) by (apply Rmult_le_compat_r; assumption).
      unfold angErr. rewrite (sqrt_T eps) by lra. fold T. set (r := sqrt T). assert (R0 : 0 < r) by (apply sqrt_lt_R0; exact B0). assert (RR : r * r = T) by (apply sqrt_sqrt; lra).
      assert (XR : x <= 21 / 20 * r). { destruct (Rle_dec x (21 / 20 * r)) as [G|G]; [exact G|]. apply Rnot_le_lt in G. assert (21 / 20 * r * (21 / 20 * r) < x * x) by nra. nra. }
      assert (C1 : x * x * x <= 11 / 10 * T * (21 / 20 * r)) by (apply Rmult_le_compat; nra). assert (C2 : T * T / 20 * x <= T * (1 / 16) / 20 * (21 / 20 * r)) by (apply Rmult_le_compat; nra).
      replace (11 / 10 * T * (21 / 20 * r)) with (231 / 200 * (T * r)) in C1 by field. replace (T * (1 / 16) / 20 * (21 / 20 * r)) with (21 / 6400 * (T * r)) in C2 by field. assert (0 < T * r) by nra. lra.
    + pose proof PI2_1. lra.
Qed.
(* the angle returned near the identity is off by sqrt eps / 30 *)
Theorem log3_angle C : exists eps A, 0 < eps <= 1 / 4096 /\ isRotation A /\ C * eps < Rabs (snd (log3 eps A) - v3norm (fst (log3 eps A))).
Proof.
  set (K := Rabs C + 1). assert (HK : 1 <= K) by (unfold K; pose proof (Rabs_pos C); lra). assert (HC : C <= K) by (unfold K; pose proof (Rle_abs C); lra).
  set (x := / (100 * K)). assert (Hx : 0 < x) by (apply Rinv_0_lt_compat; lra). assert (Hx1 : x * (100 * K) = 1) by (unfold x; field; lra). assert (Hs : x <= 1 / 100) by nra.
  assert (X2 : 0 < x * x <= 1 / 10000) by (split; nra). set (X := x * x) in *. set (eps := X * X * X). assert (P6 : X * X <= 1 / 10000 * (1 / 10000)) by nra. assert (He : 0 < eps <= 1 / 4096) by (unfold eps; split; [repeat apply Rmult_lt_0_compat; lra | nra]).
  assert (ET : ts2 eps = X).
  { unfold ts2, eps. replace (X * X * X) with (X ^ 3) by ring. rewrite <- (Rpower_pow 3) by lra. rewrite Rpower_mult. replace (INR 3 * / 3) with 1 by (cbn; field). apply Rpower_1. lra. }
  exists eps, (Rexp (mkV3 x 0 0)). split; [exact He|]. split; [apply rexp_rot|].
  assert (NX : v3norm (mkV3 x 0 0) = x) by (apply norm_x; lra). destruct (taylor_cos x ltac:(lra)) as [[A1 A2] A3].
  replace (x * x * x * x * x * x) with (X * X * X) in A3 by (unfold X; ring). replace (x * x * x * x) with (X * X) in A2, A3 by (unfold X; ring). fold X in A1, A2, A3.
  assert (X4 : 0 < X * X) by nra. assert (X6 : 0 < X * X * X <= X * X / 10000) by (split; nra).
  assert (N : 2 * (1 - cos (v3norm (mkV3 x 0 0))) < ts2 eps) by (rewrite ET, NX; lra). assert (L : v3norm (mkV3 x 0 0) <= PI) by (rewrite NX; pose proof PI2_1; lra).
  rewrite (log3_near eps _ He L N). cbn [fst snd]. pose proof (kNear_close eps _ He L (Rlt_le _ _ N)) as KN. rewrite NX, ET in *. rewrite norm_scale, NX. set (k := kNear eps (mkV3 x 0 0)) in *. apply rabs_inv in KN. rewrite (Rabs_pos_eq k) by lra.
  set (th := sqrt (2 * (1 - cos x) + eps * eps)). assert (TH : th * th = 2 * (1 - cos x) + eps * eps) by (apply sqrt_sqrt; nra). assert (TP : 0 <= th) by apply sqrt_pos.
  assert (E2 : eps * eps <= X * X / 10000) by (unfold eps; apply Rle_trans with (X * X * X * 1); [apply Rmult_le_compat_l; nra | lra]).
  assert (Q : X * X / 13 <= X - th * th) by (rewrite TH; lra). assert (TX : th <= x) by (unfold X in *; nra).
  assert (F : X * x / 26 <= x - th). { assert ((x - th) * (x + th) = X - th * th) by (unfold X; ring). assert ((x - th) * (2 * x) >= X * X / 13) by nra. replace (X * X) with (x * X * x) in H0 by (unfold X; ring). nra. }
  assert (G : (1 - k) * x <= X * X / 20 * x) by (apply Rmult_le_compat_r; lra).
  assert (Xx : 0 < X * x) by nra. assert (G2 : X * X * x <= X * x / 10000) by nra.
  assert (H : X * x / 30 <= k * x - th) by lra. rewrite Rabs_minus_sym, Rabs_pos_eq by lra.
  assert (V1 : C * eps <= K * eps) by (apply Rmult_le_compat_r; lra). assert (V2 : K * eps = X * X * x / 100) by (unfold eps; replace (K * (X * X * X)) with (X * X * x / 100 * (x * (100 * K))) by (unfold X; field); rewrite Hx1; ring). lra.
Qed.
