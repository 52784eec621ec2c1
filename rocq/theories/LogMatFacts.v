(* log3 of a rotation matrix: exact away from the identity and from half turns. *)
Require Import Reals Arith Lra Lia Psatz.
From Verif Require Import Vec3 Spatial Rot RotFacts Joints ExpLog LieGroup Spec_Exp ExpFacts ExpFacts2 ExpFacts5 LogFacts ExpJac ExpJacFacts LogMat.
Local Open Scope R_scope.

Lemma nrm3_eq v : nrm3 v = v3norm v. Proof. reflexivity. Qed.
Lemma renorm_rot A : isRotation A -> renormalize A = A.
Proof.
  intros H. assert (O : m3mul (m3tr A) A = m3id) by (apply H).
  assert (C0 : v3dot (m3col A 0) (m3col A 0) = 1) by (exact (f_equal m00 O)).
  assert (C1 : v3dot (m3col A 1) (m3col A 1) = 1) by (exact (f_equal m11 O)).
  assert (K : forall u v, m3vec A (v3cross u v) = v3cross (m3vec A u) (m3vec A v)) by (intros; now apply rotation_cross).
  assert (E0 : m3vec A (mkV3 1 0 0) = m3col A 0) by (destruct A; unfold m3vec; cbn; f_equal; ring).
  assert (E1 : m3vec A (mkV3 0 1 0) = m3col A 1) by (destruct A; unfold m3vec; cbn; f_equal; ring).
  assert (E2 : m3vec A (mkV3 0 0 1) = m3col A 2) by (destruct A; unfold m3vec; cbn; f_equal; ring).
  unfold renormalize. cbv zeta. unfold nrm3, v3norm2. change (v3dot (m3col A 0) (m3col A 0)) with (v3dot (m3col A 0) (m3col A 0)).
  rewrite ?C0, ?C1. 
  assert (U : forall v, v3scale (/ sqrt 1) v = v) by (intros v; rewrite sqrt_1, Rinv_1; destruct v; unfold v3scale; cbn; f_equal; ring). 
  change (v3scale (/ sqrt (v3dot (m3col A 0) (m3col A 0))) (m3col A 0)) with (v3scale (/ sqrt (v3dot (m3col A 0) (m3col A 0))) (m3col A 0)). 
  rewrite !U. rewrite <- E0, <- E1, <- !K.
  replace (v3cross (mkV3 1 0 0) (mkV3 0 1 0)) with (mkV3 0 0 1) by (unfold v3cross; cbn; f_equal; ring).
  replace (v3cross (mkV3 0 1 0) (mkV3 0 0 1)) with (mkV3 1 0 0) by (unfold v3cross; cbn; f_equal; ring).
  rewrite E0, E1, E2. destruct A; reflexivity.
Qed.
Lemma rexp_rot v : isRotation (Rexp v).
Proof. destruct (Qexp_spec v) as [U <-]. now apply qmat_rot. Qed.
Lemma rexp_trace v : m3trace (Rexp v) = 1 + 2 * cos (v3norm v).
Proof.
  unfold m3trace, Rexp. cbn. set (x := v3norm v). 
  assert (XX : x * x = vx v * vx v + vy v * vy v + vz v * vz v) by (unfold x; rewrite <- norm2_norm; reflexivity).
  destruct (Req_EM_T x 0) as [Z|N].
  - rewrite Z in *. unfold cosc. destruct (Req_EM_T 0 0) as [_|B]; [|contradiction]. rewrite cos_0. replace (0 * 0) with 0 in XX by ring. assert (A1 := Rle_0_sqr (vx v)). assert (A2 := Rle_0_sqr (vy v)). assert (A3 := Rle_0_sqr (vz v)). unfold Rsqr in *. lra.
  - rewrite cosc_nz by exact N. transitivity (3 * cos x + (1 - cos x) / (x * x) * (vx v * vx v + vy v * vy v + vz v * vz v)); [ring|]. rewrite <- XX. field. exact N.
Qed.
Lemma rexp_unskew v : unSkew (Rexp v) = v3scale (sinc (v3norm v)) v.
Proof. unfold unSkew, Rexp, v3scale. cbn. f_equal; field. Qed.
(* every unit quaternion with a non negative scalar part is an exponential *)
Lemma quat_is_exp q : qnorm2 q = 1 -> 0 <= qw q -> exists v, v3norm v <= PI /\ Qexp v = q.
Proof.
  intros U W. set (n := v3norm (qvec q)). pose proof (norm_nonneg (qvec q)) as Hn. fold n in Hn.
  assert (NN : n * n = qx q * qx q + qy q * qy q + qz q * qz q) by (unfold n; rewrite <- norm2_norm; reflexivity).
  destruct (half_angle n (qw q) Hn W) as (f & F & Fs & Fc); [unfold qnorm2, qdot in U; lra|].
  destruct (Req_dec n 0) as [Z|N].
  - exists v3zero. rewrite norm0. split; [pose proof PI_RGT_0; lra|]. pose proof (norm_zero _ Z) as Q. 
    assert (qx q = 0) by exact (f_equal vx Q). assert (qy q = 0) by exact (f_equal vy Q). assert (qz q = 0) by exact (f_equal vz Q).
    unfold Qexp. cbv zeta. rewrite norm0. replace (0 / 2) with 0 by field. rewrite cos_0. destruct q as [a b c d]. cbn in H, H0, H1, U, W. subst a b c. 
    assert (d = 1). { unfold qnorm2, qdot in U. cbn in U. nra. } subst d. f_equal; unfold v3zero; cbn [vx vy vz]; try apply Rmult_0_r.
  - assert (Hp : 0 < n) by lra. assert (Fp : f <> 0) by (intros E; rewrite E, sin_0 in Fs; lra). exists (v3scale (2 * f / n) (qvec q)).
    assert (NV : v3norm (v3scale (2 * f / n) (qvec q)) = 2 * f).
    { rewrite norm_scale. fold n. rewrite Rabs_pos_eq; [field; exact N|]. apply Rmult_le_pos; [lra | left; now apply Rinv_0_lt_compat]. }
    split; [rewrite NV; lra|]. unfold Qexp. cbv zeta. rewrite NV. replace (2 * f / 2) with f by field. rewrite Fc, sinc_nz, Fs by exact Fp. destruct q. unfold v3scale, qvec. cbn. f_equal; field; split; assumption.
Qed.
Lemma rot_quat A : isRotation A -> exists q, qnorm2 q = 1 /\ 0 <= qw q /\ A = qmat q.
Proof.
  intros H. destruct (assign_ok A H) as [U E]. set (q := assignQuaternion A) in *. destruct (Rle_dec 0 (qw q)) as [P|P].
  - exists q. now repeat split.
  - exists (qscale (-1) q). rewrite qmat_opp, E. repeat split; [|cbn; lra]. unfold qnorm2, qdot, qscale in *. cbn. rewrite <- U. ring.
Qed.
(* every rotation is an exponential *)
Lemma rot_is_exp A : isRotation A -> exists v, v3norm v <= PI /\ A = Rexp v.
Proof.
  intros H. destruct (rot_quat A H) as (q & U & W & ->). destruct (quat_is_exp q U W) as (v & L & E). exists v. split; [exact L|]. rewrite <- E. apply Qexp_spec.
Qed.
(* ---- the middle region ---- *)
Definition logT (eps : R) (cv a2 tr : R) : R :=
  if Rle_dec tr (3 - ts2 eps) then (if Rle_dec (-1 + ts2 eps) tr then acos cv else PI - sqrt (2 * (1 - cv) + eps * eps)) else sqrt (2 * (1 - cv) + eps * eps).
Lemma log3_exp eps v : let c := cos (v3norm v) in let th := logT eps c (v3norm2 (unSkew (Rexp v))) (1 + 2 * c) in -1 + ts2 eps <= c ->
  log3 eps (Rexp v) = (v3scale ((if Rle_dec (ts2 eps) th then th / sin th else let a2 := sin (v3norm v) * sin (v3norm v) in 1 + a2 / 6 + a2 * a2 * 3 / 40) * sinc (v3norm v)) v, th).
Proof.
  intros c th Hc. unfold log3. rewrite renorm_rot by apply rexp_rot. cbv zeta. rewrite rexp_trace. fold c. replace ((1 + 2 * c - 1) / 2) with c by field.
  destruct (Rle_dec (-1 + ts2 eps) c) as [_|B]; [|contradiction]. rewrite rexp_unskew.
  fold (logT eps c (v3norm2 (unSkew (Rexp v))) (1 + 2 * c)). fold th.
  assert (A2 : v3norm2 (v3scale (sinc (v3norm v)) v) = sin (v3norm v) * sin (v3norm v)).
  { rewrite norm2_norm, norm_scale. set (x := v3norm v). destruct (Req_EM_T x 0) as [Z|N]; [rewrite Z, sin_0; ring|]. rewrite sinc_nz by exact N.
    transitivity ((Rabs (sin x / x) * Rabs (sin x / x)) * (x * x)); [ring|]. rewrite <- Rabs_mult, Rabs_pos_eq by apply Rle_0_sqr. field. exact N. }
  rewrite A2. f_equal. destruct (Rle_dec (ts2 eps) th); destruct v; unfold v3scale; cbn; f_equal; ring.
Qed.
Lemma one_minus_cos x : 2 * (1 - cos x) = 4 * (sin (x / 2) * sin (x / 2)).
Proof. replace (cos x) with (cos (2 * (x / 2))) by (f_equal; field). rewrite cos_2a_sin. ring. Qed.
Lemma one_minus_cos_le x : 0 <= x -> 2 * (1 - cos x) <= x * x.
Proof.
  intros H. rewrite one_minus_cos. destruct (Req_dec x 0) as [->|N]; [replace (0 / 2) with 0 by field; rewrite sin_0; lra|].
  assert (S : sin (x / 2) <= x / 2) by (left; apply sin_lt_x; lra). assert (S' : - (x / 2) <= sin (x / 2)).
  { destruct (Rle_dec (x / 2) 1) as [L|L]; [assert (0 <= sin (x / 2)); [apply sin_ge_0; pose proof PI2_1; lra | lra] | pose proof (SIN_bound (x / 2)); lra]. }
  assert (sin (x / 2) * sin (x / 2) <= x / 2 * (x / 2)) by nra. nra.
Qed.
Theorem log3_middle eps v : 0 < eps <= 1 / 4096 -> v3norm v <= PI -> ts2 eps <= 2 * (1 - cos (v3norm v)) -> -1 + ts2 eps <= cos (v3norm v) ->
  log3 eps (Rexp v) = (v, v3norm v).
Proof.
  intros He L N1 N2. rewrite log3_exp by exact N2. set (x := v3norm v) in *. pose proof (norm_nonneg v) as P. fold x in P. destruct (ts2_bounds eps He) as [B1 B2]. pose proof (ts2_pos eps) as B0.
  assert (E : logT eps (cos x) (v3norm2 (unSkew (Rexp v))) (1 + 2 * cos x) = x).
  { unfold logT. destruct (Rle_dec _ _) as [_|B]; [|lra]. destruct (Rle_dec _ _) as [_|B]; [|lra]. apply acos_cos. lra. }
  rewrite E. pose proof (one_minus_cos_le x P) as Q. assert (X : ts2 eps <= x) by nra. destruct (Rle_dec (ts2 eps) x) as [_|B]; [|contradiction].
  assert (N : x <> 0) by lra. assert (LP : x < PI). { destruct (Rlt_dec x PI) as [G|G]; [exact G|]. assert (EP : x = PI) by lra. rewrite EP, cos_PI in N2. lra. }
  assert (S : 0 < sin x) by (apply sin_gt_0; lra). rewrite sinc_nz by exact N. f_equal. destruct v. unfold v3scale. cbn. f_equal; field; split; lra.
Qed.
(* the region: no closer to the identity than ts2, no closer to a half turn than ts2 *)
Theorem log3_rot eps A : 0 < eps <= 1 / 4096 -> isRotation A -> ts2 eps <= 3 - m3trace A -> -1 + 2 * ts2 eps <= m3trace A ->
  Rexp (fst (log3 eps A)) = A /\ snd (log3 eps A) = v3norm (fst (log3 eps A)) /\ 0 < snd (log3 eps A) < PI.
Proof.
  intros He H N1 N2. destruct (rot_is_exp A H) as (v & L & ->). rewrite rexp_trace in *. rewrite log3_middle; try lra. cbn. pose proof (ts2_pos eps) as B0.
  repeat split. 
  - pose proof (norm_nonneg v) as [P|P]; [exact P|]. rewrite <- P, cos_0 in N1. lra.
  - destruct (Rlt_dec (v3norm v) PI) as [G|G]; [exact G|]. assert (EP : v3norm v = PI) by lra. rewrite EP, cos_PI in N2. lra.
Qed.
