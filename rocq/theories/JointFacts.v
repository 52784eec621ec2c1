Require Import Reals Lra Lia List Nsatz.
From Verif Require Import Vec3 Spatial InertiaFacts Deriv Joints Spec_Joints.
Import ListNotations.
Local Open Scope R_scope.

(* ---------- rotations ---------- *)
Lemma axisRotation_rot ax s c : c * c + s * s = 1 -> isRotation (axisRotation ax s c).
Proof.
  intros H. destruct ax as [|[|?]]; (split; [unfold orthogonal; apply m3_ext; vsimp; cbn [axisRotation m00 m01 m02 m10 m11 m12 m20 m21 m22]; nra
   | vsimp; cbn [axisRotation m00 m01 m02 m10 m11 m12 m20 m21 m22]; nra]).
Qed.

Lemma toRotationMatrix_spec a c s v :
  m3vec (toRotationMatrix a c s) v =
  v3add (v3scale c v) (v3add (v3scale ((1 - c) * v3dot a v) a) (v3scale s (v3cross a v))).
Proof. unfold toRotationMatrix. sring. Qed.

Lemma toRotationMatrix_rot a c s : unit3 a -> c * c + s * s = 1 -> isRotation (toRotationMatrix a c s).
Proof.
  unfold unit3. destruct a as [x y z]. intros Ha H. cbn in Ha. unfold v3dot in Ha. cbn in Ha.
  assert (Hs : s * s = 1 - c * c) by lra.
  assert (Hz : z * z = 1 - x * x - y * y) by lra.
  split.
  - unfold orthogonal. apply m3_ext; vsimp; unfold toRotationMatrix; cbn [vx vy vz v3scale m00 m01 m02 m10 m11 m12 m20 m21 m22]; nsatz.
  - vsimp; unfold toRotationMatrix; cbn [vx vy vz v3scale m00 m01 m02 m10 m11 m12 m20 m21 m22]; nsatz.
Qed.

Lemma quatMatrix_rot x y z w : x * x + y * y + z * z + w * w = 1 -> isRotation (quatMatrix x y z w).
Proof.
  intros H. split.
  - unfold orthogonal. apply m3_ext; vsimp; unfold quatMatrix; cbn [m00 m01 m02 m10 m11 m12 m20 m21 m22]; nsatz.
  - vsimp; unfold quatMatrix; cbn [m00 m01 m02 m10 m11 m12 m20 m21 m22]; nsatz.
Qed.
Lemma quatMatrix_rotate x y z w u : x * x + y * y + z * z + w * w = 1 ->
  m3vec (quatMatrix x y z w) u = quatRotate x y z w u.
Proof. intros H. unfold quatMatrix, quatRotate. sext; ssimp; ring. Qed.

Lemma zyx_product s0 c0 s1 c1 s2 c2 :
  zyxRotation s0 c0 s1 c1 s2 c2 = m3mul (axisRotation 2 s0 c0) (m3mul (axisRotation 1 s1 c1) (axisRotation 0 s2 c2)).
Proof. apply m3_ext; cbn; ring. Qed.
Lemma sc1 x : cos x * cos x + sin x * sin x = 1.
Proof. pose proof (sin2_cos2 x). unfold Rsqr in *. lra. Qed.

Lemma calcM1_rot j q : validJoint1 j -> validConfig1 j q -> isRotation (rot (calcM1 j q)).
Proof.
  intros Hj Hq. destruct j; cbn [calcM1 rot validJoint1 validConfig1] in *;
    try (apply axisRotation_rot; first [apply sc1 | assumption | lra]);
    try (apply toRotationMatrix_rot; [assumption | first [apply sc1 | assumption]]);
    try apply isRotation_id; try (apply quatMatrix_rot; assumption).
  - rewrite zyx_product. repeat apply isRotation_mul; apply axisRotation_rot; apply sc1.
  - destruct Hj. apply isRotation_mul; apply toRotationMatrix_rot; try assumption; apply sc1.
Qed.

(* ---------- velocity ---------- *)
Lemma calcv1_S j q v : calcv1 j q v = Smul (calcS1 j q) v.
Proof. destruct j; cbn; unfold shift; cbn; sext; cbn; try ring. Qed.

Lemma hasTwist_pure_rot (Rt : R -> M3) w t :
  derivM3 Rt (m3mul (Rt t) (skew w)) t -> hasTwist (fun s => mkSE3 (Rt s) v3zero) (angCol w) t.
Proof.
  intros H. split; cbn; [exact H|]. eapply deriv3_eq; [apply deriv3_const|]. sring.
Qed.

Definition qtraj := R -> nat -> R.

Lemma deriv_axisRotation ax (s c : R -> R) w t :
  s t * s t + c t * c t = 1 ->
  deriv c (- s t * w) t -> deriv s (c t * w) t ->
  derivM3 (fun u => axisRotation ax (s u) (c u)) (m3mul (axisRotation ax (s t) (c t)) (skew (v3scale w (unitAxis ax)))) t.
Proof.
  intros H1 Hc Hs. destruct ax as [|[|?]]; unfold derivM3; dsplit; cbn; (eapply deriv_eq; [dv | cbv beta; ring]).
Qed.

Lemma deriv_toRotationMatrix a (c s : R -> R) w t :
  unit3 a -> c t * c t + s t * s t = 1 -> deriv c (- s t * w) t -> deriv s (c t * w) t ->
  derivM3 (fun u => toRotationMatrix a (c u) (s u)) (m3mul (toRotationMatrix a (c t) (s t)) (skew (v3scale w a))) t.
Proof.
  unfold unit3. destruct a as [x y z]. intros Ha H Hc Hs. unfold v3dot in Ha; cbn in Ha.
  unfold derivM3, toRotationMatrix; dsplit; cbn [vx vy vz v3scale m00 m01 m02 m10 m11 m12 m20 m21 m22 m3mul skew];
    (eapply deriv_eq; [dv | cbv beta]).
  all: assert (E : s t * w * (x * x + y * y + z * z) = s t * w) by (rewrite Ha; ring); lra.
Qed.

Lemma deriv_quatMatrix (x y z w : R -> R) a b c t :
  x t * x t + y t * y t + z t * z t + w t * w t = 1 ->
  deriv x (quatRate (x t) (y t) (z t) (w t) a b c 0) t -> deriv y (quatRate (x t) (y t) (z t) (w t) a b c 1) t ->
  deriv z (quatRate (x t) (y t) (z t) (w t) a b c 2) t -> deriv w (quatRate (x t) (y t) (z t) (w t) a b c 3) t ->
  derivM3 (fun u => quatMatrix (x u) (y u) (z u) (w u)) (m3mul (quatMatrix (x t) (y t) (z t) (w t)) (skew (mkV3 a b c))) t.
Proof.
  intros H Hx Hy Hz Hw. cbn in Hx, Hy, Hz, Hw.
  unfold derivM3, quatMatrix; dsplit; cbn [vx vy vz m00 m01 m02 m10 m11 m12 m20 m21 m22 m3mul skew];
    (eapply deriv_eq; [dv | cbv beta]).
  all: revert H; generalize (x t) (y t) (z t) (w t); intros X Y Z W H.
  all: assert (Ea : a * (X * X + Y * Y + Z * Z + W * W) = a) by (rewrite H; ring).
  all: assert (Eb : b * (X * X + Y * Y + Z * Z + W * W) = b) by (rewrite H; ring).
  all: assert (Ec : c * (X * X + Y * Y + Z * Z + W * W) = c) by (rewrite H; ring).
  all: unfold Rdiv; lra.
Qed.

(* ---------- the joint placement moves with velocity jv ---------- *)
Lemma hasTwist_intro (Rt : R -> M3) (p : R -> V3) dR dp V t :
  derivM3 Rt dR t -> deriv3 p dp t ->
  dR = m3mul (Rt t) (skew (ang V)) -> dp = m3vec (Rt t) (lin V) ->
  hasTwist (fun s => mkSE3 (Rt s) (p s)) V t.
Proof. intros A B -> ->. split; assumption. Qed.

Lemma axisRotation_axis ax s c : m3vec (axisRotation ax s c) (unitAxis ax) = unitAxis ax.
Proof. destruct ax as [|[|?]]; sext; cbn; ring. Qed.
Lemma toRotationMatrix_axis a c s : unit3 a -> m3vec (toRotationMatrix a c s) a = a.
Proof.
  intros Ha. rewrite toRotationMatrix_spec. unfold unit3 in Ha. rewrite Ha. sring.
Qed.

Lemma deriv3_line (f : R -> R) d a t : deriv f d t -> deriv3 (fun s => v3scale (f s) a) (v3scale d a) t.
Proof. intros H. split; [|split]; cbn; (eapply deriv_eq; [dv | cbv beta; ring]). Qed.

Lemma hasTwist1 j (q : R -> nat -> R) (v : nat -> R) t :
  validJoint1 j -> validConfig1 j (q t) ->
  (forall k, (k < nq1 j)%nat -> deriv (fun s => q s k) (configRate1 j (q t) v k) t) ->
  hasTwist (fun s => calcM1 j (q s)) (calcv1 j (q t) v) t.
Proof.
  intros Hj Hq Hd.
  destruct j; cbn [calcM1 calcv1 nq1 validJoint1 validConfig1 configRate1] in *.
  - pose proof (Hd 0%nat ltac:(lia)) as H0. apply hasTwist_pure_rot.
    apply (deriv_axisRotation axis (fun s => sin (q s 0%nat)) (fun s => cos (q s 0%nat)) (v 0%nat) t).
    + pose proof (sc1 (q t 0%nat)); lra.
    + apply deriv_cos; exact H0.
    + apply deriv_sin; exact H0.
  - pose proof (Hd 0%nat ltac:(lia)) as H0. apply hasTwist_pure_rot.
    apply (deriv_toRotationMatrix a (fun s => cos (q s 0%nat)) (fun s => sin (q s 0%nat)) (v 0%nat) t); auto.
    + apply sc1.
    + apply deriv_cos; exact H0.
    + apply deriv_sin; exact H0.
  - pose proof (Hd 0%nat ltac:(lia)) as H0. pose proof (Hd 1%nat ltac:(lia)) as H1. cbn in H0, H1.
    apply hasTwist_pure_rot.
    apply (deriv_axisRotation axis (fun s => q s 1%nat) (fun s => q s 0%nat) (v 0%nat) t); auto. lra.
  - pose proof (Hd 0%nat ltac:(lia)) as H0. pose proof (Hd 1%nat ltac:(lia)) as H1. cbn in H0, H1.
    apply hasTwist_pure_rot.
    apply (deriv_toRotationMatrix a (fun s => q s 0%nat) (fun s => q s 1%nat) (v 0%nat) t); auto.
  - pose proof (Hd 0%nat ltac:(lia)) as H0.
    eapply hasTwist_intro; [apply derivM3_const | apply deriv3_line; exact H0 | unfold linCol; sring | unfold linCol; sring].
  - pose proof (Hd 0%nat ltac:(lia)) as H0.
    eapply hasTwist_intro; [apply derivM3_const | apply deriv3_line; exact H0 | unfold linCol; sring | unfold linCol; sring].
  - pose proof (Hd 0%nat ltac:(lia)) as H0.
    eapply hasTwist_intro.
    + apply (deriv_axisRotation axis (fun s => sin (q s 0%nat)) (fun s => cos (q s 0%nat)) (v 0%nat) t).
      * pose proof (sc1 (q t 0%nat)); lra.
      * apply deriv_cos; exact H0.
      * apply deriv_sin; exact H0.
    + apply deriv3_line. apply deriv_mult; [exact H0 | apply deriv_const].
    + reflexivity.
    + cbn [lin]. rewrite m3vec_scale_r, axisRotation_axis. f_equal. ring.
  - pose proof (Hd 0%nat ltac:(lia)) as H0.
    eapply hasTwist_intro.
    + apply (deriv_toRotationMatrix a (fun s => cos (q s 0%nat)) (fun s => sin (q s 0%nat)) (v 0%nat) t); auto.
      * apply sc1.
      * apply deriv_cos; exact H0.
      * apply deriv_sin; exact H0.
    + apply (deriv3_ext _ (fun s => v3scale (pitch * q s 0%nat) a)); [intros; sring|].
      apply deriv3_line. apply deriv_mult; [apply deriv_const | exact H0].
    + reflexivity.
    + cbn [lin]. rewrite m3vec_scale_r, toRotationMatrix_axis by exact Hj. f_equal. ring.
  - eapply hasTwist_intro.
    + apply (deriv_quatMatrix (fun s => q s 3%nat) (fun s => q s 4%nat) (fun s => q s 5%nat) (fun s => q s 6%nat)
              (v 3%nat) (v 4%nat) (v 5%nat) t).
      * exact Hq.
      * apply (Hd 3%nat); lia.
      * apply (Hd 4%nat); lia.
      * apply (Hd 5%nat); lia.
      * apply (Hd 6%nat); lia.
    + instantiate (1 := quatRotate (q t 3%nat) (q t 4%nat) (q t 5%nat) (q t 6%nat) (mkV3 (v 0%nat) (v 1%nat) (v 2%nat))).
      split; [|split]; cbn [vx vy vz];
      [apply (Hd 0%nat) | apply (Hd 1%nat) | apply (Hd 2%nat)]; lia.
    + reflexivity.
    + cbn [lin]. rewrite quatMatrix_rotate by exact Hq. reflexivity.
  - apply hasTwist_pure_rot.
    apply (deriv_quatMatrix (fun s => q s 0%nat) (fun s => q s 1%nat) (fun s => q s 2%nat) (fun s => q s 3%nat)
              (v 0%nat) (v 1%nat) (v 2%nat) t).
    + exact Hq.
    + apply (Hd 0%nat); lia.
    + apply (Hd 1%nat); lia.
    + apply (Hd 2%nat); lia.
    + apply (Hd 3%nat); lia.
  - (* ZYX *)
    pose proof (Hd 0%nat ltac:(lia)) as H0. pose proof (Hd 1%nat ltac:(lia)) as H1. pose proof (Hd 2%nat ltac:(lia)) as H2.
    apply hasTwist_pure_rot.
    pose proof (sc1 (q t 0%nat)) as E0. pose proof (sc1 (q t 1%nat)) as E1. pose proof (sc1 (q t 2%nat)) as E2.
    unfold derivM3, zyxRotation; dsplit; cbn [m00 m01 m02 m10 m11 m12 m20 m21 m22 m3mul skew m3vec vx vy vz];
      (eapply deriv_eq; [dv | cbv beta]).
    all: revert E0 E1 E2; clear; generalize (sin (q t 0%nat)) (cos (q t 0%nat)) (sin (q t 1%nat)) (cos (q t 1%nat))
      (sin (q t 2%nat)) (cos (q t 2%nat)) (v 0%nat) (v 1%nat) (v 2%nat); intros s0 c0 s1 c1 s2 c2 v0 v1 v2 E0 E1 E2.
    all: nsatz.
  - eapply hasTwist_intro.
    + apply (deriv_axisRotation 2 (fun s => q s 3%nat) (fun s => q s 2%nat) (v 2%nat) t).
      * lra.
      * apply (Hd 2%nat); lia.
      * apply (Hd 3%nat); lia.
    + instantiate (1 := mkV3 _ _ _). split; [|split]; cbn [vx vy vz];
      [apply (Hd 0%nat); lia | apply (Hd 1%nat); lia | apply deriv_const].
    + apply m3_ext; cbn; ring.
    + apply v3_ext; cbn; ring.
  - eapply hasTwist_intro; [apply derivM3_const | | unfold linCol; sring |].
    + instantiate (1 := mkV3 _ _ _). split; [|split]; cbn [vx vy vz];
      [apply (Hd 0%nat); lia | apply (Hd 1%nat); lia | apply (Hd 2%nat); lia].
    + unfold linCol; sring.
  - (* universal: product of two rotations *)
    destruct Hj as [Ha1 Ha2].
    pose proof (Hd 0%nat ltac:(lia)) as H0. pose proof (Hd 1%nat ltac:(lia)) as H1.
    set (A := fun s => mkSE3 (toRotationMatrix a1 (cos (q s 0%nat)) (sin (q s 0%nat))) v3zero).
    set (B := fun s => mkSE3 (toRotationMatrix a2 (cos (q s 1%nat)) (sin (q s 1%nat))) v3zero).
    assert (HA : hasTwist A (angCol (v3scale (v 0%nat) a1)) t).
    { apply hasTwist_pure_rot.
      apply (deriv_toRotationMatrix a1 (fun s => cos (q s 0%nat)) (fun s => sin (q s 0%nat)) (v 0%nat) t); auto;
      [apply sc1 | apply deriv_cos; exact H0 | apply deriv_sin; exact H0]. }
    assert (HB : hasTwist B (angCol (v3scale (v 1%nat) a2)) t).
    { apply hasTwist_pure_rot.
      apply (deriv_toRotationMatrix a2 (fun s => cos (q s 1%nat)) (fun s => sin (q s 1%nat)) (v 1%nat) t); auto;
      [apply sc1 | apply deriv_cos; exact H1 | apply deriv_sin; exact H1]. }
    eapply (hasTwist_ext _ (fun s => se3_mul (A s) (B s))).
    { intros s. unfold A, B. unfold se3_mul; cbn [rot trans]. f_equal. sring. }
    eapply hasTwist_eq; [apply hasTwist_mul; [|exact HA|exact HB]|].
    + cbn. apply toRotationMatrix_rot; [exact Ha2 | apply sc1].
    + unfold B. cbn [rot trans]. generalize (toRotationMatrix a2 (cos (q t 1%nat)) (sin (q t 1%nat))). intros r2.
      apply v6_ext; apply v3_ext; cbn; ring.
Qed.

(* ---------- bias: derivative of jv ---------- *)
Lemma bias1 j (q v : R -> nat -> R) (a : nat -> R) t :
  validJoint1 j -> validConfig1 j (q t) ->
  (forall k, (k < nq1 j)%nat -> deriv (fun s => q s k) (configRate1 j (q t) (v t) k) t) ->
  (forall k, (k < nv1 j)%nat -> deriv (fun s => v s k) (a k) t) ->
  deriv6 (fun s => calcv1 j (q s) (v s)) (v6add (Smul (calcS1 j (q t)) a) (calcc1 j (q t) (v t))) t.
Proof.
  intros Hj Hq Hd Hv.
  destruct j; cbn [calcv1 calcS1 calcc1 nq1 nv1 validJoint1 validConfig1 configRate1] in *.
  11: { pose proof (Hd 1%nat ltac:(lia)) as H1. pose proof (Hd 2%nat ltac:(lia)) as H2.
        pose proof (Hv 0%nat ltac:(lia)) as V0; pose proof (Hv 1%nat ltac:(lia)) as V1; pose proof (Hv 2%nat ltac:(lia)) as V2.
        split; (split; [|split]); cbn; unfold shift; cbn; (eapply deriv_eq; [dv | cbv beta; ring]). }
  13: { destruct Hj as [Ha1 Ha2].
        pose proof (Hd 0%nat ltac:(lia)) as H0. pose proof (Hd 1%nat ltac:(lia)) as H1.
        pose proof (Hv 0%nat ltac:(lia)) as V0; pose proof (Hv 1%nat ltac:(lia)) as V1.
        destruct a1 as [x1 y1 z1], a2 as [x2 y2 z2]. unfold unit3, v3dot in Ha2. cbn in Ha2.
        split; (split; [|split]); cbn; unfold shift; cbn; (eapply deriv_eq; [dv | cbv beta]); try ring.
        all: clear -Ha2; revert Ha2; generalize (sin (q t 1%nat)) (cos (q t 1%nat)) (v t 0%nat) (v t 1%nat); intros s1 c1 v0 v1 Ha2.
        all: try ring. all: try nsatz. }
  all: try (pose proof (Hv 0%nat ltac:(lia)) as V0); try (pose proof (Hv 1%nat ltac:(lia)) as V1);
       try (pose proof (Hv 2%nat ltac:(lia)) as V2); try (pose proof (Hv 3%nat ltac:(lia)) as V3);
       try (pose proof (Hv 4%nat ltac:(lia)) as V4); try (pose proof (Hv 5%nat ltac:(lia)) as V5).
  all: split; (split; [|split]); cbn; unfold shift; cbn; (eapply deriv_eq; [dv | cbv beta; ring]).
Qed.

(* ---------- atan2 ---------- *)
Lemma atan2_pos_y y x : 0 < y -> atan2 y x = PI / 2 - atan (x / y).
Proof.
  intros Hy. unfold atan2. destruct (Rlt_dec 0 x) as [Hx|Hx].
  - replace (y / x) with (/ (x / y)) by (field; lra). apply atan_inv. apply Rdiv_lt_0_compat; assumption.
  - destruct (Rlt_dec x 0) as [Hx'|Hx'].
    + destruct (Rle_dec 0 y) as [_|]; [|lra].
      replace (y / x) with (- / (- x / y)) by (field; lra). rewrite atan_opp, atan_inv.
      * replace (- x / y) with (- (x / y)) by (field; lra). rewrite atan_opp. field.
      * apply Rdiv_lt_0_compat; lra.
    + assert (x = 0) as -> by lra. destruct (Rlt_dec 0 y); [|lra]. replace (0 / y) with 0 by (field; lra). rewrite atan_0. ring.
Qed.
Lemma atan2_neg_y y x : y < 0 -> atan2 y x = - (PI / 2) - atan (x / y).
Proof.
  intros Hy. unfold atan2. destruct (Rlt_dec 0 x) as [Hx|Hx].
  - replace (y / x) with (- / (x / (- y))) by (field; lra). rewrite atan_opp, atan_inv.
    + replace (x / - y) with (- (x / y)) by (field; lra). rewrite atan_opp. ring.
    + apply Rdiv_lt_0_compat; lra.
  - destruct (Rlt_dec x 0) as [Hx'|Hx'].
    + destruct (Rle_dec 0 y) as [|_]; [lra|].
      replace (y / x) with (/ (x / y)) by (field; lra). rewrite atan_inv.
      * field.
      * replace (x / y) with ((- x) / (- y)) by (field; lra). apply Rdiv_lt_0_compat; lra.
    + assert (x = 0) as -> by lra. destruct (Rlt_dec 0 y); [lra|]. destruct (Rlt_dec y 0); [|lra].
      replace (0 / y) with 0 by (field; lra). rewrite atan_0. ring.
Qed.
Lemma atan2_pos_x y x : 0 < x -> atan2 y x = atan (y / x).
Proof. intros. unfold atan2. destruct (Rlt_dec 0 x); [reflexivity | lra]. Qed.

Lemma deriv_near_pos f d t : deriv f d t -> 0 < f t -> exists e, 0 < e /\ forall s, Rabs (s - t) < e -> 0 < f s.
Proof.
  intros H Hp. destruct (deriv_continuous f d t H (f t) Hp) as [e [He Hc]]. exists e. split; [exact He|].
  intros s Hs. specialize (Hc s Hs). apply Rabs_def2 in Hc. lra.
Qed.

Lemma deriv_div f g a b t : g t <> 0 -> deriv f a t -> deriv g b t ->
  deriv (fun s => f s / g s) ((a * g t - f t * b) / (g t * g t)) t.
Proof.
  intros Hn Hf Hg. unfold Rdiv at 1. eapply deriv_eq; [apply deriv_mult; [exact Hf | apply deriv_inv; eassumption]|].
  cbv beta. field. exact Hn.
Qed.

Lemma deriv_atan2 (y x : R -> R) dy dx t :
  deriv y dy t -> deriv x dx t -> (y t = 0 -> 0 < x t) ->
  deriv (fun s => atan2 (y s) (x s)) ((x t * dy - y t * dx) / (x t * x t + y t * y t)) t.
Proof.
  intros Hy Hx Hc.
  destruct (Rtotal_order (y t) 0) as [Hn|[Hz|Hp]].
  - destruct (deriv_near_pos (fun s => - y s) (- dy) t (deriv_opp _ _ _ Hy) ltac:(cbv beta; lra)) as [e [He Hl]].
    apply (deriv_ext_loc _ (fun s => - (PI / 2) - atan (x s / y s)) _ t e He).
    { intros s Hs. apply atan2_neg_y. specialize (Hl s Hs). cbv beta in Hl. lra. }
    eapply deriv_eq.
    { eapply deriv_minus; [apply deriv_const | apply deriv_atan; apply deriv_div; [lra | exact Hx | exact Hy]]. }
    cbv beta. field. nra.
  - assert (H0 : 0 < x t) by auto.
    destruct (deriv_near_pos x dx t Hx H0) as [e [He Hl]].
    apply (deriv_ext_loc _ (fun s => atan (y s / x s)) _ t e He).
    { intros s Hs. apply atan2_pos_x. auto. }
    eapply deriv_eq.
    { apply deriv_atan; apply deriv_div; [lra | exact Hy | exact Hx]. }
    cbv beta. field. nra.
  - destruct (deriv_near_pos y dy t Hy ltac:(lra)) as [e [He Hl]].
    apply (deriv_ext_loc _ (fun s => PI / 2 - atan (x s / y s)) _ t e He).
    { intros s Hs. apply atan2_pos_y. auto. }
    eapply deriv_eq.
    { eapply deriv_minus; [apply deriv_const | apply deriv_atan; apply deriv_div; [lra | exact Hx | exact Hy]]. }
    cbv beta. field. nra.
Qed.

Lemma deriv_atan2_circle (q : R -> nat -> R) v t :
  q t 0%nat * q t 0%nat + q t 1%nat * q t 1%nat = 1 -> (q t 1%nat = 0 -> 0 < q t 0%nat) ->
  deriv (fun s => q s 0%nat) (- q t 1%nat * v) t -> deriv (fun s => q s 1%nat) (q t 0%nat * v) t ->
  deriv (fun s => atan2 (q s 1%nat) (q s 0%nat)) v t.
Proof.
  intros H Hc H0 H1. eapply deriv_eq; [apply deriv_atan2; eassumption|].
  cbv beta. rewrite H. replace v with (1 * v) at 3 by ring. rewrite <- H at 2. field.
Qed.

(* ---------- mimic ---------- *)
Lemma mimicConfig_valid j s o q : mimicable j -> validConfig1 j (mimicConfig j s o q).
Proof. destruct j; cbn; try tauto; intros _; apply sc1. Qed.

Lemma mimicConfig_rate j s o (q : R -> nat -> R) v t :
  mimicable j -> validConfig1 j (q t) -> awayFromCut j (q t) ->
  (forall k, (k < nq1 j)%nat -> deriv (fun u => q u k) (configRate1 j (q t) v k) t) ->
  forall k, (k < nq1 j)%nat ->
  deriv (fun u => mimicConfig j s o (q u) k) (configRate1 j (mimicConfig j s o (q t)) (fun i => s * v i) k) t.
Proof.
  intros Hm Hq Hc Hd k Hk.
  destruct j; cbn in *; try tauto.
  all: try (eapply deriv_eq; [apply deriv_plus; [apply deriv_mult; [apply deriv_const | apply Hd; lia] | apply deriv_const]|]; cbv beta; ring).
  all: pose proof (Hd 0%nat ltac:(lia)) as H0; pose proof (Hd 1%nat ltac:(lia)) as H1; cbn in H0, H1;
       pose proof (deriv_atan2_circle q (v 0%nat) t Hq Hc H0 H1) as HA;
       destruct k as [|[|?]]; [| |lia]; cbn; (eapply deriv_eq; [first [apply deriv_cos | apply deriv_sin];
         apply deriv_plus; [apply deriv_mult; [apply deriv_const | exact HA] | apply deriv_const]|]; cbv beta; ring).
Qed.

Lemma createS1_ok j q : mimicable j -> ~ isHelical j -> createS1 j = calcS1 j q.
Proof. destruct j; cbn; tauto. Qed.

Lemma Smul_scale S s x : Smul (map (v6scale s) S) x = Smul S (fun k => s * x k).
Proof.
  revert x. induction S as [|c S IH]; intros x; cbn; [reflexivity|].
  rewrite IH. f_equal. sring.
Qed.
Lemma Smul_ext S x y : (forall k, (k < length S)%nat -> x k = y k) -> Smul S x = Smul S y.
Proof.
  revert x y. induction S as [|c S IH]; intros x y H; cbn; [reflexivity|].
  rewrite (H 0%nat) by (cbn; lia). f_equal. apply IH. intros k Hk. unfold shift. apply H. cbn; lia.
Qed.
Lemma Smul_app S S' x : Smul (S ++ S') x = v6add (Smul S x) (Smul S' (shift (length S) x)).
Proof.
  revert x. induction S as [|c S IH]; intros x; cbn.
  - rewrite v6add_0_l. reflexivity.
  - rewrite IH. unfold shift. cbn. rewrite <- v6add_assoc. reflexivity.
Qed.
Lemma Smul_map_actInv M S x : Smul (map (motion_actInv M) S) x = motion_actInv M (Smul S x).
Proof.
  revert x. induction S as [|c S IH]; intros x; cbn.
  - rewrite motion_actInv_0. reflexivity.
  - rewrite IH, motion_actInv_add, motion_actInv_scale. reflexivity.
Qed.
Lemma Smul_map_act M S x : Smul (map (motion_act M) S) x = motion_act M (Smul S x).
Proof.
  revert x. induction S as [|c S IH]; intros x; cbn.
  - rewrite motion_act_0. reflexivity.
  - rewrite IH, motion_act_add, motion_act_scale. reflexivity.
Qed.
Lemma Smul_add S x y : Smul S (fun k => x k + y k) = v6add (Smul S x) (Smul S y).
Proof.
  revert x y. induction S as [|c S IH]; intros x y; cbn.
  - rewrite v6add_0_l; reflexivity.
  - change (shift 1 (fun k => x k + y k)) with (fun k => shift 1 x k + shift 1 y k). rewrite IH.
    generalize (Smul S (shift 1 x)) (Smul S (shift 1 y)). sring.
Qed.
Lemma Smul_scal S k x : Smul S (fun i => k * x i) = v6scale k (Smul S x).
Proof.
  revert x. induction S as [|c S IH]; intros x; cbn.
  - rewrite v6scale_0_r; reflexivity.
  - change (shift 1 (fun i => k * x i)) with (fun i => k * shift 1 x i). rewrite IH. generalize (Smul S (shift 1 x)). sring.
Qed.
Lemma Smul_0 S : Smul S (fun _ => 0) = v6zero.
Proof.
  induction S as [|c S IH]; cbn; [reflexivity|].
  change (shift 1 (fun _ => 0)) with (fun _ : nat => 0). rewrite IH. sring.
Qed.

Lemma calcS1_length j q : length (calcS1 j q) = nv1 j.
Proof. destruct j; reflexivity. Qed.
Lemma mimicS_length j s : length (mimicS j s) = nv1 j.
Proof. unfold mimicS. rewrite map_length. destruct j; reflexivity. Qed.

(* ---------- induction on joints ---------- *)
Lemma Joint_ind' (P : Joint -> Prop)
  (H1 : forall j, P (JSimple j)) (H2 : forall j s o, P (JMimic j s o))
  (H3 : forall l, Forall (fun x => P (snd x)) l -> P (JComposite l)) : forall j, P j.
Proof.
  fix IH 1. intros [j|j s o|l]; [apply H1 | apply H2|].
  apply H3. induction l as [|[M j] l IHl]; constructor; [apply IH | exact IHl].
Qed.

Definition lnq (l : list (SE3 * Joint)) : nat := jnq (JComposite l).
Definition lnv (l : list (SE3 * Joint)) : nat := jnv (JComposite l).
Lemma lnq_cons P j l : lnq ((P, j) :: l) = (jnq j + lnq l)%nat. Proof. reflexivity. Qed.
Lemma lnv_cons P j l : lnv ((P, j) :: l) = (jnv j + lnv l)%nat. Proof. reflexivity. Qed.
Lemma jcalc_composite l q v : jcalc (JComposite l) q v = calcComposite l q v.
Proof. reflexivity. Qed.
Lemma calcComposite_one P j q v :
  calcComposite [(P, j)] q v = let d := jcalc j q v in mkJData (se3_mul P (jM d)) (jS d) (jv d) (jc d).
Proof. reflexivity. Qed.
Lemma calcComposite_cons P j x r q v :
  calcComposite ((P, j) :: x :: r) q v =
  let d := jcalc j q v in
  let d' := calcComposite (x :: r) (shift (jnq j) q) (shift (jnv j) v) in
  let vtmp := motion_actInv (jM d') (jv d) in
  let vnew := v6add (jv d') vtmp in
  mkJData (se3_mul (se3_mul P (jM d)) (jM d')) (map (motion_actInv (jM d')) (jS d) ++ jS d') vnew
          (v6add (v6sub (jc d') (motion_cross vnew vtmp)) (motion_actInv (jM d') (jc d))).
Proof. reflexivity. Qed.
Lemma validJoint_cons P j l :
  validJoint (JComposite ((P, j) :: l)) <-> (isRotation (rot P) /\ notMimic j /\ validJoint j) /\ validJoint (JComposite l).
Proof. reflexivity. Qed.
Lemma validConfig_cons P j l q :
  validConfig (JComposite ((P, j) :: l)) q <-> validConfig j q /\ validConfig (JComposite l) (shift (jnq j) q).
Proof. reflexivity. Qed.
Lemma configRate_cons P j l q v k :
  configRate (JComposite ((P, j) :: l)) q v k =
  if Nat.ltb k (jnq j) then configRate j q v k
  else configRate (JComposite l) (shift (jnq j) q) (shift (jnv j) v) (k - jnq j)%nat.
Proof. reflexivity. Qed.

(* number of coefficients a joint reads *)
Definition rnq (j : Joint) : nat := match j with JMimic j _ _ => nq1 j | j => jnq j end.
Definition rnv (j : Joint) : nat := match j with JMimic j _ _ => nv1 j | j => jnv j end.
Lemma rnq_notMimic j : notMimic j -> rnq j = jnq j. Proof. destruct j; cbn; tauto. Qed.
Lemma rnv_notMimic j : notMimic j -> rnv j = jnv j. Proof. destruct j; cbn; tauto. Qed.

Lemma jS_length j q v : validJoint j -> length (jS (jcalc j q v)) = rnv j.
Proof.
  revert q v. induction j as [j|j s o|l IH] using Joint_ind'; intros q v Hj.
  - apply calcS1_length.
  - apply mimicS_length.
  - revert q v Hj. induction IH as [|[P j] l Hx Hl IHl]; intros q v Hj; [reflexivity|].
    apply -> validJoint_cons in Hj. destruct Hj as [[HP [Hn Hj]] Hl'].
    cbn in Hx. rewrite jcalc_composite. change (rnv (JComposite ((P, j) :: l))) with (lnv ((P, j) :: l)). rewrite lnv_cons.
    destruct l as [|x r].
    + cbn. rewrite Hx by exact Hj. rewrite rnv_notMimic by exact Hn. lia.
    + rewrite calcComposite_cons. cbv zeta. cbn [jS]. rewrite app_length, map_length, Hx by exact Hj.
      rewrite rnv_notMimic by exact Hn. f_equal. apply (IHl _ _ Hl').
Qed.

Theorem jM_rotation j q v : validJoint j -> validConfig j q -> isRotation (rot (jM (jcalc j q v))).
Proof.
  revert q v. induction j as [j|j s o|l IH] using Joint_ind'; intros q v Hj Hq.
  - apply calcM1_rot; assumption.
  - cbn in *. apply calcM1_rot; [tauto | apply mimicConfig_valid; tauto].
  - revert q v Hj Hq. induction IH as [|[P j] l Hx Hl IHl]; intros q v Hj Hq; [apply isRotation_id|].
    apply -> validJoint_cons in Hj. destruct Hj as [[HP [Hn Hj]] Hl'].
    apply -> validConfig_cons in Hq. destruct Hq as [Hq Hq'].
    rewrite jcalc_composite. cbn in Hx. destruct l as [|x r].
    + rewrite calcComposite_one. cbv zeta. cbn [jM]. apply isRotation_se3_mul; [exact HP | apply Hx; assumption].
    + rewrite calcComposite_cons. cbv zeta. cbn [jM]. apply isRotation_se3_mul.
      * apply isRotation_se3_mul; [exact HP | apply Hx; assumption].
      * apply (IHl _ _ Hl' Hq').
Qed.

Theorem jv_S j q v : validJoint j -> jv (jcalc j q v) = Smul (jS (jcalc j q v)) v.
Proof.
  revert q v. induction j as [j|j s o|l IH] using Joint_ind'; intros q v Hj.
  - apply calcv1_S.
  - cbn [jcalc jv jS]. rewrite calcv1_S. unfold mimicS. rewrite Smul_scale.
    destruct Hj as [_ [Hm Hh]]. rewrite (createS1_ok j (mimicConfig j s o q) Hm Hh). reflexivity.
  - revert q v Hj. induction IH as [|[P j] l Hx Hl IHl]; intros q v Hj; [reflexivity|].
    apply -> validJoint_cons in Hj. destruct Hj as [[HP [Hn Hj]] Hl'].
    rewrite jcalc_composite. cbn in Hx. destruct l as [|x r].
    + rewrite calcComposite_one. cbv zeta. cbn [jv jS]. apply Hx; exact Hj.
    + rewrite calcComposite_cons. cbv zeta. cbn [jv jS].
      rewrite Smul_app, Smul_map_actInv, map_length; change (@length Motion) with (@length V6); rewrite (jS_length j q v Hj), rnv_notMimic by exact Hn.
      rewrite v6add_comm. f_equal.
      * f_equal. apply Hx; exact Hj.
      * apply (IHl _ _ Hl').
Qed.

Lemma hasTwist_left P M V t : hasTwist M V t -> isRotation (rot (M t)) -> hasTwist (fun s => se3_mul P (M s)) V t.
Proof.
  intros H HR. eapply hasTwist_eq; [apply (hasTwist_mul (fun _ => P)); [exact HR | apply hasTwist_const | exact H]|].
  cbv beta. rewrite motion_actInv_0, v6add_0_l. reflexivity.
Qed.

Lemma jcalc_qM j q v w : jM (jcalc j q v) = jM (jcalc j q w) /\ jS (jcalc j q v) = jS (jcalc j q w).
Proof.
  revert q v w. induction j as [j|j s o|l IH] using Joint_ind'; intros q v w; [split; reflexivity | split; reflexivity|].
  rewrite !jcalc_composite. revert q v w. induction IH as [|[P j] l Hx Hl IHl]; intros q v w; [split; reflexivity|].
  cbn in Hx. destruct (Hx q v w) as [E1 E2].
  destruct l as [|x r].
  - rewrite !calcComposite_one. cbv zeta. cbn [jM jS]. rewrite E1, E2. split; reflexivity.
  - rewrite !calcComposite_cons. cbv zeta. cbn [jM jS].
    destruct (IHl (shift (jnq j) q) (shift (jnv j) v) (shift (jnv j) w)) as [E3 E4].
    rewrite E1, E2, E3, E4. split; reflexivity.
Qed.

Theorem jM_twist j (q v : R -> nat -> R) (w : nat -> R) t :
  validJoint j -> validConfig j (q t) ->
  (forall k, (k < rnq j)%nat -> deriv (fun s => q s k) (configRate j (q t) w k) t) ->
  hasTwist (fun s => jM (jcalc j (q s) (v s))) (jv (jcalc j (q t) w)) t.
Proof.
  revert q v w. induction j as [j|j s o|l IH] using Joint_ind'; intros q v w Hj Hq Hd.
  - apply hasTwist1; assumption.
  - cbn in Hj, Hq, Hd. destruct Hj as [Hj [Hm Hh]], Hq as [Hq Hc].
    cbn [jcalc jM jv].
    apply (hasTwist1 j (fun u => mimicConfig j s o (q u)) (fun k => s * w k) t).
    + exact Hj.
    + apply mimicConfig_valid; exact Hm.
    + apply mimicConfig_rate; assumption.
  - revert q v w Hj Hq Hd. induction IH as [|[P j] l Hx Hl IHl]; intros q v w Hj Hq Hd.
    { apply (hasTwist_const se3_Identity). }
    apply -> validJoint_cons in Hj. destruct Hj as [[HP [Hn Hj]] Hl'].
    apply -> validConfig_cons in Hq. destruct Hq as [Hq Hq'].
    cbn in Hx.
    assert (H1 : hasTwist (fun s => jM (jcalc j (q s) (v s))) (jv (jcalc j (q t) w)) t).
    { apply (Hx q v w Hj Hq). intros k Hk. rewrite rnq_notMimic in Hk by exact Hn.
      assert (E : (k < lnq ((P, j) :: l))%nat) by (rewrite lnq_cons; lia).
      pose proof (Hd k E) as K. rewrite configRate_cons in K. apply Nat.ltb_lt in Hk. rewrite Hk in K. exact K. }
    assert (R1 : isRotation (rot (jM (jcalc j (q t) (v t))))) by (apply jM_rotation; assumption).
    destruct l as [|x r].
    + rewrite !jcalc_composite.
      apply (hasTwist_ext _ (fun s => se3_mul P (jM (jcalc j (q s) (v s))))); [intros s; reflexivity|].
      rewrite calcComposite_one. cbv zeta. cbn [jv]. apply hasTwist_left; assumption.
    + rewrite !jcalc_composite.
      apply (hasTwist_ext _ (fun s => se3_mul (se3_mul P (jM (jcalc j (q s) (v s))))
          (jM (jcalc (JComposite (x :: r)) (shift (jnq j) (q s)) (shift (jnv j) (v s)))))); [intros s; reflexivity|].
      rewrite calcComposite_cons. cbv zeta. cbn [jv].
      assert (H2 : hasTwist (fun s => jM (jcalc (JComposite (x :: r)) (shift (jnq j) (q s)) (shift (jnv j) (v s))))
        (jv (jcalc (JComposite (x :: r)) (shift (jnq j) (q t)) (shift (jnv j) w))) t).
      { apply (IHl (fun s => shift (jnq j) (q s)) (fun s => shift (jnv j) (v s)) (shift (jnv j) w) Hl' Hq').
        intros k Hk. unfold shift at 1.
        assert (E : (jnq j + k < lnq ((P, j) :: x :: r))%nat).
        { rewrite lnq_cons. apply Nat.add_lt_mono_l. exact Hk. }
        pose proof (Hd (jnq j + k)%nat E) as K. rewrite configRate_cons in K.
        replace (Nat.ltb (jnq j + k) (jnq j)) with false in K by (symmetry; apply Nat.ltb_ge; lia).
        replace (jnq j + k - jnq j)%nat with k in K by lia. exact K. }
      eapply hasTwist_eq; [apply hasTwist_mul; [| apply hasTwist_left; [exact H1 | exact R1] | exact H2]|].
      * apply jM_rotation; assumption.
      * cbv beta. rewrite v6add_comm. rewrite (proj1 (jcalc_qM (JComposite (x :: r)) _ (shift (jnv j) (v t)) (shift (jnv j) w))).
        reflexivity.
Qed.

Theorem jv_bias j (q v : R -> nat -> R) (a : nat -> R) t :
  validJoint j -> validConfig j (q t) ->
  (forall k, (k < rnq j)%nat -> deriv (fun s => q s k) (configRate j (q t) (v t) k) t) ->
  (forall k, (k < rnv j)%nat -> deriv (fun s => v s k) (a k) t) ->
  let d := jcalc j (q t) (v t) in
  deriv6 (fun s => jv (jcalc j (q s) (v s))) (v6add (Smul (jS d) a) (jc d)) t.
Proof.
  cbv zeta. revert q v a. induction j as [j|j s o|l IH] using Joint_ind'; intros q v a Hj Hq Hd Hv.
  - apply bias1; assumption.
  - cbn in Hj, Hq, Hd, Hv. destruct Hj as [Hj [Hm Hh]], Hq as [Hq Hc].
    cbn [jcalc jM jv jS jc]. unfold mimicS. rewrite Smul_scale.
    rewrite (createS1_ok j (mimicConfig j s o (q t)) Hm Hh).
    apply (bias1 j (fun u => mimicConfig j s o (q u)) (fun u k => s * v u k) (fun k => s * a k) t).
    + exact Hj.
    + apply mimicConfig_valid; exact Hm.
    + apply mimicConfig_rate; assumption.
    + intros k Hk. eapply deriv_eq; [apply deriv_mult; [apply deriv_const | apply Hv; exact Hk]|]. cbv beta; ring.
  - revert q v a Hj Hq Hd Hv. induction IH as [|[P j] l Hx Hl IHl]; intros q v a Hj Hq Hd Hv.
    { eapply deriv6_eq; [apply (deriv6_const v6zero)|]. cbn. rewrite v6add_0_l. reflexivity. }
    apply -> validJoint_cons in Hj. destruct Hj as [[HP [Hn Hj]] Hl'].
    apply -> validConfig_cons in Hq. destruct Hq as [Hq Hq'].
    cbn in Hx.
    assert (D1 : forall k, (k < rnq j)%nat -> deriv (fun s => q s k) (configRate j (q t) (v t) k) t).
    { intros k Hk. rewrite rnq_notMimic in Hk by exact Hn.
      assert (E : (k < lnq ((P, j) :: l))%nat) by (rewrite lnq_cons; lia).
      pose proof (Hd k E) as K. rewrite configRate_cons in K. apply Nat.ltb_lt in Hk. rewrite Hk in K. exact K. }
    assert (V1 : forall k, (k < rnv j)%nat -> deriv (fun s => v s k) (a k) t).
    { intros k Hk. rewrite rnv_notMimic in Hk by exact Hn. apply Hv. change (k < lnv ((P, j) :: l))%nat. rewrite lnv_cons. lia. }
    assert (H1 := Hx q v a Hj Hq D1 V1).
    destruct l as [|x r].
    + apply H1.
    + assert (D2 : forall k, (k < lnq (x :: r))%nat ->
        deriv (fun s => shift (jnq j) (q s) k) (configRate (JComposite (x :: r)) (shift (jnq j) (q t)) (shift (jnv j) (v t)) k) t).
      { intros k Hk. unfold shift at 1.
        assert (E : (jnq j + k < lnq ((P, j) :: x :: r))%nat) by (rewrite lnq_cons; lia).
        pose proof (Hd (jnq j + k)%nat E) as K. rewrite configRate_cons in K.
        replace (Nat.ltb (jnq j + k) (jnq j)) with false in K by (symmetry; apply Nat.ltb_ge; lia).
        replace (jnq j + k - jnq j)%nat with k in K by lia. exact K. }
      assert (V2 : forall k, (k < lnv (x :: r))%nat -> deriv (fun s => shift (jnv j) (v s) k) (shift (jnv j) a k) t).
      { intros k Hk. unfold shift. apply Hv. change (jnv j + k < lnv ((P, j) :: x :: r))%nat. rewrite lnv_cons. lia. }
      assert (H2 := IHl (fun s => shift (jnq j) (q s)) (fun s => shift (jnv j) (v s)) (shift (jnv j) a) Hl' Hq' D2 V2).
      assert (T2 := jM_twist (JComposite (x :: r)) (fun s => shift (jnq j) (q s)) (fun s => shift (jnv j) (v s))
                     (shift (jnv j) (v t)) t Hl' Hq' D2).
      assert (R2 := jM_rotation (JComposite (x :: r)) (shift (jnq j) (q t)) (shift (jnv j) (v t)) Hl' Hq').
      assert (H3 := deriv_actInv _ _ _ _ t R2 T2 H1). cbv beta in H2, H3.
      pose proof (deriv6_add _ _ _ _ t H2 H3) as H4.
      eapply deriv6_eq; [exact H4|].
      rewrite !jcalc_composite. rewrite calcComposite_cons. cbv zeta. cbn [jv jS jc].
      rewrite Smul_app, Smul_map_actInv, map_length; change (@length Motion) with (@length V6); rewrite (jS_length j _ _ Hj), rnv_notMimic by exact Hn.
      rewrite motion_actInv_add, motion_cross_add_l, motion_cross_self.
      change (jcalc (JComposite (x :: r))) with (calcComposite (x :: r)).
      generalize (Smul (jS (calcComposite (x :: r) (shift (jnq j) (q t)) (shift (jnv j) (v t)))) (shift (jnv j) a)).
      set (d' := calcComposite (x :: r) (shift (jnq j) (q t)) (shift (jnv j) (v t))).
      generalize (motion_actInv (jM d') (Smul (jS (jcalc j (q t) (v t))) a)) (motion_actInv (jM d') (jc (jcalc j (q t) (v t))))
        (motion_cross (jv d') (motion_actInv (jM d') (jv (jcalc j (q t) (v t))))) (jc d').
      sring.
Qed.
