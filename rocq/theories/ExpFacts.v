(* The exact exponentials. *)
Require Import Reals Ranalysis Lra Lia Nsatz.
From Verif Require Import Vec3 Spatial InertiaFacts Deriv Rot ExpLog Spec_Exp.
Local Open Scope R_scope.

Lemma norm_nonneg v : 0 <= v3norm v. Proof. apply sqrt_pos. Qed.
Lemma norm_sq v : v3norm v * v3norm v = v3dot v v. Proof. apply sqrt_sqrt, v3dot_pos. Qed.
Lemma norm_zero v : v3norm v = 0 -> v = v3zero.
Proof. intros H. apply v3dot_zero. rewrite <- norm_sq, H. ring. Qed.
Lemma norm0 : v3norm v3zero = 0. Proof. unfold v3norm. rewrite v3dot_0_l. apply sqrt_0. Qed.
Lemma norm_scale s v : v3norm (v3scale s v) = Rabs s * v3norm v.
Proof. unfold v3norm. rewrite v3dot_scale_l, v3dot_scale_r. replace (s * (s * v3dot v v)) with (Rsqr s * v3dot v v) by (unfold Rsqr; ring). rewrite sqrt_mult_alt by apply Rle_0_sqr. now rewrite sqrt_Rsqr_abs. Qed.
Lemma cos_abs x : cos (Rabs x) = cos x.
Proof. destruct (Rcase_abs x) as [H|H]; [rewrite Rabs_left by exact H; apply cos_neg | now rewrite Rabs_right by exact H]. Qed.
Lemma sinc_even x : sinc (Rabs x) = sinc x.
Proof. destruct (Rcase_abs x) as [H|H]; [|now rewrite Rabs_right by exact H]. rewrite Rabs_left by exact H. unfold sinc. destruct (Req_EM_T (- x) 0), (Req_EM_T x 0); try lra. rewrite sin_neg. field. lra. Qed.
Lemma cosc_even x : cosc (Rabs x) = cosc x.
Proof. destruct (Rcase_abs x) as [H|H]; [|now rewrite Rabs_right by exact H]. rewrite Rabs_left by exact H. unfold cosc. destruct (Req_EM_T (- x) 0), (Req_EM_T x 0); try lra. rewrite cos_neg. field. lra. Qed.
Lemma sinc3_even x : sinc3 (Rabs x) = sinc3 x.
Proof. destruct (Rcase_abs x) as [H|H]; [|now rewrite Rabs_right by exact H]. rewrite Rabs_left by exact H. unfold sinc3. destruct (Req_EM_T (- x) 0), (Req_EM_T x 0); try lra. rewrite sin_neg. field. lra. Qed.
Lemma sinc_mul x : x * sinc x = sin x.
Proof. unfold sinc. destruct (Req_EM_T x 0) as [->|H]; [rewrite sin_0; ring | field; exact H]. Qed.
Lemma cosc_mul x : x * x * cosc x = 1 - cos x.
Proof. unfold cosc. destruct (Req_EM_T x 0) as [->|H]; [rewrite cos_0; ring | field; exact H]. Qed.
Lemma sinc3_mul x : x * x * sinc3 x = 1 - sinc x.
Proof. unfold sinc3, sinc. destruct (Req_EM_T x 0) as [->|H]; [ring | field; exact H]. Qed.
Lemma Rexp_0 : Rexp v3zero = m3id.
Proof. unfold Rexp. rewrite norm0, cos_0. unfold v3zero, skew, m3outer, m3scale, m3add, m3id. apply m3_ext; cbn; ring. Qed.
Lemma Texp_0 v : Texp (mkV6 v v3zero) = v.
Proof. unfold Texp. cbn [lin ang]. rewrite norm0. unfold sinc. destruct (Req_EM_T 0 0); [|lra]. rewrite v3dot_0_l. destruct v. unfold v3add, v3scale, v3cross, v3zero. cbn. f_equal; ring. Qed.
(* both sides written with the three coefficients *)
Lemma Rexp_coeffs v : Rexp v = rotCoeffs (cosc (v3norm v)) (sinc (v3norm v)) (cos (v3norm v)) v.
Proof. unfold Rexp, rotCoeffs. set (c := cos _). set (a := sinc _). set (b := cosc _). destruct v as [x y z]. cbn [vx vy vz]. unfold m3outer, skew, m3id, m3scale. cbn [vx vy vz m00 m01 m02 m10 m11 m12 m20 m21 m22]. unfold m3add. cbn [m00 m01 m02 m10 m11 m12 m20 m21 m22]. f_equal; ring. Qed.
Lemma rodrigues_rot v : isRotation (Rexp v).
Proof.
  rewrite Rexp_coeffs. assert (E := norm_sq v). set (th := v3norm v) in *. assert (S := sinc_mul th). assert (C := cosc_mul th). assert (T := sin2_cos2 th). unfold Rsqr in T. unfold v3dot in E. destruct v as [x y z]. cbn [vx vy vz] in E.
  set (c := cos th) in *. set (s := sin th) in *. set (a := sinc th) in *. set (b := cosc th) in *. clearbody c s a b th.
  (* a^2 |v|^2 + c^2 = 1, b |v|^2 = 1 - c, a^2 = b (1 + c) up to |v| = 0 *)
  rewrite E in C. assert (A : a * a * (x * x + y * y + z * z) = s * s) by (rewrite <- E, <- S; ring).
  assert (N : x * x + y * y + z * z = 0 \/ a * a = b * (1 + c)).
  { destruct (Req_dec (x * x + y * y + z * z) 0) as [Z|Z]; [now left|]. right. apply (Rmult_eq_reg_l (x * x + y * y + z * z)); [|exact Z]. replace ((x * x + y * y + z * z) * (a * a)) with (s * s) by lra. replace ((x * x + y * y + z * z) * (b * (1 + c))) with ((1 - c) * (1 + c)) by (rewrite <- C; ring). lra. }
  destruct N as [Z|N].
  - assert (x * x = 0 /\ y * y = 0 /\ z * z = 0) as (X & Y & W) by (pose proof (Rle_0_sqr x); pose proof (Rle_0_sqr y); pose proof (Rle_0_sqr z); unfold Rsqr in *; lra).
    apply Rmult_integral in X. apply Rmult_integral in Y. apply Rmult_integral in W. assert (x = 0) by tauto. assert (y = 0) by tauto. assert (z = 0) by tauto. subst. assert (c = 1) by lra. subst c.
    replace (rotCoeffs b a 1 (mkV3 0 0 0)) with m3id by (unfold m3id, rotCoeffs; cbn; f_equal; ring).
    apply isRotation_id.
  - assert (D1 : c * c + a * a * (x * x + y * y + z * z) = 1) by lra.
    assert (K1 : forall k, k * (b * (x * x + y * y + z * z)) = k * (1 - c)) by (intros k; rewrite <- C; ring).
    assert (K2 : forall k, k * (a * a) = k * (b * (1 + c))) by (intros k; rewrite N; ring).
    split.
    + unfold orthogonal, rotCoeffs. cbn [vx vy vz]. unfold m3tr. cbn [m00 m01 m02 m10 m11 m12 m20 m21 m22]. unfold m3mul, m3id. cbn [m00 m01 m02 m10 m11 m12 m20 m21 m22]. apply m3_ext; cbn [m00 m01 m02 m10 m11 m12 m20 m21 m22].
      * pose proof (K1 (b * x * x)). pose proof (K2 (x * x)). lra.
      * pose proof (K1 (b * x * y)). pose proof (K2 (x * y)). lra.
      * pose proof (K1 (b * x * z)). pose proof (K2 (x * z)). lra.
      * pose proof (K1 (b * x * y)). pose proof (K2 (x * y)). lra.
      * pose proof (K1 (b * y * y)). pose proof (K2 (y * y)). lra.
      * pose proof (K1 (b * z * y)). pose proof (K2 (z * y)). lra.
      * pose proof (K1 (b * x * z)). pose proof (K2 (x * z)). lra.
      * pose proof (K1 (b * z * y)). pose proof (K2 (z * y)). lra.
      * pose proof (K1 (b * z * z)). pose proof (K2 (z * z)). lra.
    + transitivity ((c * c + a * a * (x * x + y * y + z * z)) * (c + (x * x + y * y + z * z) * b)).
      * unfold m3det, rotCoeffs; cbn [vx vy vz m00 m01 m02 m10 m11 m12 m20 m21 m22]. ring.
      * rewrite D1, C. ring.
Qed.
Lemma unit_axis w : w <> v3zero -> exists a, v3dot a a = 1 /\ w = v3scale (v3norm w) a /\ 0 < v3norm w.
Proof.
  intros Hw. assert (P : 0 < v3norm w). { destruct (norm_nonneg w) as [H|H]; [exact H|]. exfalso. apply Hw, norm_zero. now symmetry. }
  exists (v3scale (/ v3norm w) w). repeat split; [| |exact P].
  - rewrite v3dot_scale_l, v3dot_scale_r, <- norm_sq. field. lra.
  - destruct w as [x y z]. set (n := v3norm _) in *. unfold v3scale. cbn. f_equal; field; lra.
Qed.
Lemma norm_axis x a : v3dot a a = 1 -> v3norm (v3scale x a) = Rabs x.
Proof. intros H. rewrite norm_scale. unfold v3norm. rewrite H, sqrt_1. ring. Qed.
Lemma Rexp_axis x a : v3dot a a = 1 -> Rexp (v3scale x a) = rotCoeffs (1 - cos x) (sin x) (cos x) a.
Proof.
  intros H. rewrite Rexp_coeffs, (norm_axis _ _ H), cos_abs, sinc_even, cosc_even. assert (S := sinc_mul x). assert (C := cosc_mul x).
  set (p := sinc x) in *. set (q := cosc x) in *. set (sx := sin x) in *. set (cx := cos x) in *. clearbody p q sx cx. destruct a as [a b c]. unfold rotCoeffs, v3scale. cbn [vx vy vz].
  rewrite <- S, <- C. f_equal; ring.
Qed.
Lemma Texp_axis x a u : v3dot a a = 1 -> Texp (mkV6 u (v3scale x a)) =
  v3add (v3add (v3scale (sinc x) u) (v3scale ((1 - sinc x) * v3dot a u) a)) (v3scale (x * cosc x) (v3cross a u)).
Proof.
  intros H. unfold Texp. cbn [lin ang]. rewrite (norm_axis _ _ H), sinc_even, cosc_even, sinc3_even, <- sinc3_mul. destruct a, u. unfold v3add, v3scale, v3cross, v3dot. cbn. f_equal; ring.
Qed.
(* the exact exponential is the motion of constant twist nu started at the identity *)
Theorem SE3exp_flow nu t : hasTwist (fun s => SE3exp (v6scale s nu)) nu t.
Proof.
  destruct nu as [v w]. unfold hasTwist, SE3exp. cbn [rot trans lin ang]. unfold v6scale. cbn [lin ang].
  assert (Did : deriv (fun s => s) 1 t) by apply derivable_pt_lim_id.
  assert (Z : w = v3zero \/ w <> v3zero). { destruct (Req_dec (v3norm w) 0) as [H|H]; [left; now apply norm_zero | right; intros ->; now rewrite norm0 in H]. }
  destruct Z as [->|Hw].
  - assert (E : forall s, v3scale s v3zero = v3zero) by (intros; unfold v3scale, v3zero; cbn; f_equal; ring). split.
    + unfold derivM3. rewrite E, Rexp_0. cbn [m00 m01 m02 m10 m11 m12 m20 m21 m22]. dsplit; (eapply deriv_ext; [intros s; rewrite E, Rexp_0; reflexivity|]); (eapply deriv_eq; [apply deriv_const|]); unfold m3mul, m3id, skew, v3zero; cbn; ring.
    + unfold deriv3. rewrite E, Rexp_0. dsplit; (eapply deriv_ext; [intros s; rewrite E, Texp_0; reflexivity|]); unfold v3scale; cbn [vx vy vz]; (eapply deriv_eq; [dv|]); unfold m3vec, m3id; cbn; ring.
  - destruct (unit_axis w Hw) as (a & Ha & Ea & P). set (th := v3norm w) in *. clearbody th. subst w.
    assert (E : forall s, v3scale s (v3scale th a) = v3scale (s * th) a) by (intros; destruct a; unfold v3scale; cbn; f_equal; ring).
    assert (S : forall s, s * sinc (s * th) = sin (s * th) * / th). { intros s. rewrite <- sinc_mul. field. lra. }
    assert (C : forall s, s * ((s * th) * cosc (s * th)) = (1 - cos (s * th)) * / th). { intros s. rewrite <- cosc_mul. field. lra. }
    split.
    + rewrite E, (Rexp_axis _ _ Ha). destruct a as [x y z]. unfold v3dot in Ha. cbn [vx vy vz] in Ha.
      assert (K : forall k, k * (x * x + y * y + z * z) = k) by (intros; rewrite Ha; ring).
      unfold derivM3. dsplit; (eapply deriv_ext; [intros s; rewrite E, (Rexp_axis (s * th)) by exact Ha; unfold rotCoeffs; cbn [vx vy vz m00 m01 m02 m10 m11 m12 m20 m21 m22]; reflexivity|]);
        (eapply deriv_eq; [dv|]); unfold m3mul, skew, rotCoeffs, v3scale; cbn [vx vy vz m00 m01 m02 m10 m11 m12 m20 m21 m22]; pose proof (K (th * sin (t * th))); pose proof (K (th * cos (t * th))); lra.
    + assert (F : forall s, Texp (mkV6 (v3scale s v) (v3scale s (v3scale th a))) = v3add (v3add (v3scale (sin (s * th) * / th) v) (v3scale ((s - sin (s * th) * / th) * v3dot a v) a)) (v3scale ((1 - cos (s * th)) * / th) (v3cross a v))).
      { intros s. rewrite E, (Texp_axis _ _ _ Ha), <- S, <- C. destruct a, v. unfold v3add, v3scale, v3cross, v3dot. cbn. f_equal; ring. }
      rewrite E, (Rexp_axis _ _ Ha). assert (I : th * / th = 1) by (field; lra). set (k := / th) in *. clearbody k. unfold deriv3.
      assert (K : forall m, m * (th * k) = m) by (intros; rewrite I; ring).
      destruct a as [x y z], v as [p q r]. unfold v3dot in Ha. cbn [vx vy vz] in Ha.
      dsplit; (eapply deriv_ext; [intros s; rewrite F; unfold v3add, v3scale, v3cross, v3dot; cbn [vx vy vz]; reflexivity|]); (eapply deriv_eq; [dv|]); unfold m3vec, rotCoeffs; cbn [vx vy vz m00 m01 m02 m10 m11 m12 m20 m21 m22];
        set (c := cos (t * th)); set (sn := sin (t * th)); clearbody c sn; clear F S C E.
      * pose proof (K (c * p)). pose proof (K (c * (x * p + y * q + z * r) * x)). pose proof (K (sn * (y * r - z * q))). lra.
      * pose proof (K (c * q)). pose proof (K (c * (x * p + y * q + z * r) * y)). pose proof (K (sn * (z * p - x * r))). lra.
      * pose proof (K (c * r)). pose proof (K (c * (x * p + y * q + z * r) * z)). pose proof (K (sn * (x * q - y * p))). lra.
Qed.
