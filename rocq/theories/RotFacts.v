(* Quaternions and roll-pitch-yaw angles. *)
Require Import Reals Arith Lra Lia Nsatz.
From Verif Require Import Vec3 Spatial InertiaFacts Deriv Joints JointFacts Rot Spec_Rot.
Local Open Scope R_scope.
Ltac qs := unfold qmat, quatMatrix, qmul, qscale, qconj, qnorm2, qdot, qAngleAxis, qvec; cbn [qx qy qz qw vx vy vz m00 m01 m02 m10 m11 m12 m20 m21 m22 m3mul m3vec m3tr m3id].

Lemma qmat_rot q : qnorm2 q = 1 -> isRotation (qmat q).
Proof. intros H. apply quatMatrix_rot. unfold qnorm2, qdot in H. lra. Qed.
Lemma qmul_norm a b : qnorm2 (qmul a b) = qnorm2 a * qnorm2 b.
Proof. qs. ring. Qed.
Lemma qmat_mul a b : qnorm2 a = 1 -> qnorm2 b = 1 -> qmat (qmul a b) = m3mul (qmat a) (qmat b).
Proof. destruct a as [a1 a2 a3 a4], b as [b1 b2 b3 b4]. qs. intros Ha Hb. apply m3_ext; cbn [m00 m01 m02 m10 m11 m12 m20 m21 m22]; nsatz. Qed.
Lemma qmat_opp q : qmat (qscale (-1) q) = qmat q.
Proof. qs. apply m3_ext; cbn; ring. Qed.
Lemma qmat_conj q : qmat (qconj q) = m3tr (qmat q).
Proof. qs. apply m3_ext; cbn; ring. Qed.
Lemma fon_norm q : qnorm2 (firstOrderNormalize q) - 1 = (qnorm2 q - 1) * (qnorm2 q - 1) * ((qnorm2 q - 4) / 4).
Proof. unfold firstOrderNormalize. cbv zeta. qs. field. Qed.
Lemma fon_quad q : qnorm2 q <= 8 -> Rabs (qnorm2 (firstOrderNormalize q) - 1) <= (qnorm2 q - 1) * (qnorm2 q - 1).
Proof.
  intros H. rewrite fon_norm. assert (0 <= qnorm2 q) by (unfold qnorm2, qdot; pose proof (Rle_0_sqr (qx q)); pose proof (Rle_0_sqr (qy q)); pose proof (Rle_0_sqr (qz q)); pose proof (Rle_0_sqr (qw q)); unfold Rsqr in *; lra).
  assert (0 <= (qnorm2 q - 1) * (qnorm2 q - 1)) by apply Rle_0_sqr. rewrite Rabs_mult, (Rabs_right ((qnorm2 q - 1) * (qnorm2 q - 1))) by lra.
  rewrite <- (Rmult_1_r ((qnorm2 q - 1) * (qnorm2 q - 1))) at 2. apply Rmult_le_compat_l; [assumption|]. apply Rabs_le. lra.
Qed.
Lemma fon_fix q : qnorm2 q = 1 -> firstOrderNormalize q = q.
Proof. intros H. unfold firstOrderNormalize. cbv zeta. rewrite H. destruct q. unfold qscale. cbn. f_equal; field. Qed.
Lemma random_unit u1 u2 u3 : 0 <= u1 <= 1 -> qnorm2 (uniformRandomQ u1 u2 u3) = 1.
Proof.
  intros H. unfold uniformRandomQ. cbv zeta. qs. set (a := 2 * PI * u2). set (b := 2 * PI * u3).
  assert (A := sin2_cos2 a). assert (B := sin2_cos2 b). unfold Rsqr in *. assert (S1 := sqrt_sqrt (1 - u1) ltac:(lra)). assert (S2 := sqrt_sqrt u1 ltac:(lra)).
  set (x := sqrt (1 - u1)) in *. set (y := sqrt u1) in *. replace (x * cos a * (x * cos a) + y * sin b * (y * sin b) + y * cos b * (y * cos b) + x * sin a * (x * sin a)) with (x * x * (sin a * sin a + cos a * cos a) + y * y * (sin b * sin b + cos b * cos b)) by ring. rewrite A, B, S1, S2. ring.
Qed.
Lemma angle_flip a b : qdot a b <> 0 -> -1 <= qdot a b <= 1 -> angleBetweenQuaternions a (qscale (-1) b) = angleBetweenQuaternions a b /\ 0 <= angleBetweenQuaternions a b <= PI / 2 /\
  cos (angleBetweenQuaternions a b) = Rabs (qdot a b).
Proof.
  intros Hn Hb. assert (E : qdot a (qscale (-1) b) = - qdot a b) by (qs; ring). unfold angleBetweenQuaternions. cbv zeta. rewrite E. set (x := qdot a b) in *. clearbody x. clear E. rewrite acos_opp.
  assert (A0 := acos_bound x). assert (A1 := cos_acos x Hb). assert (A2 : x < 0 -> PI / 2 <= acos x).
  { intros L. destruct (Rle_or_lt (PI / 2) (acos x)) as [K|K]; [exact K|]. exfalso. assert (0 < cos (acos x)) by (apply cos_gt_0; lra). lra. }
  assert (A3 : 0 < x -> acos x <= PI / 2). { intros L. destruct (Rle_or_lt (acos x) (PI / 2)) as [K|K]; [exact K|]. exfalso. assert (cos (acos x) < 0) by (apply cos_lt_0; lra). lra. }
  destruct (Rlt_dec (- x) 0); destruct (Rlt_dec x 0); try lra.
  - split; [ring|]. specialize (A3 ltac:(lra)). split; [lra|]. rewrite A1, Rabs_right; lra.
  - split; [ring|]. specialize (A2 ltac:(lra)). split; [lra|]. rewrite cos_minus, cos_PI, sin_PI, A1, Rabs_left; lra.
Qed.

(* ---- rotation matrix to quaternion ---- *)
Section Assign.
  Variable m : M3. Hypothesis HR : isRotation m.
  Lemma rot_eqs : let '(mkM3 a b c d e f g h i) := m in
    (a * a + d * d + g * g = 1 /\ a * b + d * e + g * h = 0 /\ a * c + d * f + g * i = 0 /\ b * b + e * e + h * h = 1 /\ b * c + e * f + h * i = 0 /\ c * c + f * f + i * i = 1) /\
    (a * a + b * b + c * c = 1 /\ a * d + b * e + c * f = 0 /\ a * g + b * h + c * i = 0 /\ d * d + e * e + f * f = 1 /\ d * g + e * h + f * i = 0 /\ g * g + h * h + i * i = 1) /\
    (a = e * i - f * h /\ b = f * g - d * i /\ c = d * h - e * g /\ d = c * h - b * i /\ e = a * i - c * g /\ f = b * g - a * h /\ g = b * f - c * e /\ h = c * d - a * f /\ i = a * e - b * d).
  Proof.
    destruct HR as [O D]. assert (O' := orthogonal_right m O). assert (Ad := orthogonal_adj m O). rewrite D in Ad. unfold orthogonal in O. destruct m as [a b c d e f g h i].
    unfold m3mul, m3tr, m3id, m3adj, m3scale in *. cbn in O, O', Ad. injection O as O1 O2 O3 O4 O5 O6 O7 O8 O9. injection O' as P1 P2 P3 P4 P5 P6 P7 P8 P9. injection Ad as Q1 Q2 Q3 Q4 Q5 Q6 Q7 Q8 Q9.
    repeat split; lra.
  Qed.
  Lemma assignPos_ok : 0 < m3trace m -> qnorm2 (assignPos (m3trace m) m) = 1 /\ qmat (assignPos (m3trace m) m) = m.
  Proof.
    intros Ht. assert (E := rot_eqs). unfold assignPos. cbv zeta. destruct m as [a b c d e f g h i]. unfold m3trace in *. cbn [m00 m11 m22 m21 m12 m02 m20 m10 m01] in *.
    destruct E as ((O1 & O2 & O3 & O4 & O5 & O6) & (P1 & P2 & P3 & P4 & P5 & P6) & (Q1 & Q2 & Q3 & Q4 & Q5 & Q6 & Q7 & Q8 & Q9)).
    assert (S := sqrt_sqrt (a + e + i + 1) ltac:(lra)). assert (Sp := sqrt_lt_R0 (a + e + i + 1) ltac:(lra)). set (s := sqrt (a + e + i + 1)) in *. clearbody s.
    set (r := / 2 / s). assert (Er : 2 * r * s = 1) by (unfold r; field; lra). assert (Er2 : 4 * (r * r) * (a + e + i + 1) = 1) by (rewrite <- S; replace (4 * (r * r) * (s * s)) with ((2 * r * s) * (2 * r * s)) by ring; rewrite Er; ring). clearbody r.
    split.
    - qs. assert ((h - f) * (h - f) + (c - g) * (c - g) + (d - b) * (d - b) = (3 - (a + e + i)) * (a + e + i + 1)) by lra.
      replace ((h - f) * r * ((h - f) * r) + (c - g) * r * ((c - g) * r) + (d - b) * r * ((d - b) * r) + / 2 * s * (/ 2 * s)) with (((h - f) * (h - f) + (c - g) * (c - g) + (d - b) * (d - b)) * (r * r) + / 4 * (s * s)) by field. rewrite H, S.
      replace ((3 - (a + e + i)) * (a + e + i + 1) * (r * r)) with ((3 - (a + e + i)) / 4 * (4 * (r * r) * (a + e + i + 1))) by field. rewrite Er2. field.
    - qs. assert (K : forall X Y, X = Y * (a + e + i + 1) -> X * (4 * (r * r)) = Y) by (intros X Y ->; replace (Y * (a + e + i + 1) * (4 * (r * r))) with (Y * (4 * (r * r) * (a + e + i + 1))) by ring; rewrite Er2; ring).
      assert (W : forall X, 2 * (X * r) * (/ 2 * s) = X / 2) by (intros X; replace (2 * (X * r) * (/ 2 * s)) with (X / 2 * (2 * r * s)) by field; rewrite Er; ring).
      apply m3_ext; cbn [m00 m01 m02 m10 m11 m12 m20 m21 m22]; rewrite ?W.
      + assert (X := K ((c - g) * (c - g) + (d - b) * (d - b)) (2 * (1 - a)) ltac:(lra)). lra.
      + assert (X := K ((h - f) * (c - g)) (b + d) ltac:(lra)). lra.
      + assert (X := K ((h - f) * (d - b)) (c + g) ltac:(lra)). lra.
      + assert (X := K ((h - f) * (c - g)) (b + d) ltac:(lra)). lra.
      + assert (X := K ((h - f) * (h - f) + (d - b) * (d - b)) (2 * (1 - e)) ltac:(lra)). lra.
      + assert (X := K ((c - g) * (d - b)) (f + h) ltac:(lra)). lra.
      + assert (X := K ((h - f) * (d - b)) (c + g) ltac:(lra)). lra.
      + assert (X := K ((c - g) * (d - b)) (f + h) ltac:(lra)). lra.
      + assert (X := K ((h - f) * (h - f) + (c - g) * (c - g)) (2 * (1 - i)) ltac:(lra)). lra.
  Qed.
  Lemma assignNeg0 : 0 < m00 m - m11 m - m22 m + 1 -> qnorm2 (assignNeg 0 m) = 1 /\ qmat (assignNeg 0 m) = m.
  Proof.
    intros Ht. assert (E := rot_eqs). unfold assignNeg. cbn [Nat.modulo Nat.divmod Nat.add Nat.sub fst snd Nat.eqb]. cbv zeta. destruct m as [a b c d e f g h i]. unfold m3get, m3row, m3col, v3get, m3tr. cbn [m00 m11 m22 m21 m12 m02 m20 m10 m01 vx vy vz] in *.
    destruct E as ((O1 & O2 & O3 & O4 & O5 & O6) & (P1 & P2 & P3 & P4 & P5 & P6) & (Q1 & Q2 & Q3 & Q4 & Q5 & Q6 & Q7 & Q8 & Q9)).
    assert (S := sqrt_sqrt (a - e - i + 1) ltac:(lra)). assert (Sp := sqrt_lt_R0 (a - e - i + 1) ltac:(lra)). set (s := sqrt (a - e - i + 1)) in *. clearbody s.
    set (r := / 2 / s). assert (Er : 2 * r * s = 1) by (unfold r; field; lra). assert (Er2 : 4 * (r * r) * (a - e - i + 1) = 1) by (rewrite <- S; replace (4 * (r * r) * (s * s)) with ((2 * r * s) * (2 * r * s)) by ring; rewrite Er; ring). clearbody r.
    assert (K : forall X Y, X = Y * (a - e - i + 1) -> X * (4 * (r * r)) = Y) by (intros X Y ->; replace (Y * (a - e - i + 1) * (4 * (r * r))) with (Y * (4 * (r * r) * (a - e - i + 1))) by ring; rewrite Er2; ring).
    assert (W : forall X, (X * r) * (/ 2 * s) = X / 4) by (intros X; replace ((X * r) * (/ 2 * s)) with (X / 4 * (2 * r * s)) by field; rewrite Er; ring).
    assert (W' : forall X, (/ 2 * s) * (X * r) = X / 4) by (intros X; rewrite <- W; ring).
    assert (WW : (/ 2 * s) * (/ 2 * s) = (a - e - i + 1) / 4) by (rewrite <- S; field).
    assert (Kww := K ((h - f) * (h - f)) (1 + a * 0 + (a + e + i)) ltac:(lra)).
    assert (Kyy := K ((d + b) * (d + b)) (1 - a + e - i) ltac:(lra)).
    assert (Kzz := K ((g + c) * (g + c)) (1 - a - e + i) ltac:(lra)).
    assert (Kyz := K ((d + b) * (g + c)) (h + f) ltac:(lra)).
    assert (Kwy := K ((h - f) * (d + b)) (c - g) ltac:(lra)).
    assert (Kwz := K ((h - f) * (g + c)) (d - b) ltac:(lra)).
    split; [qs; rewrite ?WW; lra|]. qs. apply m3_ext; cbn [m00 m01 m02 m10 m11 m12 m20 m21 m22]; rewrite ?(Rmult_assoc 2), ?W, ?W', ?WW; lra.
  Qed.
  Lemma assignNeg1 : 0 < m11 m - m22 m - m00 m + 1 -> qnorm2 (assignNeg 1 m) = 1 /\ qmat (assignNeg 1 m) = m.
  Proof.
    intros Ht. assert (E := rot_eqs). unfold assignNeg. cbn [Nat.modulo Nat.divmod Nat.add Nat.sub fst snd Nat.eqb]. cbv zeta. destruct m as [a b c d e f g h i]. unfold m3get, m3row, m3col, v3get, m3tr. cbn [m00 m11 m22 m21 m12 m02 m20 m10 m01 vx vy vz] in *.
    destruct E as ((O1 & O2 & O3 & O4 & O5 & O6) & (P1 & P2 & P3 & P4 & P5 & P6) & (Q1 & Q2 & Q3 & Q4 & Q5 & Q6 & Q7 & Q8 & Q9)).
    assert (S := sqrt_sqrt (e - i - a + 1) ltac:(lra)). assert (Sp := sqrt_lt_R0 (e - i - a + 1) ltac:(lra)). set (s := sqrt (e - i - a + 1)) in *. clearbody s.
    set (r := / 2 / s). assert (Er : 2 * r * s = 1) by (unfold r; field; lra). assert (Er2 : 4 * (r * r) * (e - i - a + 1) = 1) by (rewrite <- S; replace (4 * (r * r) * (s * s)) with ((2 * r * s) * (2 * r * s)) by ring; rewrite Er; ring). clearbody r.
    assert (K : forall X Y, X = Y * (e - i - a + 1) -> X * (4 * (r * r)) = Y) by (intros X Y ->; replace (Y * (e - i - a + 1) * (4 * (r * r))) with (Y * (4 * (r * r) * (e - i - a + 1))) by ring; rewrite Er2; ring).
    assert (W : forall X, (X * r) * (/ 2 * s) = X / 4) by (intros X; replace ((X * r) * (/ 2 * s)) with (X / 4 * (2 * r * s)) by field; rewrite Er; ring).
    assert (W' : forall X, (/ 2 * s) * (X * r) = X / 4) by (intros X; rewrite <- W; ring).
    assert (WW : (/ 2 * s) * (/ 2 * s) = (e - i - a + 1) / 4) by (rewrite <- S; field).
    assert (Kww := K ((c - g) * (c - g)) (1 + e * 0 + (a + e + i)) ltac:(lra)).
    assert (Kyy := K ((h + f) * (h + f)) (1 - e + i - a) ltac:(lra)).
    assert (Kzz := K ((b + d) * (b + d)) (1 - e - i + a) ltac:(lra)).
    assert (Kyz := K ((h + f) * (b + d)) (c + g) ltac:(lra)).
    assert (Kwy := K ((c - g) * (h + f)) (d - b) ltac:(lra)).
    assert (Kwz := K ((c - g) * (b + d)) (h - f) ltac:(lra)).
    split; [qs; rewrite ?WW; lra|]. qs. apply m3_ext; cbn [m00 m01 m02 m10 m11 m12 m20 m21 m22]; rewrite ?(Rmult_assoc 2), ?W, ?W', ?WW; lra.
  Qed.
  Lemma assignNeg2 : 0 < m22 m - m00 m - m11 m + 1 -> qnorm2 (assignNeg 2 m) = 1 /\ qmat (assignNeg 2 m) = m.
  Proof.
    intros Ht. assert (E := rot_eqs). unfold assignNeg. cbn [Nat.modulo Nat.divmod Nat.add Nat.sub fst snd Nat.eqb]. cbv zeta. destruct m as [a b c d e f g h i]. unfold m3get, m3row, m3col, v3get, m3tr. cbn [m00 m11 m22 m21 m12 m02 m20 m10 m01 vx vy vz] in *.
    destruct E as ((O1 & O2 & O3 & O4 & O5 & O6) & (P1 & P2 & P3 & P4 & P5 & P6) & (Q1 & Q2 & Q3 & Q4 & Q5 & Q6 & Q7 & Q8 & Q9)).
    assert (S := sqrt_sqrt (i - a - e + 1) ltac:(lra)). assert (Sp := sqrt_lt_R0 (i - a - e + 1) ltac:(lra)). set (s := sqrt (i - a - e + 1)) in *. clearbody s.
    set (r := / 2 / s). assert (Er : 2 * r * s = 1) by (unfold r; field; lra). assert (Er2 : 4 * (r * r) * (i - a - e + 1) = 1) by (rewrite <- S; replace (4 * (r * r) * (s * s)) with ((2 * r * s) * (2 * r * s)) by ring; rewrite Er; ring). clearbody r.
    assert (K : forall X Y, X = Y * (i - a - e + 1) -> X * (4 * (r * r)) = Y) by (intros X Y ->; replace (Y * (i - a - e + 1) * (4 * (r * r))) with (Y * (4 * (r * r) * (i - a - e + 1))) by ring; rewrite Er2; ring).
    assert (W : forall X, (X * r) * (/ 2 * s) = X / 4) by (intros X; replace ((X * r) * (/ 2 * s)) with (X / 4 * (2 * r * s)) by field; rewrite Er; ring).
    assert (W' : forall X, (/ 2 * s) * (X * r) = X / 4) by (intros X; rewrite <- W; ring).
    assert (WW : (/ 2 * s) * (/ 2 * s) = (i - a - e + 1) / 4) by (rewrite <- S; field).
    assert (Kww := K ((d - b) * (d - b)) (1 + i * 0 + (a + e + i)) ltac:(lra)).
    assert (Kyy := K ((c + g) * (c + g)) (1 - i + a - e) ltac:(lra)).
    assert (Kzz := K ((f + h) * (f + h)) (1 - i - a + e) ltac:(lra)).
    assert (Kyz := K ((c + g) * (f + h)) (d + b) ltac:(lra)).
    assert (Kwy := K ((d - b) * (c + g)) (h - f) ltac:(lra)).
    assert (Kwz := K ((d - b) * (f + h)) (c - g) ltac:(lra)).
    split; [qs; rewrite ?WW; lra|]. qs. apply m3_ext; cbn [m00 m01 m02 m10 m11 m12 m20 m21 m22]; rewrite ?(Rmult_assoc 2), ?W, ?W', ?WW; lra.
  Qed.
  Lemma assign_ok : qnorm2 (assignQuaternion m) = 1 /\ qmat (assignQuaternion m) = m.
  Proof.
    unfold assignQuaternion. cbv zeta. destruct (Rlt_dec 0 (m3trace m)) as [H|H]; [apply assignPos_ok, H|]. unfold m3trace in H.
    destruct (Rlt_dec (m00 m) (m11 m)) as [A|A].
    - destruct (Rlt_dec (m3get m 1 1) (m22 m)) as [B|B]; unfold m3get, m3row, m3col, v3get, m3tr in B; cbn [m11 vy] in B; [apply assignNeg2 | apply assignNeg1]; lra.
    - destruct (Rlt_dec (m3get m 0 0) (m22 m)) as [B|B]; unfold m3get, m3row, m3col, v3get, m3tr in B; cbn [m00 vx] in B; [apply assignNeg2 | apply assignNeg0]; lra.
  Qed.
End Assign.

(* ---- roll, pitch, yaw ---- *)
Lemma half_cos a : cos a = 1 - 2 * (sin (a / 2) * sin (a / 2)).
Proof. replace a with (2 * (a / 2)) at 1 by field. rewrite cos_2a_sin. ring. Qed.
Lemma half_sin a : sin a = 2 * (sin (a / 2) * cos (a / 2)).
Proof. replace a with (2 * (a / 2)) at 1 by field. rewrite sin_2a. ring. Qed.
Lemma half_one a : sin (a / 2) * sin (a / 2) + cos (a / 2) * cos (a / 2) = 1.
Proof. assert (H := sin2_cos2 (a / 2)). unfold Rsqr in H. exact H. Qed.
Lemma axis_norm t a : v3dot a a = 1 -> qnorm2 (qAngleAxis t a) = 1.
Proof. intros H. qs. unfold v3dot in H. assert (E := half_one t). set (s := sin (t / 2)) in *. set (c := cos (t / 2)) in *. replace (s * vx a * (s * vx a) + s * vy a * (s * vy a) + s * vz a * (s * vz a) + c * c) with (s * s * (vx a * vx a + vy a * vy a + vz a * vz a) + c * c) by ring. rewrite H. lra. Qed.
Lemma rpy_matrix r p y : rpyToMatrix r p y = rotRpy r p y.
Proof.
  unfold rpyToMatrix. rewrite !qmat_mul; rewrite ?qmul_norm, ?axis_norm by (unfold v3dot; cbn; ring); try ring.
  unfold rotRpy. rewrite m3mul_assoc. f_equal; [f_equal|]; qs; unfold rotX, rotY, rotZ; rewrite ?(half_cos r), ?(half_cos p), ?(half_cos y), ?(half_sin r), ?(half_sin p), ?(half_sin y);
    [assert (E := half_one y) | assert (E := half_one p) | assert (E := half_one r)]; apply m3_ext; cbn [m00 m01 m02 m10 m11 m12 m20 m21 m22]; lra.
Qed.
Lemma rpy_rot r p y : isRotation (rotRpy r p y).
Proof. rewrite <- rpy_matrix. apply qmat_rot. rewrite !qmul_norm, !axis_norm by (unfold v3dot; cbn; ring). ring. Qed.
Lemma rpy_entries r p y : rotRpy r p y = mkM3
  (cos y * cos p) (cos y * sin p * sin r - sin y * cos r) (cos y * sin p * cos r + sin y * sin r)
  (sin y * cos p) (sin y * sin p * sin r + cos y * cos r) (sin y * sin p * cos r - cos y * sin r)
  (- sin p) (cos p * sin r) (cos p * cos r).
Proof. unfold rotRpy, rotX, rotY, rotZ, m3mul. apply m3_ext; cbn; ring. Qed.
Lemma rpy_deriv r p y dr dp dy t : deriv r dr t -> deriv p dp t -> deriv y dy t ->
  let e := mkV3 (r t) (p t) (y t) in let d := mkV3 dr dp dy in
  derivM3 (fun s => rpyToMatrix (r s) (p s) (y s)) (m3mul (rpyToMatrix (r t) (p t) (y t)) (skew (m3vec (rpyJacobian RLocal e) d))) t /\
  derivM3 (fun s => rpyToMatrix (r s) (p s) (y s)) (m3mul (skew (m3vec (rpyJacobian RWorld e) d)) (rpyToMatrix (r t) (p t) (y t))) t.
Proof.
  intros Hr Hp Hy. cbv zeta. rewrite !rpy_matrix, !rpy_entries.
  assert (D : derivM3 (fun s => mkM3
    (cos (y s) * cos (p s)) (cos (y s) * sin (p s) * sin (r s) - sin (y s) * cos (r s)) (cos (y s) * sin (p s) * cos (r s) + sin (y s) * sin (r s))
    (sin (y s) * cos (p s)) (sin (y s) * sin (p s) * sin (r s) + cos (y s) * cos (r s)) (sin (y s) * sin (p s) * cos (r s) - cos (y s) * sin (r s))
    (- sin (p s)) (cos (p s) * sin (r s)) (cos (p s) * cos (r s))) (mkM3
    (- sin (y t) * dy * cos (p t) + cos (y t) * (- sin (p t) * dp))
    ((- sin (y t) * dy * sin (p t) + cos (y t) * (cos (p t) * dp)) * sin (r t) + cos (y t) * sin (p t) * (cos (r t) * dr) - (cos (y t) * dy * cos (r t) + sin (y t) * (- sin (r t) * dr)))
    ((- sin (y t) * dy * sin (p t) + cos (y t) * (cos (p t) * dp)) * cos (r t) + cos (y t) * sin (p t) * (- sin (r t) * dr) + (cos (y t) * dy * sin (r t) + sin (y t) * (cos (r t) * dr)))
    (cos (y t) * dy * cos (p t) + sin (y t) * (- sin (p t) * dp))
    ((cos (y t) * dy * sin (p t) + sin (y t) * (cos (p t) * dp)) * sin (r t) + sin (y t) * sin (p t) * (cos (r t) * dr) + (- sin (y t) * dy * cos (r t) + cos (y t) * (- sin (r t) * dr)))
    ((cos (y t) * dy * sin (p t) + sin (y t) * (cos (p t) * dp)) * cos (r t) + sin (y t) * sin (p t) * (- sin (r t) * dr) - (- sin (y t) * dy * sin (r t) + cos (y t) * (cos (r t) * dr)))
    (- (cos (p t) * dp)) (- sin (p t) * dp * sin (r t) + cos (p t) * (cos (r t) * dr)) (- sin (p t) * dp * cos (r t) + cos (p t) * (- sin (r t) * dr))) t).
  { unfold derivM3; cbn [m00 m01 m02 m10 m11 m12 m20 m21 m22]; dsplit; (eapply deriv_eq; [dv | cbv beta; ring]). }
  assert (E1 := sin2_cos2 (r t)). assert (E2 := sin2_cos2 (p t)). assert (E3 := sin2_cos2 (y t)). unfold Rsqr in *.
  split; (eapply derivM3_ext; [intros s; rewrite rpy_matrix, rpy_entries; reflexivity|]; eapply derivM3_eq; [exact D|]); clear D Hr Hp Hy;
    unfold rpyJacobian, skew, m3vec, m3mul; cbn [vx vy vz m00 m01 m02 m10 m11 m12 m20 m21 m22]; revert E1 E2 E3; generalize (sin (r t)) (cos (r t)) (sin (p t)) (cos (p t)) (sin (y t)) (cos (y t)); intros sr cr sp cp sy cy E1 E2 E3;
    apply m3_ext; cbn [m00 m01 m02 m10 m11 m12 m20 m21 m22]; try nsatz.
Qed.
Lemma rpy_frames r p y : rpyJacobian RWorld (mkV3 r p y) = m3mul (rpyToMatrix r p y) (rpyJacobian RLocal (mkV3 r p y)).
Proof.
  rewrite rpy_matrix, rpy_entries. assert (E1 := sin2_cos2 r). assert (E2 := sin2_cos2 p). assert (E3 := sin2_cos2 y). unfold Rsqr in *. unfold rpyJacobian, m3mul. cbn [vx vy vz m00 m01 m02 m10 m11 m12 m20 m21 m22].
  revert E1 E2 E3. generalize (sin r) (cos r) (sin p) (cos p) (sin y) (cos y). intros sr cr sp cp sy cy E1 E2 E3. apply m3_ext; cbn [m00 m01 m02 m10 m11 m12 m20 m21 m22]; try lra; nsatz.
Qed.
Lemma rpy_inverse f e : cos (vy e) <> 0 -> m3mul (rpyJacobianInverse f e) (rpyJacobian f e) = m3id /\ m3mul (rpyJacobian f e) (rpyJacobianInverse f e) = m3id.
Proof.
  intros Hc. destruct e as [r p y]. cbn [vy] in Hc. assert (E1 := sin2_cos2 r). assert (E2 := sin2_cos2 p). assert (E3 := sin2_cos2 y). unfold Rsqr in *.
  unfold rpyJacobianInverse, rpyJacobian, m3mul, m3id. cbn [vx vy vz]. revert Hc E1 E2 E3. generalize (sin r) (cos r) (sin p) (cos p) (sin y) (cos y). intros sr cr sp cp sy cy Hc E1 E2 E3.
  assert (I : cp * / cp = 1) by (field; exact Hc). unfold Rdiv. set (k := / cp) in *. clearbody k. destruct f; cbn [m00 m01 m02 m10 m11 m12 m20 m21 m22]; split; apply m3_ext; cbn [m00 m01 m02 m10 m11 m12 m20 m21 m22]; try lra; nsatz.
Qed.
Lemma rpy_dot f r p y dr dp dy t : deriv r dr t -> deriv p dp t -> deriv y dy t ->
  derivM3 (fun s => rpyJacobian f (mkV3 (r s) (p s) (y s))) (rpyJacobianDot f (mkV3 (r t) (p t) (y t)) (mkV3 dr dp dy)) t.
Proof.
  intros Hr Hp Hy. destruct f; unfold rpyJacobian, rpyJacobianDot, derivM3; cbn [vx vy vz m00 m01 m02 m10 m11 m12 m20 m21 m22]; dsplit; (eapply deriv_eq; [dv | cbv beta; ring]).
Qed.
Lemma rpy_back a b c : 0 <= a <= PI -> - PI <= b <= PI -> - PI <= c <= PI -> let e := matrixToRpy a b c in
  rotRpy (vx e) (vy e) (vz e) = rotRpy c b a /\ - PI <= vx e <= PI /\ - PI / 2 <= vy e <= PI / 2 /\ - PI <= vz e <= PI.
Proof.
  intros Ha Hb Hc. assert (P := PI_RGT_0). cbv zeta. unfold matrixToRpy. cbv zeta. rewrite !rpy_entries.
  assert (S2 : forall x, sin (x + 2 * PI) = sin x) by (intros; rewrite sin_plus, cos_2PI, sin_2PI; ring). assert (C2 : forall x, cos (x + 2 * PI) = cos x) by (intros; rewrite cos_plus, cos_2PI, sin_2PI; ring).
  assert (S1 : forall x, sin (PI - x) = sin x) by (intros; rewrite sin_minus, cos_PI, sin_PI; ring). assert (C1 : forall x, cos (PI - x) = - cos x) by (intros; rewrite cos_minus, cos_PI, sin_PI; ring).
  assert (S3 : forall x, sin (x - PI) = - sin x) by (intros; rewrite sin_minus, cos_PI, sin_PI; ring). assert (C3 : forall x, cos (x - PI) = - cos x) by (intros; rewrite cos_minus, cos_PI, sin_PI; ring).
  assert (S4 : forall x, sin (x + PI) = - sin x) by (intros; rewrite sin_plus, cos_PI, sin_PI; ring). assert (C4 : forall x, cos (x + PI) = - cos x) by (intros; rewrite cos_plus, cos_PI, sin_PI; ring).
  destruct (Rlt_dec b (- PI / 2)) as [H1|H1]; [destruct (Rlt_dec (PI / 2) (b + 2 * PI)) as [H2|H2] | destruct (Rlt_dec (PI / 2) b) as [H2|H2]]; cbn [vx vy vz]; try (destruct (Rlt_dec c 0) as [H3|H3]);
    (split; [apply m3_ext; cbn [m00 m01 m02 m10 m11 m12 m20 m21 m22]; rewrite ?S1, ?C1, ?S3, ?C3, ?S4, ?C4, ?S2, ?C2; ring | split; [lra | split; lra]]).
Qed.
