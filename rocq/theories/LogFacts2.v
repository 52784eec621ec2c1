(* quaternion::log3 and log6 against the exponential *)
Require Import Reals Lra Arith Lia.
From Verif Require Import Vec3 Spatial Joints JointFacts Deriv Rot RotFacts ExpLog Spec_Exp ExpFacts ExpFacts2 ExpFacts3 ExpFacts4 ExpFacts5 LieGroup Spec_Lie LieFacts3 LogFacts.
Local Open Scope R_scope.

Definition lgTheta (eps : R) (n w : R) : R :=
  if Rlt_dec (n * n) (ts2 eps) then 2 * (1 - (n / w) * (n / w) / 3) * (nrm eps n / w) else 2 * atan2 (nrm eps n) w.
Lemma lgK_small eps n w : w <> 0 -> n * n < ts2 eps -> let a := n / w in let b := nrm eps n / w in let T := (1 - a * a / 3) * b * ((1 - a * a / 3) * b) in
  lgK eps n w = 2 * (1 + T / 6 + 7 / 360 * T * T) /\ lgTheta eps n w = 2 * ((1 - a * a / 3) * b).
Proof.
  intros W H a b T. unfold lgK, lgTheta. cbv zeta. fold (nrm eps n). destruct (Rlt_dec (n * n) (ts2 eps)); [|contradiction].
  fold b a. replace (n * n / (w * w)) with (a * a) by (unfold a; field; exact W).
  set (s := 1 - a * a / 3). assert (E : T = s * b * (s * b)) by reflexivity. clearbody s b T. split; [|ring]. 
  replace (2 * s * b * (2 * s * b) / 4) with T by (rewrite E; field). reflexivity.
Qed.
Lemma lgK_big eps n w : ~ n * n < ts2 eps -> lgK eps n w = 2 * (atan2 (nrm eps n) w / sin (atan2 (nrm eps n) w)) /\ lgTheta eps n w = 2 * atan2 (nrm eps n) w.
Proof.
  intros H. unfold lgK, lgTheta. cbv zeta. fold (nrm eps n). destruct (Rlt_dec (n * n) (ts2 eps)); [contradiction|]. split; [|reflexivity]. unfold Rdiv. ring.
Qed.
Lemma qlog3_eq eps q : qnorm2 q = 1 -> let n := v3norm (qvec q) in let pos := if Rle_dec 0 (qw q) then 1 else -1 in let w := pos * qw q in
  fst (qlog3 eps q) = v3scale (lgK eps n w) (v3scale pos (qvec q)) /\ snd (qlog3 eps q) = lgTheta eps n w /\ 0 <= n /\ 0 <= w /\ n * n + w * w = 1 /\ pos * pos = 1.
Proof.
  intros H n pos w. assert (N : v3norm2 (qvec q) = n * n). { unfold n. rewrite norm_sq. reflexivity. }
  assert (P : pos * pos = 1) by (unfold pos; destruct (Rle_dec 0 (qw q)); ring).
  assert (W : 0 <= w) by (unfold w, pos; destruct (Rle_dec 0 (qw q)); lra).
  assert (U : n * n + w * w = 1).
  { rewrite <- N. unfold w. replace (pos * qw q * (pos * qw q)) with ((pos * pos) * (qw q * qw q)) by ring. rewrite P. unfold qnorm2, qdot in H. unfold v3norm2, v3dot, qvec. cbn. lra. }
  split; [|split; [|split; [apply norm_nonneg|auto]]].
  - unfold qlog3, lgK. cbv zeta. cbn [fst]. rewrite N. fold pos. fold w. reflexivity.
  - unfold qlog3, lgTheta. cbv zeta. cbn [snd]. rewrite N. fold pos. fold w. fold (nrm eps n).
    destruct (Rlt_dec (n * n) (ts2 eps)) as [L|L]; [|reflexivity]. 
    destruct (Req_dec w 0) as [Z|Z].
    + rewrite Z. unfold Rdiv. rewrite Rmult_0_l, !Rinv_0. ring.
    + replace (n * n / (w * w)) with (n / w * (n / w)) by (field; exact Z). reflexivity.
Qed.
Lemma w_pos eps n w : 0 < eps <= 1 / 4096 -> 0 <= w -> n * n + w * w = 1 -> n * n < ts2 eps -> w <> 0.
Proof. intros He Hw U S. destruct (ts2_bounds eps He). nra. Qed.
(* the half angle of the result *)
Lemma lg_half eps n w f : 0 < eps <= 1 / 4096 -> 0 <= n -> 0 <= w -> n * n + w * w = 1 -> 0 <= f <= PI / 2 -> sin f = n -> cos f = w ->
  Rabs (lgK eps n w * n / 2 - f) <= 4 * eps * f /\ 0 <= lgK eps n w.
Proof.
  intros He Hn Hw U F Fs Fc. destruct (Rlt_dec (n * n) (ts2 eps)) as [S|S].
  - destruct (lgK_small eps n w (w_pos _ _ _ He Hw U S) S) as [K _]. rewrite K.
    destruct (small_err eps n w f He Hn Hw U S F Fs Fc) as [E _]. cbv zeta in E.
    set (T := (1 - n / w * (n / w) / 3) * (nrm eps n / w) * ((1 - n / w * (n / w) / 3) * (nrm eps n / w))) in *. assert (T0 : 0 <= T) by (apply Rle_0_sqr). clearbody T. split; [|nra].
    replace (2 * (1 + T / 6 + 7 / 360 * T * T) * n / 2) with (n * (1 + T / 6 + 7 / 360 * T * T)) by field. exact E.
  - destruct (lgK_big eps n w S) as [K _]. rewrite K. apply Rnot_lt_le in S.
    destruct (big_err eps n w He Hn Hw U S f F Fs Fc) as [_ [_ [E [P _]]]]. destruct (th2_spec eps n w He Hn Hw U) as [T _].
    set (t := atan2 (nrm eps n) w) in *. clearbody t. split.
    + replace (2 * (t / sin t) * n / 2) with (t / sin t * n) by (field; lra). exact E.
    + assert (0 <= / sin t) by (left; apply Rinv_0_lt_compat; exact P). unfold Rdiv. nra.
Qed.
Lemma sin_lip x y : Rabs (sin x - sin y) <= Rabs (x - y).
Proof.
  destruct (Req_dec x y) as [->|N]. { rewrite !Rminus_diag_eq by reflexivity. lra. }
  assert (G : forall a b, a < b -> Rabs (sin b - sin a) <= Rabs (b - a)).
  { intros a b L. destruct (MVT_cor2 sin cos a b L) as [c [E _]]; [intros; apply derivable_pt_lim_sin|].
    rewrite E, Rabs_mult. assert (Rabs (cos c) <= 1) by (apply Rabs_le; apply COS_bound). pose proof (Rabs_pos (b - a)). nra. }
  destruct (Rtotal_order x y) as [L|[L|L]]; [|contradiction|apply G; exact L].
  rewrite (Rabs_minus_sym (sin x)), (Rabs_minus_sym x). apply G. exact L.
Qed.
Lemma cos_lip x y : Rabs (cos x - cos y) <= Rabs (x - y).
Proof.
  rewrite !cos_sin. eapply Rle_trans; [apply sin_lip|]. replace (PI / 2 + x - (PI / 2 + y)) with (x - y) by ring. lra.
Qed.
Lemma half_PI : PI / 2 <= 17 / 10.
Proof. pose proof (PI_ineq 2) as [_ U]. unfold tg_alt, PI_tg in U. cbn in U. field_simplify in U. lra. Qed.
Definition posOf (q : Quat) : R := if Rle_dec 0 (qw q) then 1 else -1.
Lemma qlog3_exp eps q : 0 < eps <= 1 / 4096 -> qnorm2 q = 1 -> qclose (8 * eps) (Qexp (fst (qlog3 eps q))) (qscale (posOf q) q).
Proof.
  intros He H. destruct (qlog3_eq eps q H) as [E [_ [Hn [Hw [U P]]]]]. rewrite E. fold (posOf q) in *. set (n := v3norm (qvec q)) in *. set (pos := posOf q) in *.
  destruct (half_angle n (pos * qw q) Hn Hw U) as [f [F [Fs Fc]]].
  destruct (lg_half eps n _ f He Hn Hw U F Fs Fc) as [HE K0]. set (K := lgK eps n (pos * qw q)) in *.
  assert (HE8 : Rabs (K * n / 2 - f) <= 8 * eps). { pose proof half_PI. nra. }
  assert (N : v3norm (v3scale K (v3scale pos (qvec q))) / 2 = K * n / 2).
  { rewrite !norm_scale. rewrite (Rabs_pos_eq K) by exact K0. replace (Rabs pos) with 1; [fold n; field|].
    unfold pos, posOf. destruct (Rle_dec 0 (qw q)); [rewrite Rabs_R1 | rewrite Rabs_left by lra]; ring. }
  unfold Qexp. cbv zeta. rewrite N. set (y := K * n / 2) in *.
  assert (SY : Rabs (sin y - n) <= 8 * eps) by (rewrite <- Fs; eapply Rle_trans; [apply sin_lip | exact HE8]).
  assert (CY : Rabs (cos y - pos * qw q) <= 8 * eps) by (rewrite <- Fc; eapply Rle_trans; [apply cos_lip | exact HE8]).
  destruct (comp_le (qvec q)) as [CX [CYY CZ]]. fold n in CX, CYY, CZ.
  assert (G : forall x, Rabs x <= n -> Rabs (sinc y / 2 * (K * (pos * x)) - pos * x) <= 8 * eps).
  { intros x Hx. replace (sinc y / 2 * (K * (pos * x)) - pos * x) with (pos * x * (sinc y * K / 2 - 1)) by field.
    rewrite !Rabs_mult. replace (Rabs pos) with 1 by (unfold pos, posOf; destruct (Rle_dec 0 (qw q)); [rewrite Rabs_R1 | rewrite Rabs_left by lra]; ring).
    eapply Rle_trans; [|exact SY]. replace (sin y - n) with (n * (sinc y * K / 2 - 1)).
    - rewrite Rabs_mult, (Rabs_pos_eq n) by exact Hn. pose proof (Rabs_pos (sinc y * K / 2 - 1)). rewrite Rmult_1_l. nra.
    - rewrite <- (sinc_mul y). unfold y at 2. field. }
  unfold qclose, qscale, v3scale, qvec in *. cbn [qx qy qz qw vx vy vz] in *. repeat split; try (apply G; assumption). exact CY.
Qed.
Lemma so3_reaches eps q0 q1 : 0 < eps <= 1 / 4096 -> qnorm2 (quatAt q0) = 1 -> qnorm2 (quatAt q1) = 1 ->
  let l := fst (qlog3 eps (qmul (qconj (quatAt q0)) (quatAt q1))) in
  sameRotation (4 * eE eps + 16 * eps) (so3_out eps q0 l) (quatAt q1).
Proof.
  intros He N0 N1 l. set (d := qmul (qconj (quatAt q0)) (quatAt q1)) in *.
  assert (ND : qnorm2 d = 1). { unfold d. rewrite qmul_norm, N1. replace (qnorm2 (qconj (quatAt q0))) with (qnorm2 (quatAt q0)) by (unfold qnorm2, qdot, qconj; cbn; ring). rewrite N0. ring. }
  pose proof (qlog3_exp eps d He ND) as C. fold l in C.
  pose proof (so3_close eps q0 l ltac:(lra) N0) as C1.
  assert (C2 : qclose (16 * eps) (qmul (quatAt q0) (Qexp l)) (qmul (quatAt q0) (qscale (posOf d) d))).
  { apply norm_qclose; [lra|]. rewrite qmul_sub, qmul_norm, N0, Rmult_1_l. eapply Rle_trans; [apply (qclose_norm (8 * eps)); [lra | exact C]|]. lra. }
  assert (E : qmul (quatAt q0) (qscale (posOf d) d) = qscale (posOf d) (quatAt q1)).
  { set (s := posOf d). unfold d. clearbody s. clear - N0. destruct (quatAt q0) as [a b c e], (quatAt q1) as [a' b' c' e']. unfold qnorm2, qdot in N0. cbn in N0.
    unfold qscale, qmul, qconj. cbn. f_equal.
    - transitivity ((a * a + b * b + c * c + e * e) * (s * a')); [ring | rewrite N0; ring].
    - transitivity ((a * a + b * b + c * c + e * e) * (s * b')); [ring | rewrite N0; ring].
    - transitivity ((a * a + b * b + c * c + e * e) * (s * c')); [ring | rewrite N0; ring].
    - transitivity ((a * a + b * b + c * c + e * e) * (s * e')); [ring | rewrite N0; ring]. }
  rewrite E in C2. pose proof (qclose_tri _ _ _ _ _ C1 C2) as C3. unfold posOf in C3. destruct (Rle_dec 0 (qw d)); [left | right; exact C3].
  replace (quatAt q1) with (qscale 1 (quatAt q1)); [exact C3|]. destruct (quatAt q1). unfold qscale. cbn. f_equal; ring.
Qed.
