(* log6 then exp6: the translation *)
Require Import Reals Lra Arith Lia.
From Verif Require Import Vec3 Spatial Joints JointFacts Kinematics Deriv Rot RotFacts ExpLog Spec_Exp ExpFacts ExpFacts2 ExpFacts3 ExpFacts4 ExpFacts5 LieGroup Spec_Lie LieFacts LieFacts2 LieFacts3 LogFacts LogFacts2 LogFacts3.
Local Open Scope R_scope.

Lemma norm_add u v : v3norm (v3add u v) <= v3norm u + v3norm v.
Proof.
  pose proof (norm_nonneg u) as A. pose proof (norm_nonneg v) as B. pose proof (norm_nonneg (v3add u v)) as C.
  pose proof (norm_sq u) as SA. pose proof (norm_sq v) as SB. pose proof (norm_sq (v3add u v)) as SC. pose proof (cauchy u v) as K. apply rabs_inv in K.
  assert (E : v3dot (v3add u v) (v3add u v) = v3dot u u + 2 * v3dot u v + v3dot v v) by (unfold v3dot, v3add; cbn; ring).
  rewrite E in SC. nra.
Qed.
Definition logLin (beta : R) (w p : V3) : V3 := v3add (v3sub p (v3scale (1 / 2) (v3cross w p))) (v3scale beta (v3cross w (v3cross w p))).
Lemma Texp_logLin beta w p : let x := v3norm w in
  Texp (mkV6 (logLin beta w p) w) = v3add (v3add (v3scale (sinc x * (1 - beta * (x * x)) + cosc x * (x * x) / 2) p) 
    (v3scale ((sinc x * beta + sinc3 x - cosc x / 2) * v3dot w p) w)) (v3scale (- sinc x / 2 + cosc x * (1 - beta * (x * x))) (v3cross w p)).
Proof.
  intros x. assert (X : x * x = v3dot w w) by (unfold x; apply norm_sq). unfold Texp. cbv zeta. cbn [ang lin]. fold x. rewrite X.
  set (a := sinc x). set (b := cosc x). set (c := sinc3 x). clearbody a b c. clear X x. destruct w as [w1 w2 w3], p as [p1 p2 p3].
  unfold logLin, v3add, v3sub, v3scale, v3cross, v3dot. cbn. f_equal; field.
Qed.
Lemma Texp_err beta w p y d : 0 < y <= PI / 2 -> v3norm w = 2 * y -> Rabs (4 * (y * y) * beta - (1 - xcot y)) <= d ->
  v3close (3 * d * v3norm p) (Texp (mkV6 (logLin beta w p) w)) p.
Proof.
  intros Y W D. rewrite Texp_logLin. cbv zeta. rewrite W. set (x := 2 * y). assert (X0 : x <> 0) by (unfold x; lra).
  assert (S : 0 < sin y) by (apply sin_gt_0; pose proof PI2_3_2; lra).
  assert (Es : sinc x = sin y * cos y / y). { apply Rmult_eq_reg_l with x; [|exact X0]. rewrite sinc_mul. unfold x. rewrite sin_2a. field. lra. }
  assert (Ec : cosc x = sin y * sin y / (2 * (y * y))). { apply Rmult_eq_reg_l with (x * x); [|nra]. rewrite cosc_mul. unfold x. rewrite cos_2a_sin. field. lra. }
  assert (E3 : sinc3 x = (1 - sinc x) / (4 * (y * y))). { apply Rmult_eq_reg_l with (x * x); [|nra]. rewrite sinc3_mul. unfold x. field. lra. }
  assert (Q : sin y * sin y + cos y * cos y = 1) by (pose proof (sin2_cos2 y) as Q; unfold Rsqr in Q; exact Q).
  set (e := 4 * (y * y) * beta - (1 - xcot y)) in *.
  assert (B : beta = (e + 1 - xcot y) / (4 * (y * y))) by (unfold e; field; lra).
  assert (SQ : sin y * sin y = 1 - cos y * cos y) by lra.
  assert (C1 : sinc x * (1 - beta * (x * x)) + cosc x * (x * x) / 2 = 1 - sinc x * e).
  { rewrite B, Ec. unfold x at 2 3 4 5. replace (sinc x * (1 - (e + 1 - xcot y) / (4 * (y * y)) * (2 * y * (2 * y))) + sin y * sin y / (2 * (y * y)) * (2 * y * (2 * y)) / 2) with (sinc x * xcot y + sin y * sin y - sinc x * e) by (field; lra).
    assert (F : sinc x * xcot y = cos y * cos y). { rewrite Es. unfold xcot. field. lra. } rewrite F. lra. }
  assert (C2 : sinc x * beta + sinc3 x - cosc x / 2 = sinc x * e / (x * x)).
  { apply Rmult_eq_reg_r with (x * x); [|nra]. replace (sinc x * e / (x * x) * (x * x)) with (sinc x * e) by (field; exact X0).
    replace ((sinc x * beta + sinc3 x - cosc x / 2) * (x * x)) with (1 - (sinc x * (1 - beta * (x * x)) + cosc x * (x * x) / 2)).
    - rewrite C1. ring.
    - rewrite E3. generalize (sinc x) (cosc x). intros S0 C0. unfold x. field. lra. }
  assert (C3 : - sinc x / 2 + cosc x * (1 - beta * (x * x)) = - cosc x * e).
  { rewrite B. unfold x at 3 4. replace (1 - (e + 1 - xcot y) / (4 * (y * y)) * (2 * y * (2 * y))) with (xcot y - e) by (field; lra).
    assert (F : cosc x * xcot y = sinc x / 2). { rewrite Ec, Es. unfold xcot. field. lra. } replace (cosc x * (xcot y - e)) with (cosc x * xcot y - cosc x * e) by ring. rewrite F. field. }
  rewrite C1, C2, C3. clear C1 C2 C3 B E3.
  (* bounds *)
  pose proof (sin_le y ltac:(lra)) as SL. rewrite Rabs_pos_eq in SL by lra. assert (CY : 0 <= cos y <= 1) by (split; [apply cos_ge_0; lra | apply COS_bound]).
  assert (Bs : 0 <= sinc x <= 1). { rewrite Es. split; [apply Rmult_le_pos; [nra | left; apply Rinv_0_lt_compat; lra] | apply rdiv_le; nra]. }
  assert (Bc : 0 <= cosc x * x <= 1). { rewrite Ec. unfold x. replace (sin y * sin y / (2 * (y * y)) * (2 * y)) with (sin y * sin y / y) by (field; lra). assert (sin y <= 1) by apply SIN_bound. split; [apply Rmult_le_pos; [nra | left; apply Rinv_0_lt_compat; lra] | apply rdiv_le; nra]. }
  clear Es Ec. pose proof (norm_nonneg p) as NP. assert (WX : v3norm w = x) by exact W.
  assert (D0 : 0 <= d) by (pose proof (Rabs_pos e); lra).
  pose proof (cauchy w p) as CA. pose proof (norm_cross w p) as CC. rewrite WX in CA, CC.
  destruct (comp_le p) as [P1 [P2 P3]]. destruct (comp_le w) as [W1 [W2 W3]]. destruct (comp_le (v3cross w p)) as [X1 [X2 X3]]. rewrite WX in W1, W2, W3.
  assert (XP : 0 < x) by (unfold x; lra).
  assert (Dm : 0 <= Rabs e <= d) by (split; [apply Rabs_pos | exact D]).
  assert (G : forall pi wi ci, Rabs pi <= v3norm p -> Rabs wi <= x -> Rabs ci <= v3norm (v3cross w p) ->
     Rabs ((1 - sinc x * e) * pi + sinc x * e / (x * x) * v3dot w p * wi + - cosc x * e * ci - pi) <= 3 * d * v3norm p).
  { intros pi wi ci Hp Hw Hc. set (N := v3norm p) in *. set (V := v3dot w p) in *. set (M := v3norm (v3cross w p)) in *.
    replace ((1 - sinc x * e) * pi + sinc x * e / (x * x) * V * wi + - cosc x * e * ci - pi) with (e * (- (sinc x * pi) + sinc x * (V / x) * (wi / x) + - (cosc x * ci))) by (field; exact X0).
    rewrite Rabs_mult. replace (3 * d * N) with (d * (3 * N)) by ring. apply Rmult_le_compat; [apply Rabs_pos | apply Rabs_pos | exact D|].
    assert (T1 : Rabs (- (sinc x * pi)) <= N). { rewrite Rabs_Ropp, Rabs_mult, (Rabs_pos_eq (sinc x)) by lra. pose proof (Rabs_pos pi). nra. }
    assert (VX : Rabs (V / x) <= N). { unfold Rdiv. rewrite Rabs_mult, (Rabs_pos_eq (/ x)) by (left; apply Rinv_0_lt_compat; exact XP). apply rdiv_le; [exact XP | lra]. }
    assert (WX' : Rabs (wi / x) <= 1). { unfold Rdiv. rewrite Rabs_mult, (Rabs_pos_eq (/ x)) by (left; apply Rinv_0_lt_compat; exact XP). apply rdiv_le; [exact XP | lra]. }
    assert (T2 : Rabs (sinc x * (V / x) * (wi / x)) <= N).
    { rewrite !Rabs_mult, (Rabs_pos_eq (sinc x)) by lra. pose proof (Rabs_pos (V / x)). pose proof (Rabs_pos (wi / x)). 
      apply Rle_trans with (1 * N * 1); [|lra]. apply Rmult_le_compat; try assumption; [nra|]. apply Rmult_le_compat; lra. }
    assert (T3 : Rabs (- (cosc x * ci)) <= N).
    { rewrite Rabs_Ropp, Rabs_mult. assert (C0 : 0 <= cosc x). { apply Rmult_le_reg_r with x; [exact XP|]. lra. }
      rewrite (Rabs_pos_eq (cosc x)) by exact C0. apply Rle_trans with (cosc x * (x * N)); [apply Rmult_le_compat_l; lra|]. nra. }
    apply rabs_inv in T1. apply rabs_inv in T2. apply rabs_inv in T3. apply Rabs_le. lra. }
  unfold v3close, v3add, v3scale. cbn [vx vy vz]. split; [apply G; assumption|]. split; apply G; assumption.
Qed.
Lemma logLin_norm beta w p y d : 0 < y <= PI / 2 -> v3norm w = 2 * y -> Rabs (4 * (y * y) * beta - (1 - xcot y)) <= d -> d <= 1 -> v3norm (logLin beta w p) <= 5 * v3norm p.
Proof.
  intros Y W D D1. pose proof (norm_nonneg p) as NP. pose proof half_PI as HP. pose proof (xcot_bound y Y) as XB. apply rabs_inv in D.
  pose proof (norm_cross w p) as C1. pose proof (norm_cross w (v3cross w p)) as C2. rewrite W in C1, C2. pose proof (norm_nonneg (v3cross w p)).
  unfold logLin. eapply Rle_trans; [apply norm_add|]. rewrite norm_scale.
  assert (A1 : v3norm (v3sub p (v3scale (1 / 2) (v3cross w p))) <= v3norm p + y * v3norm p).
  { replace (v3sub p (v3scale (1 / 2) (v3cross w p))) with (v3add p (v3scale (- (1 / 2)) (v3cross w p))) by (unfold v3add, v3sub, v3scale; cbn; f_equal; ring).
    eapply Rle_trans; [apply norm_add|]. rewrite norm_scale, Rabs_Ropp, Rabs_pos_eq by lra. nra. }
  assert (A2 : Rabs beta * v3norm (v3cross w (v3cross w p)) <= 2 * v3norm p).
  { pose proof (Rabs_pos beta). apply Rle_trans with (Rabs beta * (4 * (y * y) * v3norm p)).
    - apply Rmult_le_compat_l; [assumption|]. eapply Rle_trans; [exact C2|]. nra.
    - replace (Rabs beta * (4 * (y * y) * v3norm p)) with (Rabs (4 * (y * y) * beta) * v3norm p).
      + apply Rmult_le_compat_r; [exact NP|]. apply Rabs_le. lra.
      + rewrite Rabs_mult, (Rabs_pos_eq (4 * (y * y))) by nra. ring. }
  nra.
Qed.
Lemma qlog6_eq eps q p : qnorm2 q = 1 -> let w := fst (qlog3 eps q) in exists beta, qlog6 eps q p = mkV6 (logLin beta w p) w /\
  (qvec q <> v3zero -> beta = lgBeta eps (v3norm (qvec q)) (posOf q * qw q)).
Proof.
  intros H w. unfold qlog6. cbv zeta. fold w. eexists. split; [reflexivity|]. intros NZ.
  destruct (qlog3_eq eps q H) as [E [Et [Hn [Hw [U P]]]]]. fold (posOf q) in *. rewrite Et. unfold lgBeta. cbv zeta.
  set (n := v3norm (qvec q)) in *. set (ww := posOf q * qw q) in *.
  assert (T : v3norm2 w = lgK eps n ww * n * (lgK eps n ww * n)).
  { rewrite norm2_norm. unfold w. rewrite E, !norm_scale. fold n. set (k := lgK eps n ww).
    transitivity ((Rabs k * Rabs k) * (Rabs (posOf q) * Rabs (posOf q)) * (n * n)); [ring|].
    rewrite <- (Rabs_mult k k), <- (Rabs_mult (posOf q) (posOf q)), P, Rabs_R1, (Rabs_pos_eq (k * k)) by apply Rle_0_sqr. ring. }
  rewrite T. rewrite norm2_norm. fold n. fold (nrm eps n). reflexivity.
Qed.
Lemma logErr_small eps : 0 < eps <= 1 / 4096 -> 0 <= logErr eps <= 1.
Proof. intros H. destruct (ts2_bounds eps H). pose proof (pow2_ge_0 (ts2 eps)). unfold logErr. split; [lra|]. nra. Qed.
Lemma qlog6_exp eps q p : 0 < eps <= 1 / 4096 -> qnorm2 q = 1 -> v3close (3 * logErr eps * v3norm p) (Texp (qlog6 eps q p)) p /\ v3norm (lin (qlog6 eps q p)) <= 5 * v3norm p /\ ang (qlog6 eps q p) = fst (qlog3 eps q).
Proof.
  intros He H. destruct (qlog6_eq eps q p H) as [beta [E B]]. rewrite E. set (w := fst (qlog3 eps q)) in *. cbn [lin ang].
  pose proof (logErr_small eps He) as LE. pose proof (norm_nonneg p) as NP.
  destruct (qlog3_eq eps q H) as [Ew [_ [Hn [Hw [U P]]]]]. fold (posOf q) in *. fold w in Ew.
  destruct (Req_dec (v3norm (qvec q)) 0) as [Z|Z].
  - assert (W0 : w = v3zero). { rewrite Ew, (norm_zero _ Z). unfold v3scale, v3zero. cbn. f_equal; ring. }
    rewrite W0. assert (L : logLin beta v3zero p = p). { destruct p. unfold logLin, v3add, v3sub, v3scale, v3cross, v3zero. cbn. f_equal; ring. }
    rewrite L, Texp_0. split; [|split; [lra | reflexivity]]. assert (0 <= 3 * logErr eps * v3norm p) by nra. unfold v3close. rewrite !Rminus_diag_eq, Rabs_R0 by reflexivity. auto.
  - assert (NZ : qvec q <> v3zero) by (intros C; apply Z; rewrite C; apply norm0). specialize (B NZ).
    destruct (half_angle _ _ Hn Hw U) as [f [F [Fs Fc]]].
    assert (HP : 0 < v3norm (qvec q)) by (destruct Hn as [L|L]; [exact L | exfalso; apply Z; symmetry; exact L]).
    destruct (lg_beta eps _ _ f He HP Hw U F Fs Fc) as [Y D]. rewrite <- B in D.
    destruct (lg_half eps _ _ f He Hn Hw U F Fs Fc) as [_ K0].
    set (y := lgK eps (v3norm (qvec q)) (posOf q * qw q) * v3norm (qvec q) / 2) in *.
    assert (W : v3norm w = 2 * y).
    { rewrite Ew, !norm_scale, (Rabs_pos_eq (lgK _ _ _)) by exact K0. replace (Rabs (posOf q)) with 1; [unfold y; field|].
      unfold posOf. destruct (Rle_dec 0 (qw q)); [rewrite Rabs_R1 | rewrite Rabs_left by lra]; ring. }
    split; [|split; [|reflexivity]].
    + apply Texp_err with (y := y); assumption.
    + apply logLin_norm with (y := y) (d := logErr eps); try assumption. lra.
Qed.
Lemma sameRotation_mono d e p q : d <= e -> sameRotation d p q -> sameRotation e p q.
Proof. intros L [H|H]; [left | right]; eapply qclose_mono; eassumption. Qed.
Lemma se3_reaches eps q0 q1 : 0 < eps <= 1 / 4096 -> onGroup LSE3 q0 -> onGroup LSE3 q1 ->
  reaches (reachErr eps) LSE3 q0 q1 (lg_integrate eps LSE3 q0 (lg_difference eps LSE3 q0 q1)).
Proof.
  intros He G0 G1. apply (proj1 (on_se3 q0)) in G0. apply (proj1 (on_se3 q1)) in G1.
  pose proof (pow2_ge_0 (ts2 eps)) as T2. pose proof (ts3_le1 eps ltac:(lra)) as [T3 _]. assert (T33 : 0 <= ts3 eps ^ 3) by (apply pow_le; lra). pose proof e14_pos as E14.
  set (d := lg_difference eps LSE3 q0 q1).
  set (dq := qmul (qconj (quatAt (shift 3 q0))) (quatAt (shift 3 q1))). set (dp := qtransform (qconj (quatAt (shift 3 q0))) (v3sub (v3At q1) (v3At q0))).
  assert (V : v6At d = qlog6 eps dq dp). { unfold d. cbn [lg_difference]. cbv zeta. fold dq. fold dp. destruct (qlog6 eps dq dp) as [[a b c] [a' b' c']]. reflexivity. }
  assert (ND : qnorm2 dq = 1). { unfold dq. rewrite qmul_norm, G1. replace (qnorm2 (qconj (quatAt (shift 3 q0)))) with (qnorm2 (quatAt (shift 3 q0))) by (unfold qnorm2, qdot, qconj; cbn; ring). rewrite G0. ring. }
  destruct (qlog6_exp eps dq dp He ND) as [TC [LN AE]]. rewrite <- V in TC, LN, AE.
  pose proof (qmat_rot _ G0) as [RT _]. set (M := qmat (quatAt (shift 3 q0))) in *.
  assert (DP : dp = m3vec (m3tr M) (v3sub (v3At q1) (v3At q0))) by (unfold dp; rewrite qtransform_mat, qmat_conj; reflexivity).
  assert (MD : m3vec M dp = v3sub (v3At q1) (v3At q0)).
  { rewrite DP. apply orthogonal_vec_tr. exact RT. }
  assert (NP : v3norm dp = v3norm (v3sub (v3At q1) (v3At q0))).
  { rewrite <- MD. unfold v3norm. rewrite orthogonal_dot by exact RT. reflexivity. }
  cbn [reaches]. split.
  - destruct (se3_integrate_quat eps q0 d) as [s [S [E _]]]. rewrite E.
    assert (AL : v3At (shift 3 d) = fst (qlog3 eps dq)) by exact AE. rewrite AL.
    pose proof (so3_reaches eps (shift 3 q0) (shift 3 q1) He G0 G1) as R. cbv zeta in R. fold dq in R.
    apply (sameRotation_mono _ (reachErr eps)) in R; [|unfold eE, reachErr; lra].
    destruct S as [-> | ->].
    + replace (qscale 1 (so3_out eps (shift 3 q0) (fst (qlog3 eps dq)))) with (so3_out eps (shift 3 q0) (fst (qlog3 eps dq))); [exact R|]. destruct (so3_out eps (shift 3 q0) (fst (qlog3 eps dq))). unfold qscale. cbn. f_equal; ring.
    + destruct R as [R|R]; [right | left]; apply qclose_opp in R; [exact R|].
      replace (quatAt (shift 3 q1)) with (qscale (-1) (qscale (-1) (quatAt (shift 3 q1)))); [exact R|]. unfold qscale, quatAt. cbn. f_equal; ring.
  - rewrite se3_integrate_trans. fold M. destruct (qexp6_close eps (v6At d) ltac:(lra)) as [_ C].
    pose proof (norm_nonneg dp) as NN. pose proof (logErr_small eps He) as LE.
    assert (C2 : v3close ((70 * eps + 3 * logErr eps) * v3norm dp) (fst (qexp6 eps (v6At d))) dp).
    { destruct C as [A [B D]]. destruct TC as [A' [B' D']]. apply rabs_inv in A, B, D, A', B', D'. 
      assert (14 * eps * v3norm (lin (v6At d)) <= 70 * eps * v3norm dp) by nra. 
      split; [|split]; apply Rabs_le; lra. }
    assert (D0 : 0 <= (70 * eps + 3 * logErr eps) * v3norm dp) by (apply Rmult_le_pos; lra).
    pose proof (m3vec_close (quatAt (shift 3 q0)) _ _ _ G0 D0 C2) as [A [B D]]. fold M in A, B, D. rewrite MD in A, B, D. rewrite <- NP.
    assert (L : 2 * ((70 * eps + 3 * logErr eps) * v3norm dp) <= reachErr eps * v3norm dp).
    { rewrite <- Rmult_assoc. apply Rmult_le_compat_r; [exact NN|]. unfold reachErr, logErr. lra. }
    unfold v3close, v3add, v3sub in *. cbn [vx vy vz] in *. apply rabs_inv in A, B, D. repeat split; apply Rabs_le; lra.
Qed.
