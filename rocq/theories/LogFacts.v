(* quaternion::log3 returns the rotation vector up to a relative error of 4 eps on the angle *)
Require Import Reals Lra Arith Lia.
From Verif Require Import Vec3 Spatial Joints JointFacts Deriv Rot RotFacts ExpLog Spec_Exp ExpFacts ExpFacts2 ExpFacts3 ExpFacts4 ExpFacts5 LieGroup.
Local Open Scope R_scope.

Lemma rdiv_le a b c : 0 < b -> a <= c * b -> a / b <= c.
Proof. intros H L. apply Rmult_le_reg_r with b; [exact H|]. replace (a / b * b) with a by (field; lra). exact L. Qed.
Lemma ts2_cube eps : 0 < eps -> ts2 eps * ts2 eps * ts2 eps = eps.
Proof.
  intros H. unfold ts2. rewrite <- !Rpower_plus. replace (/ 3 + / 3 + / 3) with 1 by field. apply Rpower_1. exact H.
Qed.
Lemma ts2_pos eps : 0 < ts2 eps. Proof. unfold ts2, Rpower. apply exp_pos. Qed.
Lemma ts2_bounds eps : 0 < eps <= 1 / 4096 -> eps <= ts2 eps <= 1 / 16.
Proof.
  intros H. pose proof (ts2_cube eps (proj1 H)) as C. pose proof (ts2_pos eps) as P. set (h := ts2 eps) in *.
  assert (U : h <= 1 / 16). { apply Rnot_lt_le. intros L. assert (1 / 256 < h * h) by nra. assert (1 / 4096 < h * h * h) by nra. lra. }
  split; [|exact U]. nra.
Qed.
Lemma sin_lower x : 0 <= x <= PI / 2 -> x <= 2 * sin x.
Proof.
  intros H. pose proof PI_4 as P4.
  assert (P : PI / 2 <= 17 / 10). { pose proof (PI_ineq 2) as [_ U]. unfold tg_alt, PI_tg in U. cbn in U. field_simplify in U. lra. }
  assert (B : x - x * x * x / 6 <= sin x).
  { destruct (pre_sin_bound x 0 ltac:(lra) ltac:(lra)) as [L _]. unfold sin_approx, sin_term in L. cbn in L. lra. }
  nra.
Qed.
Lemma atan_cubic a : 0 <= a -> 0 <= atan a - (a - a * a * a / 3) <= a * a * a * a * a.
Proof.
  intros A. destruct (Req_dec a 0) as [-> | N]. { rewrite atan_0. lra. }
  destruct (MVT_cor2 (fun u => atan u - (u - u * u * u / 3)) (fun u => u * u * u * u / (1 + u * u)) 0 a ltac:(lra)) as [c [E C]].
  { intros c _. assert (Hid : deriv (fun u => u) 1 c) by exact (derivable_pt_lim_id c).
    assert (X : deriv (fun u => u - u * u * u / 3) (1 - c * c) c). { apply deriv_ext with (g := fun u => u - u * u * u * / 3); [intros; field|]. eapply deriv_eq; [dv|cbv beta; field]. }
    apply (deriv_eq (fun u => atan u - (u - u * u * u / 3)) (/ (1 + c ^ 2) * 1 - (1 - c * c))); [apply deriv_minus; [apply deriv_atan; exact Hid | exact X]|].
    field. nra. }
  rewrite atan_0 in E. rewrite Rminus_0_r in E at 1.
  assert (E' : atan a - (a - a * a * a / 3) = c * c * c * c / (1 + c * c) * a) by lra. rewrite E'.
  assert (F : 0 <= c * c * c * c / (1 + c * c) <= a * a * a * a).
  { assert (0 < 1 + c * c) by nra. assert (0 <= c * c * c * c <= a * a * a * a).
    { assert (0 <= c * c <= a * a) by nra. split; nra. }
    split.
    - apply Rmult_le_pos; [lra|]. left. apply Rinv_0_lt_compat. lra.
    - apply rdiv_le; [lra|]. nra. }
  nra.
Qed.
(* phi in [0, pi/2] *)
Lemma half_angle n w : 0 <= n -> 0 <= w -> n * n + w * w = 1 -> exists f, 0 <= f <= PI / 2 /\ sin f = n /\ cos f = w.
Proof.
  intros Hn Hw H. exists (acos w). assert (B : -1 <= w <= 1) by nra.
  assert (Hc : cos (acos w) = w) by (apply cos_acos; exact B).
  split.
  - split; [apply acos_bound|]. rewrite <- acos_0. destruct (Req_dec w 0) as [-> | N]; [lra|]. left.
    destruct (acos_bound w). destruct (acos_bound 0). apply Rnot_le_lt. intros L. 
    assert (cos (acos w) <= cos (acos 0)). { destruct L as [L | L]; [left; apply cos_decreasing_1; lra | rewrite L; lra]. }
    rewrite Hc, (cos_acos 0) in H4 by lra. lra.
  - split; [|exact Hc]. rewrite sin_acos by exact B. replace (1 - w²) with (n * n) by (unfold Rsqr; lra). apply sqrt_square. exact Hn.
Qed.
Lemma sin_phi f : 0 <= f <= PI / 2 -> 0 <= sin f <= f.
Proof.
  intros H. split; [apply sin_ge_0; lra|]. destruct (Req_dec f 0) as [-> | N]; [rewrite sin_0; lra|]. left. apply sin_lt_x. lra.
Qed.
Definition lgK (eps : R) (n w : R) : R :=
  let norm_squared := n * n in let norm := sqrt (norm_squared + eps * eps) in
  let theta_2 := atan2 norm w in let y_x := norm / w in let y_x_sq := norm_squared / (w * w) in
  let small := if Rlt_dec norm_squared (ts2 eps) then true else false in
  let theta := if small then 2 * (1 - y_x_sq / 3) * y_x else 2 * theta_2 in
  let th2_2 := theta * theta / 4 in
  if small then 2 * (1 + th2_2 / 6 + 7 / 360 * th2_2 * th2_2) else theta / sin theta_2.
Section big.
Variables eps n w : R.
Hypothesis He : 0 < eps <= 1 / 4096.
Hypothesis Hn : 0 <= n.
Hypothesis Hw : 0 <= w.
Hypothesis Hu : n * n + w * w = 1.
Definition nrm := sqrt (n * n + eps * eps).
Lemma nrm_sq : nrm * nrm = n * n + eps * eps. Proof. apply sqrt_sqrt. nra. Qed.
Lemma nrm_pos : 0 < nrm. Proof. apply sqrt_lt_R0. nra. Qed.
Lemma nrm_n : n <= nrm. Proof. pose proof nrm_sq. pose proof nrm_pos. nra. Qed.
Definition rr := sqrt (1 + eps * eps).
Lemma rr_sq : rr * rr = 1 + eps * eps. Proof. apply sqrt_sqrt. nra. Qed.
Lemma rr_pos : 1 <= rr. Proof. rewrite <- sqrt_1. apply sqrt_le_1_alt. nra. Qed.
Lemma th2_spec : let t := atan2 nrm w in 0 < t <= PI / 2 /\ sin t = nrm / rr /\ cos t = w / rr.
Proof.
  intros t. pose proof nrm_pos as P. pose proof nrm_sq as Q. pose proof rr_sq as S. pose proof rr_pos as RP.
  destruct (half_angle (nrm / rr) (w / rr)) as [f [F [Fs Fc]]].
  - apply Rmult_le_pos; [lra|]. left. apply Rinv_0_lt_compat. lra.
  - apply Rmult_le_pos; [lra|]. left. apply Rinv_0_lt_compat. lra.
  - transitivity ((nrm * nrm + w * w) / (rr * rr)); [field; lra|]. rewrite Q, S. replace (n * n + eps * eps + w * w) with (1 + eps * eps) by lra. field. nra.
  - assert (Hp : 0 < f). { destruct F as [[F|F] _]; [exact F|]. subst f. rewrite sin_0 in Fs. exfalso. assert (nrm = 0) by (apply Rmult_eq_reg_r with (/ rr); [unfold Rdiv in Fs; lra | apply Rinv_neq_0_compat; lra]). lra. }
    assert (T : t = f).
    { unfold t. rewrite atan2_pos_y by exact P.
      assert (E : w / nrm = cos f / sin f). { rewrite Fs, Fc. field. lra. }
      destruct (Req_dec w 0) as [Z|Z].
      - rewrite Z. replace (0 / nrm) with 0 by (field; lra). rewrite atan_0.
        assert (cos f = 0) by (rewrite Fc, Z; field; lra).
        destruct F as [_ [F|F]]; [|lra]. exfalso. assert (0 < cos f) by (apply cos_gt_0; lra). lra.
      - rewrite E. assert (L : f < PI / 2).
        { destruct F as [_ [F|F]]; [exact F|]. exfalso. subst f. rewrite cos_PI2 in Fc. assert (w = 0) by (apply Rmult_eq_reg_r with (/ rr); [unfold Rdiv in Fc; lra | apply Rinv_neq_0_compat; lra]). lra. }
        replace (cos f / sin f) with (tan (PI / 2 - f)); [rewrite atan_tan by lra; ring|].
        unfold tan. rewrite sin_shift, cos_shift. reflexivity. }
    rewrite T. split; [split; lra|]. split; assumption.
Qed.
Lemma big_err : ts2 eps <= n * n -> forall f, 0 <= f <= PI / 2 -> sin f = n -> cos f = w ->
  let t := atan2 nrm w in f <= t /\ t - f <= 2 * eps * n /\ Rabs (t / sin t * n - f) <= 4 * eps * f /\ 0 < sin t /\
  Rabs (t / sin t * n - t) <= eps * t.
Proof.
  intros B f F Fs Fc t. destruct th2_spec as [T [Ts Tc]]. fold t in T, Ts, Tc.
  pose proof nrm_pos as P. pose proof nrm_sq as Q. pose proof rr_sq as S. pose proof rr_pos as RP. pose proof nrm_n as Nn.
  destruct (ts2_bounds eps He) as [B1 _].
  assert (N1 : n <= 1) by nra. assert (N0 : 0 < n) by nra. assert (N2 : eps <= n * n) by lra.
  assert (D : nrm - n <= eps * n).
  { assert (X : (nrm - n) * (nrm + n) = eps * eps) by (replace ((nrm - n) * (nrm + n)) with (nrm * nrm - n * n) by ring; lra).
    assert (Y : (nrm - n) * n <= eps * (n * n)) by nra. nra. }
  assert (SD : sin (t - f) = w * (nrm - n) / rr).
  { rewrite sin_minus, Ts, Tc, Fs, Fc. field. lra. }
  assert (W1 : w <= 1) by nra.
  assert (I : 0 <= / rr <= 1). { split; [left; apply Rinv_0_lt_compat; lra|]. rewrite <- Rinv_1. apply Rinv_le_contravar; lra. }
  assert (SB : 0 <= sin (t - f) <= eps * n).
  { rewrite SD. assert (0 <= w * (nrm - n) <= eps * n) by nra. unfold Rdiv. split; nra. }
  assert (GE : 0 <= t - f).
  { apply Rnot_lt_le. intros L. assert (0 < sin (f - t)) by (apply sin_gt_0; lra).
    replace (t - f) with (- (f - t)) in SB by ring. rewrite sin_neg in SB. lra. }
  pose proof (sin_lower (t - f) ltac:(lra)) as SL.
  assert (SP : 0 < sin t) by (apply sin_gt_0; lra).
  pose proof (sin_phi f F) as SF. rewrite Fs in SF.
  set (k := n * rr / nrm).
  assert (K : t / sin t * n = t * k). { rewrite Ts. unfold k. field. lra. }
  assert (KB : 1 - eps <= k <= 1).
  { assert (E : k * nrm = n * rr) by (unfold k; field; lra).
    assert (E2 : (k * nrm) * (k * nrm) = n * n * (1 + eps * eps)) by (rewrite E; transitivity (n * n * (rr * rr)); [ring | rewrite S; ring]).
    assert (K0 : 0 <= k). { unfold k. apply Rmult_le_pos; [nra|]. left. apply Rinv_0_lt_compat. lra. }
    split.
    - assert (n <= k * nrm) by (rewrite E; nra). assert (nrm * (1 - eps) <= n) by nra. nra.
    - assert (E3 : k * k * (nrm * nrm) = n * n * (1 + eps * eps)) by (rewrite <- E2; ring). rewrite Q in E3.
      apply Rnot_lt_le. intros L. assert (1 < k * k) by nra. nra. }
  split; [lra|]. split; [lra|]. rewrite K. split; [|split; [exact SP|]].
  - apply Rabs_le. assert (t <= f + 2 * eps * f) by nra. split; nra.
  - apply Rabs_le. split; nra.
Qed.
End big.
Lemma small_err eps n w f : 0 < eps <= 1 / 4096 -> 0 <= n -> 0 <= w -> n * n + w * w = 1 -> n * n < ts2 eps ->
  0 <= f <= PI / 2 -> sin f = n -> cos f = w ->
  let a := n / w in let b := nrm eps n / w in let T := (1 - a * a / 3) * b * ((1 - a * a / 3) * b) in
  Rabs (n * (1 + T / 6 + 7 / 360 * T * T) - f) <= 4 * eps * f /\ 0 <= f - (a - a * a * a / 3) <= a * a * a * a * a /\ f <= a /\ 0 <= a /\ a * a <= 16 / 15 * (n * n) /\
  a * a * a * a * a * a <= 5 / 4 * eps /\ b * b = a * a + eps * eps / (w * w) /\ 0 < b.
Proof.
  intros He Hn Hw Hu Hs F Fs Fc a b T. destruct (ts2_bounds eps He) as [_ B1]. pose proof (ts2_cube eps (proj1 He)) as C.
  pose proof (nrm_sq eps n) as Q. pose proof (nrm_pos eps n He) as P. set (m := nrm eps n) in *. set (h := ts2 eps) in *.
  assert (W2 : 15 / 16 <= w * w) by lra. assert (W : 0 < w) by nra.
  assert (A0 : 0 <= a). { unfold a. apply Rmult_le_pos; [lra|]. left. apply Rinv_0_lt_compat. lra. }
  assert (AW : a * w = n) by (unfold a; field; lra).
  assert (A2 : a * a * (w * w) = n * n) by (rewrite <- AW; ring).
  assert (N0 : 0 <= n * n) by nra.
  assert (AA : 0 <= a * a <= 16 / 15 * (n * n)) by (split; nra).
  assert (AH : a * a <= 16 / 15 * h) by lra.
  assert (A3 : a * a * a * a * a * a <= 5 / 4 * eps).
  { rewrite <- C. set (x := a * a) in *. replace (x * a * a * a * a) with (x * x * x) by (unfold x; ring).
    assert (x * x <= (16 / 15 * h) * (16 / 15 * h)) by nra. assert (x * x * x <= (16 / 15 * h) * (16 / 15 * h) * (16 / 15 * h)) by nra. nra. }
  assert (BB : b * b = a * a + eps * eps / (w * w)).
  { unfold b, a. transitivity ((m * m) / (w * w)); [field; lra|]. rewrite Q. field. lra. }
  assert (BP : 0 < b). { unfold b. apply Rmult_lt_0_compat; [lra|]. apply Rinv_0_lt_compat. lra. }
  assert (FA : f = atan a).
  { assert (L : f < PI / 2). { destruct F as [_ [F|F]]; [exact F|]. exfalso. subst f. rewrite cos_PI2 in Fc. lra. }
    replace a with (tan f); [rewrite atan_tan by lra; reflexivity|]. unfold tan, a. rewrite Fs, Fc. reflexivity. }
  pose proof (atan_cubic a A0) as AC. rewrite <- FA in AC.
  assert (A1 : a <= 13 / 50). { apply Rnot_lt_le. intros L. assert (AAA : a * a <= 16 / 15 * (1 / 16)) by lra. nra. }
  assert (FLA : f <= a).
  { rewrite FA. destruct (Req_dec a 0) as [Z|Z]; [rewrite Z, atan_0; lra|].
    pose proof (sin_phi f F) as SF. rewrite FA in *. destruct (MVT_cor2 atan (fun u => / (1 + u ^ 2)) 0 a ltac:(lra)) as [c [E _]].
    { intros c _. apply derivable_pt_lim_atan. }
    rewrite atan_0 in E. assert (/ (1 + c ^ 2) <= 1). { rewrite <- Rinv_1. apply Rinv_le_contravar; [lra|]. pose proof (pow2_ge_0 c). lra. } nra. }
  assert (F0 : 0 <= f) by lra. clear F.
  split; [|repeat split; try assumption; try lra].
  set (p := a - a * a * a / 3) in *.
  assert (PT : T = p * p + (1 - a * a / 3) * (1 - a * a / 3) * (eps * eps / (w * w))).
  { unfold T, p. transitivity ((1 - a * a / 3) * (1 - a * a / 3) * (b * b)); [ring|]. rewrite BB. clear - W. field. lra. }
  assert (EW : 0 <= eps * eps / (w * w) <= 16 / 15 * (eps * eps)).
  { split; [apply Rmult_le_pos; [nra|]; left; apply Rinv_0_lt_compat; nra|]. apply rdiv_le; [nra|]. nra. }
  set (x := eps * eps / (w * w)) in *. set (y := (1 - a * a / 3) * (1 - a * a / 3)) in *.
  assert (Y : 0 <= y <= 1). { unfold y. assert (0 <= 1 - a * a / 3 <= 1) by nra. nra. }
  assert (Pp : 0 <= p <= a). { unfold p. split; nra. }
  assert (P2 : 0 <= f * f - p * p <= 5 / 2 * eps).
  { replace (f * f - p * p) with ((f - p) * (f + p)) by ring. split; [nra|].
    assert ((f - p) * (f + p) <= a * a * a * a * a * (2 * a)). { apply Rmult_le_compat; lra. } lra. }
  assert (TB : Rabs (T - f * f) <= 3 * eps).
  { apply Rabs_le. rewrite PT. assert (0 <= y * x <= 16 / 15 * (eps * eps)) by (split; nra). assert (eps * eps <= eps / 4096) by nra. split; lra. }
  apply rabs_inv in TB.
  assert (FF : 0 <= f * f <= 7 / 100) by (split; nra). assert (TT : 0 <= T <= 8 / 100) by (rewrite PT in *; split; nra).
  assert (NF : 0 <= n <= f). { split; [lra|]. rewrite <- Fs. apply sin_phi. pose proof PI2_1. lra. }
  clearbody T y p x. 
  assert (G1 : Rabs (n * (1 + T / 6 + 7 / 360 * T * T) - n * (1 + f * f / 6 + 7 / 360 * (f * f) * (f * f))) <= 3 * eps * f).
  { replace (n * (1 + T / 6 + 7 / 360 * T * T) - n * (1 + f * f / 6 + 7 / 360 * (f * f) * (f * f))) with (n * ((T - f * f) * (1 / 6 + 7 / 360 * (T + f * f)))) by field.
    assert (G : Rabs ((T - f * f) * (1 / 6 + 7 / 360 * (T + f * f))) <= 3 * eps).
    { assert (0 <= 1 / 6 + 7 / 360 * (T + f * f) <= 1) by lra. apply Rabs_le. split; nra. }
    rewrite Rabs_mult, (Rabs_pos_eq n) by lra. pose proof (Rabs_pos ((T - f * f) * (1 / 6 + 7 / 360 * (T + f * f)))). nra. }
  assert (G2 : Rabs (n * (1 + f * f / 6 + 7 / 360 * (f * f) * (f * f)) - f) <= eps * f).
  { rewrite <- Fs. destruct (taylor_sin f ltac:(lra)) as [[_ U] L]. set (z := f * f) in *.
    assert (Z3 : z * z * z <= 5 / 4 * eps).
    { unfold z. eapply Rle_trans; [|exact A3]. replace (f * f * (f * f) * (f * f)) with (f ^ 6) by ring. replace (a * a * a * a * a * a) with (a ^ 6) by ring. apply pow_incr. lra. }
    assert (Z0 : 0 <= z * z * z) by (unfold z; assert (0 <= f * f) by nra; assert (0 <= f * f * (f * f)) by nra; nra).
    set (q := 1 + z / 6 + 7 / 360 * z * z) in *. assert (Q1 : 1 <= q <= 2) by (unfold q; split; nra).
    assert (U' : sin f <= f * (1 - z / 6 + z * z / 120)) by (eapply Rle_trans; [exact U|]; right; unfold z; field).
    assert (L' : f * (1 - z / 6 + z * z / 120 - z * z * z / 5040) <= sin f) by (eapply Rle_trans; [|exact L]; right; unfold z; field).
    assert (UQ : sin f * q <= f * ((1 - z / 6 + z * z / 120) * q)) by nra.
    assert (LQ : f * ((1 - z / 6 + z * z / 120 - z * z * z / 5040) * q) <= sin f * q) by nra.
    assert (QI : (1 - z / 6 + z * z / 120) * q = 1 - z * z * z / 540 + 7 / 43200 * (z * z * z) * z) by (unfold q; field).
    assert (Q2 : 1 - z * z * z / 100 <= (1 - z / 6 + z * z / 120 - z * z * z / 5040) * q).
    { replace ((1 - z / 6 + z * z / 120 - z * z * z / 5040) * q) with ((1 - z / 6 + z * z / 120) * q - z * z * z / 5040 * q) by ring. rewrite QI. nra. }
    assert (Q3 : (1 - z / 6 + z * z / 120) * q <= 1) by (rewrite QI; nra).
    apply Rabs_le. split; nra. }
  apply rabs_inv in G1. apply rabs_inv in G2. apply Rabs_le. lra.
Qed.
