(* quaternion::log6 against the exponential: the linear part *)
Require Import Reals Lra Arith Lia.
From Verif Require Import Vec3 Spatial Joints JointFacts Deriv Rot RotFacts ExpLog Spec_Exp ExpFacts ExpFacts2 ExpFacts3 ExpFacts4 ExpFacts5 LieGroup Spec_Lie LieFacts3 LogFacts LogFacts2.
Local Open Scope R_scope.

Definition xcot (x : R) : R := x * cos x / sin x.
Lemma xcot_diff x y d : 0 < x <= PI / 2 -> 0 < y <= PI / 2 -> 0 <= d <= 1 / 4 -> Rabs (x - y) <= d * y -> Rabs (xcot x - xcot y) <= 8 * d.
Proof.
  intros X Y D H. pose proof (sin_lower x ltac:(lra)) as LX. pose proof (sin_lower y ltac:(lra)) as LY.
  assert (PX : 0 < sin x) by lra. assert (PY : 0 < sin y) by lra. pose proof H as H'. apply rabs_inv in H'.
  assert (E : xcot x - xcot y = ((x - y) * (cos x * sin y) + y * sin (y - x)) / (sin x * sin y)).
  { unfold xcot. rewrite sin_minus. field. lra. }
  rewrite E. assert (S : Rabs (sin (y - x)) <= d * y).
  { rewrite <- (Rminus_0_r (sin (y - x))), <- sin_0. eapply Rle_trans; [apply sin_lip|]. rewrite Rminus_0_r, Rabs_minus_sym. exact H. }
  assert (C : 0 <= cos x <= 1) by (split; [apply cos_ge_0; lra | apply COS_bound]).
  apply rabs_inv in S. apply Rabs_le.
  assert (XY : 3 / 4 * y <= x) by nra.
  assert (N1 : Rabs ((x - y) * (cos x * sin y)) <= d * y * sin y).
  { rewrite Rabs_mult, (Rabs_pos_eq (cos x * sin y)) by nra. pose proof (Rabs_pos (x - y)). assert (0 <= cos x * sin y <= sin y) by nra. nra. }
  apply rabs_inv in N1.
  assert (B1 : y <= 8 / 3 * sin x) by lra.
  assert (B2 : d * y * sin y <= d * (8 / 3 * sin x) * sin y). { apply Rmult_le_compat_r; [lra|]. apply Rmult_le_compat_l; lra. }
  assert (B3 : d * y * y <= d * (8 / 3 * sin x) * (2 * sin y)). { apply Rmult_le_compat; [nra | lra | apply Rmult_le_compat_l; lra | lra]. }
  assert (B4 : Rabs (y * sin (y - x)) <= d * y * y). { rewrite Rabs_mult, (Rabs_pos_eq y) by lra. assert (Rabs (sin (y - x)) <= d * y) by (apply Rabs_le; lra). nra. }
  apply rabs_inv in B4. assert (P : 0 < sin x * sin y) by nra. set (sx := sin x) in *. set (sy := sin y) in *. set (u := (x - y) * (cos x * sy)) in *. set (v := y * sin (y - x)) in *.
  clearbody u v sx sy. assert (K : d * (8 / 3 * sx) * sy + d * (8 / 3 * sx) * (2 * sy) = 8 * d * (sx * sy)) by field.
  split.
  - apply Rmult_le_reg_r with (sx * sy); [exact P|]. replace ((u + v) / (sx * sy) * (sx * sy)) with (u + v) by (field; lra). lra.
  - apply rdiv_le; [exact P | lra].
Qed.
Lemma xcot_bound x : 0 < x <= PI / 2 -> 0 <= xcot x <= 1.
Proof.
  intros X. assert (S : 0 < sin x) by (apply sin_gt_0; lra). assert (C : 0 <= cos x) by (apply cos_ge_0; lra). unfold xcot. split.
  - apply Rmult_le_pos; [nra|]. left. apply Rinv_0_lt_compat. exact S.
  - apply rdiv_le; [exact S|]. rewrite Rmult_1_l.
    (* x cos x <= sin x *)
    destruct (MVT_cor2 (fun u => sin u - u * cos u) (fun u => u * sin u) 0 x ltac:(lra)) as [c [E Cb]].
    { intros c _. assert (Hid : deriv (fun u => u) 1 c) by exact (derivable_pt_lim_id c).
      apply (deriv_eq (fun u => sin u - u * cos u) (cos c - (1 * cos c + c * - sin c))); [|ring].
      apply (deriv_minus sin (fun u => u * cos u)); [exact (derivable_pt_lim_sin c)|].
      apply (deriv_mult (fun u => u) cos); [exact Hid | exact (derivable_pt_lim_cos c)]. }
    assert (SC : 0 <= sin c) by (apply sin_ge_0; lra). cbv beta in E. rewrite sin_0, Rmult_0_l, !Rminus_0_r in E.
    assert (0 <= c * sin c) by nra. nra.
Qed.
Lemma xcot_taylor y : 0 < y <= 1 / 2 -> Rabs (xcot y - (1 - y * y / 3)) <= y * y * (y * y) / 15.
Proof.
  intros Y. destruct (taylor_sin y ltac:(lra)) as [[S1 S2] S3]. destruct (taylor_cos y ltac:(lra)) as [[C1 C2] C3]. 
  assert (S : 0 < sin y) by (apply sin_gt_0; pose proof PI2_3_2; lra).
  set (z := y * y) in *.
  assert (Z : 0 <= z <= 1 / 4) by (unfold z; nra).
  assert (A1 : y * (1 - z / 6) <= sin y <= y * (1 - z / 6 + z * z / 120)).
  { split; [eapply Rle_trans; [|exact S1] | eapply Rle_trans; [exact S2|]]; right; unfold z; field. }
  assert (A2 : 1 - z / 2 + z * z / 24 - z * z * z / 720 <= cos y <= 1 - z / 2 + z * z / 24).
  { split; [eapply Rle_trans; [|exact C3] | eapply Rle_trans; [exact C2|]]; right; unfold z; field. }
  clear S1 S2 S3 C1 C2 C3. unfold xcot. set (s := sin y) in *. set (c := cos y) in *. clearbody s c z.
  set (q := s / y). assert (Q : s = y * q) by (unfold q; field; lra). 
  assert (Q1 : 1 - z / 6 <= q <= 1 - z / 6 + z * z / 120). { split; apply Rmult_le_reg_l with y; try lra; rewrite <- Q; lra. }
  replace (y * c / s) with (c / q) by (rewrite Q; field; split; [nra | lra]). clearbody q. clear Q A1 S s.
  assert (QP : 0 < q) by nra.
  assert (Z2 : 0 <= z * z) by nra. assert (Z3 : 0 <= z * z * z <= z * z / 4) by nra.
  apply Rabs_le. split.
  - assert (L : (1 - z / 3 - z * z / 15) * q <= c).
    { assert (0 <= 1 - z / 3 - z * z / 15) by nra.
      apply Rle_trans with ((1 - z / 3 - z * z / 15) * (1 - z / 6 + z * z / 120)); [apply Rmult_le_compat_l; lra|].
      eapply Rle_trans; [|exact (proj1 A2)]. nra. }
    assert (1 - z / 3 - z * z / 15 <= c / q). { apply Rmult_le_reg_r with q; [exact QP|]. replace (c / q * q) with c by (field; lra). exact L. }
    lra.
  - assert (c / q <= 1 - z / 3 + z * z / 15).
    { apply rdiv_le; [exact QP|]. apply Rle_trans with ((1 - z / 3 + z * z / 15) * (1 - z / 6)); [|apply Rmult_le_compat_l; nra]. 
      eapply Rle_trans; [exact (proj2 A2)|]. nra. }
    lra.
Qed.

(* the coefficient of the code times the squared angle, against its exact value *)
Definition lgBeta (eps n w : R) : R := let theta := lgTheta eps n w in let t2 := (lgK eps n w * n) * (lgK eps n w * n) in
  if Rle_dec theta (ts3 eps) then (1 / 3 - t2 / 4 / 45) / 4 else 1 / t2 - w / nrm eps n * (1 / 2) / theta.
Definition logErr (eps : R) : R := 60 * eps + 2 * ts2 eps ^ 2.
Lemma ts3_small eps : 0 < eps <= 1 / 4096 -> ts3 eps * ts3 eps * (ts3 eps * ts3 eps) = eps /\ 0 < ts3 eps <= 1 / 8 /\ ts3 eps * ts3 eps <= 1 / 64 /\ 64 * eps <= ts3 eps * ts3 eps.
Proof.
  intros H. destruct (ts3_spec eps ltac:(lra)) as [T0 [T1 [T2 T3]]]. set (t := ts3 eps) in *. 
  assert (E : t * t * (t * t) = eps) by (rewrite <- T1; ring).
  assert (S : t * t <= 1 / 64). { apply Rnot_lt_le. intros L. nra. }
  split; [exact E|]. split; [split; [lra|]; apply Rnot_lt_le; intros L; nra|]. split; [exact S|]. nra.
Qed.
Lemma po_bound p o a eps : 0 < eps <= 1 / 4096 -> 0 <= a -> a <= 1 / 200 -> 1 <= p <= 1 + 21 / 20 * a -> 1 - 9 * eps <= o <= 1 + 9 * eps ->
  1 - 9 * eps <= p * o <= 1 + 11 / 10 * a + 10 * eps.
Proof.
  intros He Ha Hb P O. split; [nra|]. apply Rle_trans with ((1 + 21 / 20 * a) * (1 + 9 * eps)); [apply Rmult_le_compat; lra|]. nra.
Qed.
Lemma lg_beta eps n w f : 0 < eps <= 1 / 4096 -> 0 < n -> 0 <= w -> n * n + w * w = 1 -> 0 <= f <= PI / 2 -> sin f = n -> cos f = w ->
  let y := lgK eps n w * n / 2 in 0 < y <= PI / 2 /\ Rabs (4 * (y * y) * lgBeta eps n w - (1 - xcot y)) <= logErr eps.
Proof.
  intros He Hn Hw U F Fs Fc y. destruct (lg_half eps n w f He ltac:(lra) Hw U F Fs Fc) as [HE K0]. fold y in HE.
  assert (F0 : 0 < f). { destruct F as [[F|F] _]; [exact F|]. subst f. rewrite sin_0 in Fs. lra. }
  pose proof HE as HE'. apply rabs_inv in HE'. assert (Y0 : 0 < y) by nra.
  destruct (ts3_small eps He) as [TE [T3 [T2 T64]]]. pose proof half_PI as HP. pose proof PI2_3_2 as HP3.
  destruct (ts2_bounds eps He) as [B0 B1]. pose proof (ts2_cube eps (proj1 He)) as C3.
  assert (H2 : 0 <= ts2 eps ^ 2) by apply pow2_ge_0.
  unfold lgBeta. cbv zeta. replace (lgK eps n w * n * (lgK eps n w * n)) with (4 * (y * y)) by (unfold y; field).
  destruct (Rlt_dec (n * n) (ts2 eps)) as [S|S].
  - (* the Taylor branch of log3 *)
    destruct (lgK_small eps n w (w_pos _ _ _ He Hw U S) S) as [_ Th].
    destruct (small_err eps n w f He ltac:(lra) Hw U S F Fs Fc) as [_ [FP [FA [A0 [AN [A6 [BB BP]]]]]]].
    pose proof (w_pos _ _ _ He Hw U S) as W. assert (WN : w / nrm eps n = / (nrm eps n / w)) by (pose proof (nrm_pos eps n He ltac:(lra)); field; split; [exact W || lra | exact W || lra]).
    assert (FW : f * w <= n * 1 /\ xcot f = f / (n / w)). { unfold xcot. rewrite Fs, Fc. split; [|field; lra]. pose proof (xcot_bound f ltac:(lra)) as XB. unfold xcot in XB. rewrite Fs, Fc in XB. 
      destruct XB as [_ XB]. apply Rmult_le_compat_r with (r := n) in XB; [|lra]. replace (f * w / n * n) with (f * w) in XB by (field; lra). lra. }
    destruct FW as [_ FW]. rewrite Th, WN. clear Th WN. set (a := n / w) in *. set (b := nrm eps n / w) in *.
    assert (AP : 0 < a) by (unfold a; apply Rdiv_lt_0_compat; lra).
    assert (W2 : 15 / 16 <= w * w) by lra.
    assert (E2 : 0 <= eps * eps / (w * w) <= 16 / 15 * (eps * eps)).
    { split; [apply Rmult_le_pos; [nra|]; left; apply Rinv_0_lt_compat; nra|]. apply rdiv_le; nra. }
    assert (A2 : a * a <= 1 / 15) by lra. assert (A1 : a <= 13 / 50) by nra.
    set (x := eps * eps / (w * w)) in *. clearbody x a b.
    set (s := 1 - a * a / 3). assert (Sb : 97 / 100 <= s <= 1) by (unfold s; assert (0 <= a * a) by nra; lra).
    assert (P : a - a * a * a / 3 = a * s) by (unfold s; field). rewrite P in FP.
    assert (Y1 : y <= 3 / 10) by (assert (eps * f <= f / 4096) by nra; lra). split; [lra|]. 
    assert (XF : Rabs (xcot y - f / a) <= 32 * eps). { rewrite <- FW. replace (32 * eps) with (8 * (4 * eps)) by ring. apply xcot_diff; [lra | lra | lra | exact HE]. }
    destruct (Rle_dec (2 * (s * b)) (ts3 eps)) as [L|L].
    + (* y is small *)
      assert (AB : a <= b) by nra. assert (YB : y <= 11 / 10 * (s * b)) by nra.
      assert (Y4 : y * y * (y * y) <= eps / 10).
      { assert (y <= 11 / 20 * ts3 eps) by lra. assert (y * y <= 121 / 400 * (ts3 eps * ts3 eps)) by nra. rewrite <- TE. set (tt := ts3 eps * ts3 eps) in *. assert (0 <= y * y) by nra. nra. }
      pose proof (xcot_taylor y ltac:(lra)) as XT. apply rabs_inv in XT. unfold logErr. apply Rabs_le.
      replace (4 * (y * y) * ((1 / 3 - 4 * (y * y) / 4 / 45) / 4)) with (y * y / 3 - y * y * (y * y) / 45) by field. assert (0 <= y * y * (y * y)) by nra. split; lra.
    + apply Rnot_le_lt in L.
      assert (V : 4 * (y * y) * (1 / (4 * (y * y)) - / b * (1 / 2) / (2 * (s * b))) = 1 - y * y / (b * b * s)).
      { field. repeat split; try lra; nra. }
      rewrite V. clear V.
      assert (BL : ts3 eps * ts3 eps / 4 <= b * b) by (assert (ts3 eps / 2 <= b) by nra; nra).
      assert (XK : x <= eps / 10 * (a * a)).
      { assert (ts3 eps * ts3 eps / 5 <= a * a). { rewrite BB in BL. assert (eps * eps <= eps / 4096) by nra. lra. }
        assert (64 / 5 * eps <= a * a) by lra. assert (64 / 5 * eps * eps <= a * a * eps) by nra. lra. }
      assert (A4 : a * a * (a * a) <= 6 / 5 * ts2 eps ^ 2).
      { assert (a * a <= 16 / 15 * ts2 eps) by lra. replace (ts2 eps ^ 2) with (ts2 eps * ts2 eps) by ring. assert (0 <= a * a) by nra. nra. }
      set (r := y * y / (b * b * s)).
      (* r against f / a *)
      assert (R : Rabs (r - f / a) <= 2 * eps * 5 + 3 / 2 * ts2 eps ^ 2).
      { set (g := f / a). assert (G : f = a * g) by (unfold g; field; lra). 
        assert (G1 : g <= 1) by (unfold g; apply rdiv_le; lra). assert (Gs : s <= g <= s + a * a * (a * a)).
        { split; apply Rmult_le_reg_l with a; try lra; rewrite <- G; lra. }
        set (k := y / f). assert (KY : y = f * k) by (unfold k; field; lra). assert (KB : 1 - 4 * eps <= k <= 1 + 4 * eps).
        { split; apply Rmult_le_reg_l with f; try lra; rewrite <- KY; lra. }
        set (u := b * b / (a * a)). assert (UB : b * b = a * a * u) by (unfold u; field; lra). assert (U1 : 1 <= u <= 1 + eps / 10).
        { split; apply Rmult_le_reg_l with (a * a); try nra; rewrite <- UB, BB; nra. }
        assert (RE : r = g * (g / s) * (k * k / u)). { unfold r. rewrite UB, KY, G. field. repeat split; lra. }
        rewrite RE. clearbody g k u r. clear RE UB KY G.
        assert (GS : 1 <= g / s <= 1 + 21 / 20 * (a * a * (a * a))).
        { split; [apply Rmult_le_reg_r with s; try lra; replace (g / s * s) with g by (field; lra); lra|]. apply rdiv_le; [lra|]. nra. }
        assert (K2 : 1 - 8 * eps <= k * k <= 1 + 9 * eps) by nra.
        assert (KU : 1 - 9 * eps <= k * k / u <= 1 + 9 * eps).
        { split; [apply Rmult_le_reg_r with u; try lra; replace (k * k / u * u) with (k * k) by (field; lra); nra|]. apply rdiv_le; [lra|]. nra. }
        set (p := g / s) in *. set (o := k * k / u) in *. clearbody p o. set (a4 := a * a * (a * a)) in *.
        assert (0 <= a4) by (unfold a4; nra). assert (A5 : a4 <= 1 / 200) by (unfold a4; nra).
        assert (G0 : 0 <= g) by lra.
        assert (PO : 1 - 9 * eps <= p * o <= 1 + 11 / 10 * a4 + 10 * eps) by (apply po_bound; assumption).
        replace (g * p * o - g) with (g * (p * o - 1)) by ring. rewrite Rabs_mult, (Rabs_pos_eq g) by exact G0.
        assert (Rabs (p * o - 1) <= 2 * eps * 5 + 3 / 2 * ts2 eps ^ 2) by (apply Rabs_le; lra). pose proof (Rabs_pos (p * o - 1)). nra. }
      apply rabs_inv in R. apply rabs_inv in XF. unfold logErr. apply Rabs_le. split; lra.
  - (* atan2 *)
    destruct (lgK_big eps n w S) as [KE Th]. apply Rnot_lt_le in S.
    destruct (big_err eps n w He ltac:(lra) Hw U S f F Fs Fc) as [FT [TF [_ [SP TE']]]]. destruct (th2_spec eps n w He ltac:(lra) Hw U) as [T [Ts Tc]].
    rewrite Th. set (t := atan2 (nrm eps n) w) in *. pose proof (rr_pos eps) as RP.
    assert (YE : y = t / sin t * n). { unfold y. rewrite KE. field. lra. }
    rewrite <- YE in TE'. assert (YT : y <= t).
    { rewrite YE, Ts. assert (NP := nrm_pos eps n He ltac:(lra)). assert (n * rr eps <= nrm eps n).
      { pose proof (nrm_sq eps n). pose proof (rr_sq eps). assert (n * n <= 1) by nra. assert (n * rr eps * (n * rr eps) <= nrm eps n * nrm eps n). { replace (n * rr eps * (n * rr eps)) with (n * n * (rr eps * rr eps)) by ring. rewrite H, H0. nra. } nra. }
      replace (t / (nrm eps n / rr eps) * n) with (t * (n * rr eps / nrm eps n)) by (field; lra).
      assert (n * rr eps / nrm eps n <= 1) by (apply rdiv_le; lra). nra. }
    split; [lra|].
    assert (WN : w / nrm eps n = cos t / sin t). { rewrite Ts, Tc. field. pose proof (nrm_pos eps n He ltac:(lra)). lra. }
    assert (TG : ~ 2 * t <= ts3 eps).
    { intros L. pose proof (sin_phi t ltac:(lra)) as ST. rewrite Ts in ST. assert (nrm eps n <= t * rr eps). { destruct ST as [_ ST]. apply Rmult_le_compat_r with (r := rr eps) in ST; [|lra]. replace (nrm eps n / rr eps * rr eps) with (nrm eps n) in ST by (field; lra). exact ST. }
      pose proof (nrm_n eps n He ltac:(lra)) as NN. pose proof (rr_sq eps) as RS. assert (R2 : rr eps <= 2) by nra. assert (n <= ts3 eps) by nra.
      (* n^2 >= ts2 >= 16 ts3^2 ... *)
      assert (ts2 eps <= ts3 eps * ts3 eps) by nra. set (h := ts2 eps) in *. set (tt := ts3 eps * ts3 eps) in *.
      assert (HH : h * h * h <= tt * tt * h) by (assert (h * h <= tt * tt) by nra; nra). rewrite TE, C3 in HH. nra. }
    destruct (Rle_dec (2 * t) (ts3 eps)) as [L|L]; [contradiction|]. clear L TG. rewrite WN.
    assert (V : 4 * (y * y) * (1 / (4 * (y * y)) - cos t / sin t * (1 / 2) / (2 * t)) = 1 - (y / t) * (y / t) * xcot t).
    { unfold xcot. field. repeat split; lra. }
    rewrite V. set (k := y / t). apply rabs_inv in TE'.
    assert (KB : 1 - eps <= k <= 1). { unfold k. split; [apply Rmult_le_reg_r with t; try lra; replace (y / t * t) with y by (field; lra); lra|]. apply rdiv_le; lra. }
    pose proof (xcot_bound t ltac:(lra)) as XB.
    assert (XD : Rabs (xcot y - xcot t) <= 8 * eps). { apply xcot_diff; try lra. apply Rabs_le. lra. }
    apply rabs_inv in XD. unfold logErr. apply Rabs_le. assert (1 - 2 * eps <= k * k <= 1) by nra. split; nra.
Qed.
