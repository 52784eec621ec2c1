Require Import Reals Lra Arith Bool List Lia.
From Verif Require Import Vec3 Spatial Joints JointFacts Model Kinematics Deriv Rot RotFacts ExpLog Spec_Exp ExpFacts ExpFacts2 ExpFacts3 ExpFacts4 ExpFacts5 LieGroup Spec_Lie.
Local Open Scope R_scope.

(* ---------- circle ---------- *)
Lemma atan2_circle c s : c * c + s * s = 1 -> cos (atan2 s c) = c /\ sin (atan2 s c) = s /\ - PI < atan2 s c <= PI.
Proof.
  intros H. pose proof PI_RGT_0 as HP.
  assert (K : forall x, cos (atan x) = 1 / sqrt (1 + x²) /\ sin (atan x) = x / sqrt (1 + x²)).
  { intros x. split; [apply cos_atan | apply sin_atan]. }
  destruct (Rtotal_order s 0) as [Hs|[Hs|Hs]].
  - rewrite (atan2_neg_y _ _ Hs). destruct (K (c / s)) as [K1 K2]. pose proof (atan_bound (c / s)) as B.
    replace (sqrt (1 + (c / s)²)) with (/ - s) in *.
    2:{ symmetry. apply sqrt_lem_1; [unfold Rsqr; apply Rplus_le_le_0_compat; [lra | apply Rle_0_sqr] | left; apply Rinv_0_lt_compat; lra |].
        unfold Rsqr. replace (1 + c / s * (c / s)) with ((c * c + s * s) / (s * s)) by (field; lra). rewrite H. field; lra. }
    replace (- (PI / 2) - atan (c / s)) with (- (PI / 2 + atan (c / s))) by ring.
    rewrite cos_neg, sin_neg.
    replace (PI / 2 + atan (c / s)) with (PI / 2 - - atan (c / s)) by ring.
    rewrite cos_shift, sin_shift, sin_neg, cos_neg, K1, K2. split; [field; lra | split; [field; lra | lra]].
  - subst s. assert (c = 1 \/ c = -1) as [-> | ->].
    { assert ((c - 1) * (c + 1) = 0) as Hp by lra. apply Rmult_integral in Hp. lra. }
    + rewrite atan2_pos_x by lra. replace (0 / 1) with 0 by field. rewrite atan_0, cos_0, sin_0. lra.
    + unfold atan2. destruct (Rlt_dec 0 (-1)); [lra|]. destruct (Rlt_dec (-1) 0); [|lra]. destruct (Rle_dec 0 0); [|lra].
      replace (0 / -1) with 0 by field. rewrite atan_0, Rplus_0_l, cos_PI, sin_PI. lra.
  - rewrite (atan2_pos_y _ _ Hs). destruct (K (c / s)) as [K1 K2]. pose proof (atan_bound (c / s)) as B.
    replace (sqrt (1 + (c / s)²)) with (/ s) in *.
    2:{ symmetry. apply sqrt_lem_1; [unfold Rsqr; apply Rplus_le_le_0_compat; [lra | apply Rle_0_sqr] | left; apply Rinv_0_lt_compat; lra |].
        unfold Rsqr. replace (1 + c / s * (c / s)) with ((c * c + s * s) / (s * s)) by (field; lra). rewrite H. field; lra. }
    rewrite cos_shift, sin_shift, K1, K2. split; [field; lra | split; [field; lra | lra]].
Qed.
Lemma so2_log_angle t : - PI < t <= PI -> so2_log (cos t) (- sin t) (sin t) (cos t) = t.
Proof.
  intros H. unfold so2_log. pose proof (COS_bound t) as [B1 B2].
  destruct (Rlt_dec 2 (cos t + cos t)); [lra|]. destruct (Rlt_dec (cos t + cos t) (-2)); [lra|].
  destruct (Rlt_dec (2 - 1 / 100) (cos t + cos t)) as [H1|H1].
  - replace ((sin t - - sin t) / 2) with (sin t) by field. apply asin_sin.
    destruct (Rle_dec (- (PI / 2)) t) as [L|L]; [destruct (Rle_dec t (PI / 2)) as [L'|L']; [lra|]|].
    + exfalso. assert (cos t <= 0); [|lra]. apply cos_le_0; lra.
    + exfalso. assert (cos (- t) <= 0); [|rewrite cos_neg in *; lra]. apply cos_le_0; lra.
  - replace ((cos t + cos t) / 2) with (cos t) by field.
    destruct (Rle_dec 0 (sin t)) as [L|L].
    + apply acos_cos. split; [|lra]. destruct (Rle_dec 0 t); [assumption|]. exfalso.
      pose proof (sin_gt_0 (- t) ltac:(lra) ltac:(lra)) as X. rewrite sin_neg in X. lra.
    + rewrite <- (cos_neg t), acos_cos; [ring|].
      destruct (Rle_dec 0 t); [|lra]. exfalso. pose proof (sin_ge_0 t ltac:(lra) ltac:(lra)). lra.
Qed.
Lemma so2_log_unit c s : c * c + s * s = 1 -> so2_log c (- s) s c = atan2 s c.
Proof.
  intros H. destruct (atan2_circle c s H) as [H1 [H2 H3]]. rewrite <- (so2_log_angle _ H3), H1, H2. reflexivity.
Qed.
Lemma atan2_angle t : - PI < t <= PI -> atan2 (sin t) (cos t) = t.
Proof. intros H. rewrite <- so2_log_unit; [apply so2_log_angle; exact H | pose proof (sin2_cos2 t) as X; unfold Rsqr in X; lra]. Qed.

(* ---------- SO(2) ---------- *)
Lemma so2_integrate_exact eps q v : onGroup LSO2 q ->
  eqTo 2 (lg_integrate eps LSO2 q v) (v2Out (q 0%nat * cos (v 0%nat) - q 1%nat * sin (v 0%nat)) (q 0%nat * sin (v 0%nat) + q 1%nat * cos (v 0%nat))).
Proof.
  cbn [onGroup]. intros H k Hk. cbn [lg_integrate]. pose proof (sin2_cos2 (v 0%nat)) as S. unfold Rsqr in S.
  set (c := cos (v 0%nat)) in *. set (s := sin (v 0%nat)) in *.
  assert (N : (c * q 0%nat - s * q 1%nat) * (c * q 0%nat - s * q 1%nat) + (s * q 0%nat + c * q 1%nat) * (s * q 0%nat + c * q 1%nat) = 1).
  { replace 1 with ((s * s + c * c) * (q 0%nat * q 0%nat + q 1%nat * q 1%nat)) by (rewrite S, H; ring). ring. }
  rewrite N. destruct k as [|[|k]]; [| |lia]; cbn [v2Out]; field.
Qed.
Lemma so2_on eps q v : onGroup LSO2 q -> onGroup LSO2 (lg_integrate eps LSO2 q v).
Proof.
  intros H. cbn [onGroup]. rewrite !(so2_integrate_exact eps q v H) by lia. cbn [v2Out onGroup] in *.
  pose proof (sin2_cos2 (v 0%nat)) as S. unfold Rsqr in S.
  replace 1 with ((sin (v 0%nat) * sin (v 0%nat) + cos (v 0%nat) * cos (v 0%nat)) * (q 0%nat * q 0%nat + q 1%nat * q 1%nat)) by (rewrite S, H; ring). ring.
Qed.
Lemma so2_zero eps q v : onGroup LSO2 q -> v 0%nat = 0 -> eqTo 2 (lg_integrate eps LSO2 q v) q.
Proof.
  intros H V k Hk. rewrite (so2_integrate_exact eps q v H) by lia. rewrite V, cos_0, sin_0. destruct k as [|[|k]]; [| |lia]; cbn [v2Out]; ring.
Qed.
Lemma so2_add eps q v w z : onGroup LSO2 q -> z 0%nat = v 0%nat + w 0%nat ->
  eqTo 2 (lg_integrate eps LSO2 (lg_integrate eps LSO2 q v) w) (lg_integrate eps LSO2 q z).
Proof.
  intros H Z k Hk. rewrite (so2_integrate_exact eps _ w (so2_on eps q v H)) by lia.
  rewrite (so2_integrate_exact eps q z H) by lia. rewrite !(so2_integrate_exact eps q v H) by lia.
  rewrite Z, cos_plus, sin_plus. destruct k as [|[|k]]; [| |lia]; cbn [v2Out]; ring.
Qed.
Lemma so2_difference eps q p : onGroup LSO2 q -> onGroup LSO2 p ->
  lg_difference eps LSO2 q p 0%nat = atan2 (q 0%nat * p 1%nat - q 1%nat * p 0%nat) (q 0%nat * p 0%nat + q 1%nat * p 1%nat).
Proof.
  cbn [onGroup lg_difference]. intros H K. apply so2_log_unit.
  replace 1 with ((q 0%nat * q 0%nat + q 1%nat * q 1%nat) * (p 0%nat * p 0%nat + p 1%nat * p 1%nat)) by (rewrite H, K; ring). ring.
Qed.
Lemma so2_diff_int eps q v : onGroup LSO2 q -> - PI < v 0%nat <= PI -> lg_difference eps LSO2 q (lg_integrate eps LSO2 q v) 0%nat = v 0%nat.
Proof.
  intros H V. rewrite so2_difference by (try apply so2_on; assumption).
  rewrite !(so2_integrate_exact eps q v H) by lia. cbn [v2Out onGroup] in *.
  transitivity (atan2 (sin (v 0%nat)) (cos (v 0%nat))); [|apply atan2_angle; exact V]. f_equal.
  - transitivity ((q 0%nat * q 0%nat + q 1%nat * q 1%nat) * sin (v 0%nat)); [ring | rewrite H; ring].
  - transitivity ((q 0%nat * q 0%nat + q 1%nat * q 1%nat) * cos (v 0%nat)); [ring | rewrite H; ring].
Qed.
Lemma so2_int_diff eps q p : onGroup LSO2 q -> onGroup LSO2 p -> eqTo 2 (lg_integrate eps LSO2 q (lg_difference eps LSO2 q p)) p.
Proof.
  intros H K k Hk. rewrite (so2_integrate_exact eps q _ H) by lia. rewrite so2_difference by assumption. cbn [onGroup] in *.
  destruct (atan2_circle (q 0%nat * p 0%nat + q 1%nat * p 1%nat) (q 0%nat * p 1%nat - q 1%nat * p 0%nat)) as [C [S _]].
  { replace 1 with ((q 0%nat * q 0%nat + q 1%nat * q 1%nat) * (p 0%nat * p 0%nat + p 1%nat * p 1%nat)) by (rewrite H, K; ring). ring. }
  rewrite C, S. destruct k as [|[|k]]; [| |lia]; cbn [v2Out].
  - transitivity ((q 0%nat * q 0%nat + q 1%nat * q 1%nat) * p 0%nat); [ring | rewrite H; ring].
  - transitivity ((q 0%nat * q 0%nat + q 1%nat * q 1%nat) * p 1%nat); [ring | rewrite H; ring].
Qed.
(* interpolation between configurations that are neither close nor opposite turns by u times the angle *)
Lemma so2_inter_mid eps q p u : onGroup LSO2 q -> onGroup LSO2 p ->
  1 / 10 ^ 6 <= Rabs (lg_difference eps LSO2 q p 0%nat) < PI - 1 / 10 ^ 6 ->
  eqTo 2 (lg_interpolate eps LSO2 q p u) (lg_integrate eps LSO2 q (fun _ => u * lg_difference eps LSO2 q p 0%nat)).
Proof.
  intros H K. rewrite so2_difference by assumption. intros T k Hk.
  rewrite (so2_integrate_exact eps q _ H) by lia. cbn [lg_interpolate].
  cbn [onGroup] in *.
  set (cc := q 0%nat * p 0%nat + q 1%nat * p 1%nat) in *. set (ss := q 0%nat * p 1%nat - q 1%nat * p 0%nat) in *.
  destruct (atan2_circle cc ss) as [C [S B]].
  { unfold cc, ss. replace 1 with ((q 0%nat * q 0%nat + q 1%nat * q 1%nat) * (p 0%nat * p 0%nat + p 1%nat * p 1%nat)) by (rewrite H, K; ring). ring. }
  set (t := atan2 ss cc) in *.
  destruct (Rlt_dec (Rabs t) (1 / 10 ^ 6)); [lra|]. destruct (Rlt_dec (Rabs t) (PI - 1 / 10 ^ 6)); [|lra].
  assert (E : 0 < 1 / 10 ^ 6) by (apply Rdiv_lt_0_compat; [lra | apply pow_lt; lra]).
  assert (Hs : ss <> 0).
  { rewrite <- S. intros Z. destruct (Rle_dec 0 t) as [L|L].
    - rewrite Rabs_pos_eq in T by assumption. pose proof (sin_gt_0 t ltac:(lra) ltac:(lra)). lra.
    - rewrite Rabs_left in T by lra. pose proof (sin_gt_0 (- t) ltac:(lra) ltac:(lra)) as X. rewrite sin_neg in X. lra. }
  assert (P0 : p 0%nat = cc * q 0%nat - ss * q 1%nat) by (unfold cc, ss; transitivity ((q 0%nat * q 0%nat + q 1%nat * q 1%nat) * p 0%nat); [rewrite H; ring | ring]).
  assert (P1 : p 1%nat = cc * q 1%nat + ss * q 0%nat) by (unfold cc, ss; transitivity ((q 0%nat * q 0%nat + q 1%nat * q 1%nat) * p 1%nat); [rewrite H; ring | ring]).
  replace ((1 - u) * t) with (t - u * t) by ring. rewrite sin_minus, C, S.
  clearbody cc ss t. destruct k as [|[|k]]; [| |lia]; cbn [v2Out]; [rewrite P0 | rewrite P1]; field; exact Hs.
Qed.
Lemma so2_inter_0 eps q p : onGroup LSO2 q -> onGroup LSO2 p -> eqTo 2 (lg_interpolate eps LSO2 q p 0) q.
Proof.
  intros H K k Hk. destruct (Rlt_dec (Rabs (lg_difference eps LSO2 q p 0%nat)) (1 / 10 ^ 6)) as [L|L].
  - rewrite so2_difference in L by assumption. cbn [lg_interpolate]. destruct (Rlt_dec _ (1 / 10 ^ 6)); [ring | contradiction].
  - destruct (Rlt_dec (Rabs (lg_difference eps LSO2 q p 0%nat)) (PI - 1 / 10 ^ 6)) as [M|M].
    + rewrite so2_inter_mid by (try assumption; lra). apply so2_zero; [assumption | ring | lia].
    + rewrite so2_difference in L, M by assumption. cbn [lg_interpolate]. destruct (Rlt_dec _ (1 / 10 ^ 6)); [contradiction|].
      destruct (Rlt_dec _ (PI - 1 / 10 ^ 6)); [contradiction | reflexivity].
Qed.
Lemma so2_inter_1 eps q p : onGroup LSO2 q -> onGroup LSO2 p -> ~ opposite q p -> eqTo 2 (lg_interpolate eps LSO2 q p 1) p.
Proof.
  intros H K O k Hk. destruct (Rlt_dec (Rabs (lg_difference eps LSO2 q p 0%nat)) (1 / 10 ^ 6)) as [L|L].
  - rewrite so2_difference in L by assumption. cbn [lg_interpolate]. destruct (Rlt_dec _ (1 / 10 ^ 6)); [ring | contradiction].
  - destruct (Rlt_dec (Rabs (lg_difference eps LSO2 q p 0%nat)) (PI - 1 / 10 ^ 6)) as [M|M].
    + rewrite so2_inter_mid by (try assumption; lra).
      transitivity (lg_integrate eps LSO2 q (lg_difference eps LSO2 q p) k); [|apply so2_int_diff; assumption].
      rewrite !so2_integrate_exact by assumption. rewrite Rmult_1_l. reflexivity.
    + exfalso. apply O. unfold opposite. rewrite so2_difference in M by assumption. lra.
Qed.
(* opposite configurations: the first one is returned whatever u *)
Lemma so2_inter_opp eps q p u k : opposite q p -> lg_interpolate eps LSO2 q p u k = q k.
Proof.
  unfold opposite. cbn [lg_interpolate]. intros O.
  assert (0 < 1 / 10 ^ 6 < 1) by (split; [apply Rdiv_lt_0_compat; [lra | apply pow_lt; lra] | cbn; lra]). pose proof PI2_3_2 as X.
  destruct (Rlt_dec _ (1 / 10 ^ 6)); [lra|]. destruct (Rlt_dec _ (PI - 1 / 10 ^ 6)); [lra | reflexivity].
Qed.
Lemma so2_opp_witness : let q := v2Out 1 0 in let p := v2Out (-1) 0 in onGroup LSO2 q /\ onGroup LSO2 p /\ opposite q p /\ q 0%nat <> p 0%nat.
Proof.
  cbn [onGroup v2Out]. split; [lra|]. split; [lra|]. split; [|lra]. unfold opposite. cbn [v2Out].
  replace (1 * -1 + 0 * 0) with (-1) by ring. replace (1 * 0 - 0 * -1) with 0 by ring.
  replace (atan2 0 (-1)) with PI by (rewrite <- cos_PI, <- sin_PI; symmetry; apply atan2_angle; pose proof PI_RGT_0; lra).
  rewrite Rabs_pos_eq by (pose proof PI_RGT_0; lra). assert (0 < 1 / 10 ^ 6) by (apply Rdiv_lt_0_compat; [lra | apply pow_lt; lra]). lra.
Qed.
