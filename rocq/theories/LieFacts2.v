Require Import Reals Lra Arith Bool List Lia.
From Verif Require Import Vec3 Spatial Joints JointFacts Model Kinematics Deriv Rot RotFacts ExpLog Spec_Exp ExpFacts ExpFacts2 ExpFacts3 LieGroup Spec_Lie LieFacts.
Local Open Scope R_scope.

(* ---------- the exact planar flow ---------- *)
Lemma e14_pos : 0 < e14 < 1 / 1000000. Proof. unfold e14. split; [apply Rdiv_lt_0_compat; [lra | apply pow_lt; lra] | cbn; lra]. Qed.
Definition scaled (s : R) (v : vec) : vec := fun k => s * v k.
Lemma planar_flow q v s :
  deriv (fun s => planarFlow q (scaled s v) 0%nat) (planarFlow q (scaled s v) 2%nat * v 0%nat - planarFlow q (scaled s v) 3%nat * v 1%nat) s /\
  deriv (fun s => planarFlow q (scaled s v) 1%nat) (planarFlow q (scaled s v) 3%nat * v 0%nat + planarFlow q (scaled s v) 2%nat * v 1%nat) s /\
  deriv (fun s => planarFlow q (scaled s v) 2%nat) (- planarFlow q (scaled s v) 3%nat * v 2%nat) s /\
  deriv (fun s => planarFlow q (scaled s v) 3%nat) (planarFlow q (scaled s v) 2%nat * v 2%nat) s /\
  eqTo 4 (planarFlow q (scaled 0 v)) q.
Proof.
  set (w := v 2%nat). assert (Hid : deriv (fun u => u) 1 s) by exact (derivable_pt_lim_id s).
  assert (X : forall s, sinc (s * w) * (s * v 0%nat) - s * w * cosc (s * w) * (s * v 1%nat) =
     (if Req_EM_T w 0 then s * v 0%nat else sin (s * w) * / w * v 0%nat - (1 - cos (s * w)) * / w * v 1%nat)).
  { intros u. destruct (Req_EM_T w 0) as [->|N].
    - rewrite Rmult_0_r. unfold sinc. destruct (Req_EM_T 0 0); [ring | lra].
    - rewrite <- (sinc_mul (u * w)), <- (cosc_mul (u * w)). field. exact N. }
  assert (Y : forall s, s * w * cosc (s * w) * (s * v 0%nat) + sinc (s * w) * (s * v 1%nat) =
     (if Req_EM_T w 0 then s * v 1%nat else (1 - cos (s * w)) * / w * v 0%nat + sin (s * w) * / w * v 1%nat)).
  { intros u. destruct (Req_EM_T w 0) as [->|N].
    - rewrite Rmult_0_r. unfold sinc. destruct (Req_EM_T 0 0); [ring | lra].
    - rewrite <- (sinc_mul (u * w)), <- (cosc_mul (u * w)). field. exact N. }
  unfold planarFlow, scaled. cbv zeta beta. fold w.
  split; [|split; [|split; [|split]]].
  - eapply deriv_ext; [intros u; rewrite X, Y; reflexivity|]. destruct (Req_EM_T w 0) as [->|N].
    + eapply deriv_eq; [dv|]. cbv beta. rewrite Rmult_0_r, cos_0, sin_0. ring.
    + eapply deriv_eq; [dv|]. cbv beta. field. exact N.
  - eapply deriv_ext; [intros u; rewrite X, Y; reflexivity|]. destruct (Req_EM_T w 0) as [->|N].
    + eapply deriv_eq; [dv|]. cbv beta. rewrite Rmult_0_r, cos_0, sin_0. ring.
    + eapply deriv_eq; [dv|]. cbv beta. field. exact N.
  - eapply deriv_eq; [dv|]. cbv beta. ring.
  - eapply deriv_eq; [dv|]. cbv beta. ring.
  - intros k Hk. rewrite !Rmult_0_l, cos_0, sin_0. destruct k as [|[|[|[|k]]]]; [ring | ring | ring | ring | lia].
Qed.
Lemma planar_on q v : onGroup LSE2 q -> onGroup LSE2 (planarFlow q v).
Proof.
  unfold planarFlow. cbn [onGroup]. intros H. pose proof (sin2_cos2 (v 2%nat)) as S. unfold Rsqr in S.
  replace 1 with ((sin (v 2%nat) * sin (v 2%nat) + cos (v 2%nat) * cos (v 2%nat)) * (q 2%nat * q 2%nat + q 3%nat * q 3%nat)) by (rewrite S, H; ring). ring.
Qed.

(* ---------- integrate ---------- *)
Lemma se2_heading eps q v k : (2 <= k < 4)%nat -> lg_integrate eps LSE2 q v k = planarFlow q v k.
Proof. intros H. cbn [lg_integrate se2_exp]. unfold se2_exp, join, planarFlow. destruct k as [|[|[|[|k]]]]; try lia; cbn -[pow]; ring. Qed.
Lemma se2_integrate_exact eps q v : v 2%nat = 0 \/ e14 < Rabs (v 2%nat) -> eqTo 4 (lg_integrate eps LSE2 q v) (planarFlow q v).
Proof.
  intros H k Hk. destruct (le_lt_dec 2 k); [apply se2_heading; lia|].
  cbn [lg_integrate]. unfold se2_exp. set (w := v 2%nat) in *. cbv zeta.
  assert (E : (if if Rlt_dec (1 / 10 ^ 14) (Rabs w) then true else false then (- v 1%nat - (- v 1%nat * cos w + v 0%nat * - sin w)) / w else v 0%nat) = sinc w * v 0%nat - w * cosc w * v 1%nat /\
              (if if Rlt_dec (1 / 10 ^ 14) (Rabs w) then true else false then (v 0%nat - (- v 1%nat * sin w + v 0%nat * cos w)) / w else v 1%nat) = w * cosc w * v 0%nat + sinc w * v 1%nat).
  { pose proof e14_pos as P. destruct (Rlt_dec (1 / 10 ^ 14) (Rabs w)) as [B|B].
    - assert (N : w <> 0) by (intros Z; rewrite Z, Rabs_R0 in B; unfold e14 in P; lra).
      rewrite <- (sinc_mul w). replace (cos w) with (1 - w * w * cosc w) by (rewrite cosc_mul; ring). split; field; exact N.
    - destruct H as [Z|Z]; [|contradiction]. rewrite Z. unfold sinc. destruct (Req_EM_T 0 0); [split; ring | lra]. }
  destruct E as [E0 E1]. rewrite E0, E1. unfold join, planarFlow. destruct k as [|[|k]]; [| |lia]; cbn; fold w; ring.
Qed.
(* 1 - sinc and x cosc near 0 *)
Lemma near_zero w : Rabs w <= 1 -> Rabs (1 - sinc w) <= w * w / 6 /\ Rabs (w * cosc w) <= Rabs w / 2.
Proof.
  intros H. pose proof (Rabs_pos w) as P. destruct (taylor_sinc (Rabs w) ltac:(lra)) as [[A B] _]. destruct (taylor_cosc (Rabs w) ltac:(lra)) as [C D].
  rewrite sinc_even in *. rewrite cosc_even in *.
  assert (Q : Rabs w * Rabs w = w * w) by (rewrite <- Rabs_mult, Rabs_pos_eq; [reflexivity | apply Rle_0_sqr]).
  rewrite Rmult_assoc in B, D. rewrite Rmult_assoc in B, D.
  replace (Rabs w * (Rabs w * (Rabs w * Rabs w))) with (w * w * (w * w)) in * by (rewrite <- Q; ring). rewrite Q in *.
  assert (0 <= w * w <= 1) by (rewrite <- Q; nra).
  split.
  - apply Rabs_le. nra.
  - rewrite Rabs_mult, (Rabs_pos_eq (cosc w)) by nra. nra.
Qed.
Lemma rot_bound c s a b x y : c * c + s * s = 1 -> 0 <= a -> 0 <= b -> forall p q, Rabs p <= a -> Rabs q <= b ->
  Rabs (c * (p * x - q * y) - s * (q * x + p * y)) <= (a + b) * (Rabs x + Rabs y) /\ Rabs (s * (p * x - q * y) + c * (q * x + p * y)) <= (a + b) * (Rabs x + Rabs y).
Proof.
  intros H Ha Hb p q Hp Hq.
  assert (C : Rabs c <= 1) by (apply Rabs_le; nra). assert (S : Rabs s <= 1) by (apply Rabs_le; nra).
  pose proof (Rabs_pos x). pose proof (Rabs_pos y). pose proof (Rabs_pos c). pose proof (Rabs_pos s). pose proof (Rabs_pos p). pose proof (Rabs_pos q).
  assert (T : forall u v, Rabs (u + v) <= Rabs u + Rabs v) by apply Rabs_triang.
  assert (U : forall u v, Rabs (u - v) <= Rabs u + Rabs v) by (intros u v; unfold Rminus; rewrite <- (Rabs_Ropp v); apply Rabs_triang).
  replace (c * (p * x - q * y) - s * (q * x + p * y)) with ((c * p - s * q) * x - (c * q + s * p) * y) by ring.
  replace (s * (p * x - q * y) + c * (q * x + p * y)) with ((s * p + c * q) * x + (c * p - s * q) * y) by ring.
  assert (B1 : Rabs (c * p - s * q) <= a + b). { eapply Rle_trans; [apply U|]. rewrite !Rabs_mult. nra. }
  assert (B2 : Rabs (c * q + s * p) <= a + b). { eapply Rle_trans; [apply T|]. rewrite !Rabs_mult. nra. }
  assert (B3 : Rabs (s * p + c * q) <= a + b). { eapply Rle_trans; [apply T|]. rewrite !Rabs_mult. nra. }
  split; (eapply Rle_trans; [first [apply U | apply T]|]); rewrite !Rabs_mult; nra.
Qed.
Lemma se2_integrate_close eps q v k : onGroup LSE2 q -> (k < 2)%nat ->
  Rabs (lg_integrate eps LSE2 q v k - planarFlow q v k) <= e14 * (Rabs (v 0%nat) + Rabs (v 1%nat)).
Proof.
  intros H Hk. pose proof (Rabs_pos (v 0%nat)). pose proof (Rabs_pos (v 1%nat)). pose proof e14_pos as P.
  destruct (Rlt_dec e14 (Rabs (v 2%nat))) as [B|B].
  - rewrite se2_integrate_exact by (try right; assumption || lia). unfold Rminus. rewrite Rplus_opp_r, Rabs_R0. nra.
  - assert (W : Rabs (v 2%nat) <= 1) by lra. destruct (near_zero _ W) as [N1 N2]. set (w := v 2%nat) in *.
    cbn [onGroup] in H. pose proof (Rabs_pos w) as Pw.
    assert (Q : Rabs w * Rabs w = w * w) by (rewrite <- Rabs_mult, Rabs_pos_eq; [reflexivity | apply Rle_0_sqr]).
    destruct (rot_bound _ _ (w * w / 6) (Rabs w / 2) (v 0%nat) (v 1%nat) H ltac:(nra) ltac:(lra) (1 - sinc w) (- (w * cosc w)) N1 ltac:(rewrite Rabs_Ropp; exact N2)) as [R1 R2].
    assert (S : w * w / 6 + Rabs w / 2 <= e14) by (rewrite <- Q; nra).
    cbn [lg_integrate]. unfold se2_exp. fold w. cbv zeta. destruct (Rlt_dec (1 / 10 ^ 14) (Rabs w)); [contradiction|].
    destruct k as [|[|k]]; [| |lia]; unfold join, planarFlow; cbn; fold w.
    + eapply Rle_trans; [|eapply Rle_trans; [exact R1|]]; [right; f_equal; ring | nra].
    + eapply Rle_trans; [|eapply Rle_trans; [exact R2|]]; [right; f_equal; ring | nra].
Qed.
Lemma se2_on eps q v : onGroup LSE2 q -> onGroup LSE2 (lg_integrate eps LSE2 q v).
Proof. intros H. pose proof (planar_on q v H) as X. cbn [onGroup] in *. rewrite !se2_heading by lia. exact X. Qed.
Lemma se2_zero eps q v : (forall k, (k < 3)%nat -> v k = 0) -> eqTo 4 (lg_integrate eps LSE2 q v) q.
Proof.
  intros V k Hk. rewrite se2_integrate_exact by (try assumption; left; apply V; lia). unfold planarFlow.
  rewrite !V by lia. rewrite cos_0, sin_0. destruct k as [|[|[|[|k]]]]; [ring | ring | ring | ring | lia].
Qed.

(* ---------- difference ---------- *)
Definition se2_alpha (t : R) : R :=
  if Rlt_dec (Rabs t) (1 / 10 ^ 4) then 1 - t * t / 12 - t * t * (t * t) / 720 else Rabs t * sin (Rabs t) / (2 * (1 - cos (Rabs t))).
Definition dot2 (q p : vec) := q 2%nat * p 2%nat + q 3%nat * p 3%nat.
Definition crs2 (q p : vec) := q 2%nat * p 3%nat - q 3%nat * p 2%nat.
Lemma dc_unit q p : onGroup LSE2 q -> onGroup LSE2 p -> dot2 q p * dot2 q p + crs2 q p * crs2 q p = 1.
Proof. cbn [onGroup]. unfold dot2, crs2. intros H K. replace 1 with ((q 2%nat * q 2%nat + q 3%nat * q 3%nat) * (p 2%nat * p 2%nat + p 3%nat * p 3%nat)) by (rewrite H, K; ring). ring. Qed.
Lemma se2_difference_eq eps q p : onGroup LSE2 q -> onGroup LSE2 p ->
  let t := atan2 (crs2 q p) (dot2 q p) in
  let P0 := q 2%nat * (p 0%nat - q 0%nat) + q 3%nat * (p 1%nat - q 1%nat) in
  let P1 := - q 3%nat * (p 0%nat - q 0%nat) + q 2%nat * (p 1%nat - q 1%nat) in
  lg_difference eps LSE2 q p 0%nat = se2_alpha t * P0 + t / 2 * P1 /\
  lg_difference eps LSE2 q p 1%nat = se2_alpha t * P1 - t / 2 * P0 /\
  lg_difference eps LSE2 q p 2%nat = t.
Proof.
  intros H K t P0 P1. cbn [lg_difference]. unfold se2_log. cbv zeta.
  assert (E : so2_log (q 2%nat * p 2%nat + q 3%nat * p 3%nat) (q 2%nat * - p 3%nat + q 3%nat * p 2%nat) (- q 3%nat * p 2%nat + q 2%nat * p 3%nat) (- q 3%nat * - p 3%nat + q 2%nat * p 2%nat) = t).
  { unfold t. rewrite <- so2_log_unit by (apply dc_unit; assumption). unfold crs2, dot2. f_equal; ring. }
  rewrite E. cbn [v3Out vx vy vz]. fold P0 P1. unfold se2_alpha.
  split; [reflexivity | split; [|reflexivity]]. field.
Qed.
(* the product of the exponential and logarithm matrices, [A B; -B A] *)
Definition coA (t : R) := if Rlt_dec e14 (Rabs t) then se2_alpha t * sinc t + t * t / 2 * cosc t else se2_alpha t.
Definition coB (t : R) := if Rlt_dec e14 (Rabs t) then t / 2 * sinc t - t * cosc t * se2_alpha t else t / 2.
Lemma co_big t : 1 / 10 ^ 4 <= Rabs t <= PI -> coA t = 1 /\ coB t = 0.
Proof.
  intros H. pose proof e14_pos as P. assert (X : 0 < 1 / 10 ^ 4 /\ e14 < 1 / 10 ^ 4) by (unfold e14; cbn; lra).
  unfold coA, coB, se2_alpha. destruct (Rlt_dec e14 (Rabs t)); [|lra]. destruct (Rlt_dec (Rabs t) (1 / 10 ^ 4)); [lra|].
  assert (N : t <> 0) by (intros Z; rewrite Z, Rabs_R0 in H; lra).
  assert (A : Rabs t * sin (Rabs t) = t * sin t /\ cos (Rabs t) = cos t).
  { destruct (Rcase_abs t) as [L|L]; [rewrite Rabs_left by exact L; rewrite sin_neg, cos_neg; split; ring | rewrite Rabs_right by exact L; split; reflexivity]. }
  destruct A as [A1 A2]. rewrite A1, A2.
  assert (D : 1 - cos t <> 0).
  { rewrite <- A2. destruct (Req_dec (cos (Rabs t)) 1) as [Z|Z]; [|lra]. exfalso.
    assert (Rabs t <> 0) by (apply Rabs_no_R0; exact N). pose proof (Rabs_pos t).
    pose proof (cos_decreasing_1 0 (Rabs t)) as Q. rewrite cos_0 in Q. lra. }
  rewrite <- (sinc_mul t) in *. assert (E : (t * sinc t) * (t * sinc t) + cos t * cos t = 1) by (rewrite sinc_mul; pose proof (sin2_cos2 t) as S; unfold Rsqr in S; exact S).
  assert (C : cosc t = (1 - cos t) / (t * t)) by (rewrite <- cosc_mul; field; exact N). rewrite C.
  split.
  - assert (G : t * (t * sinc t) * sinc t = 1 - cos t * cos t) by lra.
    replace (t * (t * sinc t) / (2 * (1 - cos t)) * sinc t) with (t * (t * sinc t) * sinc t / (2 * (1 - cos t))) by (field; exact D).
    rewrite G. field. split; assumption.
  - field. split; assumption.
Qed.
Lemma co_small t : Rabs t < 1 / 10 ^ 4 -> Rabs (coA t - 1) <= e14 / 2 /\ Rabs (coB t) <= e14 / 2.
Proof.
  intros H. pose proof e14_pos as P. pose proof (Rabs_pos t) as Pt.
  assert (E4 : 1 / 10 ^ 4 = 1 / 10000) by (cbn; field). assert (E14 : e14 = 1 / 10000 * (1 / 10000) * (1 / 10000) * (1 / 100)) by (unfold e14; cbn; field).
  assert (Q : Rabs t * Rabs t = t * t) by (rewrite <- Rabs_mult, Rabs_pos_eq; [reflexivity | apply Rle_0_sqr]).
  assert (T2 : 0 <= t * t <= 1 / 10000 * (1 / 10000)) by (rewrite <- Q; rewrite E4 in H; nra).
  unfold coA, coB, se2_alpha. destruct (Rlt_dec (Rabs t) (1 / 10 ^ 4)); [|lra]. set (z := t * t) in *.
  destruct (Rlt_dec e14 (Rabs t)) as [B|B].
  - destruct (taylor_sinc (Rabs t) ltac:(rewrite E4 in H; lra)) as [[A1 A2] _]. destruct (taylor_cosc (Rabs t) ltac:(rewrite E4 in H; lra)) as [C1 C2].
    rewrite sinc_even in *. rewrite cosc_even in *.
    replace (Rabs t * Rabs t * Rabs t * Rabs t) with (z * z) in * by (rewrite <- Q; ring). rewrite Q in A1, A2, C1, C2.
    assert (Z2 : 0 <= z * z <= e14 / 50) by (rewrite E14; nra).
    set (S := sinc t) in *. set (C := cosc t) in *.
    assert (G1 : Rabs ((1 - z / 12 - z * z / 720) * S + z / 2 * C - 1) <= z * z).
    { apply Rabs_le. assert (z * (C - (1 / 2 - z / 24)) <= z * (z * z / 720)) by nra. assert (0 <= z * (C - (1 / 2 - z / 24))) by nra.
      assert (M1 : 0 <= 1 - z / 12 - z * z / 720 <= 1) by nra.
      assert (M2 : (1 - z / 12 - z * z / 720) * (1 - z / 6) <= (1 - z / 12 - z * z / 720) * S) by nra.
      assert (M3 : (1 - z / 12 - z * z / 720) * S <= (1 - z / 12 - z * z / 720) * (1 - z / 6 + z * z / 120)) by nra.
      split; nra. }
    assert (G2 : Rabs (1 / 2 * S - C * (1 - z / 12 - z * z / 720)) <= z * z).
    { apply Rabs_le.
      assert (M1 : 0 <= 1 - z / 12 - z * z / 720 <= 1) by nra.
      assert (M2 : (1 - z / 12 - z * z / 720) * (1 / 2 - z / 24) <= C * (1 - z / 12 - z * z / 720)) by nra.
      assert (M3 : C * (1 - z / 12 - z * z / 720) <= (1 - z / 12 - z * z / 720) * (1 / 2 - z / 24 + z * z / 720)) by nra.
      split; nra. }
    split; [eapply Rle_trans; [exact G1 | lra]|].
    replace (t / 2 * S - t * C * (1 - z / 12 - z * z / 720)) with (t * (1 / 2 * S - C * (1 - z / 12 - z * z / 720))) by field.
    rewrite Rabs_mult. rewrite E4 in H. pose proof (Rabs_pos (1 / 2 * S - C * (1 - z / 12 - z * z / 720))). nra.
  - assert (Z : z <= e14 * e14) by (rewrite <- Q; nra). split.
    + apply Rabs_le. nra.
    + unfold Rdiv. rewrite Rabs_mult, (Rabs_pos_eq (/ 2)) by lra. lra.
Qed.
Lemma co_all t : Rabs t <= PI -> Rabs (coA t - 1) <= e14 / 2 /\ Rabs (coB t) <= e14 / 2.
Proof.
  intros H. destruct (Rlt_dec (Rabs t) (1 / 10 ^ 4)) as [L|L]; [apply co_small; exact L|].
  destruct (co_big t ltac:(lra)) as [-> ->]. pose proof e14_pos. split; [replace (1 - 1) with 0 by ring|]; rewrite Rabs_R0; lra.
Qed.
Lemma planar_small q v : ~ e14 < Rabs (v 2%nat) -> lg_integrate 0 LSE2 q v 0%nat = q 2%nat * v 0%nat - q 3%nat * v 1%nat + q 0%nat /\ lg_integrate 0 LSE2 q v 1%nat = q 3%nat * v 0%nat + q 2%nat * v 1%nat + q 1%nat.
Proof. intros H. cbn [lg_integrate]. unfold se2_exp. cbv zeta. destruct (Rlt_dec (1 / 10 ^ 14) (Rabs (v 2%nat))); [contradiction|]. unfold join. cbn. split; ring. Qed.
Lemma se2_int_diff eps q p : onGroup LSE2 q -> onGroup LSE2 p -> 
  let r := lg_integrate eps LSE2 q (lg_difference eps LSE2 q p) in let t := atan2 (crs2 q p) (dot2 q p) in
  r 0%nat = q 0%nat + coA t * (p 0%nat - q 0%nat) + coB t * (p 1%nat - q 1%nat) /\
  r 1%nat = q 1%nat - coB t * (p 0%nat - q 0%nat) + coA t * (p 1%nat - q 1%nat) /\ r 2%nat = p 2%nat /\ r 3%nat = p 3%nat /\ Rabs t <= PI.
Proof.
  intros H K r t. destruct (se2_difference_eq eps q p H K) as [D0 [D1 D2]].
  destruct (atan2_circle _ _ (dc_unit q p H K)) as [C [S B]]. fold t in D0, D1, D2, C, S, B. cbn [onGroup] in H, K.
  assert (V : forall x y, q 2%nat * (q 2%nat * x + q 3%nat * y) - q 3%nat * (- q 3%nat * x + q 2%nat * y) = x /\ q 3%nat * (q 2%nat * x + q 3%nat * y) + q 2%nat * (- q 3%nat * x + q 2%nat * y) = y).
  { intros x y. split; [transitivity ((q 2%nat * q 2%nat + q 3%nat * q 3%nat) * x) | transitivity ((q 2%nat * q 2%nat + q 3%nat * q 3%nat) * y)]; try ring; rewrite H; ring. }
  destruct (V (p 0%nat - q 0%nat) (p 1%nat - q 1%nat)) as [V0 V1].
  set (P0 := q 2%nat * (p 0%nat - q 0%nat) + q 3%nat * (p 1%nat - q 1%nat)) in *.
  set (P1 := - q 3%nat * (p 0%nat - q 0%nat) + q 2%nat * (p 1%nat - q 1%nat)) in *.
  assert (Hd : r 2%nat = p 2%nat /\ r 3%nat = p 3%nat).
  { unfold r. rewrite !se2_heading by lia. unfold planarFlow. cbv zeta. rewrite D2, C, S. unfold dot2, crs2. split.
    - transitivity ((q 2%nat * q 2%nat + q 3%nat * q 3%nat) * p 2%nat); [ring | rewrite H; ring].
    - transitivity ((q 2%nat * q 2%nat + q 3%nat * q 3%nat) * p 3%nat); [ring | rewrite H; ring]. }
  destruct Hd as [Hd2 Hd3]. pose proof PI_RGT_0.
  assert (Bt : Rabs t <= PI) by (apply Rabs_le; lra).
  enough (G : r 0%nat = q 0%nat + coA t * (p 0%nat - q 0%nat) + coB t * (p 1%nat - q 1%nat) /\ r 1%nat = q 1%nat - coB t * (p 0%nat - q 0%nat) + coA t * (p 1%nat - q 1%nat)) by (destruct G; repeat split; assumption).
  rewrite <- V0, <- V1. unfold coA, coB. destruct (Rlt_dec e14 (Rabs t)) as [L|L].
  - unfold r. rewrite !se2_integrate_exact by (first [lia | right; rewrite D2; assumption]). unfold planarFlow. cbv zeta. rewrite D2, D0, D1.
    split; field.
  - unfold r. destruct (planar_small q (lg_difference eps LSE2 q p) ltac:(rewrite D2; exact L)) as [I0 I1].
    change (lg_integrate 0 LSE2 q (lg_difference eps LSE2 q p)) with (lg_integrate eps LSE2 q (lg_difference eps LSE2 q p)) in I0, I1.
    rewrite I0, I1, D0, D1. split; field.
Qed.
Lemma se2_reaches eps q p : onGroup LSE2 q -> onGroup LSE2 p -> reaches e14 LSE2 q p (lg_integrate eps LSE2 q (lg_difference eps LSE2 q p)).
Proof.
  intros H K. destruct (se2_int_diff eps q p H K) as [R0 [R1 [R2 [R3 B]]]]. destruct (co_all _ B) as [A1 A2]. cbn [reaches]. split.
  - intros k Hk. unfold shift. destruct k as [|[|k]]; [exact R2 | exact R3 | lia].
  - set (x := p 0%nat - q 0%nat) in *. set (y := p 1%nat - q 1%nat) in *. set (t := atan2 (crs2 q p) (dot2 q p)) in *.
    pose proof (Rabs_pos x). pose proof (Rabs_pos y). pose proof e14_pos. intros k Hk.
    assert (T : forall u v, Rabs (u + v) <= Rabs u + Rabs v) by apply Rabs_triang.
    destruct k as [|[|k]]; [| |lia].
    + rewrite R0. replace (q 0%nat + coA t * x + coB t * y - p 0%nat) with ((coA t - 1) * x + coB t * y) by (unfold x; ring).
      eapply Rle_trans; [apply T|]. rewrite !Rabs_mult. nra.
    + rewrite R1. replace (q 1%nat - coB t * x + coA t * y - p 1%nat) with (- coB t * x + (coA t - 1) * y) by (unfold y; ring).
      eapply Rle_trans; [apply T|]. rewrite !Rabs_mult, Rabs_Ropp. nra.
Qed.
Lemma se2_diff_int eps q v : onGroup LSE2 q -> - PI < v 2%nat <= PI ->
  let d := lg_difference eps LSE2 q (lg_integrate eps LSE2 q v) in let t := v 2%nat in
  d 0%nat = coA t * v 0%nat + coB t * v 1%nat /\ d 1%nat = - coB t * v 0%nat + coA t * v 1%nat /\ d 2%nat = t.
Proof.
  intros H B d t. pose proof (se2_on eps q v H) as K.
  destruct (se2_difference_eq eps q _ H K) as [D0 [D1 D2]]. fold d in D0, D1, D2. cbn [onGroup] in H.
  assert (T : atan2 (crs2 q (lg_integrate eps LSE2 q v)) (dot2 q (lg_integrate eps LSE2 q v)) = t).
  { unfold crs2, dot2. rewrite !se2_heading by lia. unfold planarFlow. cbv zeta. fold t.
    transitivity (atan2 (sin t) (cos t)); [|apply atan2_angle; exact B]. f_equal.
    - transitivity ((q 2%nat * q 2%nat + q 3%nat * q 3%nat) * sin t); [ring | rewrite H; ring].
    - transitivity ((q 2%nat * q 2%nat + q 3%nat * q 3%nat) * cos t); [ring | rewrite H; ring]. }
  rewrite T in *. clear T.
  assert (V : forall x y, q 2%nat * (q 2%nat * x - q 3%nat * y) + q 3%nat * (q 3%nat * x + q 2%nat * y) = x /\ - q 3%nat * (q 2%nat * x - q 3%nat * y) + q 2%nat * (q 3%nat * x + q 2%nat * y) = y).
  { intros x y. split; [transitivity ((q 2%nat * q 2%nat + q 3%nat * q 3%nat) * x) | transitivity ((q 2%nat * q 2%nat + q 3%nat * q 3%nat) * y)]; try ring; rewrite H; ring. }
  assert (E : exists x y, lg_integrate eps LSE2 q v 0%nat - q 0%nat = q 2%nat * x - q 3%nat * y /\ lg_integrate eps LSE2 q v 1%nat - q 1%nat = q 3%nat * x + q 2%nat * y /\
     se2_alpha t * x + t / 2 * y = coA t * v 0%nat + coB t * v 1%nat /\ se2_alpha t * y - t / 2 * x = - coB t * v 0%nat + coA t * v 1%nat).
  { unfold coA, coB. destruct (Rlt_dec e14 (Rabs t)) as [L|L].
    - exists (sinc t * v 0%nat - t * cosc t * v 1%nat), (t * cosc t * v 0%nat + sinc t * v 1%nat).
      rewrite !se2_integrate_exact by (first [lia | right; exact L]). unfold planarFlow. cbv zeta. fold t. repeat split; field.
    - exists (v 0%nat), (v 1%nat). destruct (planar_small q v L) as [I0 I1].
      change (lg_integrate 0 LSE2 q v) with (lg_integrate eps LSE2 q v) in I0, I1. rewrite I0, I1. repeat split; field. }
  destruct E as [x [y [E0 [E1 [E2 E3]]]]]. rewrite E0, E1 in *. destruct (V x y) as [V0 V1]. rewrite V0, V1 in *.
  rewrite D0, D1, D2, E2, E3. repeat split; reflexivity.
Qed.
Lemma se2_diff_int_close eps q v : onGroup LSE2 q -> - PI < v 2%nat <= PI ->
  let d := lg_difference eps LSE2 q (lg_integrate eps LSE2 q v) in
  d 2%nat = v 2%nat /\ (forall k, (k < 2)%nat -> Rabs (d k - v k) <= e14 * (Rabs (v 0%nat) + Rabs (v 1%nat))) /\
  (1 / 10 ^ 4 <= Rabs (v 2%nat) -> eqTo 3 d v).
Proof.
  intros H B d. destruct (se2_diff_int eps q v H B) as [D0 [D1 D2]]. fold d in D0, D1, D2.
  assert (Bt : Rabs (v 2%nat) <= PI) by (apply Rabs_le; lra). destruct (co_all _ Bt) as [A1 A2].
  split; [exact D2|]. split.
  - pose proof (Rabs_pos (v 0%nat)). pose proof (Rabs_pos (v 1%nat)). pose proof e14_pos. intros k Hk.
    assert (T : forall u v, Rabs (u + v) <= Rabs u + Rabs v) by apply Rabs_triang. set (t := v 2%nat) in *.
    destruct k as [|[|k]]; [| |lia].
    + rewrite D0. replace (coA t * v 0%nat + coB t * v 1%nat - v 0%nat) with ((coA t - 1) * v 0%nat + coB t * v 1%nat) by ring.
      eapply Rle_trans; [apply T|]. rewrite !Rabs_mult. nra.
    + rewrite D1. replace (- coB t * v 0%nat + coA t * v 1%nat - v 1%nat) with (- coB t * v 0%nat + (coA t - 1) * v 1%nat) by ring.
      eapply Rle_trans; [apply T|]. rewrite !Rabs_mult, Rabs_Ropp. nra.
  - intros L k Hk. destruct (co_big (v 2%nat) ltac:(lra)) as [CA CB]. rewrite CA, CB in *. destruct k as [|[|[|k]]]; [| | |lia]; [rewrite D0 | rewrite D1 | rewrite D2]; ring.
Qed.
