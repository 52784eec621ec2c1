Require Import Reals Lra Arith Bool List Lia.
From Verif Require Import Vec3 Spatial Joints JointFacts Model Kinematics Deriv Rot RotFacts ExpLog Spec_Exp ExpFacts ExpFacts2 ExpFacts3 ExpFacts4 ExpFacts5 LieGroup Spec_Lie LieFacts LieFacts2.
Local Open Scope R_scope.

Lemma quatAt_Out p : quatAt (quatOut p) = p. Proof. destruct p; reflexivity. Qed.
Lemma v3At_Out p : v3At (v3Out p) = p. Proof. destruct p; reflexivity. Qed.
Lemma join_lo n f g k : (k < n)%nat -> join n f g k = f k.
Proof. intros H. unfold join. rewrite (proj2 (Nat.ltb_lt k n) H). reflexivity. Qed.
Lemma join_hi n f g k : join n f g (n + k)%nat = g k.
Proof. unfold join. rewrite (proj2 (Nat.ltb_ge (n + k)%nat n)) by lia. f_equal. lia. Qed.
Lemma quatAt_joinhi n f g : quatAt (shift n (join n f g)) = quatAt g.
Proof. unfold quatAt, shift. rewrite !join_hi. reflexivity. Qed.
Lemma v3At_joinlo f g : v3At (join 3 f g) = v3At f. Proof. reflexivity. Qed.
Lemma on_so3 q : onGroup LSO3 q <-> qnorm2 (quatAt q) = 1.
Proof. cbn [onGroup]. unfold qnorm2, qdot, quatAt. cbn. split; intros H; lra. Qed.
Lemma on_se3 q : onGroup LSE3 q <-> qnorm2 (quatAt (shift 3 q)) = 1.
Proof. cbn [onGroup]. unfold qnorm2, qdot, quatAt, shift. cbn. split; intros H; lra. Qed.
Lemma qtransform_mat q v : qtransform q v = m3vec (qmat q) v.
Proof. destruct q, v. unfold qtransform, qmat, quatMatrix, m3vec, v3add, v3scale, v3cross, qvec. cbn. f_equal; ring. Qed.
Lemma qmul_1 q : qmul q (mkQ 0 0 0 1) = q. Proof. destruct q. unfold qmul. cbn. f_equal; ring. Qed.
Lemma qscale_norm k q : qnorm2 (qscale k q) = k * k * qnorm2 q. Proof. unfold qnorm2, qdot, qscale. cbn. ring. Qed.

(* ---------- norm ---------- *)
Lemma ts3_le1 eps : 0 < eps <= 1 / 4 -> 0 < ts3 eps <= 1.
Proof.
  intros H. unfold ts3. split; [apply sqrt_lt_R0, sqrt_lt_R0; lra|].
  rewrite <- sqrt_1. apply sqrt_le_1_alt. rewrite <- sqrt_1. apply sqrt_le_1_alt. lra.
Qed.
Lemma eE_pos eps : 0 < eps <= 1 / 4 -> 0 < eE eps <= 1 / 4 + 1 / 46080.
Proof.
  intros H. unfold eE. pose proof (ts3_le1 eps H) as [T0 T1]. assert (0 <= ts3 eps ^ 3 <= 1).
  { split; [apply pow_le; lra|]. rewrite <- (pow1 3). apply pow_incr. lra. }
  lra.
Qed.
Lemma exp_norm_err eps v : 0 < eps <= 1 / 4 -> Rabs (qnorm2 (qexp3 eps v) - 1) <= 2 * eE eps.
Proof.
  intros H. pose proof (qexp3_norm eps v H) as N. pose proof (ts3_le1 eps H) as [T0 T1]. assert (0 <= ts3 eps ^ 3) by (apply pow_le; lra).
  apply Rabs_le. unfold eE. split; nra.
Qed.
Lemma fon_opp q : firstOrderNormalize (qscale (-1) q) = qscale (-1) (firstOrderNormalize q).
Proof. unfold firstOrderNormalize. rewrite qscale_norm. unfold qscale. cbn. f_equal; field. Qed.
Definition so3_out (eps : R) (q : vec) (v : V3) : Quat := firstOrderNormalize (qmul (quatAt q) (qexp3 eps v)).
Lemma so3_integrate_eq eps q v : quatAt (lg_integrate eps LSO3 q v) = so3_out eps q (v3At v).
Proof. cbn [lg_integrate]. rewrite quatAt_Out. reflexivity. Qed.
Lemma se3_integrate_quat eps q v : exists s, (s = 1 \/ s = -1) /\ quatAt (shift 3 (lg_integrate eps LSE3 q v)) = qscale s (so3_out eps (shift 3 q) (v3At (shift 3 v))) /\
  0 <= qdot (qmul (quatAt (shift 3 q)) (qexp3 eps (v3At (shift 3 v)))) (quatAt (shift 3 q)) * s.
Proof.
  cbn [lg_integrate]. cbv zeta. rewrite quatAt_joinhi, quatAt_Out. unfold qexp6. cbv zeta. cbn [snd ang v6At]. unfold so3_out.
  set (r := qmul _ _). destruct (Rlt_dec (qdot r (quatAt (shift 3 q))) 0) as [L|L].
  - exists (-1). split; [right; reflexivity|]. split; [apply fon_opp | lra].
  - exists 1. split; [left; reflexivity|]. split; [destruct (firstOrderNormalize r) as [a b c d]; unfold qscale; cbn; f_equal; ring | lra].
Qed.
Lemma se3_integrate_trans eps q v : v3At (lg_integrate eps LSE3 q v) = v3add (v3At q) (m3vec (qmat (quatAt (shift 3 q))) (fst (qexp6 eps (v6At v)))).
Proof.
  cbn [lg_integrate]. cbv zeta. rewrite v3At_joinlo, v3At_Out, qtransform_mat.
  destruct (m3vec _ _), (v3At q). unfold v3add. cbn. f_equal; ring.
Qed.
Lemma so3_norm_gen eps q v : 0 < eps <= 1 / 4 -> forall N, qnorm2 (quatAt q) = N -> Rabs (N - 1) <= 1 -> 
  Rabs (qnorm2 (so3_out eps q v) - 1) <= (N * qnorm2 (qexp3 eps v) - 1) * (N * qnorm2 (qexp3 eps v) - 1).
Proof.
  intros H N HN B. unfold so3_out. rewrite <- HN, <- qmul_norm. apply fon_quad. rewrite qmul_norm, HN.
  pose proof (exp_norm_err eps v H) as E. pose proof (eE_pos eps H). apply rabs_inv in E. apply rabs_inv in B. nra.
Qed.
Lemma so3_norm eps q v : 0 < eps <= 1 / 4 -> qnorm2 (quatAt q) = 1 ->
  Rabs (qnorm2 (so3_out eps q v) - 1) <= (qnorm2 (qexp3 eps v) - 1) * (qnorm2 (qexp3 eps v) - 1).
Proof. intros H N. pose proof (so3_norm_gen eps q v H 1 N) as X. rewrite Rmult_1_l in X. apply X. replace (1 - 1) with 0 by ring. rewrite Rabs_R0. lra. Qed.
(* the norm error does not grow along a sequence of integrations *)
Lemma so3_drift eps q v : 0 < eps <= 1 / 64 -> Rabs (qnorm2 (quatAt q) - 1) <= 16 * eE eps * eE eps -> Rabs (qnorm2 (so3_out eps q v) - 1) <= 16 * eE eps * eE eps.
Proof.
  intros H B. assert (H' : 0 < eps <= 1 / 4) by lra.
  assert (e : 0 < eE eps <= 1 / 63).
  { unfold eE. pose proof (ts3_le1 eps H') as [T0 T1]. assert (0 <= ts3 eps ^ 3 <= 1). { split; [apply pow_le; lra|]. rewrite <- (pow1 3). apply pow_incr. lra. } lra. }
  pose proof (exp_norm_err eps v H') as E. set (d := eE eps) in *. set (N := qnorm2 (quatAt q)) in *. set (M := qnorm2 (qexp3 eps v)) in *.
  apply rabs_inv in B. apply rabs_inv in E.
  eapply Rle_trans; [apply (so3_norm_gen eps q v H' N eq_refl); apply Rabs_le; nra|]. fold M.
  assert (X : - (4 * d) <= N * M - 1 <= 4 * d).
  { replace (N * M - 1) with ((N - 1) * M + (M - 1)) by ring. split; nra. }
  nra.
Qed.
Lemma so3_steps eps : 0 < eps <= 1 / 64 -> forall l q, Rabs (qnorm2 (quatAt q) - 1) <= 16 * eE eps * eE eps -> Rabs (qnorm2 (quatAt (steps eps LSO3 q l)) - 1) <= 16 * eE eps * eE eps.
Proof. intros H. induction l as [|v l IH]; intros q B; [exact B|]. cbn [steps]. apply IH. rewrite so3_integrate_eq. apply so3_drift; assumption. Qed.
Lemma se3_steps eps : 0 < eps <= 1 / 64 -> forall l q, Rabs (qnorm2 (quatAt (shift 3 q)) - 1) <= 16 * eE eps * eE eps -> Rabs (qnorm2 (quatAt (shift 3 (steps eps LSE3 q l))) - 1) <= 16 * eE eps * eE eps.
Proof.
  intros H. induction l as [|v l IH]; intros q B; [exact B|]. cbn [steps]. apply IH.
  destruct (se3_integrate_quat eps q v) as [s [S [E _]]]. rewrite E, qscale_norm.
  replace (s * s) with 1 by (destruct S as [-> | ->]; ring). rewrite Rmult_1_l. apply so3_drift; assumption.
Qed.

(* ---------- zero ---------- *)
Lemma qexp6_zero eps nu : 0 < eps <= 1 / 4 -> nu = v6zero -> qexp6 eps nu = (v3zero, mkQ 0 0 0 1).
Proof.
  intros H ->. unfold qexp6. cbv zeta. cbn [ang lin v6zero]. change (qexp3 eps (mkV3 0 0 0)) with (qexp3 eps v3zero).
  rewrite qexp3_zero by exact H. f_equal. unfold v3add, v3scale, v3cross, v3zero. cbn. f_equal; ring.
Qed.
Lemma so3_zero eps q v : 0 < eps <= 1 / 4 -> onGroup LSO3 q -> (forall k, (k < 3)%nat -> v k = 0) -> eqTo 4 (lg_integrate eps LSO3 q v) q.
Proof.
  intros H G V k Hk. apply (proj1 (on_so3 q)) in G. cbn [lg_integrate]. assert (Z : v3At v = v3zero) by (unfold v3At; rewrite !V by lia; reflexivity).
  rewrite Z, qexp3_zero, qmul_1, fon_fix by assumption. destruct k as [|[|[|[|k]]]]; [reflexivity | reflexivity | reflexivity | reflexivity | lia].
Qed.
Lemma se3_zero eps q v : 0 < eps <= 1 / 4 -> onGroup LSE3 q -> (forall k, (k < 6)%nat -> v k = 0) -> eqTo 7 (lg_integrate eps LSE3 q v) q.
Proof.
  intros H G V k Hk. apply (proj1 (on_se3 q)) in G. cbn [lg_integrate]. cbv zeta.
  assert (Z : v6At v = v6zero) by (unfold v6At, v3At, shift; rewrite !V by (cbn; lia); reflexivity).
  rewrite qexp6_zero by assumption. cbn [fst snd]. rewrite qmul_1. change (qdot (quatAt (shift 3 q)) (quatAt (shift 3 q))) with (qnorm2 (quatAt (shift 3 q))).
  rewrite G. destruct (Rlt_dec 1 0); [lra|]. rewrite fon_fix by exact G.
  assert (T : qtransform (quatAt (shift 3 q)) v3zero = v3zero) by (unfold qtransform, v3add, v3scale, v3cross, v3zero; cbn; f_equal; ring). rewrite T.
  destruct k as [|[|[|[|[|[|[|k]]]]]]]; try lia; unfold join, shift; cbn; first [reflexivity | ring].
Qed.

(* ---------- closeness to the exact motion ---------- *)
Definition qsub (a b : Quat) : Quat := mkQ (qx a - qx b) (qy a - qy b) (qz a - qz b) (qw a - qw b).
Lemma qclose_norm d a b : 0 <= d -> qclose d a b -> qnorm2 (qsub a b) <= 4 * d * d.
Proof.
  intros D [A [B [C E]]]. unfold qnorm2, qdot, qsub. cbn. apply rabs_inv in A, B, C, E.
  assert (S : forall x, - d <= x <= d -> x * x <= d * d) by (intros; nra). specialize (S) as S0.
  pose proof (S0 _ A). pose proof (S0 _ B). pose proof (S0 _ C). pose proof (S0 _ E). lra.
Qed.
Lemma norm_qclose d a b : 0 <= d -> qnorm2 (qsub a b) <= d * d -> qclose d a b.
Proof.
  intros D H. unfold qnorm2, qdot, qsub in H. cbn in H.
  assert (S : forall x, x * x <= d * d -> Rabs x <= d) by (intros x Hx; apply Rabs_le; nra).
  pose proof (Rle_0_sqr (qx a - qx b)) as X. pose proof (Rle_0_sqr (qy a - qy b)) as Y. pose proof (Rle_0_sqr (qz a - qz b)) as Z. pose proof (Rle_0_sqr (qw a - qw b)) as W. unfold Rsqr in *.
  repeat split; apply S; lra.
Qed.
Lemma qmul_sub q a b : qsub (qmul q a) (qmul q b) = qmul q (qsub a b). Proof. unfold qsub, qmul. cbn. f_equal; ring. Qed.
Lemma qclose_tri d e a b c : qclose d a b -> qclose e b c -> qclose (d + e) a c.
Proof.
  intros [A [B [C E]]] [A' [B' [C' E']]]. unfold qclose. apply rabs_inv in A, B, C, E, A', B', C', E'.
  repeat split; apply Rabs_le; lra.
Qed.
Lemma qclose_opp d a b : qclose d a b -> qclose d (qscale (-1) a) (qscale (-1) b).
Proof. intros [A [B [C E]]]. unfold qclose, qscale. cbn. apply rabs_inv in A, B, C, E. repeat split; apply Rabs_le; lra. Qed.
Lemma qclose_mono d e a b : qclose d a b -> d <= e -> qclose e a b.
Proof. intros [A [B [C E]]] L. repeat split; eapply Rle_trans; eauto. Qed.
Lemma comp_norm q N : qnorm2 q <= N * N -> 0 <= N -> Rabs (qx q) <= N /\ Rabs (qy q) <= N /\ Rabs (qz q) <= N /\ Rabs (qw q) <= N.
Proof.
  intros H P. unfold qnorm2, qdot in H.
  pose proof (Rle_0_sqr (qx q)) as X. pose proof (Rle_0_sqr (qy q)) as Y. pose proof (Rle_0_sqr (qz q)) as Z. pose proof (Rle_0_sqr (qw q)) as W. unfold Rsqr in *.
  repeat split; apply Rabs_le; nra.
Qed.
Lemma so3_close eps q v : 0 < eps <= 1 / 4 -> qnorm2 (quatAt q) = 1 -> qclose (4 * eE eps) (so3_out eps q v) (qmul (quatAt q) (Qexp v)).
Proof.
  intros H N. pose proof (eE_pos eps H) as P. set (d := eE eps) in *.
  pose proof (qexp3_close eps v H) as C. fold (eE eps) in C. fold d in C.
  pose proof (exp_norm_err eps v H) as E. fold d in E. apply rabs_inv in E.
  set (r := qmul (quatAt q) (qexp3 eps v)).
  assert (Nr : qnorm2 r = qnorm2 (qexp3 eps v)) by (unfold r; rewrite qmul_norm, N; ring).
  assert (C1 : qclose (2 * d) r (qmul (quatAt q) (Qexp v))).
  { apply norm_qclose; [lra|]. unfold r. rewrite qmul_sub, qmul_norm, N, Rmult_1_l. eapply Rle_trans; [apply qclose_norm; [|exact C]; lra | lra]. }
  assert (C2 : qclose (2 * d) (so3_out eps q v) r).
  { unfold so3_out. fold r. unfold firstOrderNormalize. cbv zeta. rewrite Nr. set (M := qnorm2 (qexp3 eps v)) in *.
    destruct (comp_norm r 2) as [A [B [C' D]]]; [rewrite Nr; lra | lra|].
    assert (K : forall x, Rabs x <= 2 -> Rabs ((3 - M) / 2 * x - x) <= 2 * d).
    { intros x Hx. replace ((3 - M) / 2 * x - x) with ((1 - M) / 2 * x) by field. rewrite Rabs_mult.
      assert (Rabs ((1 - M) / 2) <= d) by (apply Rabs_le; lra). pose proof (Rabs_pos x). pose proof (Rabs_pos ((1 - M) / 2)). nra. }
    unfold qclose, qscale. cbn [qx qy qz qw]. repeat split; apply K; assumption. }
  replace (4 * d) with (2 * d + 2 * d) by ring. eapply qclose_tri; eassumption.
Qed.
Lemma m3vec_close q u v d : qnorm2 q = 1 -> 0 <= d -> v3close d u v -> v3close (2 * d) (m3vec (qmat q) u) (m3vec (qmat q) v).
Proof.
  intros N D [A [B C]]. apply rabs_inv in A, B, C.
  pose proof (qmat_rot q N) as [RT _]. set (M := qmat q) in *.
  set (x := v3sub u v).
  assert (X : v3dot x x <= 3 * (d * d)). { unfold x, v3dot, v3sub. cbn. nra. }
  assert (Y : v3dot (m3vec M x) (m3vec M x) = v3dot x x).
  { unfold orthogonal in RT. assert (E : m3vec (m3mul (m3tr M) M) x = x). { rewrite RT. destruct x. unfold m3vec, m3id. cbn. f_equal; ring. }
    transitivity (v3dot x (m3vec (m3mul (m3tr M) M) x)); [|rewrite E; reflexivity]. destruct M, x. unfold v3dot, m3vec, m3mul, m3tr. cbn. ring. }
  assert (Z : m3vec M x = v3sub (m3vec M u) (m3vec M v)). { unfold x. destruct M, u, v. unfold m3vec, v3sub. cbn. f_equal; ring. }
  rewrite Z in Y. rewrite <- Y in X. unfold v3dot, v3sub in X. cbn [vx vy vz] in X.
  pose proof (Rle_0_sqr (vx (m3vec M u) - vx (m3vec M v))) as S1. pose proof (Rle_0_sqr (vy (m3vec M u) - vy (m3vec M v))) as S2. pose proof (Rle_0_sqr (vz (m3vec M u) - vz (m3vec M v))) as S3. unfold Rsqr in *.
  assert (F : forall y, y * y <= 3 * (d * d) -> Rabs y <= 2 * d).
  { intros y Hy. pose proof (Rle_0_sqr d) as D2. unfold Rsqr in D2. apply Rabs_le. split; apply Rnot_lt_le; intros K; nra. }
  repeat split; apply F; lra.
Qed.
Lemma se3_close eps q v : 0 < eps <= 1 / 4 -> onGroup LSE3 q -> let r := lg_integrate eps LSE3 q v in
  sameRotation (4 * eE eps) (quatAt (shift 3 r)) (qmul (quatAt (shift 3 q)) (Qexp (v3At (shift 3 v)))) /\
  v3close (28 * eps * v3norm (v3At v)) (v3At r) (v3add (v3At q) (m3vec (qmat (quatAt (shift 3 q))) (Texp (v6At v)))).
Proof.
  intros H G r. apply (proj1 (on_se3 q)) in G. split.
  - destruct (se3_integrate_quat eps q v) as [s [S [E _]]]. fold r in E. rewrite E. pose proof (so3_close eps (shift 3 q) (v3At (shift 3 v)) H G) as C.
    destruct S as [-> | ->].
    + left. destruct (so3_out eps (shift 3 q) (v3At (shift 3 v))) as [a b c d]. unfold qscale. cbn. rewrite !Rmult_1_l. exact C.
    + right. apply qclose_opp. exact C.
  - unfold r. rewrite se3_integrate_trans.
    destruct (qexp6_close eps (v6At v) H) as [_ C]. cbn [lin v6At trans SE3exp] in C.
    pose proof (norm_nonneg (v3At v)) as Nn.
    pose proof (m3vec_close _ _ _ (14 * eps * v3norm (v3At v)) G ltac:(nra) C) as [A [B D]].
    unfold v3close, v3add. cbn [vx vy vz]. apply rabs_inv in A, B, D. repeat split; apply Rabs_le; lra.
Qed.
