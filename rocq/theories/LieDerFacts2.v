(* dIntegrate on SO(3) and SE(3) *)
Require Import Reals Lra Lia Arith List.
From Verif Require Import Vec3 Spatial Rot Deriv Joints JointFacts ExpLog Spec_Exp ExpFacts ExpFacts2 ExpFacts3 ExpFacts4 ExpJac Spec_ExpJac ExpJacFacts ExpJacFacts2 Kinematics LieGroup Spec_Lie
  LieFacts LieFacts3 LieFacts4 LieFacts7 RotFacts LogMat Spec_LogMat LogMatFacts5 LogMatFacts6 LieDer Spec_LieDer LieDerFacts.
Local Open Scope R_scope.

Lemma turns_mul A B a b t : isRotation (B t) -> turns A a t -> turns B b t -> turns (fun u => m3mul (A u) (B u)) (v3add (m3vec (m3tr (B t)) a) b) t.
Proof.
  intros HB HA HBt. pose proof (hasTwist_mul (fun u => mkSE3 (A u) v3zero) (fun u => mkSE3 (B u) v3zero) _ _ t HB (hasTwist_pure_rot A a t HA) (hasTwist_pure_rot B b t HBt)) as [D _]. exact D.
Qed.
Lemma rexp_opp v : Rexp (v3opp v) = m3tr (Rexp v).
Proof.
  assert (E : v3norm (v3opp v) = v3norm v). { unfold v3norm. f_equal. unfold v3dot, v3opp. cbn [vx vy vz]. ring. }
  unfold Rexp. rewrite E. generalize (cos (v3norm v)) (sinc (v3norm v)) (cosc (v3norm v)). intros a b c. destruct v as [x y z].
  apply m3_ext; cbv [m3add m3scale m3id skew m3outer m3tr v3opp vx vy vz m00 m01 m02 m10 m11 m12 m20 m21 m22]; ring.
Qed.
Lemma mul_close a b x d n : Rabs (a - b) <= d -> Rabs x <= n -> Rabs (a * x - b * x) <= d * n.
Proof. intros H K. replace (a * x - b * x) with ((a - b) * x) by ring. rewrite Rabs_mult. apply Rmult_le_compat; try apply Rabs_pos; assumption. Qed.
Lemma sum3_close a b c a' b' c' d : Rabs (a - a') <= d -> Rabs (b - b') <= d -> Rabs (c - c') <= d -> Rabs (a + b + c - (a' + b' + c')) <= 3 * d.
Proof.
  intros H1 H2 H3. replace (a + b + c - (a' + b' + c')) with ((a - a') + (b - b') + (c - c')) by ring.
  pose proof (Rabs_triang (a - a' + (b - b')) (c - c')). pose proof (Rabs_triang (a - a') (b - b')). lra.
Qed.
Lemma m3close_vec d A B x n : m3close d A B -> v3close n x v3zero -> v3close (3 * (d * n)) (m3vec A x) (m3vec B x).
Proof.
  intros (H0 & H1 & H2 & H3 & H4 & H5 & H6 & H7 & H8) (K0 & K1 & K2). cbn in K0, K1, K2. rewrite Rminus_0_r in K0, K1, K2.
  destruct A as [a0 a1 a2 a3 a4 a5 a6 a7 a8], B as [b0 b1 b2 b3 b4 b5 b6 b7 b8], x as [x y z]. cbn in *.
  repeat split; cbn; apply sum3_close; apply mul_close; assumption.
Qed.
Lemma v3close_self v : v3close (v3norm v) v v3zero.
Proof. destruct (v3_comp v) as (A & B & C). repeat split; cbn; rewrite Rminus_0_r; assumption. Qed.
Lemma m3close_tr d A B : m3close d A B -> m3close d (m3tr A) (m3tr B). Proof. unfold m3close; cbn. tauto. Qed.
Lemma v3close_add d e a b x y : v3close d a b -> v3close e x y -> v3close (d + e) (v3add a x) (v3add b y).
Proof.
  intros (A & B & C) (X & Y & Z). repeat split; cbn;
  [replace (vx a + vx x - (vx b + vx y)) with ((vx a - vx b) + (vx x - vx y)) by ring
  |replace (vy a + vy x - (vy b + vy y)) with ((vy a - vy b) + (vy x - vy y)) by ring
  |replace (vz a + vz x - (vz b + vz y)) with ((vz a - vz b) + (vz x - vz y)) by ring]; eapply Rle_trans; try apply Rabs_triang; lra.
Qed.
Lemma v3close_le d e a b : d <= e -> v3close d a b -> v3close e a b. Proof. intros H (A & B & C). repeat split; lra. Qed.
Lemma v3close_sym d a b : v3close d a b -> v3close d b a. Proof. intros (A & B & C). repeat split; rewrite Rabs_minus_sym; assumption. Qed.
Lemma v3close_refl d a : 0 <= d -> v3close d a a. Proof. intros H. repeat split; rewrite Rminus_eq_0, Rabs_R0; exact H. Qed.

Lemma dint_so3 eps q w v dv p t J K : 0 < eps <= 1 / 4 -> turning eps LSO3 (v t) -> movesAt LSO3 q w t -> derivTo 3 v dv t -> (forall u, leadsTo LSO3 (q u) (v u) (p u)) ->
  exists w', movesAt LSO3 p w' t /\
  sameRate eps LSO3 (v t) w w' (fun k => jacMul 3 (lg_dIntegrate eps LSO3 ARG0 SETTO (v t) J) w k + jacMul 3 (lg_dIntegrate eps LSO3 ARG1 SETTO (v t) K) dv k).
Proof.
  intros He T M D L. exists (v3Out (v3add (m3vec (m3tr (Rexp (v3At (v t)))) (v3At w)) (m3vec (Jr (v3At (v t))) (v3At dv)))). split.
  - unfold movesAt, turns. eapply (derivM3_ext _ (fun u => m3mul (qmat (quatAt (q u))) (Rexp (v3At (v u))))); [intros u; apply L|].
    pose proof (turns_mul (fun u => qmat (quatAt (q u))) (fun u => Rexp (v3At (v u))) _ _ t (rodrigues_rot _) M (exp_turns _ _ t (deriv3_at v dv t D))) as X. unfold turns in X. cbv beta in X.
    rewrite (L t). unfold v3At at 3. cbn [v3Out]. eapply derivM3_eq; [exact X|]. reflexivity.
  - cbn [sameRate lg_dIntegrate lg_dIntegrate_dq lg_dIntegrate_dv put3]. rewrite v3At_add, !jac3_at, (jexp_big eps (v3At (v t)) _ (proj1 He) T).
    assert (E : forall a, v3At (v3Out a) = a) by (intros [x y z]; reflexivity). rewrite E.
    replace (12 * eps * v3norm (v3At w)) with (3 * (4 * eps * v3norm (v3At w)) + 0) by ring. apply v3close_add; [|apply v3close_refl; lra].
    apply v3close_sym. rewrite <- rexp_opp. apply m3close_vec; [apply exp3_close, He | apply v3close_self].
Qed.

(* bounds *)
Lemma ortho_one x y z : x * x + y * y + z * z = 1 -> Rabs x <= 1 /\ Rabs y <= 1 /\ Rabs z <= 1.
Proof. intros H. pose proof (Rle_0_sqr x). pose proof (Rle_0_sqr y). pose proof (Rle_0_sqr z). unfold Rsqr in *. repeat split; apply Rabs_le; split; nra. Qed.
Lemma rot_entries A : isRotation A -> m3close 1 (m3tr A) m3zero.
Proof.
  intros [O _]. unfold orthogonal in O. destruct A as [a0 a1 a2 a3 a4 a5 a6 a7 a8].
  assert (E0 := f_equal m00 O). assert (E1 := f_equal m11 O). assert (E2 := f_equal m22 O). cbn in E0, E1, E2.
  destruct (ortho_one _ _ _ E0) as (X0 & X1 & X2). destruct (ortho_one _ _ _ E1) as (Y0 & Y1 & Y2). destruct (ortho_one _ _ _ E2) as (Z0 & Z1 & Z2).
  unfold m3close; cbn. rewrite !Rminus_0_r. tauto.
Qed.
Lemma cross_close d n p a : v3close d p v3zero -> v3close n a v3zero -> v3close (2 * (d * n)) (v3cross p a) v3zero.
Proof.
  intros (A & B & C) (X & Y & Z). cbn in A, B, C, X, Y, Z. rewrite Rminus_0_r in A, B, C, X, Y, Z.
  assert (K : forall x y x' y', Rabs x <= d -> Rabs y <= n -> Rabs x' <= d -> Rabs y' <= n -> Rabs (x * y - x' * y' - 0) <= 2 * (d * n)).
  { intros x y x' y' H1 H2 H3 H4. replace (x * y - x' * y' - 0) with (x * y + - (x' * y')) by ring. eapply Rle_trans; [apply Rabs_triang|]. rewrite Rabs_Ropp, !Rabs_mult.
    assert (Rabs x * Rabs y <= d * n) by (apply Rmult_le_compat; try apply Rabs_pos; assumption).
    assert (Rabs x' * Rabs y' <= d * n) by (apply Rmult_le_compat; try apply Rabs_pos; assumption). lra. }
  repeat split; cbn; apply K; assumption.
Qed.
Lemma v3close_sub d e a b x y : v3close d a b -> v3close e x y -> v3close (d + e) (v3sub a x) (v3sub b y).
Proof.
  intros (A & B & C) (X & Y & Z). repeat split; cbn;
  [replace (vx a - vx x - (vx b - vx y)) with ((vx a - vx b) + - (vx x - vx y)) by ring
  |replace (vy a - vy x - (vy b - vy y)) with ((vy a - vy b) + - (vy x - vy y)) by ring
  |replace (vz a - vz x - (vz b - vz y)) with ((vz a - vz b) + - (vz x - vz y)) by ring]; eapply Rle_trans; try apply Rabs_triang; rewrite Rabs_Ropp; lra.
Qed.
Lemma sinc_one x : 0 <= x -> Rabs (sinc x) <= 1.
Proof.
  intros H. unfold sinc. destruct (Req_EM_T x 0) as [E|N]; [rewrite Rabs_pos_eq; lra|]. unfold Rdiv. rewrite Rabs_mult, (Rabs_pos_eq (/ x)).
  - pose proof (sin_le x H). apply Rmult_le_reg_r with x; [lra|]. rewrite Rmult_assoc, Rinv_l by exact N. lra.
  - left. apply Rinv_0_lt_compat. lra.
Qed.
Lemma cosc_one x : 0 <= x -> x * Rabs (cosc x) <= 1.
Proof.
  intros H. unfold cosc. destruct (Req_EM_T x 0) as [E|N]; [subst; lra|]. assert (P : 0 < x) by lra.
  pose proof (COS_bound x) as [B _]. pose proof (COS_bound x) as [_ B'].
  assert (S : 1 - cos x <= x * x / 2).
  { replace x with (2 * (x / 2)) at 1 by field. rewrite cos_2a_sin. pose proof (sin_le (x / 2) ltac:(lra)) as S. pose proof (Rabs_pos (sin (x / 2))).
    assert (Q : sin (x / 2) * sin (x / 2) <= x / 2 * (x / 2)). { replace (sin (x / 2) * sin (x / 2)) with (Rabs (sin (x / 2)) * Rabs (sin (x / 2))); [apply Rmult_le_compat; lra|]. rewrite <- Rabs_mult. apply Rabs_pos_eq. apply Rle_0_sqr. }
    lra. }
  assert (I : 0 < / (x * x)) by (apply Rinv_0_lt_compat; nra).
  rewrite Rabs_pos_eq by (unfold Rdiv; apply Rmult_le_pos; lra). apply Rmult_le_reg_r with x; [exact P|]. replace (x * ((1 - cos x) / (x * x)) * x) with (1 - cos x) by (field; exact N). nra.
Qed.
Lemma texp_bound nu : v3close (4 * v3norm (lin nu)) (Texp nu) v3zero.
Proof.
  unfold Texp. set (th := v3norm (ang nu)). assert (P : 0 <= th) by apply norm_nonneg.
  pose proof (trans_close (sinc th) (sinc3 th) (cosc th) 0 0 0 (lin nu) (ang nu) 1 2 1) as C. rewrite !Rminus_0_r in C. fold th in C.
  assert (Z : v3add (v3add (v3scale 0 (lin nu)) (v3scale (0 * v3dot (ang nu) (lin nu)) (ang nu))) (v3scale 0 (v3cross (ang nu) (lin nu))) = v3zero) by (destruct nu as [[a b c] [d e f]]; apply v3_ext; cbn; ring).
  rewrite Z in C. replace 4 with (1 + 2 + 1) by ring. apply C; [apply sinc_one, P| |apply cosc_one, P].
  rewrite <- (Rabs_pos_eq (th * th)) by nra. rewrite <- Rabs_mult, sinc3_mul. pose proof (sinc_one th P). unfold Rminus. eapply Rle_trans; [apply Rabs_triang|]. rewrite Rabs_Ropp, Rabs_R1. lra.
Qed.
Lemma dual_actInv M w : m66vec (dualActionTr M) w = motion_actInv M w.
Proof.
  destruct M as [[a b c d e f g h i] [x y z]], w as [[l0 l1 l2] [a0 a1 a2]]. unfold m66vec, dualActionTr, motion_actInv. cbn [tl6 tr6 bl6 br6 rot trans lin ang].
  f_equal; apply v3_ext; cbv [v3add v3sub v3cross m3vec m3tr m3mul skew m3scale m3id vx vy vz m00 m01 m02 m10 m11 m12 m20 m21 m22]; ring.
Qed.
Lemma m3vec_sub A x y : m3vec A (v3sub x y) = v3sub (m3vec A x) (m3vec A y).
Proof. destruct A, x, y. apply v3_ext; cbn; ring. Qed.
Lemma actInv_close eps nu w : 0 < eps <= 1 / 4 ->
  v3close (eps * (12 * v3norm (lin w) + 240 * v3norm (lin nu) * v3norm (ang w))) (lin (motion_actInv (SE3exp nu) w)) (lin (motion_actInv (exp6 eps nu) w)) /\
  v3close (12 * eps * v3norm (ang w)) (ang (motion_actInv (SE3exp nu) w)) (ang (motion_actInv (exp6 eps nu) w)).
Proof.
  intros He. destruct (exp6_close eps nu He) as [CR CP]. set (M' := exp6 eps nu) in *. clearbody M'. cbn [SE3exp rot trans] in CR, CP. pose proof (rot_entries _ (rodrigues_rot (ang nu))) as RE. pose proof (texp_bound nu) as TB.
  unfold motion_actInv. cbn [lin ang SE3exp rot trans]. set (A := Rexp (ang nu)) in *. clearbody A. set (p := Texp nu) in *. clearbody p.
  set (l := v3norm (lin w)). set (a := v3norm (ang w)). set (n := v3norm (lin nu)) in *. assert (Pl : 0 <= l) by apply norm_nonneg. assert (Pa : 0 <= a) by apply norm_nonneg. assert (Pn : 0 <= n) by apply norm_nonneg.
  assert (Pna : 0 <= n * a) by nra.
  pose proof (v3close_self (lin w)) as Cl. pose proof (v3close_self (ang w)) as Ca. fold l in Cl. fold a in Ca. pose proof (m3close_tr _ _ _ CR) as CT. split.
  - assert (P' : v3close (7 * n) (trans M') v3zero).
    { destruct TB as (T0 & T1 & T2), CP as (P0 & P1 & P2). cbn in T0, T1, T2. rewrite Rminus_0_r in T0, T1, T2.
      assert (K : forall x y, Rabs (x - y) <= 12 * eps * n -> Rabs y <= 4 * n -> Rabs (x - 0) <= 7 * n). { intros x y H1 H2. replace (x - 0) with ((x - y) + y) by ring. eapply Rle_trans; [apply Rabs_triang|]. nra. }
      repeat split; cbn; eapply K; eassumption. }
    assert (C1 : v3close (l + 14 * (n * a)) (v3sub (lin w) (v3cross (trans M') (ang w))) v3zero).
    { replace v3zero with (v3sub v3zero v3zero) by (apply v3_ext; cbn; ring). replace (14 * (n * a)) with (2 * (7 * n * a)) by ring. apply v3close_sub; [exact Cl|]. apply cross_close; assumption. }
    pose proof (m3close_vec _ _ _ _ _ CT C1) as C2.
    assert (C3 : v3close (12 * eps * n) (v3sub p (trans M')) v3zero). { destruct CP as (P0 & P1 & P2). repeat split; cbn; rewrite Rminus_0_r, Rabs_minus_sym; assumption. }
    pose proof (m3close_vec _ _ _ _ _ RE (cross_close _ _ _ _ C3 Ca)) as C4.
    assert (Z : forall x, m3vec m3zero x = v3zero) by (intros [x y z]; apply v3_ext; cbn; ring). rewrite Z in C4.
    assert (E : m3vec (m3tr A) (v3sub (lin w) (v3cross p (ang w))) = v3sub (m3vec (m3tr A) (v3sub (lin w) (v3cross (trans M') (ang w)))) (m3vec (m3tr A) (v3cross (v3sub p (trans M')) (ang w)))).
    { rewrite <- m3vec_sub. f_equal. destruct (lin w), (ang w), p, (trans M'). apply v3_ext; cbn; ring. }
    rewrite E. set (y := m3vec (m3tr (rot M')) (v3sub (lin w) (v3cross (trans M') (ang w)))) in *. replace y with (v3sub y v3zero) by (destruct y; apply v3_ext; cbn; ring).
    eapply v3close_le; [|apply v3close_sub; [apply v3close_sym; exact C2|exact C4]]. right. ring.
  - apply v3close_sym. replace (12 * eps * a) with (3 * (4 * eps * a)) by ring. apply m3close_vec; assumption.
Qed.
Lemma put66_set A J : put66 SETTO A J = A. Proof. destruct A; reflexivity. Qed.
Lemma dint_se3 eps q w v dv p t J K : 0 < eps <= 1 / 4 -> turning eps LSE3 (v t) -> movesAt LSE3 q w t -> derivTo 6 v dv t -> (forall u, leadsTo LSE3 (q u) (v u) (p u)) ->
  exists w', movesAt LSE3 p w' t /\
  sameRate eps LSE3 (v t) w w' (fun k => jacMul 6 (lg_dIntegrate eps LSE3 ARG0 SETTO (v t) J) w k + jacMul 6 (lg_dIntegrate eps LSE3 ARG1 SETTO (v t) K) dv k).
Proof.
  intros He [T T'] M D L.
  set (x := v6add (motion_actInv (SE3exp (v6At (v t))) (v6At w)) (m66vec (Jexp6 eps SETTO (v6At (v t)) (m66At K)) (v6At dv))).
  assert (E : v6At (v6Out x) = x) by (destruct x as [[? ? ?] [? ? ?]]; reflexivity). exists (v6Out x). split.
  - unfold movesAt. rewrite E. eapply (hasTwist_ext _ (fun u => se3_mul (poseOf (q u)) (SE3exp (v6At (v u))))); [intros u; apply L|].
    apply (hasTwist_mul (fun u => poseOf (q u)) (fun u => SE3exp (v6At (v u)))); [apply rodrigues_rot|exact M|]. apply jexp6_rate; [apply He|exact T|exact T'|apply deriv6_at, D].
  - cbn [sameRate lg_dIntegrate lg_dIntegrate_dq lg_dIntegrate_dv]. rewrite E, v6At_add, !jac6_at, put66_set. destruct (actInv_close eps (v6At (v t)) (v6At w) He) as [A B].
    rewrite dual_actInv. unfold x. cbn [v6add lin ang] in *. split.
    + replace (eps * _) with (eps * (12 * v3norm (lin (v6At w)) + 240 * v3norm (lin (v6At (v t))) * v3norm (ang (v6At w))) + 0) by ring. apply v3close_add; [exact A|apply v3close_refl; lra].
    + replace (12 * eps * _) with (12 * eps * v3norm (ang (v6At w)) + 0) by ring. apply v3close_add; [exact B|apply v3close_refl; lra].
Qed.
