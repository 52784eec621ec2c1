(* log6 of every placement. *)
Require Import Reals Arith Lra Lia Psatz.
From Verif Require Import Vec3 Spatial Rot RotFacts Joints JointFacts ExpLog LieGroup LieFacts Spec_Exp ExpFacts ExpFacts2 ExpFacts3 ExpFacts4 ExpFacts5 LogFacts LogFacts2 LogFacts3 LogFacts4 LieFacts10 ExpJac Spec_ExpJac ExpJacFacts ExpJacFacts2 ExpJacFacts3 LogMat LogMatFacts LogMatFacts2 LogMatFacts3 LogMatFacts4.
Local Open Scope R_scope.

Lemma texp_tr nu : Texp nu = m3vec (m3tr (Jr (ang nu))) (lin nu).
Proof.
  destruct nu as [v w]. unfold Texp, Jr. cbn [ang lin]. generalize (sinc (v3norm w)) (cosc (v3norm w)) (sinc3 (v3norm w)). intros a b c. destruct v, w.
  unfold v3add, v3scale, v3cross, v3dot, m3vec, m3tr, m3add, m3sub, m3scale, m3outer, m3id, skew. cbn. f_equal; ring.
Qed.
Lemma cos_ne1 x : 0 < x <= PI -> cos x < 1.
Proof. intros [A B]. rewrite <- cos_0. apply cos_decreasing_1; lra. Qed.
Lemma ts3_T eps : 0 < eps <= 1 / 4096 -> ts3 eps * ts3 eps <= ts2 eps / 4.
Proof.
  intros He. destruct (ts2_bounds eps He) as [_ B2]. pose proof (ts2_pos eps) as P. unfold ts3. rewrite sqrt_sqrt by apply sqrt_pos. rewrite (sqrt_T eps) by lra.
  assert (sqrt (ts2 eps) <= 1 / 4). { replace (1 / 4) with (sqrt (1 / 4 * (1 / 4))) by (apply sqrt_square; lra). apply sqrt_le_1_alt. lra. } pose proof (sqrt_pos (ts2 eps)). nra.
Qed.
Lemma ts3_le eps x : 0 < eps <= 1 / 4096 -> 0 <= x -> ts2 eps / 4 <= x * x -> ts3 eps <= x.
Proof. intros He X H. pose proof (ts3_T eps He) as K. pose proof (ts3_pos eps ltac:(lra)) as P. destruct (Rle_dec (ts3 eps) x) as [L|L]; [exact L|]. apply Rnot_le_lt in L. nra. Qed.
(* away from the identity log3 returns the norm of its vector, in ]0, PI], larger than the threshold of the Jacobians *)
Lemma log3_far eps A : 0 < eps <= 1 / 4096 -> isRotation A -> m3trace A < 3 - ts2 eps -> let l := log3 eps A in
  snd l = v3norm (fst l) /\ 0 < snd l <= PI /\ ts3 eps < snd l /\ m3close (8 * eps) (Rexp (fst l)) A /\ (-1 + 2 * ts2 eps <= m3trace A -> Rexp (fst l) = A).
Proof.
  intros He H N l. destruct (ts2_bounds eps He) as [B1 B2]. pose proof (ts2_pos eps) as B0. destruct (Rlt_dec (m3trace A) (-1 + 2 * ts2 eps)) as [P|P].
  - destruct (log3_pi eps A He H P) as (C & E & D). fold l in C, E, D. split; [exact E|]. split; [exact D|]. split; [|split; [exact C | intros; lra]]. 
    assert (TR : 1 + 2 * cos (snd l) <= m3trace A + 24 * eps). { rewrite E, <- rexp_trace. destruct C as (C0 & _ & _ & _ & C1 & _ & _ & _ & C2). apply rabs_inv in C0, C1, C2. unfold m3trace. lra. }
    pose proof (one_minus_cos_le (snd l) ltac:(lra)) as Q. pose proof (ts3_pos eps ltac:(lra)) as P3. pose proof (ts3_T eps He). nra.
  - destruct (log3_rot eps A He H ltac:(lra) ltac:(lra)) as (C & E & D). fold l in C, E, D. split; [exact E|]. split; [lra|]. split; [|split; [rewrite C; apply m3close_refl; lra | intros _; exact C]].
    assert (TR : 1 + 2 * cos (snd l) = m3trace A) by (rewrite E, <- rexp_trace, C; reflexivity). pose proof (one_minus_cos_le (snd l) ltac:(lra)) as Q. pose proof (ts3_pos eps ltac:(lra)) as P3. pose proof (ts3_T eps He). nra.
Qed.
Lemma log6_far eps M : 0 < eps <= 1 / 4096 -> isRotation (rot M) -> m3trace (rot M) < 3 - ts2 eps -> let w := fst (log3 eps (rot M)) in
  log6 eps M = mkV6 (m3vec (m3tr (Jlog3 eps (v3norm w) w)) (trans M)) w.
Proof.
  intros He H N w. destruct (log3_far eps (rot M) He H N) as (E & [D1 D2] & G & _). fold w in E. unfold log6. cbv zeta. fold w. rewrite E in *. set (x := v3norm w) in *.
  destruct (Rle_dec (3 - ts2 eps) (m3trace (rot M))) as [B|_]; [lra|]. rewrite Jlog3_poly. cbv zeta. destruct (Rlt_dec x (ts3 eps)) as [B|_]; [lra|]. pose proof (cos_ne1 x (conj D1 D2)) as Hc.
  replace (x * sin x / (2 * (1 - cos x))) with (1 / 2 * (x * (sin x / (1 - cos x)))) by (field; lra). replace (1 / (x * x) - sin x / (2 * x * (1 - cos x))) with (1 / (x * x) - sin x / (1 - cos x) / (2 * x)) by (field; lra).
  generalize (1 / 2 * (x * (sin x / (1 - cos x)))) (1 / (x * x) - sin x / (1 - cos x) / (2 * x)). intros a b. f_equal. destruct w, (trans M). unfold poly, v3add, v3sub, v3scale, v3cross, v3dot, m3vec, m3tr, m3add, m3sub, m3scale, m3outer, m3id, skew. cbn. f_equal; field.
Qed.
Theorem log6_far_trans eps M : 0 < eps <= 1 / 4096 -> isRotation (rot M) -> m3trace (rot M) < 3 - ts2 eps -> Texp (log6 eps M) = trans M.
Proof.
  intros He H N. rewrite log6_far by assumption. cbv zeta. destruct (log3_far eps (rot M) He H N) as (E & [D1 D2] & G & _). set (w := fst (log3 eps (rot M))) in *. rewrite texp_tr. cbn [ang lin]. rewrite E in *.
  pose proof (cos_ne1 (v3norm w) (conj D1 D2)) as Hc. destruct (jlog_big eps ltac:(lra) w ltac:(lra) ltac:(lra)) as [_ J]. rewrite <- m3vec_mul, <- m3tr_mul, J. destruct (trans M). unfold m3vec, m3tr, m3id. cbn. f_equal; ring.
Qed.
(* ---- near the identity ---- *)
Lemma v3norm_comp d u : v3norm u <= d -> v3close d u v3zero.
Proof. intros H. destruct (v3_comp u) as (A & B & C). unfold v3close, v3zero. cbn. rewrite !Rminus_0_r. lra. Qed.
Lemma texp_norm v w : v3norm w <= 1 / 2 -> v3norm (Texp (mkV6 v w)) <= 2 * v3norm v.
Proof.
  intros W. pose proof (norm_nonneg w) as W0. pose proof (norm_nonneg v) as V0. unfold Texp. cbv zeta. cbn [ang lin]. set (x := v3norm w) in *.
  destruct (taylor_sinc x ltac:(lra)) as [[A1 A2] _]. destruct (taylor_cosc x ltac:(lra)) as [C1 C2]. destruct (sinc3_near x ltac:(lra)) as [D1 D2].
  replace (x * x * x * x) with (x * x * (x * x)) in * by ring. assert (X : 0 <= x * x <= 1 / 4) by nra. assert (X4 : x * x * (x * x) <= 1 / 16) by nra.
  eapply Rle_trans; [apply norm_add|]. assert (T1 : v3norm (v3scale (cosc x) (v3cross w v)) <= 52 / 100 * (1 / 2 * v3norm v)).
  { rewrite norm_scale, Rabs_pos_eq by lra. pose proof (norm_cross w v) as NC. fold x in NC. assert (x * v3norm v <= 1 / 2 * v3norm v) by nra. pose proof (norm_nonneg (v3cross w v)). apply Rmult_le_compat; lra. }
  assert (T2 : v3norm (v3add (v3scale (sinc x) v) (v3scale (sinc3 x * v3dot w v) w)) <= 101 / 100 * v3norm v + 17 / 100 * (1 / 4 * v3norm v)).
  { eapply Rle_trans; [apply norm_add|]. rewrite !norm_scale. rewrite (Rabs_pos_eq (sinc x)), Rabs_mult, (Rabs_pos_eq (sinc3 x)) by nra. pose proof (cauchy w v) as CS. fold x in CS. fold x. pose proof (Rabs_pos (v3dot w v)).
    assert (sinc3 x * Rabs (v3dot w v) * x <= 17 / 100 * (1 / 4 * v3norm v)). { rewrite Rmult_assoc. apply Rmult_le_compat; [nra | nra | nra |]. assert (Rabs (v3dot w v) * x <= x * v3norm v * x) by nra. nra. } nra. }
  lra.
Qed.
Lemma texp_add u v w : Texp (mkV6 (v3add u v) w) = v3add (Texp (mkV6 u w)) (Texp (mkV6 v w)).
Proof. rewrite !texp_tr. cbn [ang lin]. apply m3vec_add_r. Qed.
(* sin^2 x and the square of the norm of the vector, for x = |v| near the identity *)
Lemma near_coeffs x y s T : 0 <= x <= 3 / 10 -> 0 < T <= 1 / 16 -> x * x <= 11 / 10 * T -> 0 < y -> Rabs (y - x) <= T * T / 20 * x -> s = sin x * sin x ->
  Rabs (4 * (y / 2 * (y / 2)) * (1 / 12 + s / 720) - (1 - xcot (y / 2))) <= T * T / 50 /\ Rabs ((1 - s / 12 - s * s / 720) - 1 + (1 / 12 + s / 720) * (y * y)) <= T * T / 20 /\ y <= 1 / 2.
Proof.
  intros Hx HT X2 Y0 HY ->. apply rabs_inv in HY. assert (TT : 0 < T * T <= 1 / 256) by (split; nra).
  assert (TX : T * T / 20 * x <= x / 5000) by nra. assert (Yb : y <= x * (5001 / 5000) /\ x * (4999 / 5000) <= y) by lra. assert (Y1 : y <= 1 / 2) by lra.
  set (X := x * x) in *. set (Y := y * y) in *. assert (XX : X * X <= 121 / 100 * (T * T)) by (assert (0 <= X) by (unfold X; nra); nra).
  assert (YX : Rabs (Y - X) <= T * T / 9 * X).
  { replace (Y - X) with ((y - x) * (y + x)) by (unfold X, Y; ring). rewrite Rabs_mult, (Rabs_pos_eq (y + x)) by lra. assert (Rabs (y - x) <= T * T / 20 * x) by (apply Rabs_le; lra).
    apply Rle_trans with (T * T / 20 * x * (21 / 10 * x)); [apply Rmult_le_compat; try apply Rabs_pos; lra|]. unfold X. assert (0 <= T * T * (x * x)) by (apply Rmult_le_pos; nra). lra. }
  apply rabs_inv in YX. assert (X0 : 0 <= X <= 7 / 100) by (split; [unfold X; nra | lra]). assert (Y00 : 0 <= Y) by (unfold Y; nra).
  assert (TX2 : T * T / 9 * X <= T * T / 120) by nra. assert (YY : Y * Y <= 13 / 10 * (T * T)). { assert (Y <= X * (101 / 100)) by nra. assert (Y * Y <= (X * (101 / 100)) * (X * (101 / 100))) by nra. nra. }
  destruct (taylor_sin x ltac:(lra)) as [[S1 S2] _]. assert (Sx2 : sin x <= x) by (destruct (Req_dec x 0) as [Z|Z]; [rewrite Z, sin_0; lra | left; apply sin_lt_x; lra]).
  assert (SL : x * (1 - X / 6) <= sin x) by (replace (x * (1 - X / 6)) with (x - x * x * x / 6) by (unfold X; field); exact S1). assert (S0 : 0 <= x * (1 - X / 6)) by nra.
  set (s := sin x * sin x). assert (Sb : X - X * X / 3 <= s <= X). { unfold s. split; [|unfold X; nra]. assert (Q : x * (1 - X / 6) * (x * (1 - X / 6)) <= sin x * sin x) by nra. replace (x * (1 - X / 6) * (x * (1 - X / 6))) with (X * ((1 - X / 6) * (1 - X / 6))) in Q by (unfold X; ring). nra. }
  assert (sp : 0 <= s) by (unfold s; apply Rle_0_sqr). assert (ss : 0 <= s * s <= X * X) by nra. assert (sY : 0 <= s * Y <= 13 / 10 * (T * T)). { split; [nra|]. assert (Y <= X * (101 / 100)) by nra. assert (s * Y <= X * (X * (101 / 100))) by (apply Rmult_le_compat; lra). nra. }
  destruct (Req_dec 0 1) as [Z|_]; [lra|]. pose proof (xcot_taylor (y / 2) ltac:(lra)) as XC. apply rabs_inv in XC. replace (y / 2 * (y / 2)) with (Y / 4) in * by (unfold Y; field).
  split; [|split; [|exact Y1]].
  - replace (4 * (Y / 4) * (1 / 12 + s / 720)) with (Y / 12 + s * Y / 720) by field. replace (Y / 4 * (Y / 4) / 15) with (Y * Y / 240) in XC by field. replace (Y / 4 / 3) with (Y / 12) in XC by field. apply Rabs_le. split; lra.
  - replace (1 - s / 12 - s * s / 720 - 1 + (1 / 12 + s / 720) * Y) with ((Y - s) / 12 + s * Y / 720 - s * s / 720) by field. apply Rabs_le. split; lra.
Qed.
Lemma log6_near eps M : 0 < eps <= 1 / 4096 -> isRotation (rot M) -> 3 - ts2 eps <= m3trace (rot M) -> v3close (ts2 eps ^ 2 / 4 * v3norm (trans M)) (Texp (log6 eps M)) (trans M).
Proof.
  intros He H N. destruct (ts2_bounds eps He) as [B1 B2]. pose proof (ts2_pos eps) as B0. destruct (rot_is_exp (rot M) H) as (v & L & EA). destruct M as [A p]. cbn [rot trans] in *. subst A.
  rewrite rexp_trace in N. set (x := v3norm v) in *. assert (Hx : 2 * (1 - cos x) <= ts2 eps) by lra. destruct (x_sq eps v He L Hx) as (X1 & X2 & X3 & _). fold x in X1, X2, X3. pose proof (norm_nonneg v) as X0. fold x in X0.
  assert (LG : exists k, fst (log3 eps (Rexp v)) = v3scale k v /\ Rabs (k - 1) <= ts2 eps * ts2 eps / 20).
  { destruct Hx as [Hx|Hx].
    - rewrite (log3_near eps v He L Hx). exists (kNear eps v). split; [reflexivity | exact (kNear_close eps v He L (or_introl Hx))].
    - rewrite (log3_middle eps v He L) by (fold x; lra). exists 1. split; [destruct v; unfold v3scale; cbn; f_equal; ring | rewrite Rminus_diag_eq, Rabs_R0 by reflexivity; nra]. }
  destruct LG as (k & Ew & K). unfold log6. cbv zeta. cbn [rot trans]. rewrite Ew, rexp_trace, rexp_unskew. fold x. destruct (Rle_dec _ _) as [_|B]; [|lra].
  assert (A2 : v3norm2 (v3scale (sinc x) v) = sin x * sin x).
  { rewrite norm2_norm, norm_scale. fold x. destruct (Req_EM_T x 0) as [Z|Z]; [rewrite Z, sin_0; ring|]. rewrite sinc_nz by exact Z.
    transitivity ((Rabs (sin x / x) * Rabs (sin x / x)) * (x * x)); [ring|]. rewrite <- Rabs_mult, Rabs_pos_eq by apply Rle_0_sqr. field. exact Z. }
  rewrite A2. set (s := sin x * sin x). set (w := v3scale k v). set (T := ts2 eps) in *. pose proof (norm_nonneg p) as P0. assert (TT : 0 <= T * T <= 1 / 256) by (split; nra).
  destruct (Req_dec x 0) as [Z|Z].
  - assert (V0 : v = v3zero) by (apply norm_zero; exact Z). assert (W0 : w = v3zero) by (unfold w; rewrite V0; unfold v3scale, v3zero; cbn; f_equal; ring). assert (S0 : s = 0) by (unfold s; rewrite Z, sin_0; ring). rewrite W0, S0.
    replace (v3add _ _) with p. 2:{ destruct p. unfold v3add, v3sub, v3scale, v3cross, v3dot, v3zero. cbn. f_equal; field. }
    rewrite Texp_0. unfold v3close. rewrite !Rminus_diag_eq, Rabs_R0 by reflexivity. assert (0 <= T ^ 2 / 4 * v3norm p) by (apply Rmult_le_pos; [nra | exact P0]). auto.
  - assert (Kb := rabs_inv _ _ K). assert (Kp : 9 / 10 <= k) by lra. set (y := v3norm w). assert (Ey : y = k * x) by (unfold y, w; rewrite norm_scale, Rabs_pos_eq by lra; reflexivity). assert (Yp : 0 < y) by (rewrite Ey; nra).
    assert (YX : Rabs (y - x) <= T * T / 20 * x). { rewrite Ey. replace (k * x - x) with ((k - 1) * x) by ring. rewrite Rabs_mult, (Rabs_pos_eq x) by exact X0. apply Rmult_le_compat_r; assumption. }
    destruct (near_coeffs x y s T ltac:(lra) ltac:(lra) X1 Yp YX eq_refl) as (C1 & C2 & Y1).
    set (al := 1 - s / 12 - s * s / 720) in *. set (be := 1 / 12 + s / 720) in *.
    replace (v3add (v3sub (v3scale al p) (v3scale (1 / 2) (v3cross w p))) (v3scale (be * v3dot w p) w)) with (v3add (logLin be w p) (v3scale (al - 1 + be * (y * y)) p)).
    2:{ assert (YY : y * y = v3dot w w) by (unfold y; apply norm_sq). rewrite YY. clearbody w. destruct w, p. unfold logLin, v3add, v3sub, v3scale, v3cross, v3dot. cbn. f_equal; ring. }
    rewrite texp_add. pose proof (Texp_err be w p (y / 2) (T * T / 50) ltac:(pose proof PI2_1; lra) ltac:(unfold y; field) C1) as (E1 & E2 & E3).
    assert (NB : v3norm (Texp (mkV6 (v3scale (al - 1 + be * (y * y)) p) w)) <= T * T / 10 * v3norm p).
    { eapply Rle_trans; [apply texp_norm; exact Y1|]. rewrite norm_scale. assert (Rabs (al - 1 + be * (y * y)) * v3norm p <= T * T / 20 * v3norm p) by (apply Rmult_le_compat_r; assumption). lra. }
    destruct (v3_comp (Texp (mkV6 (v3scale (al - 1 + be * (y * y)) p) w))) as (F1 & F2 & F3). set (D := Texp (mkV6 (v3scale (al - 1 + be * (y * y)) p) w)) in *. set (G := Texp (mkV6 (logLin be w p) w)) in *.
    assert (Fin : forall a b c, Rabs (a - c) <= 3 * (T * T / 50) * v3norm p -> Rabs b <= v3norm D -> Rabs (a + b - c) <= T ^ 2 / 4 * v3norm p).
    { intros a b c U1 U2. replace (a + b - c) with ((a - c) + b) by ring. eapply Rle_trans; [apply Rabs_triang|]. replace (T ^ 2) with (T * T) by ring. assert (0 <= T * T * v3norm p) by (apply Rmult_le_pos; lra). lra. }
    unfold v3close, v3add. cbn [vx vy vz]. auto.
Qed.
Theorem log6_all eps M : 0 < eps <= 1 / 4096 -> isRotation (rot M) ->
  ang (log6 eps M) = fst (log3 eps (rot M)) /\ v3close (ts2 eps ^ 2 / 4 * v3norm (trans M)) (Texp (log6 eps M)) (trans M).
Proof.
  intros He H. split; [reflexivity|]. destruct (Rlt_dec (m3trace (rot M)) (3 - ts2 eps)) as [N|N]; [|apply log6_near; [assumption | assumption | lra]].
  rewrite log6_far_trans by assumption. unfold v3close. rewrite !Rminus_diag_eq, Rabs_R0 by reflexivity. assert (0 <= ts2 eps ^ 2 / 4 * v3norm (trans M)) by (apply Rmult_le_pos; [pose proof (pow2_ge_0 (ts2 eps)); lra | apply norm_nonneg]). auto.
Qed.
(* away from the identity and half turns, exp6 and log6 are exact inverses *)
Theorem log6_exp6 eps M : 0 < eps <= 1 / 4096 -> isRotation (rot M) -> m3trace (rot M) < 3 - ts2 eps -> -1 + 2 * ts2 eps <= m3trace (rot M) -> SE3exp (log6 eps M) = M.
Proof.
  intros He H N P. unfold SE3exp. rewrite log6_far_trans by assumption. destruct (log3_far eps (rot M) He H N) as (_ & _ & _ & _ & E). change (ang (log6 eps M)) with (fst (log3 eps (rot M))). rewrite (E P). now destruct M.
Qed.
Theorem log6_of_exp eps nu : 0 < eps <= 1 / 4096 -> v3norm (ang nu) <= PI -> ts2 eps < 2 * (1 - cos (v3norm (ang nu))) -> -1 + ts2 eps <= cos (v3norm (ang nu)) -> log6 eps (SE3exp nu) = nu.
Proof.
  intros He L N P. destruct (ts2_bounds eps He) as [B1 B2]. pose proof (ts2_pos eps) as B0. assert (TR : m3trace (rot (SE3exp nu)) < 3 - ts2 eps) by (cbn [rot SE3exp]; rewrite rexp_trace; lra).
  rewrite log6_far; [|exact He | apply rexp_rot | exact TR]. cbv zeta. cbn [rot trans SE3exp]. rewrite log3_middle by lra. cbn [fst]. rewrite texp_tr. set (w := ang nu) in *. pose proof (norm_nonneg w) as W0.
  assert (Wp : 0 < v3norm w). { destruct W0 as [W0|W0]; [exact W0|]. rewrite <- W0, cos_0 in N. lra. } pose proof (cos_ne1 (v3norm w) (conj Wp L)) as Hc.
  pose proof (one_minus_cos_le (v3norm w) ltac:(lra)) as Q. assert (G : ts3 eps <= v3norm w) by (apply ts3_le; [exact He | lra | lra]).
  destruct (jlog_big eps ltac:(lra) w G ltac:(lra)) as [J _]. rewrite <- m3vec_mul, <- m3tr_mul, J. destruct nu as [v w0]. cbn [lin ang] in *. f_equal. destruct v. unfold m3vec, m3tr, m3id. cbn. f_equal; ring.
Qed.
