(* The Taylor branch of Jexp3, Jlog3 as the inverse of the right Jacobian, and Hlog3 as its derivative. *)
Require Import Reals Arith Lra Lia Psatz.
From Verif Require Import Vec3 Spatial Rot ExpLog Spec_Exp Deriv JointFacts ExpFacts ExpFacts2 ExpFacts3 Spec_ExpJac ExpJac ExpJacFacts ExpJacFacts2.
Local Open Scope R_scope.

Lemma ts3_pow4 x : 0 <= x -> ts3 (x * x * (x * x)) = x.
Proof. intros H. unfold ts3. rewrite sqrt_square by nra. now apply sqrt_square. Qed.
Lemma norm_x x : 0 <= x -> v3norm (mkV3 x 0 0) = x.
Proof. intros H. unfold v3norm, v3dot. cbn. replace (x * x + 0 * 0 + 0 * 0) with (x * x) by ring. now apply sqrt_square. Qed.
(* the second coefficient of the Taylor branch has the wrong sign *)
Theorem jexp_taylor C : exists eps r, 0 < eps <= 1 / 4 /\ v3norm r < ts3 eps /\ forall J, ~ m3close (C * eps) (Jexp3 eps SETTO r J) (Jr r).
Proof.
  set (K := Rabs C + 1). assert (HK : 1 <= K) by (unfold K; pose proof (Rabs_pos C); lra). assert (HC : C <= K) by (unfold K; pose proof (Rle_abs C); lra).
  set (n := / (1000 * K)). assert (Hn : 0 < n) by (apply Rinv_0_lt_compat; lra).
  assert (Hn1 : n * (1000 * K) = 1) by (unfold n; field; lra). assert (Hs : n <= 1 / 1000) by nra.
  set (T := 2 * n). set (eps := T * T * (T * T)). exists eps, (mkV3 n 0 0).
  assert (HT : ts3 eps = T) by (apply ts3_pow4; unfold T; lra). assert (N2 : 0 < n * n <= 1 / 1000) by (split; nra). assert (N3 : 0 < n * n * n) by nra. assert (N4 : 0 < n * n * n * n <= n * n * n * (1 / 1000)) by (split; nra).
  assert (Ee : eps = 16 * (n * n * n * n)) by (unfold eps, T; ring).
  assert (He : 0 < eps <= 1 / 4) by (rewrite Ee; split; [lra | nra]). split; [exact He|]. split; [rewrite HT, norm_x by lra; unfold T; lra|].
  intros J (_ & _ & _ & _ & _ & H & _). rewrite Jr_poly, norm_x in H by lra.
  rewrite (jexp_set eps (mkV3 n 0 0) J (1 - n * n / 6) (- 1 / 2 - n * n / 24) (1 / 6 - n * n / 120)) in H.
  2:{ unfold jexpCoeffs. rewrite norm2_sqrt, norm2_norm, norm_x by lra. rewrite HT. destruct (Rlt_dec n T) as [_|B]; [reflexivity | unfold T in B; lra]. }
  unfold poly, m3add, m3scale, m3id, skew, m3outer in H. cbn in H.
  replace ((1 - n * n / 6) * 0 + (-1 / 2 - n * n / 24) * - n + (1 / 6 - n * n / 120) * (0 * 0) - (sinc n * 0 + - cosc n * - n + sinc3 n * (0 * 0))) with (n * (1 / 2 + n * n / 24 - cosc n)) in H by field.
  pose proof (taylor_cosc n ltac:(lra)) as [_ K2]. apply rabs_inv in H. destruct H as [_ H].
  assert (B : n * (n * n / 24) <= n * (1 / 2 + n * n / 24 - cosc n)) by (apply Rmult_le_compat_l; nra).
  assert (U : C * eps <= K * eps) by (apply Rmult_le_compat_r; lra). assert (V : K * eps = 16 / 1000 * (n * n * n)) by (rewrite Ee; replace (K * (16 * (n * n * n * n))) with (16 / 1000 * (n * n * n) * (n * (1000 * K))) by field; rewrite Hn1; ring).
  replace (n * (n * n / 24)) with (n * n * n / 24) in B by field. lra.
Qed.

(* ---- Jlog3 ---- *)
Section Log.
Variable eps : R.
Hypothesis He : 0 < eps.
Lemma jlog_big w : ts3 eps <= v3norm w -> cos (v3norm w) <> 1 ->
  m3mul (Jr w) (Jlog3 eps (v3norm w) w) = m3id /\ m3mul (Jlog3 eps (v3norm w) w) (Jr w) = m3id.
Proof.
  intros Hw Hc. pose proof (ts3_pos eps He) as P. set (x := v3norm w) in *. assert (N : x <> 0) by lra.
  rewrite Jr_poly, Jlog3_poly. fold x. cbv zeta. destruct (Rlt_dec x (ts3 eps)) as [L|_]; [lra|]. rewrite !poly_mul. rewrite <- norm_sq. fold x.
  rewrite sinc_nz, cosc_nz, sinc3_nz by exact N. assert (C1 : 1 - cos x <> 0) by lra. pose proof (sin2_cos2 x) as SC. unfold Rsqr in SC.
  assert (S2 : sin x * sin x = (1 - cos x) * (1 + cos x)) by lra. rewrite <- (poly_id w).
  assert (A1 : sin x / x * (1 / 2 * (x * (sin x / (1 - cos x)))) = (1 + cos x) / 2).
  { replace (sin x / x * (1 / 2 * (x * (sin x / (1 - cos x))))) with (sin x * sin x / (1 - cos x) / 2) by (field; split; assumption). rewrite S2. field. exact C1. }
  assert (A3 : sin x / x * (1 / (x * x) - sin x / (1 - cos x) / (2 * x)) + - ((1 - cos x) / (x * x)) * (1 / 2) + (x - sin x) / (x * x * x) * (1 / 2 * (x * (sin x / (1 - cos x)))) + (x - sin x) / (x * x * x) * (1 / (x * x) - sin x / (1 - cos x) / (2 * x)) * (x * x) = 0).
  { transitivity ((2 * (1 - cos x) - sin x * sin x - (1 - cos x) * (1 - cos x)) / (2 * (x * x) * (1 - cos x))); [field; split; assumption | rewrite S2; field; split; assumption]. }
  split; f_equal; try (field; split; assumption).
  - rewrite A1. field. exact N.
  - exact A3.
  - rewrite (Rmult_comm (1 / 2 * (x * (sin x / (1 - cos x))))), A1. field. exact N.
  - rewrite <- A3 at 1. ring.
Qed.
Lemma skew_inj a b : skew a = skew b -> a = b.
Proof.
  intros H. destruct a, b. unfold skew in H. cbn in H. injection H as A B C D E F. f_equal; lra.
Qed.
Theorem jlog_rate (w : R -> V3) dw om t : deriv3 w dw t -> turns (fun u => Rexp (w u)) om t -> ts3 eps <= v3norm (w t) -> cos (v3norm (w t)) <> 1 ->
  dw = m3vec (Jlog3 eps (v3norm (w t)) (w t)) om.
Proof.
  intros D H Hw Hc. pose proof (exp_turns w dw t D) as H2. pose proof (derivM3_unique _ _ _ t H H2) as E. destruct (rodrigues_rot (w t)) as [O _].
  assert (E2 : skew om = skew (m3vec (Jr (w t)) dw)).
  { rewrite <- (m3mul_1_l (skew om)), <- (m3mul_1_l (skew (m3vec _ dw))). rewrite <- O, <- !m3mul_assoc. now rewrite E. }
  apply skew_inj in E2. rewrite E2, <- m3vec_mul. rewrite (proj2 (jlog_big (w t) Hw Hc)). now rewrite m3vec_1.
Qed.
Theorem jlog_small w : eps <= 1 / 4 -> v3norm w < ts3 eps ->
  m3close eps (m3mul (Jr w) (Jlog3 eps (v3norm w) w)) m3id /\ m3close eps (m3mul (Jlog3 eps (v3norm w) w) (Jr w)) m3id.
Proof.
  intros He4 Hw. destruct (ts3_spec eps ltac:(lra)) as (P & E4 & _ & _). pose proof (norm_nonneg w) as N0. set (x := v3norm w) in *.
  destruct (pow4 x (ts3 eps) eps (conj N0 Hw) ltac:(lra) E4) as (B4 & _ & B2 & _).
  assert (X1 : 0 <= x <= 1) by lra. pose proof (taylor_sinc x X1) as [[S1 S2] _]. pose proof (taylor_cosc x X1) as [K1 K2]. pose proof (sinc3_near x X1) as [R1 R2].
  assert (Comm : m3mul (Jlog3 eps x w) (Jr w) = m3mul (Jr w) (Jlog3 eps x w)) by (rewrite Jr_poly, Jlog3_poly; cbv zeta; rewrite !poly_mul; f_equal; ring). rewrite Comm. clear Comm.
  assert (Q : m3close eps (m3mul (Jr w) (Jlog3 eps x w)) m3id); [|split; exact Q].
  rewrite Jr_poly, Jlog3_poly. fold x. cbv zeta. destruct (Rlt_dec x (ts3 eps)) as [_|L]; [|contradiction]. rewrite poly_mul, <- norm_sq, <- (poly_id w). fold x.
  replace (x * x * x * x) with (x * x * (x * x)) in * by ring. set (N := x * x) in *.
  set (e1 := sinc x - (1 - N / 6)). set (e2 := cosc x - (1 / 2 - N / 24)). set (e3 := sinc3 x - (1 / 6 - N / 120)).
  assert (E1 : 0 <= e1 <= N * N / 120) by (unfold e1; lra). assert (E2 : 0 <= e2 <= N * N / 720) by (unfold e2; lra). assert (E3 : 0 <= e3 <= N * N / 5040) by (unfold e3; lra).
  replace (sinc x) with (1 - N / 6 + e1) by (unfold e1; ring). replace (cosc x) with (1 / 2 - N / 24 + e2) by (unfold e2; ring). replace (sinc3 x) with (1 / 6 - N / 120 + e3) by (unfold e3; ring).
  clearbody e1 e2 e3. clear S1 S2 K1 K2 R1 R2.
  assert (M1 : 0 <= N * e1 <= e1) by (split; nra). assert (M2 : 0 <= N * e2 <= e2) by (split; nra). assert (M3 : 0 <= N * e3 <= e3) by (split; nra).
  assert (N3 : 0 <= N * N * N <= N * N) by (split; nra). assert (N4 : 0 <= N * N * N * N <= N * N) by (split; nra). assert (M4 : 0 <= N * N * e3 <= e3) by (split; nra).
  eapply m3close_mono; [|apply (poly_close _ _ _ _ _ _ w (eps / 4) (eps / 4) (eps / 4))]; [lra | | |]; fold x.
  - replace (x * x) with N by reflexivity. match goal with |- N * Rabs ?e <= _ => assert (B : Rabs e <= N * N / 10) end.
    { replace ((1 - N / 6 + e1) * (1 / 12 + N / 720) + - (1 / 2 - N / 24 + e2) * (1 / 2) + (1 / 6 - N / 120 + e3) * (1 / 2 * (2 - N / 6)) + (1 / 6 - N / 120 + e3) * (1 / 12 + N / 720) * N - 0)
        with (- (N * N) / 4320 + e1 / 12 + N * e1 / 720 - e2 / 2 + e3 + N * N * e3 / 720 + N * N / 4320 - N * N * N / 86400) by field.
      apply Rabs_le. split; lra. }
    apply Rle_trans with (1 * (N * N / 10)); [apply Rmult_le_compat; try lra; apply Rabs_pos | lra].
  - match goal with |- x * Rabs ?e <= _ => assert (B : Rabs e <= N * N / 10) end.
    { replace ((1 - N / 6 + e1) * (1 / 2) + - (1 / 2 - N / 24 + e2) * (1 / 2 * (2 - N / 6)) - 0) with (- (N * N) / 288 + e1 / 2 - e2 + N * e2 / 12) by field. apply Rabs_le. split; lra. }
    apply Rle_trans with (1 * (N * N / 10)); [apply Rmult_le_compat; try lra; apply Rabs_pos | lra].
  - replace ((1 - N / 6 + e1) * (1 / 2 * (2 - N / 6)) - - (1 / 2 - N / 24 + e2) * (1 / 2) * N - 1) with (- (N * N) / 144 + e1 - N * e1 / 12 + N * e2 / 2) by field. apply Rabs_le. split; lra.
Qed.
(* ---- Hlog3 ---- *)
Lemma derivM3_ext_loc f g d t e : 0 < e -> (forall s, Rabs (s - t) < e -> f s = g s) -> derivM3 g d t -> derivM3 f d t.
Proof.
  intros Hp E [[A1 [A2 A3]] [[B1 [B2 B3]] [C1 [C2 C3]]]].
  repeat split; cbn; (eapply deriv_ext_loc; [exact Hp | intros s Hs; rewrite (E s Hs); reflexivity | assumption]).
Qed.
Theorem hlog_rate (w : R -> V3) v t : ts3 eps < v3norm (w t) -> cos (v3norm (w t)) <> 1 -> deriv3 w (m3vec (Jlog3 eps (v3norm (w t)) (w t)) v) t ->
  derivM3 (fun u => Jlog3 eps (v3norm (w u)) (w u)) (Hlog3 (v3norm (w t)) (w t) v) t.
Proof.
  intros Hw Hc D. pose proof (ts3_pos eps He) as P. set (x := v3norm (w t)) in *. assert (N : x <> 0) by lra. assert (C1 : 1 - cos x <> 0) by lra.
  set (dw := m3vec (Jlog3 eps x (w t)) v) in *. pose proof (der_norm w dw t D N) as Dn.
  assert (Edw : dw = v3add (v3add (v3scale (x * sin x * (/ 2 / (1 - cos x))) v) (v3scale (/ 2) (v3cross (w t) v))) (v3scale ((1 - x * sin x * (/ 2 / (1 - cos x))) / (x * x)) (v3scale (v3dot (w t) v) (w t)))).
  { unfold dw. rewrite Jlog3_poly. cbv zeta. destruct (Rlt_dec x (ts3 eps)) as [L|_]; [lra|].
    replace (1 / (x * x) - sin x / (1 - cos x) / (2 * x)) with ((1 - x * sin x * (/ 2 / (1 - cos x))) / (x * x)) by (field; split; assumption).
    replace (1 / 2 * (x * (sin x / (1 - cos x)))) with (x * sin x * (/ 2 / (1 - cos x))) by (field; assumption). generalize (x * sin x * (/ 2 / (1 - cos x))). intros a. generalize ((1 - a) / (x * x)). intros b.
    destruct (w t), v. unfold poly, m3vec, m3add, m3scale, m3id, skew, m3outer, v3add, v3scale, v3cross, v3dot. cbn. f_equal; field. }
  set (n := fun u => v3norm (w u)) in *. change (v3norm (w t)) with (n t) in *.
  destruct (deriv_near_pos (fun u => n u - ts3 eps) (v3dot (w t) dw / n t - 0) t) as (e & Hpos & He2).
  { apply deriv_minus; [exact Dn | apply deriv_const]. }
  { fold x. lra. }
  assert (Dd : deriv (fun u => 1 / 2 * (n u * (sin (n u) / (1 - cos (n u))))) ((sin x - x) * (/ 2 / (1 - cos x)) * (v3dot (w t) dw / x)) t).
  { eapply deriv_eq; [eapply deriv_mult; [apply deriv_const | eapply deriv_mult; [exact Dn|]]; apply (deriv_div (fun u => sin (n u)) (fun u => 1 - cos (n u)) (cos (n t) * (v3dot (w t) dw / n t)) (0 - - sin (n t) * (v3dot (w t) dw / n t)) t C1);
      [apply deriv_sin; exact Dn | apply deriv_minus; [apply deriv_const | apply deriv_cos; exact Dn]]|].
    cbv beta. change (n t) with x. pose proof (sin2_cos2 x) as SC. unfold Rsqr in SC. set (q := v3dot (w t) dw). apply Rminus_diag_uniq.
    transitivity ((1 - (sin x * sin x + cos x * cos x)) * (q / (2 * ((1 - cos x) * (1 - cos x))))); [field; split; assumption | rewrite SC; ring]. }
  assert (Da : deriv (fun u => 1 / (n u * n u) - sin (n u) / (1 - cos (n u)) / (2 * n u)) (- (2 / x - (x + sin x) * (/ 2 / (1 - cos x))) / (x * x) * (v3dot (w t) dw / x)) t).
  { assert (N2 : n t * n t <> 0) by (change (n t) with x; nra). assert (N3 : 2 * n t <> 0) by (change (n t) with x; lra).
    eapply deriv_eq; [apply deriv_minus; [apply (deriv_div (fun _ => 1) (fun u => n u * n u) 0 (v3dot (w t) dw / n t * n t + n t * (v3dot (w t) dw / n t)) t N2); [apply deriv_const | apply (deriv_mult n n); exact Dn] |
      eapply (deriv_div (fun u => sin (n u) / (1 - cos (n u))) (fun u => 2 * n u) _ (0 * n t + 2 * (v3dot (w t) dw / n t)) t N3);
      [apply (deriv_div (fun u => sin (n u)) (fun u => 1 - cos (n u)) (cos (n t) * (v3dot (w t) dw / n t)) (0 - - sin (n t) * (v3dot (w t) dw / n t)) t C1);
        [apply deriv_sin; exact Dn | apply deriv_minus; [apply deriv_const | apply deriv_cos; exact Dn]] | apply (deriv_mult (fun _ => 2) n); [apply deriv_const | exact Dn]]]|].
    cbv beta. change (n t) with x. pose proof (sin2_cos2 x) as SC. unfold Rsqr in SC. set (q := v3dot (w t) dw). apply Rminus_diag_uniq.
    transitivity ((1 - (sin x * sin x + cos x * cos x)) * (- q / (2 * (x * x) * ((1 - cos x) * (1 - cos x))))); [field; split; assumption | rewrite SC; ring]. }
  set (fd := fun u => 1 / 2 * (n u * (sin (n u) / (1 - cos (n u))))) in *. set (fa := fun u => 1 / (n u * n u) - sin (n u) / (1 - cos (n u)) / (2 * n u)) in *.
  assert (Near : forall u, Rabs (u - t) < e -> Jlog3 eps (n u) (w u) = poly (fd u) (1 / 2) (fa u) (w u)).
  { intros u Hu. rewrite Jlog3_poly. cbv zeta. pose proof (He2 u Hu) as Q. cbv beta in Q. destruct (Rlt_dec (n u) (ts3 eps)) as [L|_]; [lra | reflexivity]. }
  apply (derivM3_ext_loc _ (fun u => poly (fd u) (1 / 2) (fa u) (w u)) _ t e Hpos Near). clear Near He2 Hpos.
  assert (Fa : fa t = (1 - x * sin x * (/ 2 / (1 - cos x))) / (x * x)) by (unfold fa; change (n t) with x; field; split; assumption).
  unfold Hlog3. change (n t) with x. rewrite <- Edw. set (dda := - (2 / x - (x + sin x) * (/ 2 / (1 - cos x))) / (x * x)) in *. set (ddd := (sin x - x) * (/ 2 / (1 - cos x))) in *. rewrite <- Fa.
  set (q := v3dot (w t) dw / x) in *. destruct D as (D1 & D2 & D3). clearbody fd fa dda ddd q. clear - Dd Da D1 D2 D3. destruct dw as [d1 d2 d3].
  remember (vx (w t)) as a1. remember (vy (w t)) as a2. remember (vz (w t)) as a3.
  unfold derivM3, poly. cbv [m3add m3scale m3id m3sub m3mul m3outer m3vec skew addSkew v3scale m00 m01 m02 m10 m11 m12 m20 m21 m22].
  cbv [vx vy vz] in *. rewrite <- ?Heqa1, <- ?Heqa2, <- ?Heqa3.
  repeat match goal with |- _ /\ _ => split end; (eapply deriv_eq; [dv|]); cbv beta; rewrite <- ?Heqa1, <- ?Heqa2, <- ?Heqa3; field.
Qed.
End Log.
