(* dDifference on circles, on SE(2) and on products *)
Require Import Reals Lra Lia Arith List.
From Verif Require Import Vec3 Spatial Rot Deriv Joints JointFacts ExpLog Spec_Exp ExpFacts ExpJac Spec_ExpJac ExpJacFacts Kinematics LieGroup Spec_Lie
  LieFacts LieFacts2 LieFacts3 LieFacts7 LogMat Spec_LogMat LieDer Spec_LieDer LieDerFacts LieDerFacts2 LieDerFacts3 LieDerFacts4.
Local Open Scope R_scope.

Lemma half_atan x : Rabs x < PI -> x = 2 * atan (sin x / (1 + cos x)).
Proof.
  intros H. apply Rabs_def2 in H. assert (C : 0 < cos (x / 2)) by (apply cos_gt_0; lra).
  assert (E : sin x / (1 + cos x) = tan (x / 2)).
  { unfold tan. replace x with (2 * (x / 2)) at 1 2 by field. rewrite sin_2a, cos_2a_cos. field. split; nra. }
  rewrite E, atan_tan; lra.
Qed.
Lemma cos_above x : Rabs x < PI -> 0 < 1 + cos x.
Proof.
  intros H. apply Rabs_def2 in H. assert (C : 0 < cos (x / 2)) by (apply cos_gt_0; lra). replace x with (2 * (x / 2)) by field. rewrite cos_2a_cos. nra.
Qed.
Lemma cos_below x : x <> 0 -> Rabs x < PI -> cos x <> 1.
Proof.
  intros N H E. assert (P : 0 < Rabs x) by (apply Rabs_pos_lt, N). assert (C : cos (Rabs x) = 1) by (unfold Rabs; destruct (Rcase_abs x); [rewrite cos_neg|]; exact E).
  pose proof (sin_gt_0 (Rabs x) P H). pose proof (sin2_cos2 (Rabs x)) as S. unfold Rsqr in S. rewrite C in S. nra.
Qed.
(* the angle between two moving points of the circle *)
Lemma angle_rate c0 s0 c1 s1 th w0 w1 t : (forall u, c0 u * c0 u + s0 u * s0 u = 1) -> (forall u, c1 u = c0 u * cos (th u) - s0 u * sin (th u)) -> (forall u, s1 u = c0 u * sin (th u) + s0 u * cos (th u)) ->
  (forall u, Rabs (th u) < PI) -> deriv c0 (- s0 t * w0) t -> deriv s0 (c0 t * w0) t -> deriv c1 (- s1 t * w1) t -> deriv s1 (c1 t * w1) t -> deriv th (w1 - w0) t.
Proof.
  intros G L L' B D0 E0 D1 E1.
  assert (EC : forall u, cos (th u) = c0 u * c1 u + s0 u * s1 u). { intros u. rewrite L, L'. transitivity ((c0 u * c0 u + s0 u * s0 u) * cos (th u)); [rewrite G; ring|ring]. }
  assert (ES : forall u, sin (th u) = c0 u * s1 u - s0 u * c1 u). { intros u. rewrite L, L'. transitivity ((c0 u * c0 u + s0 u * s0 u) * sin (th u)); [rewrite G; ring|ring]. }
  eapply (deriv_ext _ (fun u => 2 * atan ((c0 u * s1 u - s0 u * c1 u) / (1 + (c0 u * c1 u + s0 u * s1 u))))); [intros u; rewrite <- EC, <- ES; apply half_atan, B|].
  pose proof (cos_above _ (B t)) as P. rewrite EC in P.
  eapply deriv_eq; [apply deriv_mult; [apply deriv_const|]; apply deriv_atan, deriv_div; [|apply deriv_minus; apply deriv_mult; eassumption|apply deriv_plus; [apply deriv_const|]; apply deriv_plus; apply deriv_mult; eassumption]; lra|].
  cbv beta. set (C := c0 t * c1 t + s0 t * s1 t) in *. set (S := c0 t * s1 t - s0 t * c1 t) in *.
  assert (Q : S * S + C * C = 1). { pose proof (sin2_cos2 (th t)) as X. unfold Rsqr in X. rewrite EC, ES in X. exact X. }
  replace (- s0 t * w0 * c1 t + c0 t * (- s1 t * w1) + (c0 t * w0 * s1 t + s0 t * (c1 t * w1))) with (- S * (w1 - w0)) by (unfold S; ring).
  replace (c0 t * (c1 t * w1) + - s0 t * w0 * s1 t - (s0 t * (- s1 t * w1) + c0 t * w0 * c1 t)) with (C * (w1 - w0)) by (unfold C; ring).
  replace (- s0 t * w0 * s1 t + c0 t * (c1 t * w1) - (c0 t * w0 * c1 t + s0 t * (- s1 t * w1))) with (C * (w1 - w0)) by (unfold C; ring).
  clearbody C S. assert (N : 1 + C <> 0) by lra.
  match goal with |- ?x = _ => replace x with (2 * ((w1 - w0) * (C * (1 + C) + S * S) / ((1 + C) * (1 + C) + S * S))) end.
  - replace (C * (1 + C) + S * S) with (1 + C) by lra. replace ((1 + C) * (1 + C) + S * S) with (2 * (1 + C)) by lra. field. exact N.
  - field. split; [exact N|]. replace ((1 + C) ^ 2 + S ^ 2) with (2 * (1 + C)) by lra. lra.
Qed.
Lemma dd_vec eps n q0 q1 w0 w1 d t : movesAt (LVec n) q0 w0 t -> movesAt (LVec n) q1 w1 t -> (forall u, leadsTo (LVec n) (q0 u) (d u) (q1 u)) ->
  derivTo n d (fun k => jacMul n (lg_dDifference eps (LVec n) ARG0 (q0 t) (q1 t)) w0 k + jacMul n (lg_dDifference eps (LVec n) ARG1 (q0 t) (q1 t)) w1 k) t.
Proof.
  intros M0 M1 L k Hk. cbn [lg_dDifference]. rewrite (jac_id n w1 k Hk).
  assert (E : jacMul n (fun k l => - idJac k l) w0 k = - w0 k).
  { rewrite <- (jac_id n w0 k Hk). unfold jacMul. rewrite <- (Rplus_0_r (sumTo n (fun j => - idJac k j * w0 j))). apply Rplus_eq_reg_r with (sumTo n (fun j => idJac k j * w0 j)). rewrite Rplus_0_r, <- sum_add.
    rewrite (sum_ext n _ (fun _ => 0)); [rewrite sum_zero; ring|]. intros j Hj. ring. }
  rewrite E. eapply (deriv_ext _ (fun u => q1 u k - q0 u k)); [intros u; rewrite (L u k Hk); ring|]. eapply deriv_eq; [apply deriv_minus; [apply M1, Hk|apply M0, Hk]|]. ring.
Qed.
Lemma dd_so2 eps q0 q1 w0 w1 d t : (forall u, onGroup LSO2 (q0 u)) -> movesAt LSO2 q0 w0 t -> movesAt LSO2 q1 w1 t -> (forall u, leadsTo LSO2 (q0 u) (d u) (q1 u)) -> (forall u, shortest LSO2 (d u)) ->
  derivTo 1 d (fun k => jacMul 1 (lg_dDifference eps LSO2 ARG0 (q0 t) (q1 t)) w0 k + jacMul 1 (lg_dDifference eps LSO2 ARG1 (q0 t) (q1 t)) w1 k) t.
Proof.
  intros G [A B] [A' B'] L S k Hk. assert (k = 0)%nat by lia. subst k. unfold jacMul. cbn [sumTo lg_dDifference]. eapply deriv_eq.
  - apply (angle_rate (fun u => q0 u 0%nat) (fun u => q0 u 1%nat) (fun u => q1 u 0%nat) (fun u => q1 u 1%nat) (fun u => d u 0%nat) (w0 0%nat) (w1 0%nat)); try assumption; intros u; first [apply (proj1 (L u)) | apply (proj2 (L u)) | apply G | apply S].
  - ring.
Qed.
(* the inverse of the motion of SE(2) *)
Definition alphaOf (t : R) : R := t * sin t / (2 * (1 - cos t)).
Lemma planar_inv x y a b w : w <> 0 -> cos w <> 1 -> x = sinc w * a - w * cosc w * b -> y = w * cosc w * a + sinc w * b -> a = alphaOf w * x + w / 2 * y /\ b = - (w / 2) * x + alphaOf w * y.
Proof.
  intros N C -> ->. rewrite (sinc_nz _ N), (cosc_nz _ N). unfold alphaOf. assert (D : 1 - cos w <> 0) by lra. pose proof (sin2_cos2 w) as S. unfold Rsqr in S.
  assert (S' : sin w * sin w = (1 - cos w) * (1 + cos w)) by lra. revert S' D. generalize (sin w) (cos w). intros s c S' D. split.
  - transitivity ((s * s / (1 - c) + (1 - c)) / 2 * a); [rewrite S'; field; exact D|field; split; assumption].
  - transitivity ((s * s / (1 - c) + (1 - c)) / 2 * b); [rewrite S'; field; exact D|field; split; assumption].
Qed.
Lemma alpha_rate th w t : cos (th t) <> 1 -> deriv th w t -> deriv (fun u => alphaOf (th u)) ((sin (th t) - th t) / (2 * (1 - cos (th t))) * w) t.
Proof.
  intros C D. unfold alphaOf. assert (N : 1 - cos (th t) <> 0) by lra. pose proof (deriv_sin _ _ _ D) as Ds. pose proof (deriv_cos _ _ _ D) as Dc. cbv beta in Ds, Dc.
  eapply deriv_eq; [apply deriv_div; [|apply deriv_mult; [exact D|exact Ds]|apply deriv_mult; [apply deriv_const|apply deriv_minus; [apply deriv_const|exact Dc]]]; cbv beta; lra|].
  cbv beta. pose proof (sin2_cos2 (th t)) as S. unfold Rsqr in S. assert (S' : sin (th t) * sin (th t) = 1 - cos (th t) * cos (th t)) by lra. revert S' N. generalize (th t) (cos (th t)) (sin (th t)). intros x c s S' N.
  transitivity ((w * s * (1 - c) + x * (c * w) * (1 - c) - x * w * (s * s)) / (2 * (1 - c) * (1 - c))); [field; exact N|]. rewrite S'. field. exact N.
Qed.
Lemma dd_se2 eps q0 q1 w0 w1 d t : (forall u, onGroup LSE2 (q0 u)) -> movesAt LSE2 q0 w0 t -> movesAt LSE2 q1 w1 t -> (forall u, leadsTo LSE2 (q0 u) (d u) (q1 u)) -> (forall u, shortest LSE2 (d u)) -> apart eps LSE2 (d t) ->
  derivTo 3 d (fun k => jacMul 3 (lg_dDifference eps LSE2 ARG0 (q0 t) (q1 t)) w0 k + jacMul 3 (lg_dDifference eps LSE2 ARG1 (q0 t) (q1 t)) w1 k) t.
Proof.
  intros G (X0 & Y0 & C0 & S0) (X1 & Y1 & C1 & S1) L S P. cbn [onGroup leadsTo shortest apart] in *.
  set (om := w1 2%nat - w0 2%nat).
  assert (D2 : deriv (fun u => d u 2%nat) om t).
  { apply (angle_rate (fun u => q0 u 2%nat) (fun u => q0 u 3%nat) (fun u => q1 u 2%nat) (fun u => q1 u 3%nat)); try assumption; intros u; rewrite (L u) by lia; cbn; ring. }
  set (c0 := fun u => q0 u 2%nat) in *. set (s0 := fun u => q0 u 3%nat) in *. set (c1 := fun u => q1 u 2%nat) in *. set (s1 := fun u => q1 u 3%nat) in *.
  set (dx := fun u => q1 u 0%nat - q0 u 0%nat). set (dy := fun u => q1 u 1%nat - q0 u 1%nat). set (th := fun u => d u 2%nat) in *.
  set (px := fun u => c0 u * dx u + s0 u * dy u). set (py := fun u => - s0 u * dx u + c0 u * dy u).
  assert (Nt : th t <> 0). { intros E. unfold th in E. rewrite E, Rabs_R0 in P. lra. }
  assert (Ct : cos (th t) <> 1) by (apply cos_below; [exact Nt|apply S]).
  assert (EX : forall u, px u = sinc (th u) * d u 0%nat - th u * cosc (th u) * d u 1%nat).
  { intros u. unfold px, dx, dy. rewrite !(L u) by lia. cbn [planarFlow]. unfold planarFlow. fold (th u). transitivity ((c0 u * c0 u + s0 u * s0 u) * (sinc (th u) * d u 0%nat - th u * cosc (th u) * d u 1%nat)); [unfold c0, s0; ring|unfold c0, s0; rewrite G; ring]. }
  assert (EY : forall u, py u = th u * cosc (th u) * d u 0%nat + sinc (th u) * d u 1%nat).
  { intros u. unfold py, dx, dy. rewrite !(L u) by lia. unfold planarFlow. fold (th u). transitivity ((c0 u * c0 u + s0 u * s0 u) * (th u * cosc (th u) * d u 0%nat + sinc (th u) * d u 1%nat)); [unfold c0, s0; ring|unfold c0, s0; rewrite G; ring]. }
  assert (Ddx : deriv dx (c1 t * w1 0%nat - s1 t * w1 1%nat - (c0 t * w0 0%nat - s0 t * w0 1%nat)) t) by (apply deriv_minus; assumption).
  assert (Ddy : deriv dy (s1 t * w1 0%nat + c1 t * w1 1%nat - (s0 t * w0 0%nat + c0 t * w0 1%nat)) t) by (apply deriv_minus; assumption).
  set (r00 := c0 t * c1 t + s0 t * s1 t). set (r10 := - s0 t * c1 t + c0 t * s1 t).
  assert (Gt : c0 t * c0 t + s0 t * s0 t = 1) by apply G.
  set (vx := r00 * w1 0%nat - r10 * w1 1%nat - w0 0%nat + w0 2%nat * py t). set (vy := r10 * w1 0%nat + r00 * w1 1%nat - w0 1%nat - w0 2%nat * px t).
  assert (Dx : deriv px vx t).
  { eapply deriv_eq; [apply deriv_plus; apply deriv_mult; [exact C0|exact Ddx|exact S0|exact Ddy]|]. unfold vx, r00, r10, py.
    transitivity ((c0 t * c1 t + s0 t * s1 t) * w1 0%nat - (- s0 t * c1 t + c0 t * s1 t) * w1 1%nat - (c0 t * c0 t + s0 t * s0 t) * w0 0%nat + w0 2%nat * (- s0 t * dx t + c0 t * dy t)); [unfold c0, s0; ring|rewrite Gt; ring]. }
  assert (Dy : deriv py vy t).
  { eapply deriv_eq; [apply deriv_plus; apply deriv_mult; [apply deriv_opp; exact S0|exact Ddx|exact C0|exact Ddy]|]. unfold vy, r00, r10, px.
    transitivity ((- s0 t * c1 t + c0 t * s1 t) * w1 0%nat + (c0 t * c1 t + s0 t * s1 t) * w1 1%nat - (c0 t * c0 t + s0 t * s0 t) * w0 1%nat - w0 2%nat * (c0 t * dx t + s0 t * dy t)); [unfold c0, s0; ring|rewrite Gt; ring]. }
  pose proof (alpha_rate th om t Ct D2) as Da.
  assert (Loc : exists e, 0 < e /\ forall u, Rabs (u - t) < e -> th u <> 0).
  { destruct (deriv_continuous th om t D2 (Rabs (th t)) (Rabs_pos_lt _ Nt)) as (e & Pe & Near). exists e. split; [exact Pe|]. intros u Hu E. specialize (Near u Hu). rewrite E, Rminus_0_l, Rabs_Ropp in Near. lra. }
  destruct Loc as (e & Pe & Near).
  assert (Inv : forall u, Rabs (u - t) < e -> d u 0%nat = alphaOf (th u) * px u + th u / 2 * py u /\ d u 1%nat = - (th u / 2) * px u + alphaOf (th u) * py u).
  { intros u Hu. apply planar_inv; [apply Near, Hu|apply cos_below; [apply Near, Hu|apply S]|apply EX|apply EY]. }
  set (ad := (sin (th t) - th t) / (2 * (1 - cos (th t)))) in *.
  assert (Dh : deriv (fun u => th u / 2) (om / 2) t). { eapply (deriv_ext _ (fun u => / 2 * th u)); [intros u; field|]. eapply deriv_eq; [apply deriv_mult; [apply deriv_const|exact D2]|]. cbv beta. unfold th. field. }
  assert (E0 : deriv (fun u => d u 0%nat) (ad * om * px t + alphaOf (th t) * vx + (om / 2 * py t + th t / 2 * vy)) t).
  { eapply (deriv_ext_loc _ _ _ t e Pe); [intros u Hu; exact (proj1 (Inv u Hu))|]. apply (deriv_plus (fun u => alphaOf (th u) * px u) (fun u => th u / 2 * py u)); [apply (deriv_mult (fun u => alphaOf (th u)) px) | apply (deriv_mult (fun u => th u / 2) py)]; assumption. }
  assert (E1 : deriv (fun u => d u 1%nat) (- (om / 2) * px t + - (th t / 2) * vx + (ad * om * py t + alphaOf (th t) * vy)) t).
  { eapply (deriv_ext_loc _ _ _ t e Pe); [intros u Hu; exact (proj2 (Inv u Hu))|]. apply (deriv_plus (fun u => - (th u / 2) * px u) (fun u => alphaOf (th u) * py u)); [apply (deriv_mult (fun u => - (th u / 2)) px); [apply deriv_opp|] | apply (deriv_mult (fun u => alphaOf (th u)) py)]; assumption. }
  (* the matrices *)
  assert (EC : r00 = cos (th t)). { unfold r00, c1, s1. rewrite !(L t) by lia. unfold planarFlow. fold (th t) (c0 t) (s0 t). transitivity ((c0 t * c0 t + s0 t * s0 t) * cos (th t)); [ring|rewrite Gt; ring]. }
  assert (ES : r10 = sin (th t)). { unfold r10, c1, s1. rewrite !(L t) by lia. unfold planarFlow. fold (th t) (c0 t) (s0 t). transitivity ((c0 t * c0 t + s0 t * s0 t) * sin (th t)); [ring|rewrite Gt; ring]. }
  assert (EJ : forall arg w k, (k < 3)%nat -> jacMul 3 (lg_dDifference eps LSE2 arg (q0 t) (q1 t)) w k =
    v3Out (let z := match arg with ARG0 => mkV3 (- r00 * w 0%nat + - r10 * w 1%nat + (c1 t * dy t + s1 t * - dx t) * w 2%nat) (r10 * w 0%nat + - r00 * w 1%nat + (- s1 t * dy t + c1 t * - dx t) * w 2%nat) (- w 2%nat) | ARG1 => v3At w end in
      let X := r00 * Vec3.vx z - r10 * Vec3.vy z in let Y := r10 * Vec3.vx z + r00 * Vec3.vy z in
      mkV3 (alphaOf (th t) * X + th t / 2 * Y + (ad * px t + py t / 2) * vz z) (- (th t / 2) * X + alphaOf (th t) * Y + (- px t / 2 + ad * py t) * vz z) (vz z)) k).
  { intros arg w k Hk. assert (EL : so2_log (cos (th t)) (- sin (th t)) (sin (th t)) (cos (th t)) = th t) by (apply so2_log_angle; pose proof (Rabs_def2 _ _ (S t)) as B; unfold th; lra).
    assert (EI : / 2 / (1 - cos (th t)) = / (2 * (1 - cos (th t)))) by (field; lra).
    assert (EJ1 : se2_Jlog (c0 t * c1 t + s0 t * s1 t) (c0 t * - s1 t + s0 t * c1 t) (- s0 t * c1 t + c0 t * s1 t) (- s0 t * - s1 t + c0 t * c1 t) (px t) (py t) =
      mkM3 (alphaOf (th t) * r00 + th t / 2 * r10) (alphaOf (th t) * - r10 + th t / 2 * r00) (ad * px t + py t / 2) (- (th t / 2) * r00 + alphaOf (th t) * r10) (- (th t / 2) * - r10 + alphaOf (th t) * r00) (- px t / 2 + ad * py t) 0 0 1).
    { replace (c0 t * - s1 t + s0 t * c1 t) with (- r10) by (unfold r10; ring). replace (- s0 t * - s1 t + c0 t * c1 t) with r00 by (unfold r00; ring). fold r00 r10. rewrite EC, ES. unfold se2_Jlog. rewrite EL. cbv zeta.
      destruct (Rlt_dec (Rabs (th t)) (1 / 10 ^ 4)) as [B|_]; [unfold th in B; exfalso; lra|]. rewrite EI. unfold ad, alphaOf. apply m3_ext; cbn; field; lra. }
    destruct arg; cbn [lg_dDifference]; fold (c0 t) (s0 t) (c1 t) (s1 t) (dx t) (dy t) (px t) (py t); rewrite EJ1; rewrite jac3 by exact Hk; f_equal.
    - rewrite m3vec_mul. replace (q0 t 0%nat - q1 t 0%nat) with (- dx t) by (unfold dx; ring). replace (c0 t * - s1 t + s0 t * c1 t) with (- r10) by (unfold r10; ring). replace (- s0 t * - s1 t + c0 t * c1 t) with r00 by (unfold r00; ring). fold r00 r10.
      generalize r00 r10 (th t) (alphaOf (th t)) ad (px t) (py t) (c1 t) (s1 t) (dx t) (dy t). intros. unfold v3At. apply v3_ext; cbv [m3vec Vec3.vx Vec3.vy vz m00 m01 m02 m10 m11 m12 m20 m21 m22]; field.
    - generalize r00 r10 (th t) (alphaOf (th t)) ad (px t) (py t). intros. unfold v3At. apply v3_ext; cbv [m3vec Vec3.vx Vec3.vy vz m00 m01 m02 m10 m11 m12 m20 m21 m22]; field. }
  assert (RX : r00 * (c1 t * dy t + s1 t * - dx t) - r10 * (- s1 t * dy t + c1 t * - dx t) = (c1 t * c1 t + s1 t * s1 t) * py t) by (unfold r00, r10, py; ring).
  assert (RY : r10 * (c1 t * dy t + s1 t * - dx t) + r00 * (- s1 t * dy t + c1 t * - dx t) = - (c1 t * c1 t + s1 t * s1 t) * px t) by (unfold r00, r10, px; ring).
  assert (RR : r00 * r00 + r10 * r10 = 1). { rewrite EC, ES. pose proof (sin2_cos2 (th t)) as Q. unfold Rsqr in Q. lra. }
  assert (G1 : c1 t * c1 t + s1 t * s1 t = 1). { transitivity ((c0 t * c0 t + s0 t * s0 t) * (c1 t * c1 t + s1 t * s1 t)); [rewrite Gt; ring|]. rewrite <- RR. unfold r00, r10. ring. }
  rewrite G1 in RX, RY.
  assert (ZX : r00 * (- r00 * w0 0%nat + - r10 * w0 1%nat + (c1 t * dy t + s1 t * - dx t) * w0 2%nat) - r10 * (r10 * w0 0%nat + - r00 * w0 1%nat + (- s1 t * dy t + c1 t * - dx t) * w0 2%nat) = - w0 0%nat + w0 2%nat * py t).
  { transitivity (- (r00 * r00 + r10 * r10) * w0 0%nat + w0 2%nat * (r00 * (c1 t * dy t + s1 t * - dx t) - r10 * (- s1 t * dy t + c1 t * - dx t))); [ring|]. rewrite RR, RX. ring. }
  assert (ZY : r10 * (- r00 * w0 0%nat + - r10 * w0 1%nat + (c1 t * dy t + s1 t * - dx t) * w0 2%nat) + r00 * (r10 * w0 0%nat + - r00 * w0 1%nat + (- s1 t * dy t + c1 t * - dx t) * w0 2%nat) = - w0 1%nat - w0 2%nat * px t).
  { transitivity (- (r00 * r00 + r10 * r10) * w0 1%nat + w0 2%nat * (r10 * (c1 t * dy t + s1 t * - dx t) + r00 * (- s1 t * dy t + c1 t * - dx t))); [ring|]. rewrite RR, RY. ring. }
  intros k Hk. rewrite !EJ by exact Hk. cbv zeta. cbn [Vec3.vx Vec3.vy vz v3At]. rewrite ZX, ZY. destruct k as [|[|[|k]]]; [| | |lia]; cbn [v3Out Vec3.vx Vec3.vy vz].
  - eapply deriv_eq; [exact E0|]. unfold vx, vy, om. field.
  - eapply deriv_eq; [exact E1|]. unfold vx, vy, om. field.
  - eapply deriv_eq; [exact D2|]. unfold om. ring.
Qed.
