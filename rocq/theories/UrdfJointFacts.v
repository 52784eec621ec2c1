Require Import Reals List Arith Lra Lia.
From Verif Require Import Vec3 Spatial SpatialFacts Joints Spec_Joints Model Spec_Model JointFacts UrdfJoint Spec_UrdfJoint.
Import ListNotations.
Local Open Scope R_scope.

Lemma normalized_dir tol a : a <> v3zero -> directionOf tol a (normalized a).
Proof.
  intros H. pose proof (v3norm2_pos a H) as P. unfold normalized. destruct (Rlt_dec 0 (v3norm2 a)) as [_|n]; [|contradiction].
  pose proof (sqrt_lt_R0 _ P) as Q. pose proof (sqrt_sqrt _ (Rlt_le _ _ P)) as E. set (r := sqrt (v3norm2 a)) in *. split.
  - replace (v3norm2 (v3scale (/ r) a)) with (/ r * / r * v3norm2 a) by (vsimp; cbn; ring). rewrite <- E. field. lra.
  - left. exists r. split; [exact Q|]. destruct a as [x y z]. apply v3_ext; cbn; field; lra.
Qed.
Lemma unitAxis_norm k : v3norm2 (unitAxis k) = 1.
Proof. destruct k as [|[|k]]; vsimp; cbn; ring. Qed.
Lemma isApprox_dir tol a k : isApprox tol a (unitAxis k) = true -> directionOf tol a (unitAxis k).
Proof.
  unfold isApprox. destruct (Rle_dec _ _) as [H|]; [|discriminate]. intros _. split; [apply unitAxis_norm|]. right.
  eapply Rle_trans; [exact H|]. rewrite unitAxis_norm. pose proof (Rmin_r (v3norm2 a) 1). pose proof (Rle_0_sqr tol) as T. unfold Rsqr in T.
  rewrite <- (Rmult_1_r (tol * tol)) at 2. apply Rmult_le_compat_l; assumption.
Qed.
Lemma extract_dir tol a : a <> v3zero -> match extractCartesianAxis tol a with Some k => directionOf tol a (unitAxis k) /\ (k < 3)%nat | None => directionOf tol a (normalized a) end.
Proof.
  intros H. unfold extractCartesianAxis. destruct (isApprox tol a (unitAxis 0)) eqn:E0; [split; [now apply isApprox_dir | lia]|].
  destruct (isApprox tol a (unitAxis 1)) eqn:E1; [split; [now apply isApprox_dir | lia]|].
  destruct (isApprox tol a (unitAxis 2)) eqn:E2; [split; [now apply isApprox_dir | lia]|]. now apply normalized_dir.
Qed.
Lemma axis_turns k c s : turns (unitAxis k) c s (mkSE3 (axisRotation k s c) v3zero).
Proof. split; [reflexivity|]. intros x. cbn [rot]. destruct k as [|[|k]]; unfold axisRotation, unitAxis; destruct x; apply v3_ext; cbn; vsimp; ring. Qed.
Lemma unaligned_turns u c s : turns u c s (mkSE3 (toRotationMatrix u c s) v3zero).
Proof. split; [reflexivity|]. intros x. cbn [rot]. unfold toRotationMatrix. destruct x, u. apply v3_ext; vsimp; cbn; ring. Qed.

Theorem urdf_motion tol axis : axis <> v3zero ->
  (exists u, directionOf tol axis u /\ forall q v, turns u (cos (q 0%nat)) (sin (q 0%nat)) (jM (jcalc (urdfJoint tol URevolute axis) q v))) /\
  (exists u, directionOf tol axis u /\ forall q v, turns u (q 0%nat) (q 1%nat) (jM (jcalc (urdfJoint tol UContinuous axis) q v))) /\
  (exists u, directionOf tol axis u /\ forall q v, slides u (q 0%nat) (jM (jcalc (urdfJoint tol UPrismatic axis) q v))).
Proof.
  intros H. pose proof (extract_dir tol axis H) as D. cbn [urdfJoint]. unfold axisJoint. destruct (extractCartesianAxis tol axis) as [k|].
  - destruct D as [D _]. repeat split; exists (unitAxis k); (split; [exact D|]); intros q v; cbn [jcalc jM calcM1]; [apply axis_turns | apply axis_turns | split; reflexivity].
  - repeat split; exists (normalized axis); (split; [exact D|]); intros q v; cbn [jcalc jM calcM1]; [apply unaligned_turns | apply unaligned_turns | split; reflexivity].
Qed.
Theorem urdf_sizes tol infty t axis lim dyn : notMimic (urdfJoint tol t axis) /\ goodSizes (urdfJoint tol t axis) (urdfLimits infty t lim dyn).
Proof.
  destruct t; cbn [urdfJoint]; unfold axisJoint; try destruct (extractCartesianAxis tol axis); repeat split.
Qed.
(* limits of the coordinates and efforts *)
Theorem urdf_limits infty l d t : t = URevolute \/ t = UPrismatic ->
  let L := urdfLimits infty t (Some l) (Some d) in
  l_effort L = [u_effort l] /\ l_velocity L = [u_velocity l] /\ l_lower L = [u_lower l] /\ l_upper L = [u_upper l] /\
  l_friction L = [u_friction d] /\ l_damping L = [u_damping d].
Proof. intros [-> | ->]; repeat split. Qed.

(* a planar joint of normal x moves along x *)
Theorem urdf_planar tol : exists q, (q 2%nat = 1 /\ q 3%nat = 0) /\ v3dot (unitAxis 0) (trans (jM (jcalc (urdfJoint tol UPlanar (unitAxis 0)) q (fun _ => 0)))) = 1.
Proof. exists (fun k : nat => match k with O => 1 | S (S O) => 1 | _ => 0 end). split; [split; reflexivity|]. cbn. vsimp. cbn. ring. Qed.
Theorem urdf_planar_z tol q v axis : axis = unitAxis 2 -> v3dot axis (trans (jM (jcalc (urdfJoint tol UPlanar axis) q v))) = 0 /\
  m3vec (rot (jM (jcalc (urdfJoint tol UPlanar axis) q v))) axis = axis.
Proof. intros ->. cbn [urdfJoint jcalc jM calcM1 trans rot]. split; [vsimp; cbn; ring | unfold axisRotation, unitAxis; apply v3_ext; vsimp; cbn; ring]. Qed.
Theorem urdf_continuous infty lim dyn c s : c * c + s * s = 1 ->
  let L := urdfLimits infty UContinuous lim dyn in
  nth 0 (l_lower L) 0 < c < nth 0 (l_upper L) 0 /\ nth 1 (l_lower L) 0 < s < nth 1 (l_upper L) 0.
Proof. intros H. cbn. repeat split; nra. Qed.
Lemma motion_ex : mkV3 1 2 0 <> v3zero.
Proof. intros H. injection H. lra. Qed.
Lemma circle_ex : 3/5 * (3/5) + 4/5 * (4/5) = 1.
Proof. lra. Qed.
