(* C90: the joints chosen by the URDF loader. *)
Require Import Reals List Arith.
From Verif Require Import Vec3 Spatial Joints Spec_Joints Model Spec_Model UrdfJoint Spec_UrdfJoint UrdfJointFacts.
Import ListNotations.
Local Open Scope R_scope.

(** a revolute joint turns by its coordinate about its axis, a continuous joint by the angle whose cosine and sine are its coordinates, a prismatic joint slides along its axis;
    the axis need not have norm one, and an axis within the tolerance of a coordinate axis is replaced by it *)
Theorem C90_motion (tol : R) (axis : V3) : axis <> v3zero ->
  (exists u, directionOf tol axis u /\ forall q v, turns u (cos (q 0%nat)) (sin (q 0%nat)) (jM (jcalc (urdfJoint tol URevolute axis) q v))) /\
  (exists u, directionOf tol axis u /\ forall q v, turns u (q 0%nat) (q 1%nat) (jM (jcalc (urdfJoint tol UContinuous axis) q v))) /\
  (exists u, directionOf tol axis u /\ forall q v, slides u (q 0%nat) (jM (jcalc (urdfJoint tol UPrismatic axis) q v))).
Proof. exact (urdf_motion tol axis). Qed.
Print Assumptions C90_motion.
Example C90_motion_ex : mkV3 1 2 0 <> v3zero. Proof. exact motion_ex. Qed.

(** the limits built by the loader have the sizes of the joint, so that the joint is accepted (the hypothesis of C89 on joints) *)
Theorem C90_sizes (tol infty : R) (t : UType) (axis : V3) (lim : option ULimits) (dyn : option UDynamics) :
  notMimic (urdfJoint tol t axis) /\ goodSizes (urdfJoint tol t axis) (urdfLimits infty t lim dyn).
Proof. exact (urdf_sizes tol infty t axis lim dyn). Qed.
Print Assumptions C90_sizes.

(** the limits, friction and damping of a revolute or prismatic joint are those of the description *)
Theorem C90_limits (infty : R) (l : ULimits) (d : UDynamics) (t : UType) : t = URevolute \/ t = UPrismatic ->
  let L := urdfLimits infty t (Some l) (Some d) in
  l_effort L = [u_effort l] /\ l_velocity L = [u_velocity l] /\ l_lower L = [u_lower l] /\ l_upper L = [u_upper l] /\
  l_friction L = [u_friction d] /\ l_damping L = [u_damping d].
Proof. exact (urdf_limits infty l d t). Qed.
Print Assumptions C90_limits.
Example C90_limits_ex : URevolute = URevolute \/ URevolute = UPrismatic. Proof. exact (or_introl eq_refl). Qed.

(** every pair of cosine and sine is strictly inside the limits of a continuous joint *)
Theorem C90_continuous (infty : R) (lim : option ULimits) (dyn : option UDynamics) (c s : R) : c * c + s * s = 1 ->
  let L := urdfLimits infty UContinuous lim dyn in
  nth 0 (l_lower L) 0 < c < nth 0 (l_upper L) 0 /\ nth 1 (l_lower L) 0 < s < nth 1 (l_upper L) 0.
Proof. exact (urdf_continuous infty lim dyn c s). Qed.
Print Assumptions C90_continuous.
Example C90_continuous_ex : 3/5 * (3/5) + 4/5 * (4/5) = 1. Proof. exact circle_ex. Qed.

(** a planar joint of normal z stays in its plane and turns about its normal *)
Theorem C90_planar_z_partial (tol : R) (q v : nat -> R) (axis : V3) : axis = unitAxis 2 ->
  v3dot axis (trans (jM (jcalc (urdfJoint tol UPlanar axis) q v))) = 0 /\ m3vec (rot (jM (jcalc (urdfJoint tol UPlanar axis) q v))) axis = axis.
Proof. exact (urdf_planar_z tol q v axis). Qed.
Print Assumptions C90_planar_z_partial.
(** for another normal this fails: the axis of a planar joint is not read, and a planar joint of normal x moves along x *)
Theorem C90_planar_refuted (tol : R) : exists q : nat -> R, (q 2%nat = 1 /\ q 3%nat = 0) /\
  v3dot (unitAxis 0) (trans (jM (jcalc (urdfJoint tol UPlanar (unitAxis 0)) q (fun _ => 0)))) = 1.
Proof. exact (urdf_planar tol). Qed.
Print Assumptions C90_planar_refuted.
