(** Property theorems C12, C13 (exponentials), C14 (quaternions) and C15 (roll-pitch-yaw). Statements only.
    Rexp, SE3exp and Qexp are the exact exponentials of Spec_Exp; C12_exact_* and C13_exact_* say why they are. *)
From Coq Require Import Reals Lra.
From Verif Require Import Vec3 Spatial Deriv Rot Spec_Rot RotFacts ExpLog Spec_Exp ExpFacts ExpFacts2 ExpFacts3 ExpFacts4 ExpFacts5.
Local Open Scope R_scope.

(** ** C12 *)
(** the reference: a rotation, the identity at 0 *)
Theorem C12_exact_rotation (v : V3) : isRotation (Rexp v) /\ Rexp v3zero = m3id.
Proof. exact (conj (rodrigues_rot v) Rexp_0). Qed.
Print Assumptions C12_exact_rotation.
(** ... and the frame that turns at the constant rate v reaches Rexp (t v) at time t *)
Theorem C12_exact_flow (v : V3) (t : R) : derivM3 (fun s => Rexp (v3scale s v)) (m3mul (Rexp (v3scale t v)) (skew v)) t.
Proof. exact (proj1 (SE3exp_flow (mkV6 v3zero v) t)). Qed.
Print Assumptions C12_exact_flow.
(** every entry of exp3 v is within 4 eps of it, on the Taylor and on the trigonometric branch *)
Theorem C12_exp3 (eps : R) (v : V3) : 0 < eps <= 1 / 4 -> m3close (4 * eps) (exp3 eps v) (Rexp v).
Proof. exact (exp3_close eps v). Qed.
Example C12_ex : 0 < 1 / 16 <= 1 / 4. Proof. lra. Qed.
Print Assumptions C12_exp3.
(** the axis is an eigenvector, with eigenvalue 1 up to eps *)
Theorem C12_axis (eps : R) (v : V3) : 0 < eps <= 1 / 4 -> exists l, m3vec (exp3 eps v) v = v3scale l v /\ Rabs (l - 1) <= eps / 4.
Proof. exact (exp3_axis eps v). Qed.
(* hypotheses met: C12_ex *)
Print Assumptions C12_axis.
Theorem C12_zero (eps : R) : 0 < eps <= 1 / 4 -> exp3 eps v3zero = m3scale (1 - eps * eps / 2) m3id.
Proof. exact (exp3_zero eps). Qed.
(* hypotheses met: C12_ex *)
Print Assumptions C12_zero.

(** ** C13 *)
(** the reference: the motion of constant body twist nu, from the identity; its own twist is invariant *)
Theorem C13_exact_flow (nu : V6) (t : R) : hasTwist (fun s => SE3exp (v6scale s nu)) nu t.
Proof. exact (SE3exp_flow nu t). Qed.
Print Assumptions C13_exact_flow.
Theorem C13_exact_screw (nu : V6) : motion_act (SE3exp nu) nu = nu.
Proof. exact (SE3exp_screw nu). Qed.
Print Assumptions C13_exact_screw.
Theorem C13_exp6 (eps : R) (nu : V6) : 0 < eps <= 1 / 4 ->
  m3close (4 * eps) (rot (exp6 eps nu)) (rot (SE3exp nu)) /\ v3close (12 * eps * v3norm (lin nu)) (trans (exp6 eps nu)) (trans (SE3exp nu)).
Proof. exact (exp6_close eps nu). Qed.
(* hypotheses met: C12_ex *)
Print Assumptions C13_exp6.
(** the rotation of exp6 is exp3 of the angular part, except exactly on the threshold between the branches *)
Theorem C13_rotation (eps : R) (nu : V6) : sqrt (v3norm2 (ang nu) + eps * eps) <> ts3 eps -> rot (exp6 eps nu) = exp3 eps (ang nu).
Proof. exact (exp6_rot eps nu). Qed.
Example C13_ex : sqrt (v3norm2 (ang (mkV6 (mkV3 1 2 3) (mkV3 3 4 0))) + 1 / 16 * (1 / 16)) <> ts3 (1 / 16). Proof. exact (proj2 exp_ex). Qed.
Print Assumptions C13_rotation.
(** there the two functions disagree *)
Theorem C13_rotation_boundary_refuted (eps : R) : 0 < eps <= 1 / 4 -> exists w, forall v, rot (exp6 eps (mkV6 v w)) <> exp3 eps w.
Proof. exact (exp6_rot_boundary eps). Qed.
(* hypotheses met: C12_ex *)
Print Assumptions C13_rotation_boundary_refuted.
Theorem C13_translation (eps : R) (v : V3) : 0 < eps <= 1 / 4 -> exp6 eps (mkV6 v v3zero) = mkSE3 (m3scale (1 - eps * eps / 2) m3id) (v3scale (1 - eps * eps / 6) v).
Proof. exact (exp6_translation eps v). Qed.
(* hypotheses met: C12_ex *)
Print Assumptions C13_translation.
Theorem C13_screw (eps : R) (nu : V6) : 0 < eps <= 1 / 4 ->
  v3close (4 * eps * v3norm (lin nu)) (lin (motion_act (exp6 eps nu) nu)) (lin nu) /\ exists l, ang (motion_act (exp6 eps nu) nu) = v3scale l (ang nu) /\ Rabs (l - 1) <= eps / 4.
Proof. exact (exp6_screw eps nu). Qed.
(* hypotheses met: C12_ex *)
Print Assumptions C13_screw.

(** ** C14 *)
Theorem C14_rotation (q : Quat) : qnorm2 q = 1 -> isRotation (qmat q).
Proof. exact (qmat_rot q). Qed.
Example C14_ex : qnorm2 (mkQ 0 0 (3 / 5) (4 / 5)) = 1. Proof. unfold qnorm2, qdot. cbn. lra. Qed.
Print Assumptions C14_rotation.
Theorem C14_product (a b : Quat) : qnorm2 a = 1 -> qnorm2 b = 1 -> qnorm2 (qmul a b) = 1 /\ qmat (qmul a b) = m3mul (qmat a) (qmat b).
Proof. intros Ha Hb. split; [now rewrite qmul_norm, Ha, Hb, Rmult_1_l | exact (qmat_mul a b Ha Hb)]. Qed.
(* hypotheses met: C14_ex *)
Print Assumptions C14_product.
Theorem C14_opposite (q : Quat) : qmat (qscale (-1) q) = qmat q.
Proof. exact (qmat_opp q). Qed.
Print Assumptions C14_opposite.
Theorem C14_conjugate (q : Quat) : qmat (qconj q) = m3tr (qmat q).
Proof. exact (qmat_conj q). Qed.
Print Assumptions C14_conjugate.
(** assignQuaternion inverts the conversion on every rotation matrix *)
Theorem C14_assign (m : M3) : isRotation m -> qnorm2 (assignQuaternion m) = 1 /\ qmat (assignQuaternion m) = m.
Proof. exact (assign_ok m). Qed.
Example C14_ex_assign : isRotation (qmat (mkQ 0 0 (3 / 5) (4 / 5))). Proof. exact (qmat_rot _ C14_ex). Qed.
Print Assumptions C14_assign.
Theorem C14_normalize (q : Quat) : qnorm2 q <= 8 -> Rabs (qnorm2 (firstOrderNormalize q) - 1) <= (qnorm2 q - 1) * (qnorm2 q - 1).
Proof. exact (fon_quad q). Qed.
(* hypotheses met: C14_ex *)
Print Assumptions C14_normalize.
Theorem C14_normalize_unit (q : Quat) : qnorm2 q = 1 -> firstOrderNormalize q = q.
Proof. exact (fon_fix q). Qed.
(* hypotheses met: C14_ex *)
Print Assumptions C14_normalize_unit.
(** the angle between two rotations does not depend on the signs of the quaternions *)
Theorem C14_angle (a b : Quat) : qdot a b <> 0 -> -1 <= qdot a b <= 1 -> angleBetweenQuaternions a (qscale (-1) b) = angleBetweenQuaternions a b /\
  0 <= angleBetweenQuaternions a b <= PI / 2 /\ cos (angleBetweenQuaternions a b) = Rabs (qdot a b).
Proof. exact (angle_flip a b). Qed.
Example C14_ex_angle : qdot (mkQ 0 0 (3 / 5) (4 / 5)) (mkQ 0 0 (-3 / 5) (4 / 5)) = 7 / 25. Proof. unfold qdot. cbn. lra. Qed.
Print Assumptions C14_angle.
(** the quaternion exponential: the reference is a unit quaternion with the right matrix *)
Theorem C14_exact_exp (v : V3) : qnorm2 (Qexp v) = 1 /\ qmat (Qexp v) = Rexp v.
Proof. exact (Qexp_spec v). Qed.
Print Assumptions C14_exact_exp.
Theorem C14_exp3 (eps : R) (v : V3) : 0 < eps <= 1 / 4 -> qclose (eps + ts3 eps ^ 3 / 46080) (qexp3 eps v) (Qexp v).
Proof. exact (qexp3_close eps v). Qed.
(* hypotheses met: C12_ex *)
Print Assumptions C14_exp3.
Theorem C14_exp3_norm (eps : R) (v : V3) : 0 < eps <= 1 / 4 -> 1 - eps * eps / 4 <= qnorm2 (qexp3 eps v) <= 1 + ts3 eps ^ 3 / 23040.
Proof. exact (qexp3_norm eps v). Qed.
(* hypotheses met: C12_ex *)
Print Assumptions C14_exp3_norm.
Theorem C14_exp3_zero (eps : R) : 0 < eps <= 1 / 4 -> qexp3 eps v3zero = mkQ 0 0 0 1.
Proof. exact (qexp3_zero eps). Qed.
(* hypotheses met: C12_ex *)
Print Assumptions C14_exp3_zero.
Theorem C14_exp6 (eps : R) (nu : V6) : 0 < eps <= 1 / 4 -> snd (qexp6 eps nu) = qexp3 eps (ang nu) /\ v3close (14 * eps * v3norm (lin nu)) (fst (qexp6 eps nu)) (trans (SE3exp nu)).
Proof. exact (qexp6_close eps nu). Qed.
(* hypotheses met: C12_ex *)
Print Assumptions C14_exp6.

(** ** C15 *)
Theorem C15_matrix (r p y : R) : rpyToMatrix r p y = rotRpy r p y /\ isRotation (rpyToMatrix r p y).
Proof. rewrite rpy_matrix. exact (conj eq_refl (rpy_rot r p y)). Qed.
Print Assumptions C15_matrix.
(** the Jacobians map angle rates to the angular velocity *)
Theorem C15_jacobian (r p y : R -> R) (dr dp dy t : R) : deriv r dr t -> deriv p dp t -> deriv y dy t ->
  let e := mkV3 (r t) (p t) (y t) in let d := mkV3 dr dp dy in
  derivM3 (fun s => rpyToMatrix (r s) (p s) (y s)) (m3mul (rpyToMatrix (r t) (p t) (y t)) (skew (m3vec (rpyJacobian RLocal e) d))) t /\
  derivM3 (fun s => rpyToMatrix (r s) (p s) (y s)) (m3mul (skew (m3vec (rpyJacobian RWorld e) d)) (rpyToMatrix (r t) (p t) (y t))) t.
Proof. exact (rpy_deriv r p y dr dp dy t). Qed.
Example C15_ex : deriv (fun s => s) 1 2 /\ deriv sin (cos 2) 2.
Proof. exact (conj (derivable_pt_lim_id 2) (derivable_pt_lim_sin 2)). Qed.
Print Assumptions C15_jacobian.
Theorem C15_frames (r p y : R) : rpyJacobian RWorld (mkV3 r p y) = m3mul (rpyToMatrix r p y) (rpyJacobian RLocal (mkV3 r p y)).
Proof. exact (rpy_frames r p y). Qed.
Print Assumptions C15_frames.
Theorem C15_inverse (f : RpyFrame) (e : V3) : cos (vy e) <> 0 ->
  m3mul (rpyJacobianInverse f e) (rpyJacobian f e) = m3id /\ m3mul (rpyJacobian f e) (rpyJacobianInverse f e) = m3id.
Proof. exact (rpy_inverse f e). Qed.
Example C15_ex_inverse : cos (vy (mkV3 1 0 2)) <> 0. Proof. cbn. rewrite cos_0. exact R1_neq_R0. Qed.
Print Assumptions C15_inverse.
Theorem C15_jacobian_rate (f : RpyFrame) (r p y : R -> R) (dr dp dy t : R) : deriv r dr t -> deriv p dp t -> deriv y dy t ->
  derivM3 (fun s => rpyJacobian f (mkV3 (r s) (p s) (y s))) (rpyJacobianDot f (mkV3 (r t) (p t) (y t)) (mkV3 dr dp dy)) t.
Proof. exact (rpy_dot f r p y dr dp dy t). Qed.
(* hypotheses met: C15_ex *)
Print Assumptions C15_jacobian_rate.
(** matrixToRpy moves Eigen's Euler angles (a about z, b about y, c about x) to the documented ranges, same rotation *)
Theorem C15_from_matrix (a b c : R) : 0 <= a <= PI -> - PI <= b <= PI -> - PI <= c <= PI -> let e := matrixToRpy a b c in
  rotRpy (vx e) (vy e) (vz e) = rotRpy c b a /\ - PI <= vx e <= PI /\ - PI / 2 <= vy e <= PI / 2 /\ - PI <= vz e <= PI.
Proof. exact (rpy_back a b c). Qed.
Example C15_ex_from_matrix : 0 <= PI <= PI /\ - PI <= PI <= PI. Proof. pose proof PI_RGT_0. lra. Qed.
Print Assumptions C15_from_matrix.
