(* C76: the Jacobians of the exponential and of the logarithm of SO(3). *)
Require Import Reals.
From Verif Require Import Vec3 Spatial Rot Spec_Exp Deriv ExpLog ExpJac Spec_ExpJac ExpJacFacts ExpJacFacts2 ExpJacFacts3 ExpJacFacts4 ExpJacEx.
Local Open Scope R_scope.

(* the vector (1, 0, 0) is far from the identity for eps = 1/16, and (1/4, 0, 0) is near *)
Example C76_far_ex : 0 < 1 / 16 /\ ts3 (1 / 16) < v3norm (mkV3 1 0 0) /\ cos (v3norm (mkV3 1 0 0)) <> 1.
Proof. exact ex_big. Qed.
Example C76_near_ex : 0 < 1 / 16 <= 1 / 4 /\ v3norm (mkV3 (1 / 4) 0 0) < ts3 (1 / 16).
Proof. exact ex_small. Qed.
Example C76_line_ex (v d : V3) : v3add v (v3scale 0 d) = v /\ deriv3 (fun u => v3add v (v3scale u d)) d 0.
Proof. exact (ex_line v d). Qed.
Example C76_Hlog3_ex (v : V3) : let w0 := mkV3 1 0 0 in let w := fun u => v3add w0 (v3scale u (m3vec (Jlog3 (1 / 16) (v3norm w0) w0) v)) in
  ts3 (1 / 16) < v3norm (w 0) /\ cos (v3norm (w 0)) <> 1 /\ deriv3 w (m3vec (Jlog3 (1 / 16) (v3norm (w 0)) (w 0)) v) 0.
Proof. exact (ex_hlog v). Qed.
Example C76_quaternion_ex : 0 < 1 / 16 /\ sqrt (1 / 16) < v3dot (mkV3 1 0 0) (mkV3 1 0 0).
Proof. exact ex_quat. Qed.

(** along any differentiable rotation vector the exponential turns at Jr(w) dw/dt, at the origin too *)
Theorem C76_derivative (w : R -> V3) (dw : V3) (t : R) : deriv3 w dw t -> turns (fun u => Rexp (w u)) (m3vec (Jr (w t)) dw) t.
Proof. exact (exp_turns w dw t). Qed.
(* hypotheses met: C76_line_ex *)
Print Assumptions C76_derivative.
(** Jexp3 away from the origin is that Jacobian: the exponential turns at Jexp3(w) dw/dt *)
Theorem C76_Jexp3 (eps : R) (w : R -> V3) (dw : V3) (t : R) (J : M3) : 0 < eps -> ts3 eps <= v3norm (w t) -> deriv3 w dw t ->
  turns (fun u => Rexp (w u)) (m3vec (Jexp3 eps SETTO (w t) J) dw) t.
Proof. exact (fun He Hw D => eq_ind_r (fun M => turns (fun u => Rexp (w u)) (m3vec M dw) t) (exp_turns w dw t D) (jexp_big eps (w t) J He Hw)). Qed.
(* hypotheses met: C76_far_ex, C76_line_ex *)
Print Assumptions C76_Jexp3.
(** the assignment operators add the Jacobian to the argument or remove it from it, whatever the argument of the plain call held *)
Theorem C76_Jexp3_ops (eps : R) (r : V3) (J K : M3) :
  Jexp3 eps ADDTO r J = m3add J (Jexp3 eps SETTO r K) /\ Jexp3 eps RMTO r J = m3sub J (Jexp3 eps SETTO r K).
Proof. exact (jexp_ops eps r J K). Qed.
Print Assumptions C76_Jexp3_ops.
(** near the origin Jexp3 is within eps^(3/4) / 12 + eps of it *)
Theorem C76_Jexp3_small (eps : R) (r : V3) (J : M3) : 0 < eps <= 1 / 4 -> v3norm r < ts3 eps ->
  m3close (ts3 eps ^ 3 / 12 + eps) (Jexp3 eps SETTO r J) (Jr r).
Proof. exact (jexp_small eps r J). Qed.
(* hypotheses met: C76_near_ex *)
Print Assumptions C76_Jexp3_small.
(** and no multiple of eps bounds that error: the second coefficient of the expansion has the wrong sign *)
Theorem C76_Jexp3_taylor_refuted (C : R) : exists eps r, 0 < eps <= 1 / 4 /\ v3norm r < ts3 eps /\ forall J, ~ m3close (C * eps) (Jexp3 eps SETTO r J) (Jr r).
Proof. exact (jexp_taylor C). Qed.
Print Assumptions C76_Jexp3_taylor_refuted.
(** Jlog3 away from the origin and from full turns is the inverse of the Jacobian of the exponential *)
Theorem C76_Jlog3_inverse (eps : R) (w : V3) : 0 < eps -> ts3 eps <= v3norm w -> cos (v3norm w) <> 1 ->
  m3mul (Jr w) (Jlog3 eps (v3norm w) w) = m3id /\ m3mul (Jlog3 eps (v3norm w) w) (Jr w) = m3id.
Proof. exact (fun He => jlog_big eps He w). Qed.
(* hypotheses met: C76_far_ex *)
Print Assumptions C76_Jlog3_inverse.
(** near the origin it is that inverse up to eps *)
Theorem C76_Jlog3_small (eps : R) (w : V3) : 0 < eps -> eps <= 1 / 4 -> v3norm w < ts3 eps ->
  m3close eps (m3mul (Jr w) (Jlog3 eps (v3norm w) w)) m3id /\ m3close eps (m3mul (Jlog3 eps (v3norm w) w) (Jr w)) m3id.
Proof. exact (fun He => jlog_small eps He w). Qed.
(* hypotheses met: C76_near_ex *)
Print Assumptions C76_Jlog3_small.
(** a rotation vector whose exponential turns at om moves at Jlog3 om *)
Theorem C76_Jlog3_rate (eps : R) (w : R -> V3) (dw om : V3) (t : R) : 0 < eps -> deriv3 w dw t -> turns (fun u => Rexp (w u)) om t ->
  ts3 eps <= v3norm (w t) -> cos (v3norm (w t)) <> 1 -> dw = m3vec (Jlog3 eps (v3norm (w t)) (w t)) om.
Proof. exact (fun He => jlog_rate eps He w dw om t). Qed.
(* hypotheses met: C76_far_ex, C76_line_ex, C76_derivative *)
Print Assumptions C76_Jlog3_rate.
(** Hlog3 is the derivative of Jlog3 while the rotation turns at v *)
Theorem C76_Hlog3 (eps : R) (w : R -> V3) (v : V3) (t : R) : 0 < eps -> ts3 eps < v3norm (w t) -> cos (v3norm (w t)) <> 1 ->
  deriv3 w (m3vec (Jlog3 eps (v3norm (w t)) (w t)) v) t ->
  derivM3 (fun u => Jlog3 eps (v3norm (w u)) (w u)) (Hlog3 (v3norm (w t)) (w t) v) t.
Proof. exact (fun He => hlog_rate eps He w v t). Qed.
(* hypotheses met: C76_Hlog3_ex *)
Print Assumptions C76_Hlog3.
(** the 4 x 3 Jacobian of the quaternion exponential is the derivative of its coefficients when |w|^2 > sqrt eps *)
Theorem C76_quaternion (eps : R) (w : R -> V3) (dw : V3) (t : R) : 0 < eps -> sqrt eps < v3dot (w t) (w t) -> deriv3 w dw t ->
  derivQ (fun u => Qexp (w u)) (qRate (Jexp3CoeffWise eps (w t)) dw) t.
Proof. exact (qexp_rate eps w dw t). Qed.
(* hypotheses met: C76_quaternion_ex, C76_line_ex *)
Print Assumptions C76_quaternion.
(** nearer to the origin it is not, up to any multiple of eps: the coefficients of the expansion are doubled *)
Theorem C76_quaternion_taylor_refuted (C : R) : exists eps v dw, 0 < eps <= 1 / 4 /\ v3dot v v <= sqrt eps /\
  forall d, derivQ (fun u => Qexp (v3add v (v3scale u dw))) d 0 -> ~ qclose (C * eps) (qRate (Jexp3CoeffWise eps v) dw) d.
Proof. exact (qexp_taylor C). Qed.
Print Assumptions C76_quaternion_taylor_refuted.
