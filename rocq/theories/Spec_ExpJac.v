(* The right Jacobian of the exponential of SO(3). *)
Require Import Reals.
From Verif Require Import Vec3 Spatial Rot Spec_Exp Deriv.
Local Open Scope R_scope.

(* d exp(w) = exp(w) [Jr(w) dw]x *)
Definition Jr (w : V3) : M3 :=
  m3add (m3sub (m3scale (sinc (v3norm w)) m3id) (m3scale (cosc (v3norm w)) (skew w))) (m3scale (sinc3 (v3norm w)) (m3outer w w)).
(* the moving rotation A turns at the angular velocity w, expressed in the moving frame *)
Definition turns (A : R -> M3) (w : V3) (t : R) : Prop := derivM3 A (m3mul (A t) (skew w)) t.
(* the derivative of a moving quaternion *)
Definition derivQ (q : R -> Quat) (d : Quat) (t : R) : Prop :=
  deriv (fun s => qx (q s)) (qx d) t /\ deriv (fun s => qy (q s)) (qy d) t /\ deriv (fun s => qz (q s)) (qz d) t /\ deriv (fun s => qw (q s)) (qw d) t.
(* the rate of a quaternion along dw, from the 4 x 3 matrix whose vector rows are J1 and scalar row J2 *)
Definition qRate (J : M3 * V3) (dw : V3) : Quat :=
  mkQ (vx (m3vec (fst J) dw)) (vy (m3vec (fst J) dw)) (vz (m3vec (fst J) dw)) (v3dot (snd J) dw).
