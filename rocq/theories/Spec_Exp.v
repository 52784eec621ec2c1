(* The exponential of SO(3) and SE(3): what the functions of explog.hpp approximate. *)
Require Import Reals.
From Verif Require Import Vec3 Spatial Rot.
Local Open Scope R_scope.

Definition v3norm (v : V3) : R := sqrt (v3dot v v).
(* sin x / x, (1 - cos x) / x^2, (x - sin x) / x^3 extended by their limits at 0 *)
Definition sinc (x : R) : R := if Req_EM_T x 0 then 1 else sin x / x.
Definition cosc (x : R) : R := if Req_EM_T x 0 then 1 / 2 else (1 - cos x) / (x * x).
Definition sinc3 (x : R) : R := if Req_EM_T x 0 then 1 / 6 else (x - sin x) / (x * x * x).
(* the rotation of angle |v| about v (Rodrigues) *)
Definition Rexp (v : V3) : M3 :=
  m3add (m3add (m3scale (cos (v3norm v)) m3id) (m3scale (sinc (v3norm v)) (skew v))) (m3scale (cosc (v3norm v)) (m3outer v v)).
(* the displacement after unit time along the constant twist (v, w) *)
Definition Texp (nu : V6) : V3 :=
  let th := v3norm (ang nu) in
  v3add (v3add (v3scale (sinc th) (lin nu)) (v3scale (sinc3 th * v3dot (ang nu) (lin nu)) (ang nu))) (v3scale (cosc th) (v3cross (ang nu) (lin nu))).
Definition SE3exp (nu : V6) : SE3 := mkSE3 (Rexp (ang nu)) (Texp nu).
(* every entry is within d *)
Definition m3close (d : R) (A B : M3) : Prop :=
  Rabs (m00 A - m00 B) <= d /\ Rabs (m01 A - m01 B) <= d /\ Rabs (m02 A - m02 B) <= d /\
  Rabs (m10 A - m10 B) <= d /\ Rabs (m11 A - m11 B) <= d /\ Rabs (m12 A - m12 B) <= d /\
  Rabs (m20 A - m20 B) <= d /\ Rabs (m21 A - m21 B) <= d /\ Rabs (m22 A - m22 B) <= d.
Definition v3close (d : R) (u v : V3) : Prop := Rabs (vx u - vx v) <= d /\ Rabs (vy u - vy v) <= d /\ Rabs (vz u - vz v) <= d.
(* the unit quaternion of the rotation of angle |v| about v *)
Definition Qexp (v : V3) : Quat :=
  let k := sinc (v3norm v / 2) / 2 in mkQ (k * vx v) (k * vy v) (k * vz v) (cos (v3norm v / 2)).
Definition qclose (d : R) (p q : Quat) : Prop :=
  Rabs (qx p - qx q) <= d /\ Rabs (qy p - qy q) <= d /\ Rabs (qz p - qz q) <= d /\ Rabs (qw p - qw q) <= d.
