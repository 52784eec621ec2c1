(* The joint model the URDF loader chooses from the type and the axis of a joint, with its limits (src/parsers/urdf/model.cpp
   103-255, parsers/urdf/model.hxx 248-297, 438-478, 564-574).  URDF mimic tags are left out. *)
Require Import Reals List Arith.
From Verif Require Import Vec3 Spatial Joints Model.
Import ListNotations.
Local Open Scope R_scope.

(* urdf::Joint types handled by the switch, apart from FIXED *)
Inductive UType := UFloating | URevolute | UContinuous | UPrismatic | UPlanar.
(* urdf::JointLimits and urdf::JointDynamics *)
Record ULimits := mkULimits { u_effort : R; u_velocity : R; u_lower : R; u_upper : R }.
Record UDynamics := mkUDynamics { u_friction : R; u_damping : R }.

(* Eigen isApprox(other, prec): |a - b|^2 <= prec^2 min(|a|^2, |b|^2) *)
Definition isApprox (tol : R) (a b : V3) : bool :=
  if Rle_dec (v3norm2 (v3sub a b)) (tol * tol * Rmin (v3norm2 a) (v3norm2 b)) then true else false.
(* Eigen normalized() *)
Definition normalized (a : V3) : V3 := if Rlt_dec 0 (v3norm2 a) then v3scale (/ sqrt (v3norm2 a)) a else a.

(* model.hxx 564-574 extractCartesianAxis; None is AXIS_UNALIGNED *)
Definition extractCartesianAxis (tol : R) (axis : V3) : option nat :=
  if isApprox tol axis (unitAxis 0) then Some 0%nat
  else if isApprox tol axis (unitAxis 1) then Some 1%nat
  else if isApprox tol axis (unitAxis 2) then Some 2%nat else None.
(* model.hxx 438-478 addJoint<TypeX, TypeY, TypeZ, TypeUnaligned> *)
Definition axisJoint (tol : R) (axis : V3) (aligned : nat -> Joint1) (unaligned : V3 -> Joint1) : Joint :=
  match extractCartesianAxis tol axis with Some k => JSimple (aligned k) | None => JSimple (unaligned (normalized axis)) end.
(* model.hxx 254-297; the axis of a planar joint is not read *)
Definition urdfJoint (tol : R) (t : UType) (axis : V3) : Joint :=
  match t with
  | UFloating => JSimple JFreeFlyer
  | URevolute => axisJoint tol axis JRevolute JRevoluteUnaligned
  | UContinuous => axisJoint tol axis JRUB JRUBUnaligned
  | UPrismatic => axisJoint tol axis JPrismatic JPrismaticUnaligned
  | UPlanar => JSimple JPlanar
  end.
(* model.cpp 98-255; [infty] stands for the infinity of the scalar type.  Revolute and prismatic joints without limits (an assert,
   then uninitialised vectors) are given infinite ones here. *)
Definition urdfLimits (infty : R) (t : UType) (lim : option ULimits) (dyn : option UDynamics) : Limits :=
  let fr := match dyn with Some d => u_friction d | None => 0 end in
  let da := match dyn with Some d => u_damping d | None => 0 end in
  let eff := match lim with Some l => u_effort l | None => infty end in
  let vel := match lim with Some l => u_velocity l | None => infty end in
  let lo := match lim with Some l => u_lower l | None => - infty end in
  let up := match lim with Some l => u_upper l | None => infty end in
  match t with
  | UFloating => mkLimits (repeat infty 6) (repeat infty 6) (repeat (- infty) 3 ++ repeat (- (101/100)) 4) (repeat infty 3 ++ repeat (101/100) 4)
                   (repeat 0 6) (repeat 0 6)
  | URevolute | UPrismatic => mkLimits [eff] [vel] [lo] [up] [fr] [da]
  | UContinuous => mkLimits [eff] [vel] (repeat (- (101/100)) 2) (repeat (101/100) 2) [fr] [da]
  | UPlanar => mkLimits (repeat infty 3) (repeat infty 3) (repeat (- infty) 2 ++ repeat (- (101/100)) 2) (repeat infty 2 ++ repeat (101/100) 2)
                 (repeat 0 3) (repeat 0 3)
  end.
