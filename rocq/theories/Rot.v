(* math/quaternion.hpp, math/rpy.hxx and the quaternion operations of Eigen they call. *)
Require Import Reals Arith Bool.
From Verif Require Import Vec3 Spatial Joints Model.
Local Open Scope R_scope.

(* Eigen::Quaternion, coefficients stored x, y, z, w *)
Record Quat := mkQ { qx : R; qy : R; qz : R; qw : R }.
Definition qvec (q : Quat) : V3 := mkV3 (qx q) (qy q) (qz q).
(* Eigen::QuaternionBase: dot, squaredNorm, conjugate, coeffs() *= a *)
Definition qdot (a b : Quat) : R := qx a * qx b + qy a * qy b + qz a * qz b + qw a * qw b.
Definition qnorm2 (q : Quat) : R := qdot q q.
Definition qconj (q : Quat) : Quat := mkQ (- qx q) (- qy q) (- qz q) (qw q).
Definition qscale (k : R) (q : Quat) : Quat := mkQ (k * qx q) (k * qy q) (k * qz q) (k * qw q).
(* Eigen quat_product *)
Definition qmul (a b : Quat) : Quat :=
  mkQ (qw a * qx b + qx a * qw b + qy a * qz b - qz a * qy b)
      (qw a * qy b + qy a * qw b + qz a * qx b - qx a * qz b)
      (qw a * qz b + qz a * qw b + qx a * qy b - qy a * qx b)
      (qw a * qw b - qx a * qx b - qy a * qy b - qz a * qz b).
(* toRotationMatrix (quatMatrix of Joints.v) *)
Definition qmat (q : Quat) : M3 := quatMatrix (qx q) (qy q) (qz q) (qw q).
(* assignment of an Eigen::AngleAxis to a quaternion *)
Definition qAngleAxis (t : R) (a : V3) : Quat := mkQ (sin (t / 2) * vx a) (sin (t / 2) * vy a) (sin (t / 2) * vz a) (cos (t / 2)).

(* quaternion.hpp 34-46 *)
Definition angleBetweenQuaternions (a b : Quat) : R :=
  let innerprod := qdot a b in let theta := acos innerprod in
  if Rlt_dec innerprod 0 then PI - theta else theta.
(* quaternion.hpp 89-111 (asserts compiled out) *)
Definition firstOrderNormalize (q : Quat) : Quat := let N2 := qnorm2 q in let alpha := (3 - N2) / 2 in qscale alpha q.
(* quaternion.hpp 114-137; the three draws of rand() / RAND_MAX are arguments *)
Definition uniformRandomQ (u1 u2 u3 : R) : Quat :=
  let mult1 := sqrt (1 - u1) in let mult2 := sqrt u1 in
  let s2 := sin (2 * PI * u2) in let c2 := cos (2 * PI * u2) in let s3 := sin (2 * PI * u3) in let c3 := cos (2 * PI * u3) in
  mkQ (mult1 * c2) (mult2 * s3) (mult2 * c3) (mult1 * s2).
(* quaternion.hpp 145-164, the template argument i being 0, 1 or 2 *)
Definition assignNeg (i : nat) (m : M3) : Quat :=
  let j := Nat.modulo (i + 1) 3 in let k := Nat.modulo (j + 1) 3 in
  let t := sqrt (m3get m i i - m3get m j j - m3get m k k + 1) in
  let qi := / 2 * t in let t := / 2 / t in
  let w := (m3get m k j - m3get m j k) * t in
  let qj := (m3get m j i + m3get m i j) * t in
  let qk := (m3get m k i + m3get m i k) * t in
  let c l := if Nat.eqb l i then qi else if Nat.eqb l j then qj else qk in
  mkQ (c 0%nat) (c 1%nat) (c 2%nat) w.
(* quaternion.hpp 166-181 *)
Definition assignPos (t : R) (m : M3) : Quat :=
  let t := sqrt (t + 1) in let w := / 2 * t in let t := / 2 / t in
  mkQ ((m21 m - m12 m) * t) ((m02 m - m20 m) * t) ((m10 m - m01 m) * t) w.
(* quaternion.hpp 183-219 *)
Definition assignQuaternion (m : M3) : Quat :=
  let t := m3trace m in
  if Rlt_dec 0 t then assignPos t m
  else let i := if Rlt_dec (m00 m) (m11 m) then 1%nat else 0%nat in
       let i := if Rlt_dec (m3get m i i) (m22 m) then 2%nat else i in
       assignNeg i m.

(* rpy.hxx 16-24: the product of AngleAxis objects is a quaternion *)
Definition rpyToMatrix (r p y : R) : M3 :=
  qmat (qmul (qmul (qAngleAxis y (mkV3 0 0 1)) (qAngleAxis p (mkV3 0 1 0))) (qAngleAxis r (mkV3 1 0 0))).
(* rpy.hxx 38-65.  Eigen's eulerAngles(2, 1, 0) is the argument: (e0, e1, e2) = rotations about z, y, x *)
Definition matrixToRpy (e0 e1 e2 : R) : V3 :=
  let r := e2 in let p := e1 in let y := e0 in
  let p := if Rlt_dec p (- PI / 2) then p + 2 * PI else p in
  if Rlt_dec (PI / 2) p then
    let p := PI - p in let r := if Rlt_dec r 0 then r + PI else r - PI in let y := y - PI in mkV3 r p y
  else mkV3 r p y.
(* ReferenceFrame of multibody/fwd.hpp; the function throws for any other value *)
Inductive RpyFrame := RLocal | RWorld.
(* rpy.hxx 67-101 *)
Definition rpyJacobian (f : RpyFrame) (e : V3) : M3 :=
  let sp := sin (vy e) in let cp := cos (vy e) in
  match f with
  | RLocal => let sr := sin (vx e) in let cr := cos (vx e) in mkM3 1 0 (- sp) 0 cr (sr * cp) 0 (- sr) (cr * cp)
  | RWorld => let sy := sin (vz e) in let cy := cos (vz e) in mkM3 (cp * cy) (- sy) 0 (cp * sy) cy 0 (- sp) 0 1
  end.
(* rpy.hxx 103-138 *)
Definition rpyJacobianInverse (f : RpyFrame) (e : V3) : M3 :=
  let sp := sin (vy e) in let cp := cos (vy e) in let tp := sp / cp in
  match f with
  | RLocal => let sr := sin (vx e) in let cr := cos (vx e) in mkM3 1 (sr * tp) (cr * tp) 0 cr (- sr) 0 (sr / cp) (cr / cp)
  | RWorld => let sy := sin (vz e) in let cy := cos (vz e) in mkM3 (cy / cp) (sy / cp) 0 (- sy) cy 0 (cy * tp) (sy * tp) 1
  end.
(* rpy.hxx 140-182 *)
Definition rpyJacobianDot (f : RpyFrame) (e d : V3) : M3 :=
  let sp := sin (vy e) in let cp := cos (vy e) in let dp := vy d in
  match f with
  | RLocal => let sr := sin (vx e) in let cr := cos (vx e) in let dr := vx d in
      mkM3 0 0 (- cp * dp) 0 (- sr * dr) (cr * cp * dr - sr * sp * dp) 0 (- cr * dr) (- sr * cp * dr - cr * sp * dp)
  | RWorld => let sy := sin (vz e) in let cy := cos (vz e) in let dy := vz d in
      mkM3 (- sp * cy * dp - cp * sy * dy) (- cy * dy) 0 (cp * cy * dy - sp * sy * dp) (- sy * dy) 0 (- cp * dp) 0 0
  end.
