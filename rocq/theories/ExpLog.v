(* spatial/explog.hpp, spatial/explog-quaternion.hpp: exponentials.  eps is std::numeric_limits<Scalar>::epsilon().
   if_then_else evaluates both branches in the code; only the selected one is kept here. *)
Require Import Reals Arith Bool.
From Verif Require Import Vec3 Spatial Rot.
Local Open Scope R_scope.

(* math/taylor-expansion.hpp 30-36: precision<3>() = pow(eps, 1/4) *)
Definition ts3 (eps : R) : R := sqrt (sqrt eps).
(* alpha v v^T, minus/plus beta times the components of v off the diagonal, plus gamma on the diagonal: the three
   coefficients of explog.hpp 57-68 and 394-401 *)
Definition rotCoeffs (a b g : R) (v : V3) : M3 :=
  mkM3 (a * vx v * vx v + g) (a * vx v * vy v - b * vz v) (a * vx v * vz v + b * vy v)
       (a * vy v * vx v + b * vz v) (a * vy v * vy v + g) (a * vy v * vz v - b * vx v)
       (a * vz v * vx v - b * vy v) (a * vz v * vy v + b * vx v) (a * vz v * vz v + g).
(* explog.hpp 33-71 *)
Definition exp3 (eps : R) (v : V3) : M3 :=
  let t2 := v3norm2 v + eps * eps in let t := sqrt t2 in let ct := cos t in let st := sin t in
  let big := if Rlt_dec (ts3 eps) t then true else false in
  let alpha_vxvx := if big then (1 - ct) / t2 else 1 / 2 - t2 / 24 in
  let alpha_vx := if big then st / t else 1 - t2 / 6 in
  let ct := if big then ct else 1 - t2 / 2 in
  rotCoeffs alpha_vxvx alpha_vx ct v.
(* explog.hpp 343-404 *)
Definition exp6 (eps : R) (nu : V6) : SE3 :=
  let w := ang nu in let v := lin nu in
  let t2 := v3norm2 w + eps * eps in let t := sqrt t2 in let ct := cos t in let st := sin t in let inv_t2 := 1 / t2 in
  let small := if Rlt_dec t (ts3 eps) then true else false in
  let alpha_wxv := if small then 1 / 2 - t2 / 24 else (1 - ct) * inv_t2 in
  let alpha_v := if small then 1 - t2 / 6 else st / t in
  let alpha_w := if small then 1 / 6 - t2 / 120 else (1 - alpha_v) * inv_t2 in
  let diagonal_term := if small then 1 - t2 / 2 else ct in
  mkSE3 (rotCoeffs alpha_wxv alpha_v diagonal_term w)
        (v3add (v3add (v3scale alpha_v v) (v3scale (alpha_w * v3dot w v) w)) (v3scale alpha_wxv (v3cross w v))).
(* explog-quaternion.hpp 25-65; the Taylor branch is chosen on the squared norm *)
Definition qexp3 (eps : R) (v : V3) : Quat :=
  let t2 := v3norm2 v in let t := sqrt (t2 + eps * eps) in
  let quat_then := qAngleAxis t (mkV3 (vx v / t) (vy v / t) (vz v / t)) in
  let t2_2 := t2 / 4 in let k := / 2 * (1 - t2_2 / 6 + t2_2 * t2_2 / 120) in
  let quat_else := mkQ (k * vx v) (k * vy v) (k * vz v) (1 - t2_2 / 2 + t2_2 * t2_2 / 24) in
  if Rlt_dec (ts3 eps) t2 then quat_then else quat_else.
(* explog-quaternion.hpp 91-136: the translation and the quaternion *)
Definition qexp6 (eps : R) (nu : V6) : V3 * Quat :=
  let w := ang nu in let v := lin nu in
  let t2 := v3norm2 w + eps * eps in let t := sqrt t2 in let ct := cos t in let st := sin t in let inv_t2 := 1 / t2 in
  let small := if Rlt_dec t (ts3 eps) then true else false in
  let alpha_wxv := if small then / 2 - t2 / 24 else (1 - ct) * inv_t2 in
  let alpha_w2 := if small then 1 / 6 - t2 / 120 else (t - st) * inv_t2 / t in
  (v3add (v3add v (v3scale alpha_wxv (v3cross w v))) (v3scale alpha_w2 (v3cross w (v3cross w v))), qexp3 eps w).
