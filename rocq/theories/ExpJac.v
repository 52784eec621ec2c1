(* Jacobians of the exponential and of the logarithm of SO(3): spatial/explog.hpp, spatial/log.hxx, spatial/explog-quaternion.hpp.
   if_then_else evaluates both branches in the code; only the selected one is kept here.  The branch for a null vector
   divides by zero in the code and is not selected. *)
Require Import Reals Arith Bool.
From Verif Require Import Vec3 Spatial Rot ExpLog.
Local Open Scope R_scope.

Inductive AssignOp := SETTO | ADDTO | RMTO.
(* explog.hpp 126-143 *)
Definition jexpCoeffs (eps : R) (r : V3) : R * R * R :=
  let n2 := v3norm2 r in let n := sqrt n2 in let n_inv := 1 / n in let n2_inv := n_inv * n_inv in
  let cn := cos n in let sn := sin n in
  let small := if Rlt_dec n (ts3 eps) then true else false in
  let a := if small then 1 - n2 / 6 else sn * n_inv in
  let b := if small then - 1 / 2 - n2 / 24 else - (1 - cn) * n2_inv in
  let c := if small then 1 / 6 - n2 / 120 else n2_inv * (1 - a) in
  (a, b, c).
(* explog.hpp 145-180: the result is stored in Jout, added to it or removed from it, coefficient by coefficient *)
Definition Jexp3 (eps : R) (op : AssignOp) (r : V3) (J : M3) : M3 :=
  let '(a, b, c) := jexpCoeffs eps r in
  match op with
  | SETTO =>
      let j01 := - b * vz r in let j02 := b * vy r in let j12 := - b * vx r in
      m3add (mkM3 a j01 j02 (- j01) a j12 (- j02) (- j12) a) (m3scale c (m3outer r r))
  | ADDTO =>
      m3add (mkM3 (m00 J + a) (m01 J + - b * vz r) (m02 J + b * vy r)
                  (m10 J + b * vz r) (m11 J + a) (m12 J + - b * vx r)
                  (m20 J + - b * vy r) (m21 J + b * vx r) (m22 J + a)) (m3scale c (m3outer r r))
  | RMTO =>
      m3sub (mkM3 (m00 J - a) (m01 J - - b * vz r) (m02 J - b * vy r)
                  (m10 J - b * vz r) (m11 J - a) (m12 J - - b * vx r)
                  (m20 J - - b * vy r) (m21 J - b * vx r) (m22 J - a)) (m3scale c (m3outer r r))
  end.
(* log.hxx 148-185 Jlog3_impl::run *)
Definition Jlog3 (eps : R) (theta : R) (log : V3) : M3 :=
  let ct := cos theta in let st := sin theta in let st_1mct := st / (1 - ct) in let prec := ts3 eps in
  let small := if Rlt_dec theta prec then true else false in
  let alpha := if small then 1 / 12 + theta * theta / 720 else 1 / (theta * theta) - st_1mct / (2 * theta) in
  let diag_value := if small then 1 / 2 * (2 - theta * theta / 6) else 1 / 2 * (theta * st_1mct) in
  addSkew (v3scale (1 / 2) log) (m3add (m3scale alpha (m3outer log log)) (m3scale diag_value m3id)).
(* explog.hpp 272-310 *)
Definition Hlog3 (theta : R) (log v : V3) : M3 :=
  let ctheta := cos theta in let stheta := sin theta in
  let denom := / 2 / (1 - ctheta) in let a := theta * stheta * denom in
  let da_dt := (stheta - theta) * denom in
  let b := (1 - a) / (theta * theta) in
  let db_dt := - (2 / theta - (theta + stheta) * denom) / (theta * theta) in
  let dl_dv_v := v3add (v3add (v3scale a v) (v3scale (/ 2) (v3cross log v))) (v3scale b (v3scale (v3dot log v) log)) in
  let dt_dv_v := v3dot log dl_dv_v / theta in
  let H := m3scale (db_dt * dt_dv_v) (m3outer log log) in
  let H := m3add H (m3scale b (m3outer dl_dv_v log)) in
  let H := m3add H (m3scale b (m3outer log dl_dv_v)) in
  let H := addSkew (v3scale (/ 2) dl_dv_v) H in
  m3add H (m3scale (da_dt * dt_dv_v) m3id).
(* explog-quaternion.hpp 291-323: the three rows of the vector part and the row of the scalar part *)
Definition Jexp3CoeffWise (eps : R) (v : V3) : M3 * V3 :=
  let n2 := v3norm2 v in let n := sqrt n2 in let theta := / 2 * n in let theta2 := / 4 * n2 in
  if Rlt_dec (sqrt eps) n2 then
    let c := cos theta in let s := sin theta in
    (m3add (m3scale (/ 2 / n2 * (c - 2 * s / n)) (m3outer v v)) (m3scale (s / n) m3id), v3scale (- s / (2 * n)) v)
  else
    (m3add (m3scale (- (1) / 12 + n2 / 480) (m3outer v v)) (m3scale (/ 2 * (1 - theta2 / 6)) m3id), v3scale (- / 4 * (1 - theta2 / 6)) v).
