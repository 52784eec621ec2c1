(* spatial/log.hxx: the logarithm of a rotation matrix and of a placement, the Jacobians of exp6 and log6.
   eps is std::numeric_limits<Scalar>::epsilon().  if_then_else evaluates both branches in the code; only the selected one
   is kept here. *)
Require Import Reals Arith Bool.
From Verif Require Import Vec3 Spatial Rot Joints ExpLog LieGroup ExpJac.
Local Open Scope R_scope.

Definition nrm3 (v : V3) : R := sqrt (v3norm2 v).
(* log.hxx 13-40 compute_theta_axis<i0>: the angle and the axis *)
Definition thetaAxis (eps : R) (i0 : nat) (val : R) (Rm : M3) : R * V3 :=
  let i1 := Nat.modulo (i0 + 1) 3 in let i2 := Nat.modulo (i0 + 2) 3 in
  let s := sqrt (val + eps + eps * eps) * (if Rle_dec (m3get Rm i1 i2) (m3get Rm i2 i1) then 1 else -1) in
  let a0 := s / 2 in
  let a1 := 1 / (2 * s) * (m3get Rm i1 i0 + m3get Rm i0 i1) in
  let a2 := 1 / (2 * s) * (m3get Rm i2 i0 + m3get Rm i0 i2) in
  let coord k := if Nat.eqb k i0 then a0 else if Nat.eqb k i1 then a1 else a2 in
  let axis := mkV3 (coord 0%nat) (coord 1%nat) (coord 2%nat) in
  let w := 1 / (2 * s) * (m3get Rm i2 i1 - m3get Rm i1 i2) in
  let axis_norm := nrm3 axis in
  (2 * atan2 axis_norm w, v3scale (/ axis_norm) axis).
(* log.hxx 44-54 *)
Definition renormalize (Rm : M3) : M3 :=
  let c0 := v3scale (/ nrm3 (m3col Rm 0)) (m3col Rm 0) in
  let c1 := v3scale (/ nrm3 (m3col Rm 1)) (m3col Rm 1) in
  let c2 := v3cross c0 c1 in
  let c0 := v3cross c1 c2 in
  m3ofcols c0 c1 c2.
(* log.hxx 57-145 log3_impl::run: the rotation vector and the angle *)
Definition log3 (eps : R) (R0 : M3) : V3 * R :=
  let Rn := renormalize R0 in let tr := m3trace Rn in let cos_value := (tr - 1) / 2 in let prec := ts2 eps in
  let val0 := 2 * m00 Rn - tr + 1 in let val1 := 2 * m11 Rn - tr + 1 in let val2 := 2 * m22 Rn - tr + 1 in
  let singular :=
    if Rle_dec val1 val0 then (if Rle_dec val2 val0 then thetaAxis eps 0 val0 Rn else thetaAxis eps 2 val2 Rn)
    else (if Rle_dec val2 val1 then thetaAxis eps 1 val1 Rn else thetaAxis eps 2 val2 Rn) in
  let acos_expansion := sqrt (2 * (1 - cos_value) + eps * eps) in
  let theta_nominal :=
    if Rle_dec tr (3 - prec) then (if Rle_dec (-1 + prec) tr then acos cos_value else PI - acos_expansion) else acos_expansion in
  let a := unSkew Rn in let a2 := v3norm2 a in
  let t := if Rle_dec prec theta_nominal then theta_nominal / sin theta_nominal else 1 + a2 / 6 + a2 * a2 * 3 / 40 in
  if Rle_dec (-1 + prec) cos_value then (v3scale t a, theta_nominal) else (v3scale (fst singular) (snd singular), fst singular).
(* log.hxx 188-230 log6_impl::run on a placement *)
Definition log6 (eps : R) (M : SE3) : V6 :=
  let p := trans M in let t2 := v3norm2 (unSkew (rot M)) in let tr := m3trace (rot M) in
  let w := fst (log3 eps (rot M)) in let theta := snd (log3 eps (rot M)) in
  let st := sin theta in let ct := cos theta in
  let near := if Rle_dec (3 - ts2 eps) tr then true else false in
  let alpha := if near then 1 - t2 / 12 - t2 * t2 / 720 else theta * st / (2 * (1 - ct)) in
  let beta := if near then 1 / 12 + t2 / 720 else 1 / (theta * theta) - st / (2 * theta * (1 - ct)) in
  mkV6 (v3add (v3sub (v3scale alpha p) (v3scale (1 / 2) (v3cross w p))) (v3scale (beta * v3dot w p) w)) w.

(* explog.hpp 262-270: Jlog3 of a rotation matrix; 320-335: Hlog3 of a rotation matrix *)
Definition Jlog3M (eps : R) (Rm : M3) : M3 := Jlog3 eps (snd (log3 eps Rm)) (fst (log3 eps Rm)).
Definition Hlog3M (eps : R) (Rm : M3) (v : V3) : M3 := Hlog3 (snd (log3 eps Rm)) (fst (log3 eps Rm)) v.

(* a 6 x 6 matrix by blocks: top left, top right, bottom left, bottom right *)
Record M66 := mkM66 { tl6 : M3; tr6 : M3; bl6 : M3; br6 : M3 }.
(* explog.hpp 507-524 and log.hxx 323-341: beta and its derivative over theta *)
Definition betas (eps t t2 : R) : R * R :=
  let tinv := 1 / t in let t2inv := tinv * tinv in let st := sin t in let ct := cos t in
  let inv_2_2ct := 1 / (2 * (1 - ct)) in
  let small := if Rlt_dec t (ts3 eps) then true else false in
  (if small then 1 / 12 + t2 / 720 else t2inv - st * tinv * inv_2_2ct,
   if small then 1 / 360 else - (2) * t2inv * t2inv + (1 + st * tinv) * t2inv * inv_2_2ct).
(* explog.hpp 531-536 and 549-554: the matrix J of the top right block *)
Definition jblock (eps : R) (w p : V3) : M3 :=
  let t2 := v3norm2 w in let t := sqrt t2 in
  let beta := fst (betas eps t t2) in let bdt := snd (betas eps t t2) in let wTp := v3dot w p in
  m3add (m3add (m3sub (m3add (alphaSkew (1 / 2) p) (m3scale (bdt * wTp) (m3outer w w))) (m3scale (t2 * bdt + 2 * beta) (m3outer p w)))
               (m3scale (wTp * beta) m3id)) (m3scale beta (m3outer w p)).
(* explog.hpp 495-581 *)
Definition Jexp6 (eps : R) (op : AssignOp) (nu : V6) (J : M66) : M66 :=
  let v := lin nu in let w := ang nu in
  match op with
  | SETTO =>
      let br := Jexp3 eps SETTO w (br6 J) in let tl := br in
      let Jm := jblock eps w (m3vec (m3tr tl) v) in
      mkM66 tl (m3mul (m3scale (-1) tl) Jm) (m3scale 0 m3id) br
  | ADDTO =>
      let Jtmp3 := Jexp3 eps SETTO w m3id in let Jm := jblock eps w (m3vec (m3tr Jtmp3) v) in
      mkM66 (m3add (tl6 J) Jtmp3) (m3add (tr6 J) (m3mul (m3scale (-1) Jtmp3) Jm)) (bl6 J) (m3add (br6 J) Jtmp3)
  | RMTO =>
      let Jtmp3 := Jexp3 eps SETTO w m3id in let Jm := jblock eps w (m3vec (m3tr Jtmp3) v) in
      mkM66 (m3sub (tl6 J) Jtmp3) (m3sub (tr6 J) (m3mul (m3scale (-1) Jtmp3) Jm)) (bl6 J) (m3sub (br6 J) Jtmp3)
  end.
(* log.hxx 291-355 *)
Definition Jlog6 (eps : R) (M : SE3) : M66 :=
  let p := trans M in let w := fst (log3 eps (rot M)) in let t := snd (log3 eps (rot M)) in
  let A := Jlog3 eps t w in let t2 := t * t in
  let beta := fst (betas eps t t2) in let bdt := snd (betas eps t t2) in let wTp := v3dot w p in
  let v3_tmp := v3sub (v3scale (bdt * wTp) w) (v3scale (t2 * bdt + 2 * beta) p) in
  let C := m3outer v3_tmp w in
  let C := m3add C (m3scale beta (m3outer w p)) in
  let C := m3add C (m3scale (wTp * beta) m3id) in
  let C := addSkew (v3scale (1 / 2) p) C in
  mkM66 A (m3mul C A) (m3scale 0 m3id) A.
