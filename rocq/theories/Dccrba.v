(* algorithm/centroidal.hxx 248-415: the time variation of the centroidal map *)
Require Import Reals List Arith Lia.
From Verif Require Import Vec3 Spatial Inertia Joints Model Spec_Model Sums Data Kinematics Spec_Jac Rnea Crba Com Centroidal.
Import ListNotations.
Local Open Scope nat_scope.

(* X += f on data.doYcrb[i] *)
Definition onM6 (d : Data) (i : nat) (t : M6T) (f : M6 -> M6) : Data := setRow d i (setM6 (rows d i) t (f (m6 (rows d i) t))).

Section Dccrba.
Variable eps : R.
(* 321-326, 384-389 *)
Definition dccrbaRow (m : Model) (i : nat) (r : Row) : Row :=
  let r := setYi r F_oYcrb (inertia_act (pl r F_oMi) (inertiaOf m i)) in
  let r := setMo r F_ov (motion_act (pl r F_oMi) (mo r F_v)) in
  setM6 r F_doYcrb (inertia_variation (yi r F_oYcrb) (mo r F_ov)).
(* 270-293 DCcrbaBackwardStep *)
Definition dccrbaBack (m : Model) (d : Data) (i : nat) : Data :=
  let n := jnvE (jm_type (joint m i)) in let bE := jm_idx_vE (joint m i) in let bv := jm_idx_v (joint m i) in
  let Y := yi (rows d i) F_oYcrb in let dY := m6 (rows d i) F_doYcrb in
  let d := onCo d F_J (setCols bE n (fun k => motion_act (pl (rows d i) F_oMi) (colOf (jS (jd (rows d i))) k))) in         (* 275-276 *)
  let d := onCo d F_dJ (setCols bE n (fun k => motion_cross (mo (rows d i) F_ov) (co (gl d) F_J (bE + k)))) in              (* 278-279 *)
  let d := onYi d (parent m i) F_oYcrb (fun Yp => inertia_pequ eps Yp Y) in                                                (* 281 *)
  let d := if 0 <? parent m i then onM6 d (parent m i) F_doYcrb (fun Bp => m6add Bp dY) else d in                           (* 282-283 *)
  let d := onCo d F_Ag (setCols bv n (fun k => inertia_mul Y (co (gl d) F_J (bE + k)))) in                                  (* 286-287 *)
  let d := onCo d F_dAg (setCols bv n (fun k => m6vec dY (co (gl d) F_J (bE + k)))) in                                      (* 290-291 *)
  onCo d F_dAg (addCols6 bv n (fun k => inertia_mul Y (co (gl d) F_dJ (bE + k)))).                                          (* 292 *)
(* 319-332, 382-395 *)
Definition dccrbaPass (m : Model) (d : Data) (q v : vec) : Data :=
  let d := forwardKinematics1 m d q v in
  let d := onYi d 0 F_oYcrb (fun _ => inertia_Zero) in
  let d := upward m (fun d i => onRow d i (dccrbaRow m i)) d in
  downward m (dccrbaBack m) d.
(* 349-350, 410-412: dAg_ang.col(i) += dAg_lin.col(i).cross(com) + Ag_lin.col(i).cross(vcom) *)
Definition dAgCom (m : Model) (d : Data) : Data :=
  onCo d F_dAg (fun x k => if k <? m_nv m then
    mkV6 (lin (x k)) (v3add (ang (x k)) (v3add (v3cross (lin (x k)) (p3 (rows d 0) F_com)) (v3cross (lin (co (gl d) F_Ag k)) (p3 (rows d 0) F_vcom))))
    else x k).
(* 303-357; ccrbaEnd: 335-342, the same text as 237-243 *)
Definition dccrba (m : Model) (d : Data) (q v : vec) : Data :=
  let d := ccrbaEnd m (dccrbaPass m d q v) in
  let d := setGl d (setGv (gl d) F_hg (colsMul (m_nv m) (co (gl d) F_Ag) v)) in                                            (* 344 *)
  let d := onRow d 0 (fun r => setP3 r F_vcom (v3div (mass (yi r F_oYcrb)) (lin (gv (gl d) F_hg)))) in                      (* 345 *)
  let d := dAgCom m d in
  setGl d (setIg (gl d) (mkInertia (mass (yi (rows d 0) F_oYcrb)) v3zero (inertia (yi (rows d 0) F_oYcrb)))).               (* 352-354 *)
(* 365-415: data.vcom[0] is read but not computed *)
Definition computeCentroidalMapTimeVariation (m : Model) (d : Data) (q v : vec) : Data := dAgCom m (ccrbaEnd m (dccrbaPass m d q v)).
End Dccrba.
