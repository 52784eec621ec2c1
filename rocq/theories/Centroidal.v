(* algorithm/centroidal.hxx: momentum, its time variation and the centroidal map *)
Require Import Reals List Arith Lia.
From Verif Require Import Vec3 Spatial Inertia Joints Model Spec_Model Sums Data Kinematics Spec_Jac Rnea Crba Com.
Import ListNotations.
Local Open Scope nat_scope.

(* 29-37, 74-83; tv: the version that also accumulates the forces *)
Definition momRow (tv : bool) (m : Model) (i : nat) (r : Row) : Row :=
  let Y := inertiaOf m i in
  let r := setSc r F_mass (mass Y) in
  let r := setP3 r F_com (v3scale (mass Y) (lever Y)) in
  let r := setMo r F_h (inertia_mul Y (mo r F_v)) in
  if tv then setMo r F_f (v6add (inertia_mul Y (mo r F_a)) (force_cross (mo r F_v) (mo r F_h))) else r.
(* 39-41, 85-88 *)
Definition momZero (tv : bool) (r : Row) : Row :=
  let r := setSc r F_mass 0%R in let r := setP3 r F_com v3zero in let r := setMo r F_h v6zero in
  if tv then setMo r F_f v6zero else r.
(* 44-49, 92-98: what joint i adds to its parent *)
Definition momAdd (tv : bool) (r ri : Row) : Row :=
  let M := pl ri F_liMi in
  let r := addMass r ri in
  let r := setP3 r F_com (v3add (p3 r F_com) (v3add (m3vec (rot M) (p3 ri F_com)) (v3scale (sc ri F_mass) (trans M)))) in
  let r := setMo r F_h (v6add (mo r F_h) (force_act M (mo ri F_h))) in
  if tv then setMo r F_f (v6add (mo r F_f) (force_act M (mo ri F_f))) else r.
(* x.angular() += x.linear().cross(c) *)
Definition toCom (c : V3) (f : V6) : V6 := mkV6 (lin f) (v3add (ang f) (v3cross (lin f) c)).
(* 20-60, 65-112 *)
Definition momPass (tv : bool) (m : Model) (d : Data) : Data :=
  let d := upward m (fun d i => onRow d i (momRow tv m i)) d in
  let d := onRow d 0 (momZero tv) in
  downward m (fun d i => onRow d (parent m i) (fun r => momAdd tv r (rows d i))) d.
Definition momEnd (tv : bool) (d : Data) : Data :=
  let d := onRow d 0 (fun r => setP3 r F_com (v3div (sc r F_mass) (p3 r F_com))) in
  let c := p3 (rows d 0) F_com in
  let d := setGl d (setGv (gl d) F_hg (toCom c (mo (rows d 0) F_h))) in
  let d := if tv then setGl d (setGv (gl d) F_dhg (toCom c (mo (rows d 0) F_f))) else d in
  onRow d 0 (fun r => setP3 r F_vcom (v3div (sc r F_mass) (lin (gv (gl d) F_hg)))).
Definition centroidalMomentum (m : Model) (d : Data) : Data := momEnd false (momPass false m d).
Definition centroidalMomentumTimeVariation (m : Model) (d : Data) : Data := momEnd true (momPass true m d).
(* 418-520: the versions on (q, v) and (q, v, a) *)
Definition computeCentroidalMomentum (m : Model) (d : Data) (q v : vec) : Data := centroidalMomentum m (forwardKinematics1 m d q v).
Definition computeCentroidalMomentumTimeVariation (m : Model) (d : Data) (q v a : vec) : Data :=
  centroidalMomentumTimeVariation m (forwardKinematics2 m d q v a).

Section Ccrba.
Variable eps : R.
(* X.middleCols(b, n) += f *)
Definition addCols6 (b n : nat) (f : nat -> V6) (x : nat -> V6) : nat -> V6 := fun k => if within b n k then v6add (x k) (f (k - b)) else x k.
(* 136-146 CcrbaBackwardStep *)
Definition ccrbaBack (m : Model) (d : Data) (i : nat) : Data :=
  let n := jnvE (jm_type (joint m i)) in let bE := jm_idx_vE (joint m i) in
  let d := onCo d F_J (setCols bE n (fun k => motion_act (pl (rows d i) F_oMi) (colOf (jS (jd (rows d i))) k))) in
  let d := onCo d F_Ag (addCols6 (jm_idx_v (joint m i)) n (fun k => inertia_mul (yi (rows d i) F_oYcrb) (co (gl d) F_J (bE + k)))) in
  onYi d (parent m i) F_oYcrb (fun Y => inertia_pequ eps Y (yi (rows d i) F_oYcrb)).
(* 222-231 (172-181) *)
Definition ccrbaPass (m : Model) (d : Data) : Data :=
  let d := onYi d 0 F_oYcrb (fun _ => inertia_Zero) in
  let d := upward m (fun d i => onRow d i (fun r => setYi r F_oYcrb (inertia_act (pl r F_oMi) (inertiaOf m i)))) d in
  let d := onCo d F_Ag (fun _ _ => v6zero) in
  downward m (ccrbaBack m) d.
(* 237-243 (187-193) *)
Definition ccrbaEnd (m : Model) (d : Data) : Data :=
  let d := onRow d 0 (fun r => setP3 r F_com (lever (yi r F_oYcrb))) in
  onCo d F_Ag (fun x k => if k <? m_nv m then toCom (p3 (rows d 0) F_com) (x k) else x k).
(* 210-246 *)
Definition computeCentroidalMap (m : Model) (d : Data) (q : vec) : Data := ccrbaEnd m (ccrbaPass m (forwardKinematics0 m d q)).
(* 158-202; 195: hg = Ag v; 197-199 *)
Definition ccrba (m : Model) (d : Data) (q v : vec) : Data :=
  let d := ccrbaEnd m (ccrbaPass m (forwardKinematics0 m d q)) in
  let d := setGl d (setGv (gl d) F_hg (colsMul (m_nv m) (co (gl d) F_Ag) v)) in
  setGl d (setIg (gl d) (mkInertia (mass (yi (rows d 0) F_oYcrb)) v3zero (inertia (yi (rows d 0) F_oYcrb)))).
End Ccrba.
