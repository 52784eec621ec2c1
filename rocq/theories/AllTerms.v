(* algorithm/compute-all-terms.hxx *)
Require Import Reals List Arith ZArith Lia.
From Verif Require Import Vec3 Spatial Inertia Joints Model Spec_Model Sums Data Kinematics Spec_Jac Rnea Crba Com Centroidal Dccrba.
Import ListNotations.
Local Open Scope nat_scope.

(* x.segment(b, n) = y *)
Definition setSeg (b n : nat) (y x : vec) : vec := fun k => if within b n k then y (k - b) else x k.

Section AllTerms.
Variable eps : R.
(* compute-all-terms.hxx 35-87 CATForwardStep::algo, the row of joint i.  52-66 are the statements of
   ForwardKinematicFirstStep (kinematics.hxx 121-146) in another order: fk1Row. *)
Definition catRow (m : Model) (q v : vec) (i : nat) (r rp : Row) : Row :=
  let r := fk1Row m q v i r rp in
  let r := setMo r F_ov (motion_act (pl r F_oMi) (mo r F_v)) in                                              (* 68 *)
  let r := setYi r F_oYcrb (inertia_act (pl r F_oMi) (inertiaOf m i)) in                                     (* 70 *)
  let r := setM6 r F_doYcrb (inertia_variation (yi r F_oYcrb) (mo r F_ov)) in                                (* 71 *)
  let r := setMo r F_a (v6add (jc (jd r)) (motion_cross (mo r F_v) (jv (jd r)))) in                          (* 79 *)
  let r := setMo r F_a_gf (mo r F_a) in
  let r := if 0 <? parent m i then setMo r F_a (v6add (mo r F_a) (motion_actInv (pl r F_liMi) (mo rp F_a))) else r in   (* 80-81 *)
  let r := setMo r F_a_gf (v6add (mo r F_a_gf) (motion_actInv (pl r F_liMi) (mo rp F_a_gf))) in              (* 83 *)
  let r := setMo r F_h (inertia_mul (inertiaOf m i) (mo r F_v)) in                                           (* 85 *)
  setMo r F_f (v6add (inertia_mul (inertiaOf m i) (mo r F_a_gf)) (force_cross (mo r F_v) (mo r F_h))).       (* 86 *)
(* 73-77: J and dJ *)
Definition catCols (m : Model) (i : nat) (r : Row) (g : Glob) : Glob :=
  let b := jm_idx_v (joint m i) in let n := jnv (jm_type (joint m i)) in
  let g := setCo g F_J (setCols b n (fun k => motion_act (pl r F_oMi) (colOf (jS (jd r)) k)) (co g F_J)) in
  setCo g F_dJ (setCols b n (fun k => motion_cross (mo r F_ov) (co g F_J (b + k))) (co g F_dJ)).

(* 132-135: what joint i adds to its parent *)
Definition catAdd (r ri : Row) : Row :=
  let r := setYi r F_oYcrb (inertia_pequ eps (yi r F_oYcrb) (yi ri F_oYcrb)) in
  let r := setM6 r F_doYcrb (m6add (m6 r F_doYcrb) (m6 ri F_doYcrb)) in
  let r := setMo r F_h (v6add (mo r F_h) (force_act (pl ri F_liMi) (mo ri F_h))) in
  setMo r F_f (v6add (mo r F_f) (force_act (pl ri F_liMi) (mo ri F_f))).
(* 138-140 *)
Definition catCom (r : Row) : Row :=
  let r := setSc r F_mass (mass (yi r F_oYcrb)) in
  let r := setP3 r F_com (se3_actInvPoint (pl r F_oMi) (lever (yi r F_oYcrb))) in
  setP3 r F_vcom (v3div (sc r F_mass) (lin (mo r F_h))).
(* 99-141 CATBackwardStep::algo *)
Definition catBack (m : Model) (d : Data) (i : nat) : Data :=
  let b := jm_idx_v (joint m i) in let n := jnv (jm_type (joint m i)) in let r := rows d i in
  let d := onCo d F_Ag (setCols b n (fun k => inertia_mul (yi r F_oYcrb) (co (gl d) F_J (b + k)))) in                 (* 120 *)
  let d := onCo d F_dAg (setCols b n (fun k => m6vec (m6 r F_doYcrb) (co (gl d) F_J (b + k)))) in                      (* 123 *)
  let d := onCo d F_dAg (addCols6 b n (fun k => inertia_mul (yi r F_oYcrb) (co (gl d) F_dJ (b + k)))) in               (* 124 *)
  let d := onM d (setBlock b b n (Z.to_nat (nvSubtree m i)) (fun k l => v6dot (co (gl d) F_J (b + k)) (co (gl d) F_Ag (b + l)))) in   (* 127-128 *)
  let d := setGl d (setVe (gl d) F_nle (setSeg (idx_v m i) (nvOf m i) (StMul (jS (jd r)) (mo r F_f)) (ve (gl d) F_nle))) in   (* 130 *)
  let d := onRow d (parent m i) (fun rp => catAdd rp r) in                                                             (* 132-135 *)
  onRow d i catCom.

(* 164-168: data.f[0] and data.doYcrb[0] keep their contents *)
Definition catZero (m : Model) (r : Row) : Row :=
  let r := setMo r F_v v6zero in let r := setMo r F_a v6zero in let r := setMo r F_h v6zero in
  let r := setMo r F_a_gf (v6opp (m_gravity m)) in
  setYi r F_oYcrb inertia_Zero.
(* 187-189 *)
Definition catCom0 (r : Row) : Row :=
  let r := setSc r F_mass (mass (yi r F_oYcrb)) in
  let r := setP3 r F_com (lever (yi r F_oYcrb)) in
  setP3 r F_vcom (v3div (sc r F_mass) (lin (mo r F_h))).
Definition catPass (m : Model) (d : Data) (q v : vec) : Data :=
  let d := onRow d 0 (catZero m) in
  let d := upward m (rowStepG m (catRow m q v) (catCols m)) d in
  downward m (catBack m) d.
(* 186-221 *)
Definition catEnd (m : Model) (d : Data) : Data :=
  let d := onRow d 0 catCom0 in
  let c := p3 (rows d 0) F_com in
  let d := onCo d F_Ag (fun x k => if k <? m_nv m then toCom c (x k) else x k) in                                       (* 193-196 *)
  let d := dAgCom m d in                                                                                               (* 198-201 *)
  let d := setGl d (setGv (gl d) F_hg (toCom c (mo (rows d 0) F_h))) in                                                (* 203-204 *)
  let d := setGl d (setGv (gl d) F_dhg (toCom c (mo (rows d 0) F_f))) in                                               (* 206-207 *)
  let d := addDiagonal m d in                                                                                          (* 210 *)
  let d := setGl d (setJcom (gl d) (fun k => v3div (sc (rows d 0) F_mass) (lin (co (gl d) F_Ag k)))) in                (* 213 *)
  let d := setGl d (setIg (gl d) (mkInertia (mass (yi (rows d 0) F_oYcrb)) v3zero (inertia (yi (rows d 0) F_oYcrb)))) in   (* 215-217 *)
  setGl d (setVe (gl d) F_g (fun k => - v3dot (lin (co (gl d) F_Ag k)) (lin (m_gravity m)))%R).                        (* 220-221 *)
(* 150-225; 224 computeMechanicalEnergy(model, data) reads data.joints[i].joint_v(), written by calc at 52 *)
Definition computeAllTerms (m : Model) (d : Data) (q v : vec) : Data :=
  mechanicalData m (jointV m v) (catEnd m (catPass m d q v)).
End AllTerms.
