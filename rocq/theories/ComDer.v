(* algorithm/center-of-mass-derivatives.hxx: the partial derivative of the velocity of the centre of mass with respect to the configuration. *)
Require Import Reals List Arith.
From Verif Require Import Vec3 Spatial Inertia Joints Model Spec_Model Data Kinematics Crba Com SubCom.
Import ListNotations.
Local Open Scope nat_scope.

(* 33-62 CoMVelocityDerivativesForwardStep::algo; jmodel.jointCols: the nv columns from idx_v *)
Definition comDerStep (m : Model) (d : Data) (J : Mat3) (i : nat) : Mat3 :=
  let r := rows d i in
  let vpc := if 0 <? parent m i then v6sub (mo r F_v) (jv (jd r)) else v6zero in                       (* 52 *)
  let vpc := mkV6 (v3sub (lin vpc) (p3 r F_vcom)) (ang vpc) in                                         (* 53 *)
  let col := fun k =>
    let x := motion_cross vpc (colOf (jS (jd r)) k) in                                                 (* 55-56 *)
    m3vec (m3scale (sc r F_mass / sc (rows d 0) F_mass) (rot (pl r F_oMi)))
          (v3sub (lin x) (v3cross (p3 r F_com) (ang x))) in                                            (* 58-60 *)
  setCols (jm_idx_v (joint m i)) (jnv (jm_type (joint m i))) col J.
(* 65-92; the assertion 78 excludes mimic joints, the check 76 of the number of columns is not modelled *)
Definition getCenterOfMassVelocityDerivatives (m : Model) (d : Data) (res : Mat3) : Mat3 := upward m (comDerStep m d) res.
