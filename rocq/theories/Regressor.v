(* algorithm/regressor.hxx: kinematic, static, body, joint-torque and energy regressors.  A matrix with 6 (resp. 3) rows is the
   function from its columns to V6 (resp. V3).  The mimic checks are asserts, compiled out. *)
Require Import Reals List Arith Lia.
From Verif Require Import Vec3 Spatial Inertia Joints Model Spec_Model Sums Data Kinematics Rnea Crba Aba.
Import ListNotations.
Local Open Scope nat_scope.
Local Open Scope bool_scope.

(* the loop for (JointIndex i = joint_id; i > 0; i = model.parents[i]) step(i); a parent precedes its child, so that
   fuel = joint_id is enough *)
Fixpoint climb {S : Type} (m : Model) (step : S -> nat -> S) (fuel i : nat) (s : S) : S :=
  match fuel with
  | O => s
  | Datatypes.S f => if 0 <? i then climb m step f (parent m i) (step s i) else s
  end.

(* ---- kinematic regressors ---- *)
(* regressor.hxx 45-66: one turn of the loop *)
Definition kinStep (m : Model) (d : Data) (rf : RefFrame) (oMi : SE3) (K : nat -> V6) (i : nat) : nat -> V6 :=
  let oMp := se3_mul (pl (rows d (parent m i)) F_oMi) (placementOf m i) in
  let iMp := match rf with
             | LOCAL => se3_actInv_se3 oMi oMp
             | LOCAL_WORLD_ALIGNED => mkSE3 (rot oMp) (v3sub (trans oMp) (trans oMi))
             | WORLD => oMp
             end in
  fun c => if within (6 * (i - 1)) 6 c then m6col (se3_toActionMatrix iMp) (c - 6 * (i - 1)) else K c.
(* regressor.hxx 18-67 computeJointKinematicRegressorGeneric; the size checks on the output are left out *)
Definition kinRegressorGeneric (m : Model) (d : Data) (j : nat) (rf : RefFrame) (oMi : SE3) : nat -> V6 :=
  climb m (kinStep m d rf oMi) j j (fun _ => v6zero).
(* regressor.hxx 76-86, 93-110 *)
Definition computeJointKinematicRegressor (m : Model) (d : Data) (j : nat) (rf : RefFrame) : Res Data (nat -> V6) :=
  if (0 <? j) && (j <? m_njoints m) then Ok d (kinRegressorGeneric m d j rf (pl (rows d j) F_oMi)) else Throw d.
Definition computeJointKinematicRegressorAt (m : Model) (d : Data) (j : nat) (rf : RefFrame) (placement : SE3) : Res Data (nat -> V6) :=
  if (0 <? j) && (j <? m_njoints m) then Ok d (kinRegressorGeneric m d j rf (se3_mul (pl (rows d j) F_oMi) placement)) else Throw d.
(* regressor.hxx 117-135 *)
Definition computeFrameKinematicRegressor (m : Model) (d : Data) (f : nat) (rf : RefFrame) : Res Data (nat -> V6) :=
  if (0 <? f) && (f <? m_nframes m) then
    let fr := frameAt m f in
    let d' := updateFramePlacement m d f in
    Ok d' (kinRegressorGeneric m d' (fr_parentJoint fr) rf (oMf (gl d') f))
  else Throw d.

(* ---- static regressor, 142-178 ---- *)
Definition staticStep (m : Model) (d : Data) (mass_inv : R) (S : nat -> V3) (i : nat) : nat -> V3 :=
  let oMi := pl (rows d i) F_oMi in
  fun c => if within ((i - 1) * 4) 4 c then
             v3scale mass_inv match c - (i - 1) * 4 with
             | 0 => trans oMi
             | 1 => mkV3 (m00 (rot oMi)) (m10 (rot oMi)) (m20 (rot oMi))
             | 2 => mkV3 (m01 (rot oMi)) (m11 (rot oMi)) (m21 (rot oMi))
             | _ => mkV3 (m02 (rot oMi)) (m12 (rot oMi)) (m22 (rot oMi))
             end
           else S c.
(* S0: the content of data.staticRegressor before the call *)
Definition computeStaticRegressor (m : Model) (d : Data) (S0 : nat -> V3) (q : vec) : nat -> V3 :=
  let d := forwardKinematics0 m d q in
  let mass := upward m (fun x i => x + mass (inertiaOf m i))%R 0%R in
  upward m (staticStep m d (1 / mass)%R) S0.

(* ---- body regressor ---- *)
(* 203-217 addBigL: res += bigL(omega), 3 x 6, column by column *)
Definition addBigL (w : V3) (res : nat -> V3) : nat -> V3 := fun c =>
  v3add (res c) match c with
  | 0 => mkV3 (vx w) 0 0
  | 1 => mkV3 (vy w) (vx w) 0
  | 2 => mkV3 0 (vy w) 0
  | 3 => mkV3 (vz w) 0 (vx w)
  | 4 => mkV3 0 (vz w) (vy w)
  | _ => mkV3 0 0 (vz w)
  end%R.
(* 220-231 crossBigL: the rows of the comma initializer, read column by column *)
Definition crossBigL (v : V3) : nat -> V3 := fun c =>
  match c with
  | 0 => mkV3 0 (vz v * vx v) (- vy v * vx v)
  | 1 => mkV3 (- vz v * vx v) (vz v * vy v) (vx v * vx v - vy v * vy v)
  | 2 => mkV3 (- vz v * vy v) 0 (vy v * vx v)
  | 3 => mkV3 (vy v * vx v) (vz v * vz v - vx v * vx v) (- vz v * vy v)
  | 4 => mkV3 (vy v * vy v - vz v * vz v) (- vy v * vx v) (vz v * vx v)
  | _ => mkV3 (vz v * vy v) (- vz v * vx v) 0
  end%R.
(* 235-271 bodyRegressor(v, a), column by column *)
Definition bodyRegressor (v a : Motion) : nat -> V6 := fun c =>
  let acc := v3add (lin a) (v3cross (ang v) (lin v)) in
  let L := m3add (sym3_matrix (sym3_SkewSquare (ang v))) (skew (ang a)) in
  let A := skew (v3opp acc) in
  match c with
  | 0 => mkV6 acc v3zero
  | 1 | 2 | 3 => mkV6 (m3col L (c - 1)) (m3col A (c - 1))
  | _ => mkV6 v3zero (addBigL (ang a) (crossBigL (ang v)) (c - 4))
  end.
(* 295-307 *)
Definition jointBodyRegressor (d : Data) (j : nat) : nat -> V6 := bodyRegressor (mo (rows d j) F_v) (mo (rows d j) F_a_gf).
(* 311-331 *)
Definition frameBodyRegressor (m : Model) (d : Data) (f : nat) : nat -> V6 :=
  let fr := frameAt m f in
  bodyRegressor (motion_actInv (fr_placement fr) (mo (rows d (fr_parentJoint fr)) F_v))
                (motion_actInv (fr_placement fr) (mo (rows d (fr_parentJoint fr)) F_a_gf)).

(* ---- joint torque regressor ---- *)
(* 361-386 JointTorqueRegressorForwardStep *)
Definition torqueRegRow (m : Model) (q v a : vec) (i : nat) (r rp : Row) : Row :=
  let r := velRow m q v i r rp in
  let r := setMo r F_a_gf (v6add (jc (jd r)) (motion_cross (mo r F_v) (jv (jd r)))) in
  let r := setMo r F_a_gf (v6add (mo r F_a_gf) (Smul (jS (jd r)) (velSel m i a))) in
  setMo r F_a_gf (v6add (mo r F_a_gf) (motion_actInv (pl r F_liMi) (mo rp F_a_gf))).
(* data.jointTorqueRegressor and data.bodyRegressor *)
Record RegS := mkRegS { regT : nat -> nat -> R; regB : nat -> V6 }.
(* 402-420 JointTorqueRegressorBackwardStep: the rows of joint j, in the columns of body col *)
Definition torqueRegStep (m : Model) (d : Data) (col : nat) (s : RegS) (j : nat) : RegS :=
  let r := rows d j in
  let T := setBlock (idx_v m j) (10 * (col - 1)) (nvOf m j) 10 (fun k c => StMul (jS (jd r)) (regB s c) k) (regT s) in
  mkRegS T (if 0 <? parent m j then (fun c => force_act (pl r F_liMi) (regB s c)) else regB s).
(* 458-467: one turn of the outer loop *)
Definition torqueRegBody (m : Model) (d : Data) (s : RegS) (i : nat) : RegS :=
  climb m (torqueRegStep m d i) i i (mkRegS (regT s) (jointBodyRegressor d i)).
(* 444-455 *)
Definition torqueRegForward (m : Model) (d : Data) (q v a : vec) : Data :=
  let d := setRow d 0 (setMo (setMo (rows d 0) F_v v6zero) F_a_gf (v6opp (m_gravity m))) in
  upward m (rowStep m (torqueRegRow m q v a)) d.
(* 431-470 computeJointTorqueRegressor *)
Definition computeJointTorqueRegressor (m : Model) (d : Data) (q v a : vec) : nat -> nat -> R :=
  let d := torqueRegForward m d q v a in
  regT (downward m (torqueRegBody m d) (mkRegS (fun _ _ => 0%R) (fun _ => v6zero))).

(* ---- energy regressors ---- *)
(* 496-515 *)
Definition kineticReg (V : Motion) (c : nat) : R :=
  let x := lin V in let w := ang V in
  match c with
  | 0 => 1/2 * v3dot x x
  | 1 => - vy w * vz x + vz w * vy x
  | 2 => vx w * vz x - vz w * vx x
  | 3 => - vx w * vy x + vy w * vx x
  | 4 => 1/2 * vx w * vx w
  | 5 => vx w * vy w
  | 6 => 1/2 * vy w * vy w
  | 7 => vx w * vz w
  | 8 => vy w * vz w
  | _ => 1/2 * vz w * vz w
  end%R.
(* 479-519 *)
Definition computeKineticEnergyRegressor (m : Model) (d : Data) (q v : vec) : vec :=
  let d := forwardKinematics1 m d q v in
  upward m (fun E i => fun c => if within (10 * (i - 1)) 10 c then kineticReg (mo (rows d i) F_v) (c - 10 * (i - 1)) else E c) (fun _ => 0%R).
(* 527-557: only the first four coefficients of each segment are written *)
Definition computePotentialEnergyRegressor (m : Model) (d : Data) (q : vec) : vec :=
  let d := forwardKinematics0 m d q in
  let g := v3opp (lin (m_gravity m)) in
  upward m (fun E i => fun c =>
    let t := trans (pl (rows d i) F_oMi) in
    let gl := m3vec (m3tr (rot (pl (rows d i) F_oMi))) g in
    if within (10 * (i - 1)) 4 c then
      match c - 10 * (i - 1) with 0 => v3dot g t | 1 => vx gl | 2 => vy gl | _ => vz gl end
    else E c) (fun _ => 0%R).
