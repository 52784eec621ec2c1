(* algorithm/energy.hxx and algorithm/center-of-mass.hxx *)
Require Import Reals List Arith Lia.
From Verif Require Import Vec3 Spatial Inertia Joints Model Spec_Model Sums Data Kinematics Rnea Crba.
Import ListNotations.
Local Open Scope nat_scope.

Definition onRow (d : Data) (i : nat) (f : Row -> Row) : Data := setRow d i (f (rows d i)).
Definition onGs (d : Data) (t : GsT) (f : R -> R) : Data := setGl d (setGs (gl d) t (f (gs (gl d) t))).

(* ---- energy.hxx ---- *)
(* 30-34 KineticEnergyAlgoForwardStep.  jv i k is component k of data.joints[i].joint_v(), which the last calc(q, v) of the
   joint wrote; nvExtended components for a mimic joint (joint-mimic.hpp 709, 811). *)
Definition kineticStep (m : Model) (jv : nat -> nat -> R) (d : Data) (i : nat) : Data :=
  let d := onGs d F_kinetic (fun x => x + inertia_vtiv (inertiaOf m i) (mo (rows d i) F_v))%R in
  onGs d F_kinetic (fun x => x + sumN (jnvE (jm_type (joint m i))) (fun k => velSel m i (armatureOf m) k * (jv i k * jv i k)))%R.
(* 77-82 *)
Definition potentialStep (m : Model) (d : Data) (i : nat) : Data :=
  let com := v3add (trans (pl (rows d i) F_oMi)) (m3vec (rot (pl (rows d i) F_oMi)) (lever (inertiaOf m i))) in
  onGs d F_potential (fun x => x - mass (inertiaOf m i) * v3dot com (lin (m_gravity m)))%R.
(* 39-58 *)
Definition kineticData (m : Model) (jv : nat -> nat -> R) (d : Data) : Data :=
  let d := onGs d F_kinetic (fun _ => 0%R) in
  let d := upward m (kineticStep m jv) d in
  onGs d F_kinetic (fun x => x * (1/2))%R.
(* 61-85 *)
Definition potentialData (m : Model) (d : Data) : Data :=
  let d := onGs d F_potential (fun _ => 0%R) in upward m (potentialStep m) d.
(* 88-118 *)
Definition mechanicalData (m : Model) (jv : nat -> nat -> R) (d : Data) : Data :=
  let d := onGs d F_kinetic (fun _ => 0%R) in
  let d := onGs d F_potential (fun _ => 0%R) in
  let d := upward m (fun d i => potentialStep m (kineticStep m jv d i) i) d in
  let d := onGs d F_kinetic (fun x => x * (1/2))%R in
  onGs d F_mechanical (fun _ => gs (gl d) F_kinetic + gs (gl d) F_potential)%R.
(* joint-*.hpp: calc(data, q, v) stores data.joint_v = v.segment(idx_v) *)
Definition jointV (m : Model) (v : vec) (i k : nat) : R := velSel m i v k.
(* 122-210: the versions on (q, v) *)
Definition computeKineticEnergy (m : Model) (d : Data) (q v : vec) : R :=
  gs (gl (kineticData m (jointV m v) (forwardKinematics1 m d q v))) F_kinetic.
Definition computePotentialEnergy (m : Model) (d : Data) (q : vec) : R :=
  gs (gl (potentialData m (forwardKinematics0 m d q))) F_potential.
Definition computeMechanicalEnergy (m : Model) (d : Data) (q v : vec) : R :=
  gs (gl (mechanicalData m (jointV m v) (forwardKinematics1 m d q v))) F_mechanical.

(* ---- center-of-mass.hxx ---- *)
(* 18-26; 29-35 stores the result in data.mass[0] *)
Definition computeTotalMass (m : Model) : R := upward m (fun x i => x + mass (inertiaOf m i))%R 0%R.
Definition addMass (r ri : Row) : Row := setSc r F_mass (sc r F_mass + sc ri F_mass)%R.
(* 38-55 *)
Definition computeSubtreeMasses (m : Model) (d : Data) : Data :=
  let d := onRow d 0 (fun r => setSc r F_mass 0%R) in
  let d := upward m (fun d i => onRow d i (fun r => setSc r F_mass (mass (inertiaOf m i)))) d in
  downward m (fun d i => onRow d (parent m i) (fun r => addMass r (rows d i))) d.

(* 139-145; lvl is the kinematic level: POSITION = 0, VELOCITY = 1, ACCELERATION = 2 *)
Definition comZero (lvl : nat) (r : Row) : Row :=
  let r := setSc r F_mass 0%R in
  let r := setP3 r F_com v3zero in
  let r := if 1 <=? lvl then setP3 r F_vcom v3zero else r in
  if 2 <=? lvl then setP3 r F_acom v3zero else r.
(* 148-169 *)
Definition comForward (lvl : nat) (m : Model) (d : Data) (i : nat) : Data :=
  onRow d i (fun r =>
    let Y := inertiaOf m i in
    let v := mo r F_v in let a := mo r F_a in
    let r := setSc r F_mass (mass Y) in
    let r := setP3 r F_com (v3scale (mass Y) (lever Y)) in
    let r := if 1 <=? lvl then setP3 r F_vcom (v3scale (mass Y) (v3add (v3cross (ang v) (lever Y)) (lin v))) else r in
    if 2 <=? lvl then setP3 r F_acom (v3add (v3scale (mass Y) (v3add (v3cross (ang a) (lever Y)) (lin a)))
                                            (v3cross (ang v) (p3 r F_vcom))) else r).
(* 177-186: what joint i adds to its parent *)
Definition comAdd (lvl : nat) (r ri : Row) : Row :=
  let M := pl ri F_liMi in
  let r := addMass r ri in
  let r := setP3 r F_com (v3add (p3 r F_com) (v3add (m3vec (rot M) (p3 ri F_com)) (v3scale (sc ri F_mass) (trans M)))) in
  let r := if 1 <=? lvl then setP3 r F_vcom (v3add (p3 r F_vcom) (m3vec (rot M) (p3 ri F_vcom))) else r in
  if 2 <=? lvl then setP3 r F_acom (v3add (p3 r F_acom) (m3vec (rot M) (p3 ri F_acom))) else r.
(* 190-195, 199-204; x / s divides every component *)
Definition v3div (s : R) (x : V3) : V3 := mkV3 (vx x / s) (vy x / s) (vz x / s).
Definition comDiv (lvl : nat) (r : Row) : Row :=
  let s := sc r F_mass in
  let r := setP3 r F_com (v3div s (p3 r F_com)) in
  let r := if 1 <=? lvl then setP3 r F_vcom (v3div s (p3 r F_vcom)) else r in
  if 2 <=? lvl then setP3 r F_acom (v3div s (p3 r F_acom)) else r.
(* 172-197 *)
Definition comBack (lvl : nat) (sub : bool) (m : Model) (d : Data) (i : nat) : Data :=
  let d := onRow d (parent m i) (fun r => comAdd lvl r (rows d i)) in
  if sub then onRow d i (comDiv lvl) else d.
(* 116-207; 124: other levels are rejected *)
Definition centerOfMass (m : Model) (d : Data) (lvl : nat) (sub : bool) : Res Data V3 :=
  if 2 <? lvl then Throw d else
  let d := onRow d 0 (comZero lvl) in
  let d := upward m (comForward lvl m) d in
  let d := downward m (comBack lvl sub m) d in
  let d := onRow d 0 (comDiv lvl) in
  Ok d (p3 (rows d 0) F_com).
(* 57-115 *)
Definition centerOfMass0 (m : Model) (d : Data) (q : vec) (sub : bool) : Res Data V3 := centerOfMass m (forwardKinematics0 m d q) 0 sub.
Definition centerOfMass1 (m : Model) (d : Data) (q v : vec) (sub : bool) : Res Data V3 := centerOfMass m (forwardKinematics1 m d q v) 1 sub.
Definition centerOfMass2 (m : Model) (d : Data) (q v a : vec) (sub : bool) : Res Data V3 := centerOfMass m (forwardKinematics2 m d q v a) 2 sub.

(* X.middleCols(b, n) += f *)
Definition addCols3 (b n : nat) (f : nat -> V3) (x : nat -> V3) : nat -> V3 :=
  fun k => if within b n k then v3add (x k) (f (k - b)) else x k.
(* 249-271 JacobianCenterOfMassBackwardStep; 252-253 sums in the world frame.  J and Jcom are the matrices passed or stored. *)
Definition jcomAdd (r ri : Row) : Row := setP3 (addMass r ri) F_com (v3add (p3 r F_com) (p3 ri F_com)).
Definition jcomCol (M : R) (c : V3) (J : V6) : V3 := v3sub (v3scale M (lin J)) (v3cross c (ang J)).
Definition jcomBack (sub : bool) (m : Model) (d : Data) (i : nat) : Data :=
  let d := onRow d (parent m i) (fun r => jcomAdd r (rows d i)) in
  let n := jnvE (jm_type (joint m i)) in
  let d := onCo d F_J (setCols (jm_idx_vE (joint m i)) n (fun k => motion_act (pl (rows d i) F_oMi) (colOf (jS (jd (rows d i))) k))) in
  let d := setGl d (setJcom (gl d) (addCols3 (jm_idx_v (joint m i)) n
             (fun k => jcomCol (sc (rows d i) F_mass) (p3 (rows d i) F_com) (co (gl d) F_J (jm_idx_vE (joint m i) + k))) (jcom (gl d)))) in
  if sub then onRow d i (comDiv 0) else d.
(* 292-334; 281-289 *)
Definition jacobianCenterOfMassFK (m : Model) (d : Data) (sub : bool) : Data :=
  let d := onRow d 0 (comZero 0) in
  let d := upward m (fun d i => onRow d i (fun r => setP3 (setSc r F_mass (mass (inertiaOf m i))) F_com
                        (v3scale (mass (inertiaOf m i)) (se3_actPoint (pl r F_oMi) (lever (inertiaOf m i)))))) d in
  let d := setGl d (setJcom (gl d) (fun _ => v3zero)) in
  let d := downward m (jcomBack sub m) d in
  let d := onRow d 0 (comDiv 0) in
  setGl d (setJcom (gl d) (fun k => v3div (sc (rows d 0) F_mass) (jcom (gl d) k))).
Definition jacobianCenterOfMass (m : Model) (d : Data) (q : vec) (sub : bool) : Data :=
  jacobianCenterOfMassFK m (forwardKinematics0 m d q) sub.
(* 542-556 getJacobianComFromCrba (the middle rows of Ag are its linear part) *)
Definition getJacobianComFromCrba (d : Data) : Data :=
  let Y := yi (rows d 0) F_oYcrb in
  let d := onRow d 0 (fun r => setP3 (setSc r F_mass (mass Y)) F_com (lever Y)) in
  setGl d (setJcom (gl d) (fun k => v3div (sc (rows d 0) F_mass) (lin (co (gl d) F_Ag k)))).
(* 210-218 getComFromCrba: liMi[1].act(oYcrb[1].lever()) *)
Definition getComFromCrba (d : Data) : Data :=
  onRow d 0 (fun r => setP3 r F_com (se3_actPoint (pl (rows d 1) F_liMi) (lever (yi (rows d 1) F_oYcrb)))).
