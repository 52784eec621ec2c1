(** Property theorems C39 (regressors). Statements only. *)
From Coq Require Import Reals List Arith.
From Verif Require Import Vec3 Spatial Inertia InertiaFacts Joints Spec_Joints Deriv Model Spec_Model ModelFacts ModelTree ModelFacts2 ModelFacts3 Sums Data Kinematics Spec_Kin Spec_Mass KinFacts KinFacts2 KinFacts3 Rnea Spec_Dyn DynFacts DynFacts2 MassFacts Crba CrbaFacts3 CrbaFacts4 Spec_Com Com ComFacts ComFacts2 Aba Spec_Jac Regressor Spec_Reg RegFacts RegFacts2 RegFacts3 RegFacts4.
Import ListNotations.
Local Open Scope nat_scope.

(** the body regressor times the inertial parameters of a body is its inertial wrench *)
Theorem C39_body (v a : Motion) (Y : Inertia) :
  colsMul 10 (bodyRegressor v a) (param Y) = v6add (inertia_mul Y a) (force_cross v (inertia_mul Y v)).
Proof. exact (body_regressor v a Y). Qed.
Print Assumptions C39_body.
(** the parameters are those returned by toDynamicParameters *)
Theorem C39_parameters (Y : Inertia) (k : nat) : param Y k = dyn_get (inertia_toDynamicParameters Y) k.
Proof. exact (param_dyn Y k). Qed.
Print Assumptions C39_parameters.

(** the joint torque regressor times the stacked parameters is rnea without the rotor inertias *)
Theorem C39_torque (eps : R) (m : Model) (d d' : Data) (q v a : vec) (k : nat) :
  Built eps m -> validModel m -> noMimic m -> validState m q -> k < m_nv m ->
  dotv (10 * (m_njoints m - 1)) (computeJointTorqueRegressor m d q v a k) (params m) =
  (rnea m d' q v a k - nth k (m_armature m) 0 * a k)%R.
Proof. exact (fun B Vm NM => torque_regressor m (Built_wf eps m B) (Built_tree eps m B) Vm NM d d' q v a k). Qed.
Example C39_torque_ex (s : R) : let m := exD (1/1000) in
  Built (1/1000) m /\ validModel m /\ noMimic m /\ validState m (exQ s) /\ 3 < m_njoints m /\ 0 < m_nv m.
Proof.
  exact (conj (exD_built _) (conj (exD_valid _) (conj (exD_noMimic _) (conj (proj1 (proj2 (proj2 (proj2 (proj2 (proj2 (exD_all s))))))) (conj (le_n 4) (Nat.lt_0_succ _)))))).
Qed.
Print Assumptions C39_torque.

(** after rnea, the regressor of a joint gives the wrench that any inertia carried by that joint needs *)
Theorem C39_joint (eps : R) (m : Model) (d : Data) (q v a : vec) (i : nat) (Y : Inertia) :
  Built eps m -> validModel m -> validState m q -> 0 < i < m_njoints m ->
  colsMul 10 (jointBodyRegressor (rneaData m d q v a) i) (param Y) =
  v6add (inertia_mul Y (v6sub (bodyAcc m q v a i) (gravityAt m q i))) (force_cross (bodyVel m q v i) (inertia_mul Y (bodyVel m q v i))).
Proof. exact (fun B Vm => joint_regressor_rnea m (Built_wf eps m B) (Built_tree eps m B) Vm d q v a i Y). Qed.
(* hypotheses met: C39_torque_ex *)
Print Assumptions C39_joint.
(** the same for an inertia given in a frame: the result, moved to the joint that carries the frame *)
Theorem C39_frame (eps : R) (m : Model) (d : Data) (q v a : vec) (f : nat) (Y : Inertia) :
  Built eps m -> validModel m -> validState m q ->
  let j := fr_parentJoint (frameAt m f) in let P := fr_placement (frameAt m f) in
  j < m_njoints m -> isRotation (rot P) ->
  force_act P (colsMul 10 (frameBodyRegressor m (rneaData m d q v a) f) (param Y)) =
  v6add (inertia_mul (inertia_act P Y) (v6sub (bodyAcc m q v a j) (gravityAt m q j)))
        (force_cross (bodyVel m q v j) (inertia_mul (inertia_act P Y) (bodyVel m q v j))).
Proof. exact (fun B Vm => frame_regressor_rnea m (Built_wf eps m B) (Built_tree eps m B) Vm d q v a f Y). Qed.
Example C39_frame_ex (eps s : R) : let m := exTree eps in Built eps m /\ validModel m /\ validState m (exQ s) /\
  0 < 1 < m_nframes m /\ fr_parentJoint (frameAt m 1) < m_njoints m /\ isRotation (rot (fr_placement (frameAt m 1))).
Proof. exact (conj (exTree_built eps) (conj (exTree_valid eps) (conj (exQ_valid eps s) (exTree_frameP eps)))). Qed.
Print Assumptions C39_frame.

(** energies: the rotor inertias are not part of the kinetic energy regressor *)
Theorem C39_kinetic (eps : R) (m : Model) (d d' : Data) (q v : vec) : Built eps m -> validModel m -> noMimic m -> validState m q ->
  (dotv (10 * (m_njoints m - 1)) (computeKineticEnergyRegressor m d q v) (params m) + / 2 * armaturePower m v v)%R
  = computeKineticEnergy m d' q v.
Proof.
  exact (fun B Vm NM Q => kinetic_regressor_energy m (Built_wf eps m B) (Built_tree eps m B) Vm NM d d' q v Q).
Qed.
(* hypotheses met: C39_torque_ex *)
Print Assumptions C39_kinetic.
Theorem C39_potential (eps : R) (m : Model) (d d' : Data) (q : vec) : Built eps m ->
  dotv (10 * (m_njoints m - 1)) (computePotentialEnergyRegressor m d q) (params m) = computePotentialEnergy m d' q.
Proof. exact (fun B => potential_regressor m (Built_wf eps m B) (Built_tree eps m B) d d' q). Qed.
(* hypotheses met: C39_torque_ex *)
Print Assumptions C39_potential.

(** the static regressor times masses and first moments is the centre of mass; [S0] is the old content of the output *)
Theorem C39_static (eps : R) (m : Model) (d : Data) (S0 : nat -> V3) (q : vec) : Built eps m -> subtreeMass m 0 <> 0%R ->
  cols3Mul (4 * (m_njoints m - 1)) (computeStaticRegressor m d S0 q) (params4 m) = subtreeCom m q 0.
Proof. exact (fun B _ => static_regressor m (Built_wf eps m B) (Built_tree eps m B) d S0 q). Qed.
(* hypotheses met: C36_ex *)
Print Assumptions C39_static.

(** kinematic regressors: when the joint placements of the model move with the twists tau, a frame F carried by joint j moves
    with velocity regressor * tau, in each of the three reference frames. The data must hold oMi[0] = identity, as built. *)
Theorem C39_kinematic (eps : R) (m : Model) (q : vec) (P : R -> nat -> SE3) (tau : nat -> V6) (t : R) (d d0 : Data) (j : nat) (F : SE3) (rf : RefFrame) :
  Built eps m -> validModel m -> validState m q ->
  (forall i, 0 < i < m_njoints m -> P t i = placementOf m i /\ hasTwist (fun s => P s i) (tau i) t) ->
  0 < j < m_njoints m -> isRotation (rot F) -> oMiOf d 0 = se3_Identity -> oMiOf d0 0 = se3_Identity ->
  let d1 := forwardKinematics0 m d q in
  let oMi := fun s => oMiOf (forwardKinematics0 (withPlacements m (P s)) d0 q) j in
  exists K KF, computeJointKinematicRegressor m d1 j rf = Ok d1 K /\ computeJointKinematicRegressorAt m d1 j rf F = Ok d1 KF /\
    velocityIn rf (fun s => se3_mul (oMi s) se3_Identity) (colsMul (6 * (m_njoints m - 1)) K (stack6 tau)) t /\
    velocityIn rf (fun s => se3_mul (oMi s) F) (colsMul (6 * (m_njoints m - 1)) KF (stack6 tau)) t.
Proof. exact (fun B Vm Hq HP => kin_joint m (Built_wf eps m B) (Built_tree eps m B) Vm q P tau t Hq HP d d0 j F rf). Qed.
Example C39_kinematic_ex (eps t : R) : let m := exTree eps in Built eps m /\ validModel m /\ validState m (exQ t) /\ 0 < 4 < m_njoints m /\
  isRotation (rot se3_Identity) /\ oMiOf (newData m) 0 = se3_Identity /\
  exists (P : R -> nat -> SE3) (tau : nat -> V6),
  tau 1 <> v6zero /\ forall i, 0 < i < m_njoints m -> P t i = placementOf m i /\ hasTwist (fun s => P s i) (tau i) t.
Proof.
  exact (conj (exTree_built eps) (conj (exTree_valid eps) (conj (exQ_valid eps t) (conj (proj2 (proj2 (proj2 (proj2 (proj2 (exKin eps t))))))
    (conj isRotation_id (conj eq_refl (ex_placements (exTree eps) t))))))).
Qed.
Print Assumptions C39_kinematic.
Theorem C39_kinematic_frame (eps : R) (m : Model) (q : vec) (P : R -> nat -> SE3) (tau : nat -> V6) (t : R) (d d0 : Data) (f : nat) (rf : RefFrame) :
  Built eps m -> validModel m -> validState m q ->
  (forall i, 0 < i < m_njoints m -> P t i = placementOf m i /\ hasTwist (fun s => P s i) (tau i) t) ->
  0 < f < m_nframes m -> isRotation (rot (fr_placement (frameAt m f))) -> oMiOf d 0 = se3_Identity -> oMiOf d0 0 = se3_Identity ->
  let d1 := forwardKinematics0 m d q in let j := fr_parentJoint (frameAt m f) in
  let oMi := fun s => oMiOf (forwardKinematics0 (withPlacements m (P s)) d0 q) j in
  exists K, computeFrameKinematicRegressor m d1 f rf = Ok (updateFramePlacement m d1 f) K /\
    velocityIn rf (fun s => se3_mul (oMi s) (fr_placement (frameAt m f))) (colsMul (6 * (m_njoints m - 1)) K (stack6 tau)) t.
Proof. exact (fun B Vm Hq HP => kin_frame m (Built_wf eps m B) (Built_tree eps m B) Vm q P tau t Hq HP d d0 f rf). Qed.
(* hypotheses met: C39_kinematic_ex, C39_frame_ex *)
Print Assumptions C39_kinematic_frame.
(** out-of-range joints and frames are rejected and leave the data unchanged *)
Theorem C39_range (m : Model) (d : Data) (j : nat) (rf : RefFrame) (F : SE3) :
  (j = 0 \/ m_njoints m <= j -> computeJointKinematicRegressor m d j rf = Throw d /\ computeJointKinematicRegressorAt m d j rf F = Throw d) /\
  (j = 0 \/ m_nframes m <= j -> computeFrameKinematicRegressor m d j rf = Throw d).
Proof. exact (kin_range m d j rf F). Qed.
Print Assumptions C39_range.
