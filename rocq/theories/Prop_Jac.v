(** Property theorems C30, C31 and C54 (Jacobians). Statements only. *)
From Coq Require Import Reals List Arith.
From Verif Require Import Vec3 Spatial Inertia Joints Spec_Joints Deriv Model Spec_Model ModelFacts3 Data Kinematics Spec_Kin KinFacts3 Spec_Mass Jacobian Spec_Jac JacFacts6 JacFacts7.
Import ListNotations.
Local Open Scope nat_scope.

(** for every velocity w, in each reference frame, the matrix filled by getJointJacobian times w is the velocity of the
    joint computed by forwardKinematics(q, w): mimic joints included *)
Theorem C30_velocity (eps : R) (m : Model) (d d0 : Data) (q w : vec) (j : nat) (rf : RefFrame) :
  Built eps m -> validModel m -> noRigidJoint m -> validState m q -> 0 < j < m_njoints m ->
  colsMul (m_nv m) (getJointJacobian m (computeJointJacobians m d0 q) j rf zeroJ) w = getVelocity (forwardKinematics1 m d q w) j rf.
Proof. exact (fun B V P => jac_velocity eps m B V P d d0 q w j rf). Qed.
Example C30_velocity_ex (eps : R) : Built eps (exTree eps) /\ validModel (exTree eps) /\ noRigidJoint (exTree eps) /\ validState (exTree eps) (exQ 1) /\
  0 < 4 < m_njoints (exTree eps) /\ isMimic (joint (exTree eps) 4) = true.
Proof. exact (conj (exTree_built eps) (conj (exTree_valid eps) (conj (exTree_norigid eps) (conj (exQ_valid eps 1) (conj (proj2 (proj2 (proj2 (proj2 (proj2 (exKin eps 0)))))) eq_refl))))). Qed.
Print Assumptions C30_velocity.
(** the same from the placements left by a forward kinematics of any order *)
Theorem C30_velocity_from_kinematics (eps : R) (m : Model) (d d0 : Data) (q v a w : vec) (j : nat) (rf : RefFrame) :
  Built eps m -> validModel m -> noRigidJoint m -> validState m q -> 0 < j < m_njoints m ->
  colsMul (m_nv m) (getJointJacobian m (computeJointJacobiansFK m (forwardKinematics0 m d0 q)) j rf zeroJ) w = getVelocity (forwardKinematics1 m d q w) j rf /\
  colsMul (m_nv m) (getJointJacobian m (computeJointJacobiansFK m (forwardKinematics1 m d0 q v)) j rf zeroJ) w = getVelocity (forwardKinematics1 m d q w) j rf /\
  colsMul (m_nv m) (getJointJacobian m (computeJointJacobiansFK m (forwardKinematics2 m d0 q v a)) j rf zeroJ) w = getVelocity (forwardKinematics1 m d q w) j rf.
Proof. exact (fun B V P => jacFK_velocity eps m B V P d d0 q v a w j rf). Qed.
(* hypotheses met: C30_velocity_ex *)
Print Assumptions C30_velocity_from_kinematics.
(** columns: those that no joint on the path to j reads keep the caller's values; those of the ordinary joints on the path
    do not depend on them *)
Theorem C30_columns (eps : R) (m : Model) (d : Data) (q : vec) (j : nat) (rf : RefFrame) (J0 J1 : Jac) (k : nat) :
  Built eps m -> validModel m -> noRigidJoint m -> 0 < j < m_njoints m ->
  ((forall i, 0 < i -> onPath m i j -> ~ readsV m i k) -> getJointJacobian m (computeJointJacobians m d q) j rf J0 k = J0 k) /\
  (forall i, 0 < i -> onPath m i j -> isMimic (joint m i) = false -> readsV m i k ->
     getJointJacobian m (computeJointJacobians m d q) j rf J0 k = getJointJacobian m (computeJointJacobians m d q) j rf J1 k).
Proof. exact (fun B V P => jac_columns eps m B V P d q j rf J0 J1 k). Qed.
(* hypotheses met: C30_velocity_ex *)
Print Assumptions C30_columns.
(** computeJointJacobian gives the LOCAL matrix, whatever the data held before *)
Theorem C30_single (eps : R) (m : Model) (d d0 : Data) (q : vec) (j : nat) (J0 : Jac) (k : nat) :
  Built eps m -> validModel m -> noRigidJoint m -> validState m q -> 0 < j < m_njoints m ->
  snd (computeJointJacobian m d q j J0) k = getJointJacobian m (computeJointJacobians m d0 q) j LOCAL J0 k.
Proof. exact (fun B V P => jac_single eps m B V P d d0 q j J0 k). Qed.
(* hypotheses met: C30_velocity_ex *)
Print Assumptions C30_single.
(** the universe does not move: its Jacobian is left as the caller gave it *)
Theorem C30_universe (eps : R) (m : Model) (d : Data) (rf : RefFrame) (J0 : Jac) : Built eps m -> noRigidJoint m -> 1 < m_njoints m ->
  getJointJacobian m d 0 rf J0 = J0.
Proof. exact (translate_universe eps m rf (pl (rows d 0) F_oMi) (co (gl d) F_J) J0). Qed.
(* hypotheses met: C30_velocity_ex *)
Print Assumptions C30_universe.

(** frames: the matrix times w is the velocity of the frame *)
Theorem C31_jacobian (eps : R) (m : Model) (d d0 : Data) (q w : vec) (j : nat) (P : SE3) (rf : RefFrame) :
  Built eps m -> validModel m -> noRigidJoint m -> validState m q -> 0 < j < m_njoints m -> isRotation (rot P) ->
  colsMul (m_nv m) (getFrameJacobian m (computeJointJacobians m d0 q) j P rf zeroJ) w = getFrameVelocity (forwardKinematics1 m d q w) j P rf.
Proof. exact (fun B V Ps => frame_jac_velocity eps m B V Ps d d0 q w j P rf). Qed.
(* hypotheses met: C30_velocity_ex and C31_motion_ex *)
Print Assumptions C31_jacobian.
Theorem C31_jacobian_columns (eps : R) (m : Model) (d : Data) (q : vec) (j : nat) (P : SE3) (rf : RefFrame) (J0 J1 : Jac) (k : nat) :
  Built eps m -> validModel m -> noRigidJoint m -> 0 < j < m_njoints m ->
  ((forall i, 0 < i -> onPath m i j -> ~ readsV m i k) -> getFrameJacobian m (computeJointJacobians m d q) j P rf J0 k = J0 k) /\
  (forall i, 0 < i -> onPath m i j -> isMimic (joint m i) = false -> readsV m i k ->
     getFrameJacobian m (computeJointJacobians m d q) j P rf J0 k = getFrameJacobian m (computeJointJacobians m d q) j P rf J1 k).
Proof. exact (fun B V Ps => frame_jac_columns eps m B V Ps d q j P rf J0 J1 k). Qed.
(* hypotheses met: C30_velocity_ex *)
Print Assumptions C31_jacobian_columns.
(** computeFrameJacobian, which visits only the support of the frame, gives the same matrix in each reference frame *)
Theorem C31_jacobian_single (eps : R) (m : Model) (d d0 : Data) (q : vec) (f : nat) (rf : RefFrame) (J0 : Jac) (k : nat) :
  let j := fr_parentJoint (frameAt m f) in let P := fr_placement (frameAt m f) in
  Built eps m -> validModel m -> noRigidJoint m -> validState m q -> 0 < j < m_njoints m -> isRotation (rot P) ->
  snd (computeFrameJacobian m d q f rf J0) k = getFrameJacobian m (computeJointJacobians m d0 q) j P rf J0 k.
Proof. exact (fun B V Ps => frame_jac_single eps m B V Ps d d0 q f rf J0 k). Qed.
(* hypotheses met: C31_placements_ex and C30_velocity_ex *)
Print Assumptions C31_jacobian_single.
(** frames fixed to the universe *)
Theorem C31_jacobian_universe (eps : R) (m : Model) (d : Data) (q : vec) (f : nat) (P : SE3) (rf : RefFrame) (J0 : Jac) :
  Built eps m -> noRigidJoint m -> 1 < m_njoints m -> fr_parentJoint (frameAt m f) = 0 ->
  getFrameJacobian m d 0 P rf J0 = J0 /\ snd (computeFrameJacobian m d q f rf J0) = J0.
Proof. exact (fun B Ps Hn E => conj (translate_universe eps m rf (se3_mul (pl (rows d 0) F_oMi) P) (co (gl d) F_J) J0 B Ps Hn) (frames_universe m d q f rf J0 (ModelFacts.Built_wf eps m B) (ModelTree.Built_tree eps m B) E)). Qed.
Example C31_jacobian_universe_ex (eps : R) : fr_parentJoint (frameAt (exTree eps) 0) = 0.
Proof. exact eq_refl. Qed.
Print Assumptions C31_jacobian_universe.

(** along every trajectory q whose velocity at time t is v, the derivative of J(q(s))*w at t is dJ*w, for every w and each
    reference frame, if the axes of the joints do not depend on the configuration *)
Theorem C54_joint_partial (eps : R) (m : Model) (d d0 : Data) (q : R -> vec) (v w : vec) (t : R) (j : nat) (rf : RefFrame) :
  Built eps m -> validModel m -> noRigidJoint m -> (forall i, 0 < i < m_njoints m -> fixedAxes (jm_type (joint m i))) ->
  (forall s, validState m (q s)) -> moves m q v t -> 0 < j < m_njoints m ->
  deriv6 (fun s => colsMul (m_nv m) (getJointJacobian m (computeJointJacobians m d (q s)) j rf zeroJ) w)
    (colsMul (m_nv m) (getJointJacobianTimeVariation m (computeJointJacobiansTimeVariation m d0 (q t) v) j rf zeroJ) w) t.
Proof. exact (fun B V Ps => joint_variation eps m B V Ps d d0 q v w t j rf). Qed.
Example C54_joint_ex (eps t : R) : Built eps (exTree eps) /\ validModel (exTree eps) /\ noRigidJoint (exTree eps) /\
  (forall i, 0 < i < m_njoints (exTree eps) -> fixedAxes (jm_type (joint (exTree eps) i))) /\
  (forall s, validState (exTree eps) (exQ s)) /\ moves (exTree eps) exQ (exV t) t /\ 0 < 4 < m_njoints (exTree eps).
Proof. exact (conj (exTree_built eps) (conj (exTree_valid eps) (conj (exTree_norigid eps) (conj (exTree_fixed eps) (conj (exQ_valid eps) (conj (exQ_moves eps t) (proj2 (proj2 (proj2 (proj2 (proj2 (exKin eps 0)))))))))))). Qed.
Print Assumptions C54_joint_partial.
(** which joints these are *)
Theorem C54_fixed_axes (j : Joint1) (s o : R) : (j <> JSphericalZYX -> (forall a b, j <> JUniversal a b) -> fixedAxes (JSimple j)) /\ fixedAxes (JMimic j s o).
Proof. exact (conj (fixedAxes_simple j) (fixedAxes_mimic j s o)). Qed.
Print Assumptions C54_fixed_axes.
(** for a SphericalZYX joint the result is wrong: the first axis is fixed in the world, hence the first column of J is
    constant along the motion, but the first column of dJ is not zero *)
Theorem C54_moving_axes_refuted (eps : R) (d d0 : Data) : exists m q v w, Built eps m /\ validModel m /\ noRigidJoint m /\ noMimic m /\
  (forall s, validState m (q s)) /\ moves m q v 0 /\
  let dJw := colsMul 3 (getJointJacobianTimeVariation m (computeJointJacobiansTimeVariation m d0 (q 0%R) v) 1 WORLD zeroJ) w in
  deriv6 (fun s => colsMul 3 (getJointJacobian m (computeJointJacobians m d (q s)) 1 WORLD zeroJ) w) v6zero 0 /\ dJw = mkV6 v3zero (mkV3 1 0 0).
Proof. exact (ex_intro _ zyxModel (ex_intro _ zyxQ (ex_intro _ zyxV (ex_intro _ zyxW (zyx_refuted eps d d0))))). Qed.
Print Assumptions C54_moving_axes_refuted.
(** frames, on models without mimic joints *)
Theorem C54_frame_partial (eps : R) (m : Model) (d d0 : Data) (q : R -> vec) (v w : vec) (t : R) (f : nat) (rf : RefFrame) :
  let j := fr_parentJoint (frameAt m f) in let P := fr_placement (frameAt m f) in
  Built eps m -> validModel m -> noRigidJoint m -> noMimic m -> (forall i, 0 < i < m_njoints m -> fixedAxes (jm_type (joint m i))) ->
  (forall s, validState m (q s)) -> moves m q v t -> 0 < j < m_njoints m -> isRotation (rot P) ->
  deriv6 (fun s => colsMul (m_nv m) (getFrameJacobian m (computeJointJacobians m d (q s)) j P rf zeroJ) w)
    (colsMul (m_nv m) (snd (getFrameJacobianTimeVariation m (computeJointJacobiansTimeVariation m d0 (q t) v) f rf zeroJ)) w) t.
Proof. exact (fun B V Ps => frame_variation eps m B V Ps d d0 q v w t f rf). Qed.
Example C54_frame_ex (eps t : R) : Built eps (exF eps) /\ validModel (exF eps) /\ noRigidJoint (exF eps) /\ noMimic (exF eps) /\
  (forall i, 0 < i < m_njoints (exF eps) -> fixedAxes (jm_type (joint (exF eps) i))) /\ (forall s, validState (exF eps) (exQ s)) /\ moves (exF eps) exQ (exV t) t /\
  fr_parentJoint (frameAt (exF eps) 1) = 3 /\ m_njoints (exF eps) = 4 /\ isRotation (rot (fr_placement (frameAt (exF eps) 1))).
Proof. exact (exF_all eps t). Qed.
Print Assumptions C54_frame_partial.
(** with a mimic joint the frame version is wrong: here its LOCAL result is not the derivative of the frame Jacobian *)
Theorem C54_frame_mimic_refuted (eps : R) (d d0 : Data) : exists w,
  let m := exTree eps in let P := fr_placement (frameAt m 1) in fr_parentJoint (frameAt m 1) = 4 /\
  ~ deriv6 (fun s => colsMul (m_nv m) (getFrameJacobian m (computeJointJacobians m d (exQ s)) 4 P LOCAL zeroJ) w)
      (colsMul (m_nv m) (snd (getFrameJacobianTimeVariation m (computeJointJacobiansTimeVariation m d0 (exQ 1) (exV 1)) 1 LOCAL zeroJ)) w) 1.
Proof. exact (ex_intro _ exW (conj eq_refl (ex_frame_refuted eps d d0))). Qed.
(* hypotheses met: C54_joint_ex *)
Print Assumptions C54_frame_mimic_refuted.
