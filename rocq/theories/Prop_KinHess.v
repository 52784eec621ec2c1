(** Property theorems C71 (the kinematic Hessians). Statements only. A Hessian H is a function: H o k is the six entries of column k of slice o. *)
From Coq Require Import Reals List Arith.
From Verif Require Import Vec3 Spatial Inertia SpatialFacts Joints Spec_Joints Deriv JointFacts Model Spec_Model ModelFacts ModelTree Sums Data Kinematics Spec_Kin KinFacts3 Spec_Mass Crba CrbaFacts3 CrbaFacts4 Jacobian Spec_Jac CholFacts5 ComFacts6 DccrbaFacts3 RneaDerFacts8 KinDer Spec_KinDer KinDerFacts7 KinHess KinHessFacts4 KinHessFacts5 KinDerEx.
Import ListNotations.
Local Open Scope nat_scope.

(** C71. Along any motion with velocity v, column k of the Jacobian of joint j varies with the sum over o of v(o) times column k of slice o of its kinematic Hessian.
    Partial: joints whose axes move in their own frame (spherical ZYX, universal) are left out; in the LOCAL frame, joints with several non commuting axes must be attached to the universe (see C71_local_refuted) *)
Theorem C71_derivative_partial (eps : R) (m : Model) (q : R -> vec) (v : vec) (t : R) (j k : nat) (rf : RefFrame) (d d0 : Data) (K0 : Hess) :
  Built eps m -> validModel m -> noMimic m -> noRigidJoint m -> (forall i, 0 < i < m_njoints m -> fixedAxes (jm_type (joint m i))) ->
  (forall s, validState m (q s)) -> moves m q v t -> 0 < j < m_njoints m -> (rf = LOCAL -> commutingAxes m (q t)) -> k < m_nv m ->
  deriv6 (fun s => getJointJacobian m (computeJointJacobians m d (q s)) j rf zeroJ k)
    (colsMul (m_nv m) (fun o => getJointKinematicHessian m (fst (computeJointKinematicHessiansQ m d0 (q t) K0)) (snd (computeJointKinematicHessiansQ m d0 (q t) K0)) j rf zeroH o k) v) t.
Proof. exact (fun B V N P F Hq Hm Hj C Hk => hessian_derivative eps m B V N P d d0 K0 q v t j rf k F Hq Hm Hj C Hk). Qed.
Example C71_ex (s : R) : Built 1 exR /\ validModel exR /\ noMimic exR /\ noRigidJoint exR /\ (forall i, 0 < i < m_njoints exR -> fixedAxes (jm_type (joint exR i))) /\
  (forall x, validState exR (exRQ x)) /\ moves exR exRQ exRV s /\ commutingAxes exR (exRQ s) /\ m_njoints exR = 4 /\ m_nv exR = 3.
Proof. exact (conj (exR_built 1) (conj exR_valid (conj exR_noMimic (conj exR_norigid (conj exR_fixed (conj exR_validState (conj (exR_moves s) (conj (exR_commute s) (conj eq_refl eq_refl))))))))). Qed.
Print Assumptions C71_derivative_partial.

(** the same sum is column k of the matrix that getJointJacobianTimeVariation returns, for every joint type *)
Theorem C71_variation (eps : R) (m : Model) (q w : vec) (j k : nat) (rf : RefFrame) (d d1 : Data) (K0 : Hess) :
  Built eps m -> validModel m -> noMimic m -> noRigidJoint m -> validState m q -> 0 < j < m_njoints m -> (rf = LOCAL -> commutingAxes m q) ->
  colsMul (m_nv m) (fun o => getJointKinematicHessian m (fst (computeJointKinematicHessiansQ m d q K0)) (snd (computeJointKinematicHessiansQ m d q K0)) j rf zeroH o k) w =
  getJointJacobianTimeVariation m (computeJointJacobiansTimeVariation m d1 q w) j rf zeroJ k.
Proof. exact (fun B V N P Hq Hj C => getter_contract eps m B V N P q d K0 Hq rf j w k d1 Hj C). Qed.
(* hypotheses met: C71_ex; outside of LOCAL also C68_ex *)
Print Assumptions C71_variation.

(** column k of slice o is zero when o or k is a column of a joint that does not carry j *)
Theorem C71_zero (eps : R) (m : Model) (d : Data) (K : Hess) (j i o k : nat) (rf : RefFrame) :
  Built eps m -> validModel m -> noMimic m -> noRigidJoint m -> 0 < j < m_njoints m -> 0 < i < m_njoints m -> ~ onPath m i j -> columnOf m i o \/ columnOf m i k ->
  getJointKinematicHessian m d K j rf zeroH o k = v6zero.
Proof. exact (fun B V N P Hj Hi => hessian_zero eps m B V N P d K j rf i o k Hj Hi). Qed.
(* hypotheses met: C71_ex *)
Print Assumptions C71_zero.

(** computeJointKinematicHessians writes the cross product of the columns o and k of the Jacobian when one of the two joints carries the other and o is not k, and nothing else *)
Theorem C71_content (eps : R) (m : Model) (J : Jac) (K0 : Hess) (i s o k : nat) :
  Built eps m -> noMimic m -> 0 < i < m_njoints m -> 0 < s < m_njoints m -> columnOf m i o -> columnOf m s k ->
  ((onPath m i s \/ onPath m s i) /\ o <> k -> computeJointKinematicHessians m J K0 o k = motion_cross (J o) (J k)) /\
  (~ ((onPath m i s \/ onPath m s i) /\ o <> k) -> computeJointKinematicHessians m J K0 o k = K0 o k).
Proof. exact (fun B N => hessians_content eps m B N J K0 i s o k). Qed.
(* hypotheses met: C71_ex *)
Print Assumptions C71_content.

(** with a free flyer below a revolute joint, the LOCAL Hessian is not the derivative of the LOCAL Jacobian *)
Theorem C71_local_refuted : exists (m : Model) (q : R -> vec) (v : vec) (t : R) (j k : nat),
  Built (1/1000) m /\ validModel m /\ noMimic m /\ noRigidJoint m /\ (forall i, 0 < i < m_njoints m -> fixedAxes (jm_type (joint m i))) /\ (forall s, validState m (q s)) /\
  moves m q v t /\ 0 < j < m_njoints m /\ k < m_nv m /\
  forall d d0 K0, ~ deriv6 (fun s => getJointJacobian m (computeJointJacobians m d (q s)) j LOCAL zeroJ k)
    (colsMul (m_nv m) (fun o => getJointKinematicHessian m (fst (computeJointKinematicHessiansQ m d0 (q t) K0)) (snd (computeJointKinematicHessiansQ m d0 (q t) K0)) j LOCAL zeroH o k) v) t.
Proof. exact local_bug. Qed.
Print Assumptions C71_local_refuted.
