(** Property theorems C68, C69, C70 (the derivatives of the velocities and accelerations of joints, points and frames). Statements only.
    zeroJ, zeroJ3, zeroAD, zeroPAD are matrices filled with zeros, as the documentation of these functions asks for. *)
From Coq Require Import Reals List Arith.
From Verif Require Import Vec3 Spatial Inertia SpatialFacts Joints Spec_Joints Deriv JointFacts Model Spec_Model ModelFacts ModelTree Sums Data Kinematics Spec_Kin KinFacts3 Spec_Mass Crba CrbaFacts3 CrbaFacts4 Jacobian Spec_Jac CholFacts5 ComFacts6 DccrbaFacts3 RneaDerFacts8 KinDer Spec_KinDer KinDerFacts3 KinDerFacts4 KinDerFacts5 KinDerFacts6 KinDerFacts7 KinDerFacts8 KinDerEx.
Import ListNotations.
Local Open Scope nat_scope.

(** C68. Along any motion of the configuration with velocity w and any variation v' of v, the velocity of joint j varies with
    v_partial_dq w + v_partial_dv v'; in the LOCAL_WORLD_ALIGNED frame this is the velocity at the point of the world where the joint is at time t.
    Partial: joints whose axes move in their own frame (spherical ZYX, universal) are left out *)
Theorem C68_velocity_partial (eps : R) (m : Model) (q v : R -> vec) (w v' a0 : vec) (t : R) (j : nat) (d d0 : Data) (rf : RefFrame) :
  Built eps m -> validModel m -> noMimic m -> (forall i, 0 < i < m_njoints m -> fixedAxes (jm_type (joint m i))) ->
  (forall s, validState m (q s)) -> moves m q w t -> accelerates m v v' t -> 0 < j < m_njoints m ->
  exists Dq Dv, getJointVelocityDerivatives m (computeForwardKinematicsDerivatives m d (q t) (v t) a0) j rf zeroJ zeroJ = Ok tt (Dq, Dv) /\
    deriv6 (fun s => jointVelocityAt (trans (worldPl m (q t) j)) (forwardKinematics1 m d0 (q s) (v s)) j rf) (v6add (colsMul (m_nv m) Dq w) (colsMul (m_nv m) Dv v')) t.
Proof. exact (fun B V N F Hq Hm Hv Hj => velocity_derivative eps m B V N F q v w v' t Hq Hm Hv j Hj d d0 rf a0). Qed.
Example C68_ex (s : R) (u : vec) : let m := exD (1/1000) in Built (1/1000) m /\ validModel m /\ noMimic m /\ noRigidJoint m /\ (forall i, 0 < i < m_njoints m -> fixedAxes (jm_type (joint m i))) /\
  (forall x, validState m (exQ x)) /\ moves m exQ (exV s) s /\ accelerates m (fun x k => x * u k)%R u s /\ m_njoints m = 4 /\ m_nv m = 10.
Proof. exact (conj (exD_built _) (conj (exD_valid _) (conj (exD_noMimic _) (conj (exD_norigid _) (conj (exD_fixed _) (conj (exD_validState _) (conj (exD_moves s) (conj (linear_accelerates _ u s) (conj eq_refl eq_refl))))))))). Qed.
Print Assumptions C68_velocity_partial.

(** the velocity that getVelocity returns in the LOCAL_WORLD_ALIGNED frame moves with the joint: its derivative has one more term, the angular velocity times the velocity of the origin of the joint *)
Theorem C68_velocity_aligned_partial (eps : R) (m : Model) (q v : R -> vec) (w v' a0 : vec) (t : R) (j : nat) (d d0 : Data) :
  Built eps m -> validModel m -> noMimic m -> (forall i, 0 < i < m_njoints m -> fixedAxes (jm_type (joint m i))) ->
  (forall s, validState m (q s)) -> moves m q w t -> accelerates m v v' t -> 0 < j < m_njoints m ->
  exists Dq Dv, getJointVelocityDerivatives m (computeForwardKinematicsDerivatives m d (q t) (v t) a0) j LOCAL_WORLD_ALIGNED zeroJ zeroJ = Ok tt (Dq, Dv) /\
    deriv6 (fun s => getVelocity (forwardKinematics1 m d0 (q s) (v s)) j LOCAL_WORLD_ALIGNED)
      (v6add (v6add (colsMul (m_nv m) Dq w) (colsMul (m_nv m) Dv v'))
        (mkV6 (v3cross (ang (getVelocity (forwardKinematics1 m d0 (q t) (v t)) j WORLD)) (lin (getVelocity (forwardKinematics1 m d0 (q t) w) j LOCAL_WORLD_ALIGNED))) v3zero)) t.
Proof. exact (fun B V N F Hq Hm Hv Hj => velocity_aligned eps m B V N F q v w v' t Hq Hm Hv j Hj d d0 a0). Qed.
(* hypotheses met: C68_ex *)
Print Assumptions C68_velocity_aligned_partial.

(** the acceleration varies with a_partial_dq w + a_partial_dv v' + a_partial_da a', and the velocity with v_partial_dq w + a_partial_da v'.
    Partial: as above; and outside of the LOCAL frame, the joints with several non commuting axes must be attached to the universe (see C68_acceleration_refuted) *)
Theorem C68_acceleration_partial (eps : R) (m : Model) (q v a : R -> vec) (w v' a' : vec) (t : R) (j : nat) (d d0 : Data) (rf : RefFrame) :
  Built eps m -> validModel m -> noMimic m -> (forall i, 0 < i < m_njoints m -> fixedAxes (jm_type (joint m i))) ->
  (forall s, validState m (q s)) -> moves m q w t -> accelerates m v v' t -> accelerates m a a' t -> 0 < j < m_njoints m ->
  rf = LOCAL \/ commutingAxes m (q t) ->
  exists D, getJointAccelerationDerivatives m (computeForwardKinematicsDerivatives m d (q t) (v t) (a t)) j rf zeroAD = Ok tt D /\
    deriv6 (fun s => jointAccelerationAt (trans (worldPl m (q t) j)) (forwardKinematics2 m d0 (q s) (v s) (a s)) j rf)
      (v6add (v6add (colsMul (m_nv m) (ad_aq D) w) (colsMul (m_nv m) (ad_av D) v')) (colsMul (m_nv m) (ad_aa D) a')) t /\
    deriv6 (fun s => jointVelocityAt (trans (worldPl m (q t) j)) (forwardKinematics1 m d0 (q s) (v s)) j rf) (v6add (colsMul (m_nv m) (ad_vq D) w) (colsMul (m_nv m) (ad_aa D) v')) t.
Proof. exact (fun B V N F Hq Hm Hv Ha Hj => acceleration_derivative eps m B V N F q v a w v' a' t Hq Hm Hv Ha j Hj d d0 rf). Qed.
Example C68_commuting_ex (s : R) (u u' : vec) : Built 1 exR /\ validModel exR /\ noMimic exR /\ noRigidJoint exR /\ (forall i, 0 < i < m_njoints exR -> fixedAxes (jm_type (joint exR i))) /\
  (forall x, validState exR (exRQ x)) /\ moves exR exRQ exRV s /\ accelerates exR (fun x k => x * u k)%R u s /\ accelerates exR (fun x k => x * u' k)%R u' s /\ commutingAxes exR (exRQ s) /\ m_njoints exR = 4 /\ m_nv exR = 3.
Proof. exact (conj (exR_built _) (conj exR_valid (conj exR_noMimic (conj exR_norigid (conj exR_fixed (conj exR_validState (conj (exR_moves s) (conj (linear_accelerates _ u s) (conj (linear_accelerates _ u' s) (conj (exR_commute s) (conj eq_refl eq_refl))))))))))). Qed.
Print Assumptions C68_acceleration_partial.

(** models whose joints below the first level have one degree of freedom have commuting axes *)
Theorem C68_one_dof (eps : R) (m : Model) (q : vec) : Built eps m -> validModel m -> noMimic m ->
  (forall i, 0 < i < m_njoints m -> 0 < parent m i -> nvOf m i = 1) -> validState m q -> commutingAxes m q.
Proof. exact (fun B V N => one_dof_commute eps m B V N q). Qed.
(* hypotheses met: C68_commuting_ex *)
Print Assumptions C68_one_dof.

Theorem C68_acceleration_aligned_partial (eps : R) (m : Model) (q v a : R -> vec) (w v' a' : vec) (t : R) (j : nat) (d d0 : Data) :
  Built eps m -> validModel m -> noMimic m -> (forall i, 0 < i < m_njoints m -> fixedAxes (jm_type (joint m i))) ->
  (forall s, validState m (q s)) -> moves m q w t -> accelerates m v v' t -> accelerates m a a' t -> 0 < j < m_njoints m -> commutingAxes m (q t) ->
  exists D, getJointAccelerationDerivatives m (computeForwardKinematicsDerivatives m d (q t) (v t) (a t)) j LOCAL_WORLD_ALIGNED zeroAD = Ok tt D /\
    deriv6 (fun s => getAcceleration (forwardKinematics2 m d0 (q s) (v s) (a s)) j LOCAL_WORLD_ALIGNED)
      (v6add (v6add (v6add (colsMul (m_nv m) (ad_aq D) w) (colsMul (m_nv m) (ad_av D) v')) (colsMul (m_nv m) (ad_aa D) a'))
        (mkV6 (v3cross (ang (getAcceleration (forwardKinematics2 m d0 (q t) (v t) (a t)) j WORLD)) (lin (getVelocity (forwardKinematics1 m d0 (q t) w) j LOCAL_WORLD_ALIGNED))) v3zero)) t.
Proof. exact (fun B V N F Hq Hm Hv Ha Hj => acceleration_aligned eps m B V N F q v a w v' a' t Hq Hm Hv Ha j Hj d d0). Qed.
(* hypotheses met: C68_commuting_ex *)
Print Assumptions C68_acceleration_aligned_partial.

(** with a free flyer below a revolute joint, the matrices returned in the WORLD frame are not the derivatives of the acceleration *)
Theorem C68_acceleration_refuted : exists (m : Model) (q v a : R -> vec) (w v' a' : vec) (t : R) (j : nat),
  Built (1/1000) m /\ validModel m /\ noMimic m /\ (forall i, 0 < i < m_njoints m -> fixedAxes (jm_type (joint m i))) /\ (forall s, validState m (q s)) /\
  moves m q w t /\ accelerates m v v' t /\ accelerates m a a' t /\ 0 < j < m_njoints m /\
  forall d d0, ~ exists D, getJointAccelerationDerivatives m (computeForwardKinematicsDerivatives m d (q t) (v t) (a t)) j WORLD zeroAD = Ok tt D /\
    deriv6 (fun s => getAcceleration (forwardKinematics2 m d0 (q s) (v s) (a s)) j WORLD)
      (v6add (v6add (colsMul (m_nv m) (ad_aq D) w) (colsMul (m_nv m) (ad_av D) v')) (colsMul (m_nv m) (ad_aa D) a')) t.
Proof. exact acceleration_bug. Qed.
Print Assumptions C68_acceleration_refuted.

(** the columns of the joints that do not carry j keep the values given by the caller *)
Theorem C68_kept (eps : R) (m : Model) (q v a : vec) (d : Data) (j : nat) (rf : RefFrame) (Vq Vv : Jac) (A : AccDer) :
  Built eps m -> validModel m -> noMimic m -> validState m q -> 0 < j < m_njoints m ->
  (exists Dq Dv, getJointVelocityDerivatives m (computeForwardKinematicsDerivatives m d q v a) j rf Vq Vv = Ok tt (Dq, Dv) /\
    forall i k, 0 < i < m_njoints m -> ~ onPath m i j -> columnOf m i k -> Dq k = Vq k /\ Dv k = Vv k) /\
  (exists D, getJointAccelerationDerivatives m (computeForwardKinematicsDerivatives m d q v a) j rf A = Ok tt D /\
    forall i k, 0 < i < m_njoints m -> ~ onPath m i j -> columnOf m i k -> ad_vq D k = ad_vq A k /\ ad_aq D k = ad_aq A k /\ ad_av D k = ad_av A k /\ ad_aa D k = ad_aa A k).
Proof. exact (fun B V N Hq Hj => conj (jvd_kept eps m B V N q v a d j rf Vq Vv Hq Hj) (jad_kept eps m B V N q v a d j rf A Hq Hj)). Qed.
(* hypotheses met: C68_ex *)
Print Assumptions C68_kept.

(** outside of the LOCAL frame, the columns of the joints that carry j do not depend on the matrices given by the caller *)
Theorem C68_fresh (eps : R) (m : Model) (q v a : vec) (d : Data) (j : nat) (rf : RefFrame) (Vq Vv Dq Dv Dq0 Dv0 : Jac) (A D D0 : AccDer) :
  Built eps m -> validModel m -> noMimic m -> validState m q -> 0 < j < m_njoints m -> rf <> LOCAL ->
  let d := computeForwardKinematicsDerivatives m d q v a in
  getJointVelocityDerivatives m d j rf Vq Vv = Ok tt (Dq, Dv) -> getJointVelocityDerivatives m d j rf zeroJ zeroJ = Ok tt (Dq0, Dv0) ->
  getJointAccelerationDerivatives m d j rf A = Ok tt D -> getJointAccelerationDerivatives m d j rf zeroAD = Ok tt D0 ->
  forall i k, 0 < i -> onPath m i j -> columnOf m i k ->
  (Dq k = Dq0 k /\ Dv k = Dv0 k) /\ (ad_vq D k = ad_vq D0 k /\ ad_aq D k = ad_aq D0 k /\ ad_av D k = ad_av D0 k /\ ad_aa D k = ad_aa D0 k).
Proof. exact (fun B V N Hq Hj NL E1 E2 E3 E4 i k Hi P C => conj (jvd_fresh eps m B V N q v a d j rf Vq Vv Dq Dv Dq0 Dv0 Hq Hj NL E1 E2 i k Hi P C) (jad_fresh eps m B V N q v a d j rf A D D0 Hq Hj NL E3 E4 i k Hi P C)). Qed.
(* hypotheses met: C68_ex; the calls succeed by C68_kept *)
Print Assumptions C68_fresh.

(** a joint index out of range is rejected; the overload with five matrices also returns v_partial_dv = a_partial_da *)
Theorem C68_range (m : Model) (d : Data) (j : nat) (rf : RefFrame) (Vq Vv : Jac) (A : AccDer) : m_njoints m <= j ->
  getJointVelocityDerivatives m d j rf Vq Vv = Throw tt /\ getJointAccelerationDerivatives m d j rf A = Throw tt /\ getJointAccelerationDerivatives5 m d j rf A = Throw tt.
Proof. exact (joints_throw m d j rf Vq Vv A). Qed.
Print Assumptions C68_range.
Theorem C68_five (m : Model) (d : Data) (j : nat) (rf : RefFrame) (A D : AccDer) :
  getJointAccelerationDerivatives m d j rf A = Ok tt D -> getJointAccelerationDerivatives5 m d j rf A = Ok tt (D, ad_aa D).
Proof. exact (joints_five m d j rf A D). Qed.
Print Assumptions C68_five.

(** C69. The velocity of the point placed at M on joint j varies with v_point_partial_dq w + v_point_partial_dv v', in the LOCAL and LOCAL_WORLD_ALIGNED frames *)
Theorem C69_velocity_partial (eps : R) (m : Model) (q v : R -> vec) (w v' a0 : vec) (t : R) (j : nat) (M : SE3) (d d0 : Data) (rf : RefFrame) :
  Built eps m -> validModel m -> noMimic m -> (forall i, 0 < i < m_njoints m -> fixedAxes (jm_type (joint m i))) ->
  (forall s, validState m (q s)) -> moves m q w t -> accelerates m v v' t -> 0 < j < m_njoints m -> isRotation (rot M) -> rf <> WORLD ->
  exists Dq Dv, getPointVelocityDerivatives m (computeForwardKinematicsDerivatives m d (q t) (v t) a0) j M rf zeroJ3 zeroJ3 = Ok tt (Dq, Dv) /\
    deriv3 (fun s => lin (getFrameVelocity (forwardKinematics1 m d0 (q s) (v s)) j M rf)) (v3add (colsMul3 (m_nv m) Dq w) (colsMul3 (m_nv m) Dv v')) t.
Proof. exact (fun B V N F Hq Hm Hv Hj HM => point_velocity_derivative eps m B V N F q v w v' t Hq Hm Hv j Hj M HM d d0 rf a0). Qed.
(* hypotheses met: C68_ex, with M = exM *)
Example C69_ex : isRotation (rot exM) /\ LOCAL <> WORLD /\ LOCAL_WORLD_ALIGNED <> WORLD.
Proof. exact (conj exM_rot local_frames). Qed.
Print Assumptions C69_velocity_partial.

(** its classical acceleration varies with a_point_partial_dq w + a_point_partial_dv v' + a_point_partial_da a' *)
Theorem C69_acceleration_partial (eps : R) (m : Model) (q v a : R -> vec) (w v' a' : vec) (t : R) (j : nat) (M : SE3) (d d0 : Data) (rf : RefFrame) :
  Built eps m -> validModel m -> noMimic m -> (forall i, 0 < i < m_njoints m -> fixedAxes (jm_type (joint m i))) ->
  (forall s, validState m (q s)) -> moves m q w t -> accelerates m v v' t -> accelerates m a a' t -> 0 < j < m_njoints m -> isRotation (rot M) -> rf <> WORLD ->
  exists D, getPointClassicAccelerationDerivatives m (computeForwardKinematicsDerivatives m d (q t) (v t) (a t)) j M rf zeroPAD = Ok tt D /\
    deriv3 (fun s => lin (getFrameClassicalAcceleration (forwardKinematics2 m d0 (q s) (v s) (a s)) j M rf))
      (v3add (v3add (colsMul3 (m_nv m) (pd_aq D) w) (colsMul3 (m_nv m) (pd_av D) v')) (colsMul3 (m_nv m) (pd_aa D) a')) t /\
    deriv3 (fun s => lin (getFrameVelocity (forwardKinematics1 m d0 (q s) (v s)) j M rf)) (v3add (colsMul3 (m_nv m) (pd_vq D) w) (colsMul3 (m_nv m) (pd_aa D) v')) t.
Proof. exact (fun B V N F Hq Hm Hv Ha Hj HM => point_acceleration_derivative eps m B V N F q v a w v' a' t Hq Hm Hv Ha j Hj M HM d d0 rf). Qed.
(* hypotheses met: C68_ex, C69_ex *)
Print Assumptions C69_acceleration_partial.

Theorem C69_kept (eps : R) (m : Model) (q v a : vec) (d : Data) (j : nat) (M : SE3) (rf : RefFrame) (Vq Vv : Jac3) (A : PAccDer) :
  Built eps m -> validModel m -> noMimic m -> validState m q -> 0 < j < m_njoints m -> isRotation (rot M) -> rf <> WORLD ->
  (exists Dq Dv, getPointVelocityDerivatives m (computeForwardKinematicsDerivatives m d q v a) j M rf Vq Vv = Ok tt (Dq, Dv) /\
    forall i k, 0 < i < m_njoints m -> ~ onPath m i j -> columnOf m i k -> Dq k = Vq k /\ Dv k = Vv k) /\
  (exists D, getPointClassicAccelerationDerivatives m (computeForwardKinematicsDerivatives m d q v a) j M rf A = Ok tt D /\
    forall i k, 0 < i < m_njoints m -> ~ onPath m i j -> columnOf m i k -> pd_vq D k = pd_vq A k /\ pd_aq D k = pd_aq A k /\ pd_av D k = pd_av A k /\ pd_aa D k = pd_aa A k).
Proof. exact (fun B V N Hq Hj HM NW => conj (pvd_kept eps m B V N q v a d j M rf Vq Vv Hq Hj HM NW) (pad_kept eps m B V N q v a d j M rf A Hq Hj HM NW)). Qed.
(* hypotheses met: C68_ex, C69_ex *)
Print Assumptions C69_kept.

(** the columns of the joints that carry j do not depend on the matrices given by the caller *)
Theorem C69_fresh (eps : R) (m : Model) (q v a : vec) (d : Data) (j : nat) (M : SE3) (rf : RefFrame) (Vq Vv Dq Dv Dq0 Dv0 : Jac3) (A D D0 : PAccDer) :
  Built eps m -> validModel m -> noMimic m -> validState m q -> 0 < j < m_njoints m -> isRotation (rot M) -> rf <> WORLD ->
  let d := computeForwardKinematicsDerivatives m d q v a in
  getPointVelocityDerivatives m d j M rf Vq Vv = Ok tt (Dq, Dv) -> getPointVelocityDerivatives m d j M rf zeroJ3 zeroJ3 = Ok tt (Dq0, Dv0) ->
  getPointClassicAccelerationDerivatives m d j M rf A = Ok tt D -> getPointClassicAccelerationDerivatives m d j M rf zeroPAD = Ok tt D0 ->
  forall i k, 0 < i -> onPath m i j -> columnOf m i k ->
  (Dq k = Dq0 k /\ Dv k = Dv0 k) /\ (pd_vq D k = pd_vq D0 k /\ pd_aq D k = pd_aq D0 k /\ pd_av D k = pd_av D0 k /\ pd_aa D k = pd_aa D0 k).
Proof. exact (fun B V N Hq Hj HM NW E1 E2 E3 E4 i k Hi P C => conj (pvd_fresh eps m B V N q v a d j M rf Vq Vv Dq Dv Dq0 Dv0 Hq Hj HM NW E1 E2 i k Hi P C) (pad_fresh eps m B V N q v a d j M rf A D D0 Hq Hj HM NW E3 E4 i k Hi P C)). Qed.
(* hypotheses met: C68_ex, C69_ex; the calls succeed by C69_kept *)
Print Assumptions C69_fresh.

(** the calls are rejected exactly when the joint is out of range or the frame is WORLD *)
Theorem C69_rejected (m : Model) (d : Data) (j : nat) (M : SE3) (rf : RefFrame) (Vq Vv : Jac3) (A : PAccDer) : (m_njoints m <= j \/ rf = WORLD) <->
  getPointVelocityDerivatives m d j M rf Vq Vv = Throw tt /\ getPointClassicAccelerationDerivatives m d j M rf A = Throw tt /\ getPointClassicAccelerationDerivatives5 m d j M rf A = Throw tt.
Proof. exact (points_throw m d j M rf Vq Vv A). Qed.
Print Assumptions C69_rejected.
Theorem C69_five (m : Model) (d : Data) (j : nat) (M : SE3) (rf : RefFrame) (A D : PAccDer) :
  getPointClassicAccelerationDerivatives m d j M rf A = Ok tt D -> getPointClassicAccelerationDerivatives5 m d j M rf A = Ok tt (D, pd_aa D).
Proof. exact (points_five m d j M rf A D). Qed.
Print Assumptions C69_five.

(** C70. The same for the frame placed at M on joint j *)
Theorem C70_velocity_partial (eps : R) (m : Model) (q v : R -> vec) (w v' a0 : vec) (t : R) (j : nat) (M : SE3) (d d0 : Data) (rf : RefFrame) :
  Built eps m -> validModel m -> noMimic m -> noRigidJoint m -> (forall i, 0 < i < m_njoints m -> fixedAxes (jm_type (joint m i))) ->
  (forall s, validState m (q s)) -> moves m q w t -> accelerates m v v' t -> 0 < j < m_njoints m -> isRotation (rot M) ->
  exists Dq Dv, getFrameVelocityDerivatives m (computeForwardKinematicsDerivatives m d (q t) (v t) a0) j M rf zeroJ zeroJ = Ok tt (Dq, Dv) /\
    deriv6 (fun s => frameVelocityAt (trans (se3_mul (worldPl m (q t) j) M)) (forwardKinematics1 m d0 (q s) (v s)) j M rf) (v6add (colsMul (m_nv m) Dq w) (colsMul (m_nv m) Dv v')) t.
Proof. exact (fun B V N P F Hq Hm Hv Hj HM => frame_velocity_derivative eps m B V N P F q v w v' t Hq Hm Hv j Hj M HM d d0 rf a0). Qed.
(* hypotheses met: C68_ex, C69_ex *)
Print Assumptions C70_velocity_partial.
Theorem C70_acceleration_partial (eps : R) (m : Model) (q v a : R -> vec) (w v' a' : vec) (t : R) (j : nat) (M : SE3) (d d0 : Data) (rf : RefFrame) :
  Built eps m -> validModel m -> noMimic m -> noRigidJoint m -> (forall i, 0 < i < m_njoints m -> fixedAxes (jm_type (joint m i))) ->
  (forall s, validState m (q s)) -> moves m q w t -> accelerates m v v' t -> accelerates m a a' t -> 0 < j < m_njoints m -> isRotation (rot M) ->
  rf = LOCAL \/ commutingAxes m (q t) ->
  exists D, getFrameAccelerationDerivatives m (computeForwardKinematicsDerivatives m d (q t) (v t) (a t)) j M rf zeroAD = Ok tt D /\
    deriv6 (fun s => frameAccelerationAt (trans (se3_mul (worldPl m (q t) j) M)) (forwardKinematics2 m d0 (q s) (v s) (a s)) j M rf)
      (v6add (v6add (colsMul (m_nv m) (ad_aq D) w) (colsMul (m_nv m) (ad_av D) v')) (colsMul (m_nv m) (ad_aa D) a')) t /\
    deriv6 (fun s => frameVelocityAt (trans (se3_mul (worldPl m (q t) j) M)) (forwardKinematics1 m d0 (q s) (v s)) j M rf) (v6add (colsMul (m_nv m) (ad_vq D) w) (colsMul (m_nv m) (ad_aa D) v')) t.
Proof. exact (fun B V N P F Hq Hm Hv Ha Hj HM => frame_acceleration_derivative eps m B V N P F q v a w v' a' t Hq Hm Hv Ha j Hj M HM d d0 rf). Qed.
(* hypotheses met: C68_ex, C68_commuting_ex, C69_ex *)
Print Assumptions C70_acceleration_partial.
Theorem C70_kept (eps : R) (m : Model) (q v a : vec) (d : Data) (j : nat) (M : SE3) (rf : RefFrame) (Vq Vv : Jac) (A : AccDer) :
  Built eps m -> validModel m -> noMimic m -> noRigidJoint m -> validState m q -> 0 < j < m_njoints m ->
  (exists Dq Dv, getFrameVelocityDerivatives m (computeForwardKinematicsDerivatives m d q v a) j M rf Vq Vv = Ok tt (Dq, Dv) /\
    forall i k, 0 < i < m_njoints m -> ~ onPath m i j -> columnOf m i k -> Dq k = Vq k /\ Dv k = Vv k) /\
  (exists D, getFrameAccelerationDerivatives m (computeForwardKinematicsDerivatives m d q v a) j M rf A = Ok tt D /\
    forall i k, 0 < i < m_njoints m -> ~ onPath m i j -> columnOf m i k -> ad_vq D k = ad_vq A k /\ ad_aq D k = ad_aq A k /\ ad_av D k = ad_av A k /\ ad_aa D k = ad_aa A k).
Proof. exact (fun B V N P Hq Hj => conj (fvd_kept eps m B V N P q v a d j M rf Vq Vv Hq Hj) (fad_kept eps m B V N P q v a d j M rf A Hq Hj)). Qed.
(* hypotheses met: C68_ex *)
Print Assumptions C70_kept.
