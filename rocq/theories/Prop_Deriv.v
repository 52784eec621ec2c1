(** Property theorems C64 and C65 (the derivatives of inverse dynamics, of the gravity torques and of the static torques). Statements only. *)
From Coq Require Import Reals List Arith.
From Verif Require Import Vec3 Spatial Inertia Joints Spec_Joints Deriv Model Spec_Model ModelFacts ModelTree Sums Data Kinematics Spec_Kin KinFacts3 Spec_Mass Spec_Dyn Rnea Crba CrbaFacts3 CrbaFacts4 Spec_Jac Spec_Chol CholFacts5 ComFacts6 DccrbaFacts3 DataX RneaDer Spec_Deriv RneaDerFacts6 RneaDerFacts8.
Import ListNotations.
Local Open Scope nat_scope.

(** Along any motion of the configuration with velocity w, and any variation of v and a, the torques returned by rnea vary with
    dtau_dq w + dtau_dv v' + dtau_da a' (the upper triangle of dtau_da is meaningful), for joints whose axes are fixed in the joint frame *)
Theorem C64_differential_partial (eps : R) (m : Model) (s : DX) (d : Data) (q v a : R -> vec) (w v' a' : vec) (t : R) (k : nat) :
  Built eps m -> validModel m -> noMimic m -> depthFirst m -> regularMasses eps m -> (forall i, 0 < i < m_njoints m -> fixedAxes (jm_type (joint m i))) ->
  (forall x, validState m (q x)) -> moves m q w t -> accelerates m v v' t -> accelerates m a a' t ->
  treeSparse m (xma s P_dq) /\ treeSparse m (xma s P_dv) /\ treeSparse m (xma s P_da) -> k < m_nv m ->
  let D := computeRNEADerivatives eps m s (q t) (v t) (a t) in
  deriv (fun x => rnea m d (q x) (v x) (a x) k)
    (dotv (m_nv m) (xma D P_dq k) w + dotv (m_nv m) (xma D P_dv k) v' + dotv (m_nv m) (symUpper (xma D P_da) k) a')%R t.
Proof. exact (fun B V N D R FA => rd_differential eps m B V N D R FA s d q v a w v' a' t k). Qed.
Example C64_ex (s : R) (u : vec) : let m := exD (1/1000) in Built (1/1000) m /\ validModel m /\ noMimic m /\ noRigidJoint m /\ depthFirst m /\ regularMasses (1/1000) m /\
  (forall i, 0 < i < m_njoints m -> fixedAxes (jm_type (joint m i))) /\ (forall t, validState m (exQ t)) /\ moves m exQ (exV s) s /\ accelerates m (fun x k => x * u k)%R u s /\
  (let z := mkDX (newData m) (fun _ _ => v6zero) (fun _ _ _ => 0%R) in treeSparse m (ma (gl (bs z)) F_C) /\ treeSparse m (xma z P_dq) /\ treeSparse m (xma z P_dv) /\ treeSparse m (xma z P_da)) /\ m_nv m = 10.
Proof.
  exact (conj (exD_built _) (conj (exD_valid _) (conj (exD_noMimic _) (conj (exD_norigid _) (conj (exD_df _) (conj exD_regularMasses (conj (exD_fixed _) (conj (exD_validState _) (conj (exD_moves s)
    (conj (linear_accelerates _ u s) (conj (conj (fun _ _ _ _ _ => eq_refl) (conj (fun _ _ _ _ _ => eq_refl) (conj (fun _ _ _ _ _ => eq_refl) (fun _ _ _ _ _ => eq_refl)))) eq_refl))))))))))).
Qed.
Print Assumptions C64_differential_partial.

(** the same with external forces *)
Theorem C64_external_partial (eps : R) (m : Model) (s : DX) (d : Data) (fext : nat -> Force) (q v a : R -> vec) (w v' a' : vec) (t : R) (k : nat) :
  Built eps m -> validModel m -> noMimic m -> depthFirst m -> regularMasses eps m -> (forall i, 0 < i < m_njoints m -> fixedAxes (jm_type (joint m i))) ->
  (forall x, validState m (q x)) -> moves m q w t -> accelerates m v v' t -> accelerates m a a' t ->
  treeSparse m (xma s P_dq) /\ treeSparse m (xma s P_dv) /\ treeSparse m (xma s P_da) -> k < m_nv m ->
  let D := computeRNEADerivativesExtData eps m s (q t) (v t) (a t) fext in
  deriv (fun x => rneaExt m d (q x) (v x) (a x) fext k)
    (dotv (m_nv m) (xma D P_dq k) w + dotv (m_nv m) (xma D P_dv k) v' + dotv (m_nv m) (symUpper (xma D P_da) k) a')%R t.
Proof. exact (fun B V N D R FA => rdExt_differential eps m B V N D R FA s d fext q v a w v' a' t k). Qed.
(* hypotheses met: C64_ex *)
Print Assumptions C64_external_partial.

(** with external forces and the caller's own matrices: the derivatives with respect to the configuration and the velocity *)
Theorem C64_own_matrices_partial (eps : R) (m : Model) (s : DX) (d : Data) (fext : nat -> Force) (q v : R -> vec) (a w v' : vec) (t : R) (k : nat) :
  Built eps m -> validModel m -> noMimic m -> depthFirst m -> regularMasses eps m -> (forall i, 0 < i < m_njoints m -> fixedAxes (jm_type (joint m i))) ->
  (forall x, validState m (q x)) -> moves m q w t -> accelerates m v v' t -> treeSparse m (xma s P_dq) -> treeSparse m (xma s P_dv) -> k < m_nv m ->
  let D := computeRNEADerivativesExt eps m s (q t) (v t) a fext in
  deriv (fun x => rneaExt m d (q x) (v x) a fext k) (dotv (m_nv m) (xma D P_dq k) w + dotv (m_nv m) (xma D P_dv k) v')%R t.
Proof. exact (fun B V N D R FA => rdOwn_differential eps m B V N D R FA s d fext q v a w v' t k). Qed.
(* hypotheses met: C64_ex *)
Print Assumptions C64_own_matrices_partial.

(** the derivative with respect to the acceleration is the mass matrix, rotor inertias included, for every joint *)
Theorem C64_mass (eps : R) (m : Model) (s : DX) (q v a : vec) (k l : nat) :
  Built eps m -> validModel m -> noMimic m -> depthFirst m -> regularMasses eps m -> validState m q -> treeSparse m (xma s P_da) -> k <= l < m_nv m ->
  xma (computeRNEADerivatives eps m s q v a) P_da k l = massMatrix m q k l.
Proof. exact (fun B V N D R => rd_mass eps m B V N D R q v a s k l). Qed.
(* hypotheses met: C64_ex *)
Print Assumptions C64_mass.

(** but the overload with external forces and the caller's own matrix leaves the rotor inertias out of it *)
Theorem C64_armature_refuted : exists m q k, Built (1/1000) m /\ validModel m /\ noMimic m /\ depthFirst m /\ regularMasses (1/1000) m /\ validState m q /\ k < m_nv m /\
  forall s v a fext, treeSparse m (xma s P_da) -> xma (computeRNEADerivativesExt (1/1000) m s q v a fext) P_da k k <> massMatrix m q k k.
Proof. exact rdExt_armature_refuted. Qed.
Print Assumptions C64_armature_refuted.

(** for a joint whose axes move (here one spherical ZYX joint) dtau_dq is not the derivative *)
Theorem C64_moving_axes_refuted : exists m (q : R -> vec) v a w t k, Built (1/1000) m /\ validModel m /\ noMimic m /\ depthFirst m /\ regularMasses (1/1000) m /\ (forall x, validState m (q x)) /\ moves m q w t /\ k < m_nv m /\
  forall s d, treeSparse m (xma s P_dq) /\ treeSparse m (xma s P_dv) /\ treeSparse m (xma s P_da) ->
  ~ deriv (fun x => rnea m d (q x) v a k) (dotv (m_nv m) (xma (computeRNEADerivatives (1/1000) m s (q t) v a) P_dq k) w) t.
Proof. exact rd_zyx_refuted. Qed.
Print Assumptions C64_moving_axes_refuted.

(** the torques left in data.tau are those of rnea, for every joint *)
Theorem C64_tau (eps : R) (m : Model) (s : DX) (d : Data) (q v a : vec) (k : nat) :
  Built eps m -> validModel m -> noMimic m -> depthFirst m -> regularMasses eps m -> validState m q -> k < m_nv m ->
  ve (gl (bs (computeRNEADerivatives eps m s q v a))) F_tau k = rnea m d q v a k.
Proof. exact (fun B V N D R => rd_tau eps m B V N D R q v a s d k). Qed.
(* hypotheses met: C64_ex *)
Print Assumptions C64_tau.
Theorem C64_tau_external (eps : R) (m : Model) (s : DX) (d : Data) (fext : nat -> Force) (q v a : vec) (k : nat) :
  Built eps m -> validModel m -> noMimic m -> depthFirst m -> regularMasses eps m -> validState m q -> k < m_nv m ->
  ve (gl (bs (computeRNEADerivativesExt eps m s q v a fext))) F_tau k = rneaExt m d q v a fext k.
Proof. exact (fun B V N D R => rdExt_tau eps m B V N D R q v a fext s d k). Qed.
(* hypotheses met: C64_ex *)
Print Assumptions C64_tau_external.

(** the zeros between dofs of different branches, assumed above and true of new Data, remain *)
Theorem C64_sparsity (eps : R) (m : Model) (s : DX) (q v a : vec) :
  Built eps m -> validModel m -> noMimic m -> depthFirst m -> regularMasses eps m -> validState m q ->
  treeSparse m (xma s P_dq) /\ treeSparse m (xma s P_dv) /\ treeSparse m (xma s P_da) ->
  let D := computeRNEADerivatives eps m s q v a in treeSparse m (xma D P_dq) /\ treeSparse m (xma D P_dv) /\ treeSparse m (xma D P_da).
Proof. exact (fun B V N D R => rd_sparse eps m B V N D R q v a s). Qed.
(* hypotheses met: C64_ex *)
Print Assumptions C64_sparsity.

(** Along any motion of the configuration with velocity w the gravity torques vary with the matrix of computeGeneralizedGravityDerivatives times w *)
Theorem C65_gravity_partial (eps : R) (m : Model) (s : DX) (d : Data) (q : R -> vec) (w : vec) (t : R) (k : nat) :
  Built eps m -> validModel m -> noMimic m -> noRigidJoint m -> depthFirst m -> regularMasses eps m -> (forall i, 0 < i < m_njoints m -> fixedAxes (jm_type (joint m i))) ->
  (forall x, validState m (q x)) -> moves m q w t -> treeSparse m (xma s P_dq) -> k < m_nv m ->
  deriv (fun x => computeGeneralizedGravity m d (q x) k) (dotv (m_nv m) (xma (computeGeneralizedGravityDerivatives eps m s (q t)) P_dq k) w) t.
Proof. exact (fun B V N P D R FA => gravity_differential eps m B V N P D R FA s d q w t k). Qed.
(* hypotheses met: C64_ex *)
Print Assumptions C65_gravity_partial.
(** the same for the static torques *)
Theorem C65_static_partial (eps : R) (m : Model) (s : DX) (d : Data) (fext : nat -> Force) (q : R -> vec) (w : vec) (t : R) (k : nat) :
  Built eps m -> validModel m -> noMimic m -> noRigidJoint m -> depthFirst m -> regularMasses eps m -> (forall i, 0 < i < m_njoints m -> fixedAxes (jm_type (joint m i))) ->
  (forall x, validState m (q x)) -> moves m q w t -> treeSparse m (xma s P_dq) -> k < m_nv m ->
  deriv (fun x => computeStaticTorque m d (q x) fext k) (dotv (m_nv m) (xma (computeStaticTorqueDerivatives eps m s (q t) fext) P_dq k) w) t.
Proof. exact (fun B V N P D R FA => static_differential eps m B V N P D R FA s d fext q w t k). Qed.
(* hypotheses met: C64_ex *)
Print Assumptions C65_static_partial.
(** for a joint whose axes move (here one spherical ZYX joint) it is not *)
Theorem C65_moving_axes_refuted : exists m (q : R -> vec) fext w t k, Built (1/1000) m /\ validModel m /\ noMimic m /\ noRigidJoint m /\ depthFirst m /\ regularMasses (1/1000) m /\ (forall x, validState m (q x)) /\ moves m q w t /\ k < m_nv m /\
  forall s d, treeSparse m (xma s P_dq) ->
  ~ deriv (fun x => computeStaticTorque m d (q x) fext k) (dotv (m_nv m) (xma (computeStaticTorqueDerivatives (1/1000) m s (q t) fext) P_dq k) w) t.
Proof. exact static_zyx_refuted. Qed.
Print Assumptions C65_moving_axes_refuted.
(** the torques themselves are in data.g and data.tau, for every joint *)
Theorem C65_values (eps : R) (m : Model) (s : DX) (d : Data) (fext : nat -> Force) (q : vec) (k : nat) :
  Built eps m -> validModel m -> noMimic m -> noRigidJoint m -> depthFirst m -> regularMasses eps m -> validState m q -> k < m_nv m ->
  ve (gl (bs (computeGeneralizedGravityDerivatives eps m s q))) F_g k = computeGeneralizedGravity m d q k /\
  ve (gl (bs (computeStaticTorqueDerivatives eps m s q fext))) F_tau k = computeStaticTorque m d q fext k.
Proof. exact (fun B V N P D R Q K => conj (gravity_value eps m B V N P D R s d q k Q K) (static_value eps m B V N P D R s d fext q k Q K)). Qed.
(* hypotheses met: C64_ex *)
Print Assumptions C65_values.
(** and the zeros remain *)
Theorem C65_sparsity (eps : R) (m : Model) (s : DX) (fext : nat -> Force) (q : vec) :
  Built eps m -> validModel m -> noMimic m -> noRigidJoint m -> depthFirst m -> regularMasses eps m -> validState m q -> treeSparse m (xma s P_dq) ->
  treeSparse m (xma (computeGeneralizedGravityDerivatives eps m s q) P_dq) /\ treeSparse m (xma (computeStaticTorqueDerivatives eps m s q fext) P_dq).
Proof. exact (fun B V N P D R Q S => conj (gravity_sparse eps m B V N P D R s q Q S) (static_sparse eps m B V N P D R s fext q Q S)). Qed.
(* hypotheses met: C64_ex *)
Print Assumptions C65_sparsity.
