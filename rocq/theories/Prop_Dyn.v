(** Property theorems C32 and C33 (inverse dynamics). Statements only. *)
From Coq Require Import Reals List Arith.
From Verif Require Import Vec3 Spatial Inertia Joints Spec_Joints Deriv Model Spec_Model ModelFacts ModelTree ModelFacts2 ModelFacts3 Sums Data Kinematics Spec_Kin KinFacts KinFacts2 KinFacts3 Rnea Spec_Dyn DynFacts DynFacts2.
Import ListNotations.
Local Open Scope nat_scope.

(** principle of virtual power: rnea returns the torque whose power, for every virtual joint velocity w, is that of the
    inertial wrenches minus the weights, plus the rotor inertias. [d] is what the data contained before the call. *)
Theorem C32_virtual_power (eps : R) (m : Model) (d : Data) (q v a w : vec) : Built eps m -> validModel m -> validState m q ->
  dotv (m_nv m) (rnea m d q v a) w =
  (bodies m (fun i => v6dot (bodyVel m q w i)
     (v6add (inertia_mul (inertiaOf m i) (v6sub (bodyAcc m q v a i) (motion_actInv (worldPl m q i) (m_gravity m))))
            (force_cross (bodyVel m q v i) (inertia_mul (inertiaOf m i) (bodyVel m q v i)))))
   + armaturePower m a w)%R.
Proof. exact (fun B Vm => rnea_power m (Built_wf eps m B) (Built_tree eps m B) Vm d q v a w). Qed.
Example C32_virtual_power_ex (eps t : R) : Built eps (exTree eps) /\ validModel (exTree eps) /\ (forall s, validState (exTree eps) (exQ s)) /\
  (forall s, moves (exTree eps) exQ (exV s) s) /\ accelerates (exTree eps) exV exA t /\ 0 < 4 < m_njoints (exTree eps).
Proof. exact (exKin eps t). Qed.
Print Assumptions C32_virtual_power.
(** external wrenches, given in the frame of each body, deliver their power too *)
Theorem C32_external_forces (eps : R) (m : Model) (d : Data) (q v a : vec) (fext : nat -> Force) (w : vec) : Built eps m -> validModel m -> validState m q ->
  dotv (m_nv m) (rneaExt m d q v a fext) w =
  (bodies m (fun i => v6dot (bodyVel m q w i) (v6sub (bodyForce m q v a i) (fext i))) + armaturePower m a w)%R.
Proof. exact (fun B Vm => rneaExt_power m (Built_wf eps m B) (Built_tree eps m B) Vm d q v a fext w). Qed.
(* hypotheses met: C32_virtual_power_ex *)
Print Assumptions C32_external_forces.
(** Newton-Euler: along every trajectory the torque balances, in power, the rate of change of the momenta of all bodies
    (P, the time derivative of worldMomentum) minus weights and external wrenches, everything expressed in the world *)
Theorem C32_newton_euler (eps : R) (m : Model) (q v : R -> vec) (a : vec) (t : R) :
  Built eps m -> validModel m -> (forall s, validState m (q s)) -> moves m q (v t) t -> accelerates m v a t ->
  exists P, (forall i, 0 < i < m_njoints m -> deriv6 (fun s => worldMomentum m (q s) (v s) i) (P i) t) /\
  forall (d : Data) (fext : nat -> Force) (w : vec), dotv (m_nv m) (rneaExt m d (q t) (v t) a fext) w =
  (bodies m (fun i => v6dot (motion_act (worldPl m (q t) i) (bodyVel m (q t) w i))
      (v6sub (v6sub (P i) (worldWeight m (q t) i)) (force_act (worldPl m (q t) i) (fext i)))) + armaturePower m a w)%R.
Proof. exact (fun B Vm => newton_euler_ex m (Built_wf eps m B) (Built_tree eps m B) Vm (inRange m (Built_wf eps m B) Vm) q v a t). Qed.
(* hypotheses met: C32_virtual_power_ex *)
Print Assumptions C32_newton_euler.

(** rnea = M(q) a + nonLinearEffects, M the matrix of the kinetic-energy form plus the rotor inertias *)
Theorem C33_affine (eps : R) (m : Model) (d d' : Data) (q v a : vec) (k : nat) : Built eps m -> validModel m -> validState m q -> k < m_nv m ->
  rnea m d q v a k = (sumN (m_nv m) (fun l => massMatrix m q k l * a l) + nonLinearEffects m d' q v k)%R.
Proof. exact (fun B Vm => rnea_affine m (Built_wf eps m B) (Built_tree eps m B) Vm d d' q v a k). Qed.
Example C33_affine_ex (eps : R) : Built eps (exTree eps) /\ validModel (exTree eps) /\ validState (exTree eps) (exQ 1) /\ 9 < m_nv (exTree eps).
Proof. exact (conj (exTree_built eps) (conj (exTree_valid eps) (conj (exQ_valid eps 1) (le_n 10)))). Qed.
Print Assumptions C33_affine.
(** at rest only gravity is left *)
Theorem C33_gravity (eps : R) (m : Model) (d d' : Data) (q : vec) (k : nat) : Built eps m -> validModel m -> validState m q -> k < m_nv m ->
  nonLinearEffects m d q (fun _ => 0%R) k = computeGeneralizedGravity m d' q k.
Proof. exact (fun B Vm => nle_rest m (Built_wf eps m B) (Built_tree eps m B) Vm d d' q k). Qed.
(* hypotheses met: C33_affine_ex *)
Print Assumptions C33_gravity.
(** generalized gravity opposes the power of the weights *)
Theorem C33_gravity_power (eps : R) (m : Model) (d : Data) (q w : vec) : Built eps m -> validModel m -> validState m q ->
  dotv (m_nv m) (computeGeneralizedGravity m d q) w =
  bodies m (fun i => v6dot (bodyVel m q w i) (inertia_mul (inertiaOf m i) (v6opp (motion_actInv (worldPl m q i) (m_gravity m))))).
Proof. exact (fun B Vm => gravity_power m (Built_wf eps m B) (Built_tree eps m B) Vm d q w). Qed.
(* hypotheses met: C33_affine_ex *)
Print Assumptions C33_gravity_power.
(** external forces enter as -J^T fext: component k loses the power of fext for the unit velocity along dof k *)
Theorem C33_external_forces (eps : R) (m : Model) (d d' : Data) (q v a : vec) (fext : nat -> Force) (k : nat) :
  Built eps m -> validModel m -> validState m q -> k < m_nv m ->
  rneaExt m d q v a fext k = (rnea m d' q v a k - bodies m (fun i => v6dot (bodyVel m q (unitv k) i) (fext i)))%R /\
  computeStaticTorque m d q fext k = (computeGeneralizedGravity m d' q k - bodies m (fun i => v6dot (bodyVel m q (unitv k) i) (fext i)))%R.
Proof.
  exact (fun B Vm Hq Hk => conj (rneaExt_diff m (Built_wf eps m B) (Built_tree eps m B) Vm d d' q v a fext k Hq Hk)
    (static_diff m (Built_wf eps m B) (Built_tree eps m B) Vm d d' q fext k Hq Hk)).
Qed.
(* hypotheses met: C33_affine_ex *)
Print Assumptions C33_external_forces.
