(** Property theorems C81 (Jacobian of the centre of mass of a subtree). Statements only. *)
From Coq Require Import Reals List Arith.
From Verif Require Import Vec3 Spatial Inertia Joints Spec_Joints Deriv Model Spec_Model ModelFacts ModelTree ModelFacts2 ModelFacts3 Data Kinematics Spec_Kin KinFacts3 Spec_Mass Sums Spec_Dyn KinFacts2 TreeSums Crba CrbaFacts2 CrbaFacts3 CrbaFacts4 Spec_Jac Spec_Com Com ComFacts2 ComFacts6 CoriolisFacts SubCom SubComFacts3 SubComFacts4 SubComFacts5.
Import ListNotations.
Local Open Scope nat_scope.

(** on a matrix of zeros jacobianSubtreeCenterOfMass writes the Jacobian of the centre of mass of the subtree, in the world frame *)
Theorem C81_jacobian (eps : R) (m : Model) (d : Data) (q : R -> vec) (v : vec) (t : R) (r : nat) :
  Built eps m -> validModel m -> noMimic m -> (forall s, validState m (q s)) -> moves m q v t -> r < m_njoints m -> (0 < subtreeMass m r)%R ->
  exists d' J, jacobianSubtreeCenterOfMass m d (q t) r (fun _ => v3zero) = Ok (d', J) tt /\
  deriv3 (fun s => subtreeCom m (q s) r) (cols3Mul (m_nv m) J v) t.
Proof. exact (fun B V N => subcom_jac m (Built_wf _ _ B) (Built_tree _ _ B) V N q v t r d). Qed.
Example C81_ex (s : R) : let m := exD (1/1000) in Built (1/1000) m /\ validModel m /\ noMimic m /\ noRigidJoint m /\ depthFirst m /\ (forall u, validState m (exQ u)) /\ moves m exQ (exV s) s /\
  1 < m_njoints m /\ (0 < subtreeMass m 1)%R /\ (0 < subtreeMass m 2)%R /\ subtreeMass m 0 <> 0%R /\ ~ onPath m 2 3 /\ ~ onPath m 3 2 /\ 0 < nvOf m 3.
Proof. exact (exSub s). Qed.
Print Assumptions C81_jacobian.

(** the mass and, for a subtree other than the whole model, the centre of mass are left in data *)
Theorem C81_data (eps : R) (m : Model) (d : Data) (q : vec) (r : nat) (res : Mat3) :
  Built eps m -> validModel m -> noMimic m -> validState m q -> r < m_njoints m -> (0 < subtreeMass m r)%R ->
  exists d' J, jacobianSubtreeCenterOfMass m d q r res = Ok (d', J) tt /\ sc (rows d' r) F_mass = subtreeMass m r /\
    (0 < r -> p3 (rows d' r) F_com = subtreeCom m q r) /\ (r = 0 -> p3 (rows d' r) F_com = v3scale (subtreeMass m 0) (subtreeCom m q 0)).
Proof. exact (fun B V N => subcom_data m (Built_wf _ _ B) (Built_tree _ _ B) V N q r d res). Qed.
(* hypotheses met: C81_ex *)
Print Assumptions C81_data.

(** an index that is not one of a joint, or a subtree without positive mass, is refused *)
Theorem C81_refuses (eps : R) (m : Model) (d : Data) (q : vec) (r : nat) (res : Mat3) :
  Built eps m -> validModel m -> noMimic m -> validState m q -> m_njoints m <= r \/ (r < m_njoints m /\ (subtreeMass m r <= 0)%R) ->
  exists s, jacobianSubtreeCenterOfMass m d q r res = Throw s.
Proof. exact (fun B V N => subcom_throw m (Built_wf _ _ B) (Built_tree _ _ B) V N q r d res). Qed.
(* hypotheses met: C81_ex, with r = 7 *)
Print Assumptions C81_refuses.

(** the documentation asks for a matrix of zeros, and this is needed: every column of the result depends on its former content *)
Theorem C81_zeros_needed (eps : R) (m : Model) (d : Data) (q : vec) (r k : nat) :
  Built eps m -> validModel m -> noMimic m -> validState m q -> r < m_njoints m -> (0 < subtreeMass m r)%R -> k < m_nv m ->
  exists res res' s s', jacobianSubtreeCenterOfMass m d q r res = Ok s tt /\ jacobianSubtreeCenterOfMass m d q r res' = Ok s' tt /\ snd s k <> snd s' k.
Proof. exact (fun B V N => subcom_uses m (Built_wf _ _ B) (Built_tree _ _ B) V N q r d k). Qed.
(* hypotheses met: C81_ex *)
Print Assumptions C81_zeros_needed.

(** "the algorithm also computes the Jacobian of all the joints": not for a joint that is neither in the subtree nor above it,
    whose columns of data.J keep any value x left by an earlier call *)
Theorem C81_joint_jacobians_refuted (eps : R) (m : Model) (d : Data) (q : vec) (r : nat) (res : Mat3) (j c : nat) (x : V6) :
  Built eps m -> validModel m -> noMimic m -> validState m q -> r < m_njoints m -> (0 < subtreeMass m r)%R ->
  0 < j < m_njoints m -> c < nvOf m j -> ~ onPath m r j -> ~ onPath m j r ->
  exists d0 d' J, rows d0 = rows d /\ jacobianSubtreeCenterOfMass m d0 q r res = Ok (d', J) tt /\ co (gl d') F_J (idx_v m j + c) = x.
Proof. exact (fun B V N Hq Hr HM Hj Hc A1 A2 => subcom_stale m (Built_wf _ _ B) (Built_tree _ _ B) V N q r res j c x Hq Hr HM Hj Hc A1 A2 d). Qed.
(* hypotheses met: C81_ex, with r = 2 and j = 3 *)
Print Assumptions C81_joint_jacobians_refuted.

(** getJacobianSubtreeCenterOfMass, after jacobianCenterOfMass(q, true) and on a matrix of zeros, is the same Jacobian *)
Theorem C81_get (eps : R) (m : Model) (d : Data) (q : R -> vec) (v : vec) (t : R) (r : nat) :
  Built eps m -> validModel m -> noMimic m -> noRigidJoint m -> depthFirst m -> (forall s, validState m (q s)) -> moves m q v t ->
  r < m_njoints m -> subtreeMass m 0 <> 0%R -> (0 < subtreeMass m r)%R ->
  exists J, getJacobianSubtreeCenterOfMass m (jacobianCenterOfMass m d (q t) true) r (fun _ => v3zero) = Ok tt J /\
  deriv3 (fun s => subtreeCom m (q s) r) (cols3Mul (m_nv m) J v) t.
Proof. exact (fun B V N P D => get_jac eps m B V N P D q v t r d). Qed.
(* hypotheses met: C81_ex *)
Print Assumptions C81_get.

(** but a call of jacobianSubtreeCenterOfMass in between erases what it reads: the Jacobian retrieved for the whole model is then zero *)
Theorem C81_erases (eps : R) (m : Model) (d d' : Data) (q : vec) (r : nat) (res J res' : Mat3) :
  Built eps m -> validModel m -> noMimic m -> validState m q -> r < m_njoints m -> jacobianSubtreeCenterOfMass m d q r res = Ok (d', J) tt ->
  exists K, getJacobianSubtreeCenterOfMass m d' 0 res' = Ok tt K /\ forall k, K k = v3zero.
Proof. exact (fun B V N Hq Hr E => subcom_erases m (Built_wf _ _ B) (Built_tree _ _ B) V N q r d res d' J Hq Hr E res'). Qed.
(* hypotheses met: C81_ex with C81_jacobian *)
Print Assumptions C81_erases.
