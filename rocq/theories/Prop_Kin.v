(** Property theorems C28, C29 and C31 (kinematics). Statements only. *)
From Coq Require Import Reals List Arith.
From Verif Require Import Vec3 Spatial Inertia Spec_Spatial Joints Spec_Joints Deriv Model Spec_Model ModelFacts ModelTree ModelFacts2 ModelFacts3 Data Kinematics Spec_Kin KinFacts KinFacts2 KinFacts3.
Import ListNotations.
Local Open Scope nat_scope.

(** the placement of every joint is the product of (joint placement * joint transform) along its support (worldPl),
    whatever the data contained before the call, at all three orders *)
Theorem C28_placement (eps : R) (m : Model) (d : Data) (q v a : vec) (i : nat) : Built eps m -> 0 < i < m_njoints m ->
  pl (rows (forwardKinematics0 m d q) i) F_oMi = worldPl m q i /\
  pl (rows (forwardKinematics1 m d q v) i) F_oMi = worldPl m q i /\
  pl (rows (forwardKinematics2 m d q v a) i) F_oMi = worldPl m q i.
Proof. exact (fun B => fk_placement eps m B d q v a i). Qed.
Example C28_placement_ex (eps : R) : Built eps (exTree eps) /\ 0 < 4 < m_njoints (exTree eps) /\ support (exTree eps) 4 = [0; 1; 3; 4].
Proof. exact (conj (exTree_built eps) (conj (proj2 (proj2 (proj2 (proj2 (proj2 (exKin eps 0)))))) (proj1 (proj2 (proj2 (proj2 (exTree_shape eps))))))). Qed.
Print Assumptions C28_placement.
(** updateGlobalPlacements recomputes them from the relative placements alone *)
Theorem C28_update (eps : R) (m : Model) (d : Data) (q : vec) : Built eps m ->
  (forall i, 0 < i < m_njoints m -> pl (rows d i) F_liMi = relPl m q i) ->
  forall i, 0 < i < m_njoints m ->
    pl (rows (updateGlobalPlacements m d) i) F_liMi = relPl m q i /\ pl (rows (updateGlobalPlacements m d) i) F_oMi = worldPl m q i.
Proof. exact (fun B => updateGlobal_placed m (Built_wf eps m B) (Built_tree eps m B) d q). Qed.
Example C28_update_ex (eps : R) (d : Data) (q : vec) : Built eps (exTree eps) /\
  forall i, 0 < i < m_njoints (exTree eps) -> pl (rows (forwardKinematics0 (exTree eps) d q) i) F_liMi = relPl (exTree eps) q i.
Proof.
  exact (conj (exTree_built eps) (fun i Hi => proj1 (fk0_placed _ (Built_wf _ _ (exTree_built eps)) (Built_tree _ _ (exTree_built eps)) d q i Hi))).
Qed.
Print Assumptions C28_update.

(** the velocity computed for a joint is the twist of the placement computed for it: along every trajectory q of the
    configuration whose joint velocity at time t is w, d(oMi)/dt = oMi * [velocity] *)
Theorem C29_velocity (eps : R) (m : Model) (d d0 : Data) (q : R -> vec) (w a : vec) (t : R) (i : nat) :
  Built eps m -> validModel m -> validState m (q t) -> moves m q w t -> 0 < i < m_njoints m ->
  hasTwist (fun s => pl (rows (forwardKinematics0 m d0 (q s)) i) F_oMi) (getVelocity (forwardKinematics1 m d (q t) w) i LOCAL) t /\
  hasTwist (fun s => pl (rows (forwardKinematics0 m d0 (q s)) i) F_oMi) (getVelocity (forwardKinematics2 m d (q t) w a) i LOCAL) t.
Proof. exact (fun B => fk_twist eps m B d d0 q w a t i). Qed.
Example C29_velocity_ex (eps t : R) : Built eps (exTree eps) /\ validModel (exTree eps) /\ (forall s, validState (exTree eps) (exQ s)) /\
  (forall s, moves (exTree eps) exQ (exV s) s) /\ accelerates (exTree eps) exV exA t /\ 0 < 4 < m_njoints (exTree eps).
Proof. exact (exKin eps t). Qed.
Print Assumptions C29_velocity.
(** it is the sum over the support of the joint twists, moved to the frame of the joint *)
Theorem C29_support_sum (eps : R) (m : Model) (d : Data) (q v a : vec) (i : nat) :
  Built eps m -> validModel m -> validState m q -> i < m_njoints m ->
  getVelocity (forwardKinematics1 m d q v) i LOCAL = bodyVel m q v i /\
  getVelocity (forwardKinematics2 m d q v a) i LOCAL = bodyVel m q v i.
Proof. exact (fun B => fk_vel eps m B d q v a i). Qed.
(* hypotheses met: C29_velocity_ex *)
Print Assumptions C29_support_sum.
(** the acceleration is the time derivative of the velocity *)
Theorem C29_acceleration (eps : R) (m : Model) (d d0 : Data) (q v : R -> vec) (a : vec) (t : R) (i : nat) :
  Built eps m -> validModel m -> (forall s, validState m (q s)) -> moves m q (v t) t -> accelerates m v a t -> i < m_njoints m ->
  deriv6 (fun s => getVelocity (forwardKinematics1 m d0 (q s) (v s)) i LOCAL)
         (getAcceleration (forwardKinematics2 m d (q t) (v t) a) i LOCAL) t.
Proof. exact (fun B => fk_acc eps m B d d0 q v a t i). Qed.
(* hypotheses met: C29_velocity_ex *)
Print Assumptions C29_acceleration.
(** WORLD and LOCAL describe the same velocity field; LOCAL_WORLD_ALIGNED is that field at the joint's origin *)
Theorem C29_reference_frames (eps : R) (m : Model) (d : Data) (q v a : vec) (i : nat) (p : V3) :
  Built eps m -> validModel m -> validState m q -> 0 < i < m_njoints m ->
  let d' := forwardKinematics2 m d q v a in
  let M := pl (rows d' i) F_oMi in
  (velocityAt (getVelocity d' i WORLD) (se3_actPoint M p) = m3vec (rot M) (velocityAt (getVelocity d' i LOCAL) p) /\
   ang (getVelocity d' i WORLD) = m3vec (rot M) (ang (getVelocity d' i LOCAL)) /\
   lin (getVelocity d' i LOCAL_WORLD_ALIGNED) = velocityAt (getVelocity d' i WORLD) (trans M) /\
   ang (getVelocity d' i LOCAL_WORLD_ALIGNED) = ang (getVelocity d' i WORLD)) /\
  (velocityAt (getAcceleration d' i WORLD) (se3_actPoint M p) = m3vec (rot M) (velocityAt (getAcceleration d' i LOCAL) p) /\
   ang (getAcceleration d' i WORLD) = m3vec (rot M) (ang (getAcceleration d' i LOCAL)) /\
   lin (getAcceleration d' i LOCAL_WORLD_ALIGNED) = velocityAt (getAcceleration d' i WORLD) (trans M) /\
   ang (getAcceleration d' i LOCAL_WORLD_ALIGNED) = ang (getAcceleration d' i WORLD)).
Proof. exact (fun B => fk_frames eps m B d q v a i p). Qed.
(* hypotheses met: C29_velocity_ex *)
Print Assumptions C29_reference_frames.
(** the classical acceleration is the second derivative of the position of the joint's origin *)
Theorem C29_classical (eps : R) (m : Model) (d d0 d1 : Data) (q v : R -> vec) (a : vec) (t : R) (i : nat) :
  Built eps m -> validModel m -> (forall s, validState m (q s)) -> (forall s, moves m q (v s) s) -> accelerates m v a t -> 0 < i < m_njoints m ->
  let oMi := fun s => pl (rows (forwardKinematics0 m d0 (q s)) i) F_oMi in
  let vel := fun s => getVelocity (forwardKinematics1 m d1 (q s) (v s)) i LOCAL_WORLD_ALIGNED in
  let dd := forwardKinematics2 m d (q t) (v t) a in
  deriv3 (fun s => trans (oMi s)) (lin (vel t)) t /\
  deriv3 (fun s => lin (vel s)) (lin (getClassicalAcceleration dd i LOCAL_WORLD_ALIGNED)) t /\
  deriv3 (fun s => ang (vel s)) (ang (getClassicalAcceleration dd i LOCAL_WORLD_ALIGNED)) t /\
  m3vec (rot (oMi t)) (lin (getClassicalAcceleration dd i LOCAL)) = lin (getClassicalAcceleration dd i LOCAL_WORLD_ALIGNED) /\
  m3vec (rot (oMi t)) (ang (getClassicalAcceleration dd i LOCAL)) = ang (getClassicalAcceleration dd i LOCAL_WORLD_ALIGNED).
Proof. exact (fun B => classical_all eps m B d d0 d1 q v a t i). Qed.
(* hypotheses met: C29_velocity_ex *)
Print Assumptions C29_classical.
(** relative placements: both conventions agree, the result maps one joint's placement to the other's, and swapping the
    joints inverts it *)
Theorem C29_relative (eps : R) (m : Model) (d : Data) (q : vec) (i j : nat) : Built eps m -> validModel m -> validState m q ->
  pl (rows d 0) F_oMi = se3_Identity -> i < m_njoints m -> j < m_njoints m ->
  let d' := forwardKinematics0 m d q in
  exists M Mi, (forall c, getRelativePlacement m d' i j c = Ok tt M) /\ (forall c, getRelativePlacement m d' j i c = Ok tt Mi) /\
    se3_mul (worldPl m q i) M = worldPl m q j /\ se3_mul M Mi = se3_Identity.
Proof. exact (fk_relative eps m d q i j). Qed.
Example C29_relative_ex (eps : R) : pl (rows (newData (exTree eps)) 0) F_oMi = se3_Identity.
Proof. exact (newData_universe (exTree eps)). Qed.
Print Assumptions C29_relative.

(** frame placements *)
Theorem C31_placements (m : Model) (d : Data) (f : nat) : 0 < f < m_nframes m ->
  oMf (gl (updateFramePlacements m d)) f = se3_mul (pl (rows d (fr_parentJoint (frameAt m f))) F_oMi) (fr_placement (frameAt m f)).
Proof. exact (frames_loop m d f). Qed.
Example C31_placements_ex (eps : R) : 0 < 1 < m_nframes (exTree eps) /\ fr_parentJoint (frameAt (exTree eps) 1) = 4.
Proof. exact (exTree_frame eps). Qed.
Print Assumptions C31_placements.
Theorem C31_placements_fk (eps : R) (m : Model) (d : Data) (q : vec) (f : nat) : Built eps m -> 0 < f < m_nframes m ->
  0 < fr_parentJoint (frameAt m f) < m_njoints m ->
  oMf (gl (framesForwardKinematics m d q)) f = se3_mul (worldPl m q (fr_parentJoint (frameAt m f))) (fr_placement (frameAt m f)).
Proof. exact (frames_fk eps m d q f). Qed.
(* hypotheses met: C31_placements_ex, C29_velocity_ex *)
Print Assumptions C31_placements_fk.
Theorem C31_placement_single (m : Model) (d : Data) (f g : nat) :
  oMf (gl (updateFramePlacement m d f)) f = se3_mul (pl (rows d (fr_parentJoint (frameAt m f))) F_oMi) (fr_placement (frameAt m f)) /\
  (g <> f -> oMf (gl (updateFramePlacement m d f)) g = oMf (gl d) g).
Proof. exact (frame_single m d f g). Qed.
Print Assumptions C31_placement_single.
(** velocity, acceleration and classical acceleration of a frame attached to joint j with placement P are those of the
    moving placement oMj*P: its twist, the derivative of that twist, and the first and second derivatives of its origin *)
Theorem C31_motion (eps : R) (m : Model) (d d0 d1 : Data) (q v : R -> vec) (a : vec) (t : R) (j : nat) (P : SE3) :
  Built eps m -> validModel m -> (forall s, validState m (q s)) ->
  (forall s, moves m q (v s) s) -> accelerates m v a t -> 0 < j < m_njoints m -> isRotation (rot P) ->
  let frame := fun s => se3_mul (pl (rows (forwardKinematics0 m d0 (q s)) j) F_oMi) P in
  let vel := fun s rf => getFrameVelocity (forwardKinematics1 m d1 (q s) (v s)) j P rf in
  let dd := forwardKinematics2 m d (q t) (v t) a in
  hasTwist frame (vel t LOCAL) t /\
  deriv6 (fun s => vel s LOCAL) (getFrameAcceleration dd j P LOCAL) t /\
  deriv3 (fun s => trans (frame s)) (lin (vel t LOCAL_WORLD_ALIGNED)) t /\
  deriv3 (fun s => lin (vel s LOCAL_WORLD_ALIGNED)) (lin (getFrameClassicalAcceleration dd j P LOCAL_WORLD_ALIGNED)) t /\
  deriv3 (fun s => ang (vel s LOCAL_WORLD_ALIGNED)) (ang (getFrameClassicalAcceleration dd j P LOCAL_WORLD_ALIGNED)) t /\
  m3vec (rot (frame t)) (lin (getFrameClassicalAcceleration dd j P LOCAL)) = lin (getFrameClassicalAcceleration dd j P LOCAL_WORLD_ALIGNED) /\
  m3vec (rot (frame t)) (ang (getFrameClassicalAcceleration dd j P LOCAL)) = ang (getFrameClassicalAcceleration dd j P LOCAL_WORLD_ALIGNED).
Proof. exact (fun B => frame_all eps m B d d0 d1 q v a t j P). Qed.
(* hypotheses met: C29_velocity_ex and *)
Example C31_motion_ex (p : V3) : isRotation (rot (mkSE3 (quatMatrix 1 0 0 0) p)).
Proof. exact (quatMatrix_1000 p). Qed.
Print Assumptions C31_motion.
(** all three reference frames describe the same field *)
Theorem C31_reference_frames (eps : R) (m : Model) (d : Data) (q v a : vec) (j : nat) (P : SE3) (p : V3) :
  Built eps m -> validModel m -> validState m q -> 0 < j < m_njoints m -> isRotation (rot P) ->
  let d' := forwardKinematics2 m d q v a in
  let M := se3_mul (pl (rows d' j) F_oMi) P in
  forall get, get = (fun rf => getFrameVelocity d' j P rf) \/ get = (fun rf => getFrameAcceleration d' j P rf) ->
  velocityAt (get WORLD) (se3_actPoint M p) = m3vec (rot M) (velocityAt (get LOCAL) p) /\
  ang (get WORLD) = m3vec (rot M) (ang (get LOCAL)) /\
  lin (get LOCAL_WORLD_ALIGNED) = velocityAt (get WORLD) (trans M) /\
  ang (get LOCAL_WORLD_ALIGNED) = ang (get WORLD).
Proof. exact (frame_fields eps m d q v a j P p). Qed.
Print Assumptions C31_reference_frames.
