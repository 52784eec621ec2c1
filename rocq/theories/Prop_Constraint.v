(** Property theorems C83 (Jacobian of a rigid constraint between two frames). Statements only. *)
From Coq Require Import Reals List Arith.
From Verif Require Import Vec3 Spatial Inertia Joints Spec_Joints Deriv Model Spec_Model ModelFacts3 Data Kinematics Spec_Kin KinFacts3 Spec_Mass CrbaFacts3 CrbaFacts4 Jacobian Spec_Jac Constraint Spec_Constraint ConstraintFacts3 ConstraintEx.
Import ListNotations.
Local Open Scope nat_scope.

(** The rows written by getConstraintJacobian for a contact of dimension 3 (a matrix of zeros being given), times a velocity v, are the velocity
    of the point of the first frame with respect to the point of the second: the derivative of the difference of their positions when the
    configuration moves at the rate v, in world axes or in the axes of the first frame.  The frames are p1 on joint j1 and p2 on joint j2, of which
    either may be the universe. *)
Theorem C83_point (eps : R) (m : Model) (j1 : nat) (p1 : SE3) (j2 : nat) (p2 : SE3) (rf : RefFrame) (q : R -> vec) (v : vec) (t : R) (d : Data) (J : Mat) :
  Built eps m -> validModel m -> noMimic m -> rf <> WORLD -> j1 < m_njoints m -> j2 < m_njoints m -> isRotation (rot p1) -> isRotation (rot p2) ->
  validState m (q t) -> moves m q v t -> pl (rows d 0) F_oMi = se3_Identity -> (forall r k, r < 3 -> J r k = 0%R) ->
  pointsSlide rf (fun s => se3_mul (worldPl m (q s) j1) p1) (fun s => se3_mul (worldPl m (q s) j2) p2)
    (rows3 (m_nv m) (getConstraintJacobian m (computeJointJacobians m d (q t)) (rcFill m CONTACT_3D j1 p1 j2 p2 rf) 0 J) 0 v) t.
Proof. exact (fun B V N => cj_points3 eps m B V N j1 p1 j2 p2 rf q v t d J). Qed.
Example C83_ex (s : R) : let m := exD (1/1000) in Built (1/1000) m /\ validModel m /\ noMimic m /\ LOCAL <> WORLD /\ 2 < m_njoints m /\ 3 < m_njoints m /\ isRotation (rot exP) /\
  validState m (exQ s) /\ moves m exQ (exV s) s /\ (exists d, pl (rows d 0) F_oMi = se3_Identity) /\ ~ onPath m 2 3 /\ ~ onPath m 3 2 /\ onPath m 1 2 /\ onPath m 1 3.
Proof. exact (exConstraint s). Qed.
Print Assumptions C83_point.

(** dimension 6: the velocity of the first frame with respect to the second, taken at the first frame *)
Theorem C83_frame (eps : R) (m : Model) (j1 : nat) (p1 : SE3) (j2 : nat) (p2 : SE3) (rf : RefFrame) (q : R -> vec) (v : vec) (t : R) (d : Data) (J : Mat) :
  Built eps m -> validModel m -> noMimic m -> rf <> WORLD -> j1 < m_njoints m -> j2 < m_njoints m -> isRotation (rot p1) -> isRotation (rot p2) ->
  validState m (q t) -> moves m q v t -> pl (rows d 0) F_oMi = se3_Identity -> (forall r k, r < 6 -> J r k = 0%R) ->
  framesSlide rf (fun s => se3_mul (worldPl m (q s) j1) p1) (fun s => se3_mul (worldPl m (q s) j2) p2)
    (rows6 (m_nv m) (getConstraintJacobian m (computeJointJacobians m d (q t)) (rcFill m CONTACT_6D j1 p1 j2 p2 rf) 0 J) 0 v) t.
Proof. exact (fun B V N => cj_frames6 eps m B V N j1 p1 j2 p2 rf q v t d J). Qed.
(* hypotheses met: C83_ex *)
Print Assumptions C83_frame.

(** getConstraintsJacobian writes the Jacobian of each constraint below those of the constraints before it, and nothing under the last *)
Theorem C83_stacked (m : Model) (d : Data) (xs : list RigidConstraintModel) (c : RigidConstraintModel) (ys : list RigidConstraintModel) (J : Mat) :
  let b := getTotalConstraintSize xs in
  (forall r k, r < rc_size c -> getConstraintsJacobian m d (xs ++ c :: ys) J (b + r) k = getConstraintJacobian m d c 0 (fun r k => J (b + r) k) r k) /\
  (forall r k, getTotalConstraintSize (xs ++ c :: ys) <= r -> getConstraintsJacobian m d (xs ++ c :: ys) J r k = J r k).
Proof. exact (stacked m d xs c ys J). Qed.
Print Assumptions C83_stacked.

(** colwise_sparsity marks the columns of the joints that carry one of the frames (dimension 3) or one and not the other (dimension 6);
    colwise_span_indexes lists them, loop_span_indexes those of the joints that carry exactly one frame; the other columns of the matrix of the caller
    are left as they are *)
Theorem C83_pattern (eps : R) (m : Model) (t : ContactType) (j1 : nat) (p1 : SE3) (j2 : nat) (p2 : SE3) (rf : RefFrame) (i k : nat) :
  Built eps m -> validModel m -> noMimic m -> j1 < m_njoints m -> j2 < m_njoints m -> 0 < i < m_njoints m -> readsV m i k ->
  let c := rcFill m t j1 p1 j2 p2 rf in
  (rc_sparse c k = true <-> match t with CONTACT_3D => onPath m i j1 \/ onPath m i j2 | CONTACT_6D => onPath m i j1 /\ ~ onPath m i j2 \/ onPath m i j2 /\ ~ onPath m i j1 end) /\
  (In k (rc_span c) <-> rc_sparse c k = true) /\
  (In k (rc_loop c) <-> onPath m i j1 /\ ~ onPath m i j2 \/ onPath m i j2 /\ ~ onPath m i j1) /\
  (rc_sparse c k = false -> forall d b J r, getConstraintJacobian m d c b J r k = J r k).
Proof. exact (fun B V N => pattern4 eps m B V N t j1 p1 j2 p2 rf i k). Qed.
(* hypotheses met: C83_ex *)
Print Assumptions C83_pattern.

(** The constructor: it refuses WORLD; when neither joint is the universe (dimension 3), or neither joint carries the other (dimension 6), it succeeds,
    the Jacobian is the one described above and the joint spans list the joints of the pattern *)
Theorem C83_constructor (eps : R) (m : Model) (t : ContactType) (j1 : nat) (p1 : SE3) (j2 : nat) (p2 : SE3) (rf : RefFrame) :
  Built eps m -> validModel m -> noMimic m -> j1 < m_njoints m -> j2 < m_njoints m ->
  (rf = WORLD -> rcInit m t j1 p1 j2 p2 rf = Throw tt) /\
  (rf <> WORLD -> match t with CONTACT_3D => j1 <> 0 /\ j2 <> 0 | CONTACT_6D => ~ onPath m j1 j2 /\ ~ onPath m j2 j1 end ->
   exists c, rcInit m t j1 p1 j2 p2 rf = Ok tt c /\ (forall d b J, getConstraintJacobian m d c b J = getConstraintJacobian m d (rcFill m t j1 p1 j2 p2 rf) b J) /\
   rc_sparse c = rc_sparse (rcFill m t j1 p1 j2 p2 rf) /\ rc_loop c = rc_loop (rcFill m t j1 p1 j2 p2 rf) /\
   forall i, 0 < i < m_njoints m ->
     (In i (rc_js1 c) <-> onPath m i j1 /\ (t = CONTACT_6D -> ~ onPath m i j2)) /\ (In i (rc_js2 c) <-> onPath m i j2 /\ (t = CONTACT_6D -> ~ onPath m i j1))).
Proof. exact (fun B V N => constructor_ok eps m B V N t j1 p1 j2 p2 rf). Qed.
(* hypotheses met: C83_ex *)
Print Assumptions C83_constructor.
(** In every other case (for one, every contact of a joint with the universe) init rotates an empty vector past its end: the behaviour is undefined. *)
Theorem C83_empty_span_refuted (eps : R) (m : Model) (t : ContactType) (j1 : nat) (p1 : SE3) (j2 : nat) (p2 : SE3) (rf : RefFrame) :
  Built eps m -> validModel m -> noMimic m -> rf <> WORLD -> j1 < m_njoints m -> j2 < m_njoints m ->
  (~ match t with CONTACT_3D => j1 <> 0 /\ j2 <> 0 | CONTACT_6D => ~ onPath m j1 j2 /\ ~ onPath m j2 j1 end -> rcInit m t j1 p1 j2 p2 rf = Undef) /\
  rcInit m t j1 p1 0 p2 rf = Undef.
Proof. exact (fun B V N => constructor_undef eps m B V N t j1 p1 j2 p2 rf). Qed.
(* hypotheses met: C83_ex *)
Print Assumptions C83_empty_span_refuted.
