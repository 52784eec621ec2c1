(* C87: changes of reference frame of motions and forces. *)
Require Import Reals.
From Verif Require Import Vec3 Spatial Model Data Kinematics Jacobian RefFrames Spec_RefFrames RefFramesFacts.
Local Open Scope R_scope.

(** the result is the unique motion that gives every point the same velocity *)
Theorem C87_motion (M : SE3) (v u : Motion) (a b : RefFrame) : isRotation (rot M) ->
  (forall p, pointVelocity b M (changeMotion M v a b) p = pointVelocity a M v p) /\
  ((forall p, pointVelocity b M u p = pointVelocity a M v p) -> u = changeMotion M v a b).
Proof.
  intros Ro. refine (conj (fun p => change_motion_point M v a b p Ro) (fun H => motion_point_unique b M u _ Ro (fun p => _))). now rewrite (change_motion_point M v a b p Ro).
Qed.
Print Assumptions C87_motion.
Example C87_ex : isRotation (rot exTurn).
Proof. exact exTurn_rot. Qed.
(** the result is the unique force with the same resultant and the same moments *)
Theorem C87_force (M : SE3) (f g : Force) (a b : RefFrame) : isRotation (rot M) ->
  (resultant b M (changeForce M f a b) = resultant a M f /\ forall p, momentAt b M (changeForce M f a b) p = momentAt a M f p) /\
  (resultant b M g = resultant a M f -> (exists p, momentAt b M g p = momentAt a M f p) -> g = changeForce M f a b).
Proof.
  intros Ro. refine (conj (conj (change_force_resultant M f a b Ro) (fun p => change_force_moment M f a b p Ro)) (fun H (E : exists p, _) => force_unique b M g _ Ro _ _)).
  - now rewrite (change_force_resultant M f a b Ro).
  - destruct E as (p & E). exists p. now rewrite (change_force_moment M f a b p Ro).
Qed.
Print Assumptions C87_force.
(* hypotheses met: C87_ex *)
(** changes compose, a change and its converse cancel, and the power does not depend on the frame *)
Theorem C87_compose (M : SE3) (v : Motion) (f : Force) (a b c : RefFrame) : isRotation (rot M) ->
  changeMotion M (changeMotion M v a b) b c = changeMotion M v a c /\ changeForce M (changeForce M f a b) b c = changeForce M f a c /\
  changeMotion M (changeMotion M v a b) b a = v /\ changeForce M (changeForce M f a b) b a = f /\
  v6dot (changeMotion M v a b) (changeForce M f a b) = v6dot v f.
Proof.
  intros Ro. refine (conj (change_motion_comp M v a b c Ro) (conj (change_force_comp M f a b c Ro) (conj _ (conj _ (change_power M v f a b Ro))))).
  - rewrite (change_motion_comp M v a b a Ro). destruct a; reflexivity.
  - rewrite (change_force_comp M f a b a Ro). destruct a; reflexivity.
Qed.
Print Assumptions C87_compose.
(* hypotheses met: C87_ex *)
(** the queries on joints and frames agree with the change of frame of one another, and the columns of the Jacobians with that of the world columns *)
Theorem C87_queries (d : Data) (j : nat) (P : SE3) (v : Motion) (a b : RefFrame) : isRotation (rot (pl (rows d j) F_oMi)) -> isRotation (rot P) ->
  let M := pl (rows d j) F_oMi in
  getVelocity d j b = changeMotion M (getVelocity d j a) a b /\ getAcceleration d j b = changeMotion M (getAcceleration d j a) a b /\
  getFrameVelocity d j P b = changeMotion (se3_mul M P) (getFrameVelocity d j P a) a b /\
  getFrameAcceleration d j P b = changeMotion (se3_mul M P) (getFrameAcceleration d j P a) a b /\
  toFrame b M v = changeMotion M v WORLD b.
Proof.
  intros RM RP M. exact (conj (proj1 (joint_queries d j a b RM)) (conj (proj2 (joint_queries d j a b RM)) (conj (proj1 (frame_queries d j P a b RM RP)) (conj (proj2 (frame_queries d j P a b RM RP)) (column_queries b M v))))).
Qed.
Print Assumptions C87_queries.
Example C87_queries_ex (d : Data) : isRotation (rot (pl (rows (exSpin d) 1) F_oMi)) /\ isRotation (rot exTurn).
Proof. exact (conj (proj1 (classical_wrong d)) exTurn_rot). Qed.
(** classical accelerations follow the change between LOCAL and LOCAL_WORLD_ALIGNED ... *)
Theorem C87_classical (d : Data) (j : nat) : isRotation (rot (pl (rows d j) F_oMi)) ->
  getClassicalAcceleration d j LOCAL_WORLD_ALIGNED = changeMotion (pl (rows d j) F_oMi) (getClassicalAcceleration d j LOCAL) LOCAL LOCAL_WORLD_ALIGNED.
Proof. exact (classical_local d j). Qed.
Print Assumptions C87_classical.
(* hypotheses met: C87_queries_ex *)
(** ... but not the change to WORLD *)
Theorem C87_classical_refuted (d : Data) : ~ (forall j, isRotation (rot (pl (rows (exSpin d) j) F_oMi)) ->
  getClassicalAcceleration (exSpin d) j WORLD = changeMotion (pl (rows (exSpin d) j) F_oMi) (getClassicalAcceleration (exSpin d) j LOCAL) LOCAL WORLD).
Proof. intros H. exact (proj2 (classical_wrong d) (H 1%nat (proj1 (classical_wrong d)))). Qed.
Print Assumptions C87_classical_refuted.
