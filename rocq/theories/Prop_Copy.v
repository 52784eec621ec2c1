(* C88: copies of the kinematic quantities from one Data to another. *)
Require Import Reals List Arith ZArith.
From Verif Require Import Vec3 Spatial Joints Spec_Joints Model Spec_Model ModelFacts ModelTree ModelFacts2 ModelFacts3 Data Kinematics Spec_Kin KinFacts KinFacts2 KinFacts3 CopyData CopyFacts.
Import ListNotations.
Local Open Scope nat_scope.

(** after a copy the placements of joints and frames are those of the origin; from level VELOCITY on the velocities too, from level ACCELERATION on the accelerations and forces *)
Theorem C88_copied (m : Model) (o d d' : Data) (level : Z) : copyData m o d level = Ok d' tt ->
  (forall j, 0 < j < m_njoints m -> pl (rows d' j) F_oMi = pl (rows o j) F_oMi) /\
  (forall f, 0 < f < m_nframes m -> fr_parentJoint (frameAt m f) < m_njoints m -> pl (rows d 0) F_oMi = pl (rows o 0) F_oMi ->
    oMf (gl (updateFramePlacements m d')) f = oMf (gl (updateFramePlacements m o)) f) /\
  ((VELOCITY <= level)%Z -> forall j P rf, 0 < j < m_njoints m -> getVelocity d' j rf = getVelocity o j rf /\ getFrameVelocity d' j P rf = getFrameVelocity o j P rf) /\
  ((ACCELERATION <= level)%Z -> forall j P rf, 0 < j < m_njoints m ->
    getAcceleration d' j rf = getAcceleration o j rf /\ getFrameAcceleration d' j P rf = getFrameAcceleration o j P rf /\
    getClassicalAcceleration d' j rf = getClassicalAcceleration o j rf /\ getFrameClassicalAcceleration d' j P rf = getFrameClassicalAcceleration o j P rf /\
    mo (rows d' j) F_f = mo (rows o j) F_f /\ mo (rows d' j) F_a_gf = mo (rows o j) F_a_gf).
Proof.
  intros C. exact (conj (fun j Hj => proj1 (copy_pl m o d d' level C j Hj)) (conj (copy_frames m o d d' level C) (conj (fun H j P rf Hj => copy_velocities m o d d' level C j P rf Hj H) (fun H j P rf Hj => copy_accelerations m o d d' level C j P rf Hj H)))).
Qed.
Print Assumptions C88_copied.
Example C88_ex (eps : R) (o d : Data) : Built eps (exTree eps) /\ 0 < 4 < m_njoints (exTree eps) /\ exists d', copyData (exTree eps) o d ACCELERATION = Ok d' tt.
Proof. exact (conj (exTree_built eps) (conj (proj2 (proj2 (proj2 (proj2 (proj2 (exKin eps 0)))))) (copy_ok (exTree eps) o d ACCELERATION (Zle_0_pos 2)))). Qed.
(** nothing else changes: the row of the universe, the other fields of the joints, the global fields, and what the level leaves out *)
Theorem C88_frame (m : Model) (o d d' : Data) (level : Z) : copyData m o d level = Ok d' tt ->
  gl d' = gl d /\ (forall j, j = 0 \/ m_njoints m <= j -> rows d' j = rows d j) /\
  (forall j, 0 < j < m_njoints m ->
    pl (rows d' j) F_liMi = pl (rows d j) F_liMi /\
    ((level < VELOCITY)%Z -> mo (rows d' j) F_v = mo (rows d j) F_v) /\
    ((level < ACCELERATION)%Z -> forall t, In t [F_a; F_a_gf; F_f] -> mo (rows d' j) t = mo (rows d j) t) /\
    (forall t, ~ In t [F_v; F_a; F_a_gf; F_f] -> mo (rows d' j) t = mo (rows d j) t) /\
    yi (rows d' j) = yi (rows d j) /\ m6 (rows d' j) = m6 (rows d j) /\ p3 (rows d' j) = p3 (rows d j) /\ sc (rows d' j) = sc (rows d j) /\ jd (rows d' j) = jd (rows d j)).
Proof.
  intros C. refine (conj (proj1 (copy_rest m o d d' level C)) (conj (proj2 (copy_rest m o d d' level C)) (fun j Hj => conj (proj2 (copy_pl m o d d' level C j Hj)) (conj _ (conj _ (copy_others m o d d' level C j Hj)))))).
  - intros L. rewrite (copy_v m o d d' level C j Hj). apply Z.leb_gt in L. now rewrite L.
  - intros L t I. rewrite (copy_a m o d d' level C j t Hj I). apply Z.leb_gt in L. now rewrite L.
Qed.
Print Assumptions C88_frame.
(* hypotheses met: C88_ex *)
(** levels below POSITION are refused and leave the destination alone *)
Theorem C88_throws (m : Model) (o d : Data) (level : Z) : (copyData m o d level = Throw d <-> (level < POSITION)%Z) /\ ((POSITION <= level)%Z -> exists d', copyData m o d level = Ok d' tt).
Proof. exact (conj (copy_throws m o d level) (copy_ok m o d level)). Qed.
Print Assumptions C88_throws.
(** after forward kinematics on the origin, the destination holds the placements and velocities of the configuration *)
Theorem C88_forward (eps : R) (m : Model) (o d d' : Data) (q v a : vec) (level : Z) (j : nat) : Built eps m -> validModel m -> validState m q -> (VELOCITY <= level)%Z -> 0 < j < m_njoints m ->
  copyData m (forwardKinematics2 m o q v a) d level = Ok d' tt ->
  pl (rows d' j) F_oMi = worldPl m q j /\ getVelocity d' j LOCAL = bodyVel m q v j.
Proof.
  intros B V S L Hj C. split.
  - rewrite (proj1 (copy_pl m _ d d' level C j Hj)). exact (proj2 (proj2 (fk_placement eps m B o q v a j Hj))).
  - rewrite (proj1 (copy_velocities m _ d d' level C j se3_Identity LOCAL Hj L)). exact (proj2 (fk_vel eps m B o q v a j V S (proj2 Hj))).
Qed.
Print Assumptions C88_forward.
Example C88_forward_ex (eps t : R) : Built eps (exTree eps) /\ validModel (exTree eps) /\ (forall s, validState (exTree eps) (exQ s)) /\ 0 < 4 < m_njoints (exTree eps).
Proof. destruct (exKin eps t) as (B & V & S & _ & _ & J). exact (conj B (conj V (conj S J))). Qed.
(** relative placements asked with the convention WORLD follow the origin; with the convention LOCAL they are still those the destination had before *)
Theorem C88_relative (m : Model) (o d d' : Data) (level : Z) (r t : nat) : copyData m o d level = Ok d' tt -> 0 < r < m_njoints m -> 0 < t < m_njoints m ->
  getRelativePlacement m d' r t C_WORLD = getRelativePlacement m o r t C_WORLD /\ getRelativePlacement m d' r t C_LOCAL = getRelativePlacement m d r t C_LOCAL.
Proof. exact (fun C => copy_relative m o d d' level C r t). Qed.
Print Assumptions C88_relative.
(* hypotheses met: C88_ex *)
