(** Property theorems C80 (inertia and force supported by a frame). Statements only. *)
From Coq Require Import Reals List Arith.
From Verif Require Import Vec3 Spatial Inertia Joints Model Spec_Model ModelFacts ModelTree ModelFacts2 ModelFacts3 Data Kinematics Spec_Kin KinFacts KinFacts3 Spec_Dyn Spec_Mass Rnea Crba CrbaFacts3 CrbaFacts4 Supported Spec_Supported SupportedFacts2 SupportedFacts3 SupportedEx.
Import ListNotations.
Local Open Scope nat_scope.

(** without the subtree: the inertia of the bodies mounted on the frame, gathered at the frame *)
Theorem C80_inertia (eps : R) (m : Model) (d : Data) (q : vec) (f : nat) :
  Built eps m -> validModel m -> framesOrdered m -> goodFrames eps m -> regularMasses eps m -> validState m q -> f < m_nframes m ->
  exists L, enumerates L (carried m f) /\
  let I := computeSupportedInertiaByFrame eps m d f false in
  mass I = sumR (map (fun g => mass (fr_inertia (frameAt m g))) L) /\
  forall V, momentumAt (worldFrame m q f) I V = sumV6 (map (frameMomentum m q V) L).
Proof. exact (fun B Vm FO GF RM Hq Hf => inertia_frame eps m B Vm FO GF RM q f Hq Hf d). Qed.
Example C80_ex (s : R) : let m := exS (1/1000) in Built (1/1000) m /\ validModel m /\ framesOrdered m /\ goodFrames (1/1000) m /\ regularMasses (1/1000) m /\
  validState m (exQ s) /\ 1 < m_nframes m /\ 0 < fr_parentJoint (frameAt m 1) /\ carried m 1 2 /\ ~ carried m 1 3 /\ below m (fr_parentJoint (frameAt m 1)) 2.
Proof. exact (exS_all s). Qed.
Print Assumptions C80_inertia.

(** with the subtree: the same and the bodies of the joints strictly below the joint of the frame, after forwardKinematics(q) *)
Theorem C80_inertia_subtree (eps : R) (m : Model) (d : Data) (q : vec) (f : nat) :
  Built eps m -> validModel m -> framesOrdered m -> goodFrames eps m -> regularMasses eps m -> validState m q -> f < m_nframes m ->
  0 < fr_parentJoint (frameAt m f) ->
  exists L K, enumerates L (carried m f) /\ enumerates K (below m (fr_parentJoint (frameAt m f))) /\
  let I := computeSupportedInertiaByFrame eps m (forwardKinematics0 m d q) f true in
  mass I = (sumR (map (fun g => mass (fr_inertia (frameAt m g))) L) + sumR (map (fun b => mass (inertiaOf m b)) K))%R /\
  forall V, momentumAt (worldFrame m q f) I V = v6add (sumV6 (map (frameMomentum m q V) L)) (sumV6 (map (jointMomentum m q V) K)).
Proof. exact (fun B Vm FO GF RM Hq Hf Hj => inertia_subtree eps m B Vm FO GF RM q f Hq Hf Hj _ (fk0_oMi eps m B d q)). Qed.
(* hypotheses met: C80_ex *)
Print Assumptions C80_inertia_subtree.

(** after forwardKinematics(q, v, a) and rnea(q, v, a, fext): the wrench the frame must exert on the bodies mounted on it and on the joints below *)
Theorem C80_force (eps : R) (m : Model) (d : Data) (q v a : vec) (fext : nat -> V6) (f : nat) :
  Built eps m -> validModel m -> framesOrdered m -> goodFrames eps m -> regularMasses eps m -> validState m q -> f < m_nframes m ->
  0 < fr_parentJoint (frameAt m f) ->
  exists L K, enumerates L (carried m f) /\ enumerates K (below m (fr_parentJoint (frameAt m f))) /\
  force_act (worldFrame m q f) (computeSupportedForceByFrame eps m (rneaDataExt m (forwardKinematics2 m d q v a) q v a fext) f) =
  v6add (sumV6 (map (frameWrench m q v a) L)) (sumV6 (map (jointWrench m q v a fext) K)).
Proof. exact (fun B Vm FO GF RM Hq Hf Hj => force_frame eps m B Vm q v a fext Hq FO GF RM f Hf Hj d). Qed.
(* hypotheses met: C80_ex *)
Print Assumptions C80_force.

(** rnea without external forces leaves the data that rnea leaves with zero external forces, so the same holds after it *)
Theorem C80_force_free (eps : R) (m : Model) (d : Data) (q v a : vec) (f : nat) :
  Built eps m -> validModel m -> framesOrdered m -> goodFrames eps m -> regularMasses eps m -> validState m q -> f < m_nframes m ->
  0 < fr_parentJoint (frameAt m f) ->
  exists L K, enumerates L (carried m f) /\ enumerates K (below m (fr_parentJoint (frameAt m f))) /\
  force_act (worldFrame m q f) (computeSupportedForceByFrame eps m (rneaData m (forwardKinematics2 m d q v a) q v a) f) =
  v6add (sumV6 (map (frameWrench m q v a) L)) (sumV6 (map (jointWrench m q v a (fun _ => v6zero)) K)).
Proof. exact (fun B Vm FO GF RM Hq Hf Hj => force_frame_free eps m B Vm FO GF RM q v a f Hq Hf Hj d). Qed.
(* hypotheses met: C80_ex *)
Print Assumptions C80_force_free.

(** a frame fixed to the universe: the body of joint 1 is left out, whatever its mass *)
Theorem C80_universe_refuted (eps : R) (m : Model) (d : Data) (f : nat) :
  Built eps m -> framesOrdered m -> f < m_nframes m -> fr_parentJoint (frameAt m f) = 0 -> 1 < m_njoints m ->
  exists L K, enumerates L (carried m f) /\ enumerates (1 :: K) (fun b => 0 < b < m_njoints m) /\
  mass (computeSupportedInertiaByFrame eps m d f true) =
    (sumR (map (fun g => mass (fr_inertia (frameAt m g))) L) + sumR (map (fun b => mass (inertiaOf m b)) K))%R.
Proof. exact (universe_mass eps m d f). Qed.
Example C80_universe_ex : let m := exS (1/1000) in
  Built (1/1000) m /\ framesOrdered m /\ 0 < m_nframes m /\ fr_parentJoint (frameAt m 0) = 0 /\ 1 < m_njoints m /\ mass (inertiaOf m 1) = 2%R.
Proof. exact (conj (exS_built _) exS_universe). Qed.
Print Assumptions C80_universe_refuted.

(** the documentation asks for rnea only: the force then changes with the acceleration that an earlier call left in the data *)
Theorem C80_rnea_only_refuted (s : R) (v a : vec) (d : Data) : let m := exS (1/1000) in
  exists d2, (forall i, i <> 1 -> rows d2 i = rows d i) /\
  computeSupportedForceByFrame (1/1000) m (rneaData m d2 (exQ s) v a) 1 <> computeSupportedForceByFrame (1/1000) m (rneaData m d (exQ s) v a) 1.
Proof. exact (exS_stale s v a d). Qed.
(* hypotheses met: none; the model is the one of C80_ex *)
Print Assumptions C80_rnea_only_refuted.
