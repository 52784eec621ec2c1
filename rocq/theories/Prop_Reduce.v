(** Property theorem C47, first part: locking joints (buildReducedModel).  Statements only. *)
From Coq Require Import Reals String List Arith.
From Verif Require Import Vec3 Spatial Inertia Joints Spec_Joints Model Spec_Model ModelTree Spec_Kin Spec_Dyn Reduce Spec_Append ReduceFacts6 ReduceFacts7 ReduceFacts8.
Import ListNotations.
Local Open Scope nat_scope.

(** locking the joints L of a model at the configuration q0 succeeds when the joints of L are distinct joints that have a
    frame and no remaining joint mimics one of them *)
Theorem C47_reduce_succeeds (eps : R) (m : Model) (L : list nat) (q0 : list R) : reducible eps m L q0 -> exists r, buildReducedModel eps m L q0 = Ok r tt.
Proof. exact (red_exists eps m L q0). Qed.
Example C47_reduce_ex (eps : R) : reducible eps (exLock eps) lkL lkQ0 /\ buildReducedModel eps (exLock eps) lkL lkQ0 = Ok (rLock eps) tt /\
  lkL = [3; 1] /\ m_names (exLock eps) = ["universe"; "a"; "b"; "c"; "d"]%string /\ m_names (rLock eps) = ["universe"; "b"; "d"]%string.
Proof. exact (conj (exLock_reducible eps) (conj (rLock_ok eps) (conj eq_refl (conj eq_refl eq_refl)))). Qed.
Print Assumptions C47_reduce_succeeds.

(** the joints of the reduced model are the joints that are not locked, in the same order, with the same names, types,
    limits and rotor parameters (copied); gravity and name are those of the input; the reduced model is consistent *)
Theorem C47_reduce_joints (eps : R) (m : Model) (L : list nat) (q0 : list R) (r : Model) : reducible eps m L q0 -> buildReducedModel eps m L q0 = Ok r tt ->
  wellFormed r /\ m_njoints r + length L = m_njoints m /\
  (forall i, 0 < i < m_njoints m -> ~ In i L -> exists k, copied m i r k) /\
  (forall k, 0 < k < m_njoints r -> exists i, ~ In i L /\ copied m i r k) /\
  (forall i i' k k', copied m i r k -> copied m i' r k' -> (i < i' <-> k < k')) /\
  m_gravity r = m_gravity m /\ m_name r = m_name m.
Proof. exact (red_structure eps m L q0 r). Qed.
(* hypotheses met: C47_reduce_ex *)
Print Assumptions C47_reduce_joints.
(** a joint whose closest kept ancestor (counting from its parent) is a, with the placement M in a when the locked joints are
    at q0, becomes a child of the copy of a, and its placement there is M times its placement *)
Theorem C47_reduce_placements (eps : R) (m : Model) (L : list nat) (q0 : list R) (r : Model) : reducible eps m L q0 -> buildReducedModel eps m L q0 = Ok r tt ->
  (forall i, i < m_njoints m -> exists a M k, attached m L (coord q0) i a M /\ stands m r a k) /\
  (forall i k a M, copied m i r k -> attached m L (coord q0) (parent m i) a M -> stands m r a (parent r k) /\ placementOf r k = se3_mul M (placementOf m i)).
Proof. exact (red_tree eps m L q0 r). Qed.
(* hypotheses met: C47_reduce_ex *)
Print Assumptions C47_reduce_placements.
(** the reduced model moves like the input whose locked joints stay at q0: every joint, locked or not, is where it is in
    the input and has the same velocity, at the placement M in the joint that carries it *)
Theorem C47_reduce_motion (eps : R) (m : Model) (L : list nat) (q0 : list R) (r : Model) : reducible eps m L q0 -> buildReducedModel eps m L q0 = Ok r tt ->
  forall q qr w wr, validModel m -> validState m q -> lockedAt m L (coord q0) q -> sameCoordinates m r q qr -> lockedStill m L w -> sameVelocities m r w wr ->
  forall i a M k, i < m_njoints m -> attached m L (coord q0) i a M -> stands m r a k ->
  worldPl m q i = se3_mul (worldPl r qr k) M /\ bodyVel m q w i = motion_actInv M (bodyVel r qr wr k).
Proof. exact (red_motion eps m L q0 r). Qed.
Example C47_reduce_motion_ex (eps : R) : validModel (exLock eps) /\ validState (exLock eps) lkQ /\ lockedAt (exLock eps) lkL (coord lkQ0) lkQ /\
  sameCoordinates (exLock eps) (rLock eps) lkQ lkQr /\ lockedStill (exLock eps) lkL lkV /\ sameVelocities (exLock eps) (rLock eps) lkV lkVr.
Proof. exact (conj (exLock_valid eps) (rLock_states eps)). Qed.
Print Assumptions C47_reduce_motion.
(** and has the same kinetic energy (the mass matrix restricted to the kept joints), armature excepted *)
Theorem C47_reduce_kinetic (eps : R) (m : Model) (L : list nat) (q0 : list R) (r : Model) (q qr w wr w' wr' : nat -> R) :
  reducible eps m L q0 -> buildReducedModel eps m L q0 = Ok r tt -> regularMasses eps m ->
  validModel m -> validState m q -> lockedAt m L (coord q0) q -> sameCoordinates m r q qr -> lockedStill m L w -> sameVelocities m r w wr ->
  lockedStill m L w' -> sameVelocities m r w' wr' -> kineticForm r qr wr wr' = kineticForm m q w w'.
Proof. exact (red_kinetic eps m L q0 r q qr w wr w' wr'). Qed.
Example C47_reduce_masses_ex (eps : R) : (0 < eps <= 2)%R -> regularMasses eps (exLock eps). Proof. exact (exLock_masses eps). Qed.
Print Assumptions C47_reduce_kinetic.

(** the total mass is preserved, and the inertia of every joint of the reduced model is the sum of those of the bodies it
    carries, moved to the placements of their joints *)
Theorem C47_reduce_mass (eps : R) (m : Model) (L : list nat) (q0 : list R) (r : Model) :
  reducible eps m L q0 -> buildReducedModel eps m L q0 = Ok r tt -> totalMass r = totalMass m.
Proof. exact (red_mass eps m L q0 r). Qed.
(* hypotheses met: C47_reduce_ex *)
Print Assumptions C47_reduce_mass.
Theorem C47_reduce_inertias (eps : R) (m : Model) (L : list nat) (q0 : list R) (r : Model) :
  reducible eps m L q0 -> buildReducedModel eps m L q0 = Ok r tt -> regularMasses eps m ->
  exists l, carriedBodies m L (coord q0) r l /\ forall j, j < m_njoints r -> inertia_matrix (inertiaOf r j) = attachedMatrix j l.
Proof. exact (red_bodies eps m L q0 r). Qed.
(* hypotheses met: C47_reduce_ex, C47_reduce_masses_ex *)
Print Assumptions C47_reduce_inertias.

(** the frames are those of the input, once each; a frame of a locked joint is attached to the joint that carries it; the
    frame of a locked joint becomes a fixed frame *)
Theorem C47_reduce_frames (eps : R) (m : Model) (L : list nat) (q0 : list R) (r : Model) : reducible eps m L q0 -> buildReducedModel eps m L q0 = Ok r tt ->
  (forall f, In f (m_frames m) -> exists g a M, In g (m_frames r) /\ fr_name g = fr_name f /\
     attached m L (coord q0) (fr_parentJoint f) a M /\ stands m r a (fr_parentJoint g) /\ fr_placement g = se3_mul M (fr_placement f) /\
     (In (fr_parentJoint f) L /\ fr_name f = nameOf m (fr_parentJoint f) -> fr_type g = FIXED_JOINT) /\
     (~ (In (fr_parentJoint f) L /\ fr_name f = nameOf m (fr_parentJoint f)) -> fr_type g = fr_type f /\ fr_inertia g = fr_inertia f)) /\
  (forall g, In g (m_frames r) -> exists f, In f (m_frames m) /\ fr_name f = fr_name g) /\ NoDup (map fr_name (m_frames r)).
Proof. exact (red_frames eps m L q0 r). Qed.
(* hypotheses met: C47_reduce_ex *)
Print Assumptions C47_reduce_frames.
(** the reference configurations are restricted to the kept joints *)
Theorem C47_reduce_references (eps : R) (m : Model) (L : list nat) (q0 : list R) (r : Model) : reducible eps m L q0 -> buildReducedModel eps m L q0 = Ok r tt ->
  map fst (m_refs r) = map fst (m_refs m) /\
  forall p key c, nth_error (m_refs m) p = Some (key, c) -> exists c', nth_error (m_refs r) p = Some (key, c') /\ length c' = m_nq r /\
    forall i k, copied m i r k -> segQ r k c' = segQ m i c.
Proof. exact (red_refs eps m L q0 r). Qed.
(* hypotheses met: C47_reduce_ex *)
Print Assumptions C47_reduce_references.

(** a configuration of the wrong size, a list longer than the number of joints and repeated joints are rejected *)
Theorem C47_reduce_rejects (eps : R) (m : Model) (L : list nat) (q0 : list R) : length q0 <> m_nq m \/ m_njoints m < length L \/ ~ NoDup L ->
  buildReducedModel eps m L q0 = Throw emptyModel.
Proof. exact (reduce_rejects eps m L q0). Qed.
Example C47_reduce_rejects_ex : m_njoints emptyModel < length [0; 1]. Proof. exact (le_n 2). Qed.
Print Assumptions C47_reduce_rejects.

(** but the armature is lost: it is zero in the reduced model, whatever it was *)
Theorem C47_reduce_armature_refuted (eps : R) :
  (forall m L q0 r, reducible eps m L q0 -> buildReducedModel eps m L q0 = Ok r tt -> m_armature r = repeat 0%R (m_nv r)) /\
  reducible eps (armLock eps) lkL lkQ0 /\
  exists r, buildReducedModel eps (armLock eps) lkL lkQ0 = Ok r tt /\ copied (armLock eps) 2 r 1 /\
  segV (armLock eps) 2 (m_armature (armLock eps)) = [1%R] /\ segV r 1 (m_armature r) = [0%R].
Proof. exact (conj (red_armature eps) (conj (armLock_reducible eps) (armLock_lost eps))). Qed.
Print Assumptions C47_reduce_armature_refuted.
(** a list that contains the universe locks nothing: no joint of the list is locked, and a model with frames on these
    joints is read out of bounds *)
Theorem C47_reduce_universe_refuted (eps : R) : buildReducedModel eps (exLock eps) [0; 1; 3] lkQ0 = Undef /\
  exists r, buildReducedModel eps lkd [0; 1; 3] lkQ0 = Ok r tt /\ m_names r = m_names lkd.
Proof. exact (zero_blocks eps). Qed.
Print Assumptions C47_reduce_universe_refuted.
(** joints that do not exist are ignored *)
Theorem C47_reduce_range_refuted (eps : R) : exists r, buildReducedModel eps (exLock eps) [3; 8] lkQ0 = Ok r tt /\ m_names r = ["universe"; "a"; "b"; "d"]%string.
Proof. exact (range_ignored eps). Qed.
Print Assumptions C47_reduce_range_refuted.
(** locking a joint that has no frame of its name reads the frames out of bounds *)
Theorem C47_reduce_frameless_refuted (eps : R) : Built eps lkd /\ buildReducedModel eps lkd [1] lkQ0 = Undef.
Proof. exact (frameless eps). Qed.
Print Assumptions C47_reduce_frameless_refuted.
(** so does locking a joint that another joint mimics *)
Theorem C47_reduce_mimicked_refuted (eps : R) : jm_ref (joint (exLock eps) 4) = 2 /\ buildReducedModel eps (exLock eps) [2] lkQ0 = Undef.
Proof. exact (conj eq_refl (followed_locked eps)). Qed.
Print Assumptions C47_reduce_mimicked_refuted.
(** and a model is rejected when a body frame has the name of a locked joint, although frames of different types may share
    a name *)
Theorem C47_reduce_shared_name_refuted (eps : R) : Built eps lkS /\ exists r, buildReducedModel eps lkS [1] lkQ0 = Throw r.
Proof. exact (shared_name eps). Qed.
Print Assumptions C47_reduce_shared_name_refuted.
