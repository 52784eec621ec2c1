(* Locking joints: the statements of the property file. *)
Require Import Reals String List Arith Lia.
From Verif Require Import Vec3 Spatial Inertia Joints Spec_Joints Model Spec_Model ModelTree Spec_Kin Spec_Dyn Reduce Spec_Append ReduceFacts ReduceFacts6 ReduceFacts7.
Import ListNotations.
Local Open Scope nat_scope.
Section R.
Variables (eps : R) (m : Model) (L : list nat) (q0 : list R) (r : Model).
Hypotheses (H : reducible eps m L q0) (HB : buildReducedModel eps m L q0 = Ok r tt).
Let C := rd_model _ _ _ _ H.
Let N := rd_named _ _ _ _ H.
Let J := rd_joints _ _ _ _ H.
Let Q := rd_config _ _ _ _ H.
Lemma red_structure : wellFormed r /\ m_njoints r + length L = m_njoints m /\
  (forall i, 0 < i < m_njoints m -> ~ In i L -> exists k, copied m i r k) /\
  (forall k, 0 < k < m_njoints r -> exists i, ~ In i L /\ copied m i r k) /\
  (forall i i' k k', copied m i r k -> copied m i' r k' -> (i < i' <-> k < k')) /\
  m_gravity r = m_gravity m /\ m_name r = m_name m.
Proof.
  destruct (fin_tree eps m L q0 r C N J Q HB) as (T1 & T2 & T3 & T4 & T5). split; [exact T1|]. split; [exact T3|].
  split; [exact (fin_kept eps m L q0 r C N J Q HB)|]. split; [exact (fin_joint eps m L q0 r C N J Q HB)|]. split; [exact (fin_order eps m L q0 r C N J Q HB) | auto].
Qed.
Lemma red_tree : 
  (forall i, i < m_njoints m -> exists a M k, attached m L (coord q0) i a M /\ stands m r a k) /\
  (forall i k a M, copied m i r k -> attached m L (coord q0) (parent m i) a M -> stands m r a (parent r k) /\ placementOf r k = se3_mul M (placementOf m i)).
Proof. split; [exact (fin_anchor eps m L q0 r C N J Q HB) | exact (fin_place eps m L q0 r C N J Q HB)]. Qed.
Lemma red_motion q qr w wr : validModel m -> validState m q -> lockedAt m L (coord q0) q -> sameCoordinates m r q qr -> lockedStill m L w -> sameVelocities m r w wr ->
  forall i a M k, i < m_njoints m -> attached m L (coord q0) i a M -> stands m r a k ->
  worldPl m q i = se3_mul (worldPl r qr k) M /\ bodyVel m q w i = motion_actInv M (bodyVel r qr wr k).
Proof.
  intros V S H1 H2 H3 H4 i a M k Hi A K. split; [now apply (fin_world eps m L q0 r C N J Q HB q qr i a M k) | now apply (fin_vel eps m L q0 r C N J Q HB q qr w wr i a M k)].
Qed.
Lemma red_frames :
  (forall f, In f (m_frames m) -> exists g a M, In g (m_frames r) /\ fr_name g = fr_name f /\
     attached m L (coord q0) (fr_parentJoint f) a M /\ stands m r a (fr_parentJoint g) /\ fr_placement g = se3_mul M (fr_placement f) /\
     (In (fr_parentJoint f) L /\ fr_name f = nameOf m (fr_parentJoint f) -> fr_type g = FIXED_JOINT) /\
     (~ (In (fr_parentJoint f) L /\ fr_name f = nameOf m (fr_parentJoint f)) -> fr_type g = fr_type f /\ fr_inertia g = fr_inertia f)) /\
  (forall g, In g (m_frames r) -> exists f, In f (m_frames m) /\ fr_name f = fr_name g) /\ NoDup (map fr_name (m_frames r)).
Proof.
  split; [|split; [exact (fin_frames_only eps m L q0 r C N J Q HB) | exact (fin_frames_nodup eps m L q0 r C N J Q HB)]].
  intros f Hf. destruct (fin_frames eps m L q0 r C N J Q HB f Hf) as (g & G1 & G2 & (a & G3 & G4) & G5 & G6 & G7). exists g, a. eexists. eauto 10.
Qed.
End R.
Lemma red_exists eps m L q0 : reducible eps m L q0 -> exists r, buildReducedModel eps m L q0 = Ok r tt.
Proof. intros [C N J Q]. now apply reduce_succeeds. Qed.
Lemma red_mass eps m L q0 r : reducible eps m L q0 -> buildReducedModel eps m L q0 = Ok r tt -> totalMass r = totalMass m.
Proof. intros [C N J Q]. now apply fin_mass. Qed.
Lemma red_bodies eps m L q0 r : reducible eps m L q0 -> buildReducedModel eps m L q0 = Ok r tt -> regularMasses eps m ->
  exists l, carriedBodies m L (coord q0) r l /\ forall j, j < m_njoints r -> inertia_matrix (inertiaOf r j) = attachedMatrix j l.
Proof. intros [C N J Q] HB RM. destruct (fin_bodies eps m L q0 r C N J Q HB) as (l & H1 & H2). exists l. auto. Qed.
Lemma red_kinetic eps m L q0 r q qr w wr w' wr' : reducible eps m L q0 -> buildReducedModel eps m L q0 = Ok r tt -> regularMasses eps m ->
  validModel m -> validState m q -> lockedAt m L (coord q0) q -> sameCoordinates m r q qr -> lockedStill m L w -> sameVelocities m r w wr ->
  lockedStill m L w' -> sameVelocities m r w' wr' -> kineticForm r qr wr wr' = kineticForm m q w w'.
Proof. intros [C N J Q] HB. now apply fin_kinetic. Qed.
Lemma red_refs eps m L q0 r : reducible eps m L q0 -> buildReducedModel eps m L q0 = Ok r tt ->
  map fst (m_refs r) = map fst (m_refs m) /\
  forall p key c, nth_error (m_refs m) p = Some (key, c) -> exists c', nth_error (m_refs r) p = Some (key, c') /\ length c' = m_nq r /\
    forall i k, copied m i r k -> segQ r k c' = segQ m i c.
Proof. intros [C N J Q]. now apply fin_refs. Qed.
Lemma red_armature eps m L q0 r : reducible eps m L q0 -> buildReducedModel eps m L q0 = Ok r tt -> m_armature r = repeat 0%R (m_nv r).
Proof. intros [C N J Q]. now apply reduce_armature. Qed.
Lemma exLock_reducible eps : reducible eps (exLock eps) lkL lkQ0.
Proof. constructor; [apply exLock_configured | apply exLock_named | apply exLock_lockable | reflexivity]. Qed.
Lemma armLock_reducible eps : reducible eps (armLock eps) lkL lkQ0.
Proof.
  destruct (exLock_named eps) as [N1 N2 N3 N4 N5]. destruct (exLock_lockable eps) as [L1 L2 L3 L4]. constructor.
  - exists (armLock eps), (m_rotorInertia (armLock eps)), (m_rotorGearRatio (armLock eps)), []. split; [apply armLock_built|]. repeat split; reflexivity.
  - constructor; [exact N1 | exact N2 | exact N3 | exact N4 | intros ? ? []].
  - constructor; [exact L1 | exact L2 | exact L3 | exact L4].
  - reflexivity.
Qed.
