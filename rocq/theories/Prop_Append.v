(** Property theorem C47, second part: appending a model to another one (appendModel).  Statements only. *)
From Coq Require Import Reals String List Arith.
From Verif Require Import Vec3 Spatial Inertia Joints Spec_Joints Model Spec_Model ModelTree Spec_Kin Sums Spec_Dyn Reduce Append Spec_Append Spec_Attach ReduceFacts7 AppendFacts8 AppendFacts9.
Import ListNotations.
Local Open Scope nat_scope.

(** mounting b on the frame f of a, at the placement aMb in this frame, succeeds *)
Theorem C47_append_succeeds (eps : R) (a b : Model) (fi : nat) (f : Frame) (aMb : SE3) : appendable eps a b fi f ->
  exists r, appendModel eps neutralVector a b fi aMb = Ok r tt.
Proof. exact (succeeds eps a b fi f aMb). Qed.
Example C47_append_ex (eps : R) : appendable eps exTree (exLock eps) 1 mountF /\ appendModel eps neutralVector exTree (exLock eps) 1 apM = Ok (rTree eps) tt /\
  m_names exTree = ["universe"; "s"; "t"; "u"; "v"]%string /\ m_names (exLock eps) = ["universe"; "a"; "b"; "c"; "d"]%string /\
  m_names (rTree eps) = ["universe"; "s"; "u"; "a"; "b"; "c"; "d"; "t"; "v"]%string /\ m_parents (rTree eps) = [0; 0; 1; 1; 3; 4; 5; 0; 7].
Proof. exact (conj (exTree_appendable eps) (conj (rTree_ok eps) (conj eq_refl (conj eq_refl (rTree_shape eps))))). Qed.
Print Assumptions C47_append_succeeds.

(** the joints of the result are those of a and those of b, once each, with the same names, types, limits and rotor
    parameters (copied); the joints of a up to the mounting joint keep their indexes; the result is consistent *)
Theorem C47_append_joints (eps : R) (a b : Model) (fi : nat) (f : Frame) (aMb : SE3) (r : Model) : appendable eps a b fi f -> appendModel eps neutralVector a b fi aMb = Ok r tt ->
  wellFormed r /\ NoDup (m_names r) /\ m_njoints r + 1 = m_njoints a + m_njoints b /\
  (forall i, 0 < i < m_njoints a -> exists k, copied a i r k) /\ (forall i, 0 < i < m_njoints b -> exists k, copied b i r k) /\
  (forall k, 0 < k < m_njoints r -> (exists i, copied a i r k) \/ (exists i, copied b i r k)) /\
  (forall i, 0 < i <= fr_parentJoint f -> copied a i r i).
Proof. intros A. exact (fin_joints eps a b fi f aMb A r). Qed.
(* hypotheses met: C47_append_ex *)
Print Assumptions C47_append_joints.

(** joints of a keep parent and placement; so do joints of b, except that those attached to the universe of b are attached
    to the parent joint of the frame, at the placement of the frame times aMb times their placement *)
Theorem C47_append_placements (eps : R) (a b : Model) (fi : nat) (f : Frame) (aMb : SE3) (r : Model) : appendable eps a b fi f -> appendModel eps neutralVector a b fi aMb = Ok r tt ->
  (forall i k, copied a i r k -> stands a r (parent a i) (parent r k) /\ placementOf r k = placementOf a i) /\
  (forall i k, copied b i r k -> parent b i <> 0 -> copied b (parent b i) r (parent r k) /\ placementOf r k = placementOf b i) /\
  (forall i k, copied b i r k -> parent b i = 0 -> parent r k = fr_parentJoint f /\ placementOf r k = se3_mul (se3_mul (fr_placement f) aMb) (placementOf b i)).
Proof. intros A. exact (fin_place eps a b fi f aMb A r). Qed.
(* hypotheses met: C47_append_ex *)
Print Assumptions C47_append_placements.

(** the joints of a are where they are in a; those of b are where they are in b, seen from the mounting placement *)
Theorem C47_append_positions (eps : R) (a b : Model) (fi : nat) (f : Frame) (aMb : SE3) (r : Model) : appendable eps a b fi f -> appendModel eps neutralVector a b fi aMb = Ok r tt ->
  forall qa qb qr, validModel a -> validModel b -> sameCoordinates a r qa qr -> sameCoordinates b r qb qr ->
  (forall i k, stands a r i k -> worldPl r qr k = worldPl a qa i) /\
  (forall i k, copied b i r k -> worldPl r qr k = se3_mul (se3_mul (worldPl a qa (fr_parentJoint f)) (se3_mul (fr_placement f) aMb)) (worldPl b qb i)).
Proof. intros A. exact (fin_world eps a b fi f aMb A r). Qed.
Example C47_append_motion_ex (eps : R) : validModel exTree /\ validModel (exLock eps) /\ validState exTree apQa /\ validState (exLock eps) apQb /\
  sameCoordinates exTree (rTree eps) apQa apQr /\ sameCoordinates (exLock eps) (rTree eps) apQb apQr /\
  sameVelocities exTree (rTree eps) apQa apQr /\ sameVelocities (exLock eps) (rTree eps) apQb apQr /\ isRotation (rot (fr_placement mountF)) /\ isRotation (rot apM).
Proof. exact (rTree_states eps). Qed.
Print Assumptions C47_append_positions.
(** and the same for velocities: the bodies of b have their own velocity plus the one of the mounting placement *)
Theorem C47_append_velocities (eps : R) (a b : Model) (fi : nat) (f : Frame) (aMb : SE3) (r : Model) : appendable eps a b fi f -> appendModel eps neutralVector a b fi aMb = Ok r tt ->
  forall qa qb qr, validModel a -> validModel b -> sameCoordinates a r qa qr -> sameCoordinates b r qb qr ->
  validState a qa -> validState b qb -> isRotation (rot (fr_placement f)) -> isRotation (rot aMb) ->
  forall wa wb wr, sameVelocities a r wa wr -> sameVelocities b r wb wr ->
  (forall i k, stands a r i k -> bodyVel r qr wr k = bodyVel a qa wa i) /\
  (forall i k, copied b i r k -> bodyVel r qr wr k = carriedVel b qb wb (se3_mul (fr_placement f) aMb) (bodyVel a qa wa (fr_parentJoint f)) i).
Proof. intros A. exact (fin_vel eps a b fi f aMb A r). Qed.
(* hypotheses met: C47_append_ex, C47_append_motion_ex *)
Print Assumptions C47_append_velocities.
(** the kinetic energy of the result is that of a plus that of the bodies of b, moving with these velocities *)
Theorem C47_append_kinetic (eps : R) (a b : Model) (fi : nat) (f : Frame) (aMb : SE3) (r : Model) : appendable eps a b fi f -> appendModel eps neutralVector a b fi aMb = Ok r tt ->
  forall qa qb qr, validModel a -> validModel b -> sameCoordinates a r qa qr -> sameCoordinates b r qb qr ->
  validState a qa -> validState b qb -> isRotation (rot (fr_placement f)) -> isRotation (rot aMb) ->
  forall wa wb wr wa' wb' wr', regularMasses eps a -> regularMasses eps b -> plainFrames a -> plainFrames b ->
  sameVelocities a r wa wr -> sameVelocities b r wb wr -> sameVelocities a r wa' wr' -> sameVelocities b r wb' wr' ->
  let V w i := carriedVel b qb (snd w) (se3_mul (fr_placement f) aMb) (bodyVel a qa (fst w) (fr_parentJoint f)) i in
  kineticForm r qr wr wr' = (kineticForm a qa wa wa' + sumN (m_njoints b) (fun i => v6dot (V (wa, wb) i) (inertia_mul (inertiaOf b i) (V (wa', wb') i))))%R.
Proof. intros A. exact (fin_kinetic eps a b fi f aMb A r). Qed.
Example C47_append_masses_ex (eps : R) : (0 < eps <= 2)%R -> regularMasses eps exTree /\ regularMasses eps (exLock eps) /\ plainFrames exTree /\ plainFrames (exLock eps).
Proof. exact (rTree_masses eps). Qed.
Print Assumptions C47_append_kinetic.

(** masses add up; joints keep their inertia, and the mounting joint also carries the body fixed to the universe of b *)
Theorem C47_append_mass (eps : R) (a b : Model) (fi : nat) (f : Frame) (aMb : SE3) (r : Model) : appendable eps a b fi f -> appendModel eps neutralVector a b fi aMb = Ok r tt ->
  totalMass r = (totalMass a + totalMass b)%R.
Proof. intros A. exact (fin_mass eps a b fi f aMb A r). Qed.
(* hypotheses met: C47_append_ex *)
Print Assumptions C47_append_mass.
Theorem C47_append_inertias (eps : R) (a b : Model) (fi : nat) (f : Frame) (aMb : SE3) (r : Model) : appendable eps a b fi f -> appendModel eps neutralVector a b fi aMb = Ok r tt ->
  regularMasses eps a -> regularMasses eps b -> plainFrames a -> plainFrames b ->
  (forall i k, stands a r i k -> i <> fr_parentJoint f -> inertia_matrix (inertiaOf r k) = inertia_matrix (inertiaOf a i)) /\
  inertia_matrix (inertiaOf r (fr_parentJoint f)) =
    m6add (inertia_matrix (inertiaOf a (fr_parentJoint f))) (inertia_matrix (inertia_act (se3_mul (fr_placement f) aMb) (inertiaOf b 0))) /\
  (forall i k, copied b i r k -> inertia_matrix (inertiaOf r k) = inertia_matrix (inertiaOf b i)).
Proof. intros A. exact (fin_inertias eps a b fi f aMb A r). Qed.
(* hypotheses met: C47_append_ex, C47_append_masses_ex *)
Print Assumptions C47_append_inertias.

(** the frames are those of a and those of b (universe of b excepted), once each, attached to the copies of their joints;
    those attached to the universe of b move to the mounting joint *)
Theorem C47_append_frames (eps : R) (a b : Model) (fi : nat) (f : Frame) (aMb : SE3) (r : Model) : appendable eps a b fi f -> appendModel eps neutralVector a b fi aMb = Ok r tt ->
  (forall h, In h (m_frames a) -> exists g, In g (m_frames r) /\ fr_name g = fr_name h /\ fr_type g = fr_type h /\ fr_inertia g = fr_inertia h /\
     stands a r (fr_parentJoint h) (fr_parentJoint g) /\ fr_placement g = fr_placement h) /\
  (forall h, In h (tl (m_frames b)) -> exists g, In g (m_frames r) /\ fr_name g = fr_name h /\ fr_type g = fr_type h /\ fr_inertia g = fr_inertia h /\
     (fr_parentJoint h <> 0 -> copied b (fr_parentJoint h) r (fr_parentJoint g) /\ fr_placement g = fr_placement h) /\
     (fr_parentJoint h = 0 -> fr_parentJoint g = fr_parentJoint f /\ fr_placement g = se3_mul (se3_mul (fr_placement f) aMb) (fr_placement h))) /\
  (forall g, In g (m_frames r) -> exists h, In h (m_frames a ++ tl (m_frames b)) /\ fr_name h = fr_name g) /\ NoDup (map fr_name (m_frames r)).
Proof. intros A. exact (fin_frames eps a b fi f aMb A r). Qed.
(* hypotheses met: C47_append_ex *)
Print Assumptions C47_append_frames.

(** a reference configuration of the result is made of those of the same name in a and in b; the joints of a model that has
    none are at their neutral configuration *)
Theorem C47_append_references (eps : R) (a b : Model) (fi : nat) (f : Frame) (aMb : SE3) (r : Model) : appendable eps a b fi f -> appendModel eps neutralVector a b fi aMb = Ok r tt ->
  forall key, (lookup key (m_refs r) = None <-> lookup key (m_refs a) = None /\ lookup key (m_refs b) = None) /\
  forall x, lookup key (m_refs r) = Some x -> length x = m_nq r /\
   (forall i k, copied a i r k -> segQ r k x = match lookup key (m_refs a) with Some q => segQ a i q | None => segQ r k (neutralVector r) end) /\
   (forall i k, copied b i r k -> segQ r k x = match lookup key (m_refs b) with Some q => segQ b i q | None => segQ r k (neutralVector r) end).
Proof. intros A. exact (fin_refs eps a b fi f aMb A r). Qed.
Example C47_append_references_ex (eps : R) : lookup "home" (m_refs (rTree eps)) = Some [1; 3; 7; 8; 9; 2]%R /\ lookup "park" (m_refs (rTree eps)) = Some [4; 6; 0; 0; 0; 5]%R.
Proof. exact (rTree_refs eps). Qed.
Print Assumptions C47_append_references.

(** a frame index out of range is rejected *)
Theorem C47_append_rejects (eps : R) (a b : Model) (fi : nat) (aMb : SE3) : m_nframes a <= fi -> appendModel eps neutralVector a b fi aMb = Throw emptyModel.
Proof. exact (append_rejects eps neutralVector a b fi aMb). Qed.
Example C47_append_rejects_ex : m_nframes exTree <= 3. Proof. exact (le_n 3). Qed.
Print Assumptions C47_append_rejects.

(** but gravity, name and armature are not kept *)
Theorem C47_append_lost_refuted (eps : R) :
  (forall a b fi f aMb r, appendable eps a b fi f -> appendModel eps neutralVector a b fi aMb = Ok r tt ->
     m_gravity r = m_gravity emptyModel /\ m_name r = m_name emptyModel /\ m_armature r = repeat 0%R (m_nv r)) /\
  appendable eps apG emptyModel 1 mountF /\
  exists r, appendModel eps neutralVector apG emptyModel 1 apM = Ok r tt /\ m_gravity apG = mkV6 v3zero v3zero /\ m_gravity r <> m_gravity apG /\
  copied apG 1 r 1 /\ segV apG 1 (m_armature apG) = [1%R] /\ segV r 1 (m_armature r) = [0%R].
Proof. exact (conj (fun a b fi f aMb r A => fin_lost eps a b fi f aMb A r) (conj (apG_appendable eps) (apG_lost eps))). Qed.
Print Assumptions C47_append_lost_refuted.
(** a mimic joint below the mounting joint that follows a joint of another branch reads the output out of bounds *)
Theorem C47_append_mimic_refuted (eps : R) : Built eps apw1 /\ appendModel eps neutralVector apw1 emptyModel 1 apM = Undef.
Proof. exact (followed_later eps). Qed.
Print Assumptions C47_append_mimic_refuted.
(** and the inertia of a joint changes when a frame placed away from the origin carries some: appending the empty model
    moves the centre of mass of joint 1 *)
Theorem C47_append_frame_inertia_refuted (eps : R) : (0 < eps <= 1)%R -> Built eps (apm2 eps) /\ vz (lever (inertiaOf (apm2 eps) 1)) = (1 / 2)%R /\
  exists r, appendModel eps neutralVector (apm2 eps) emptyModel 0 se3_Identity = Ok r tt /\ vz (lever (inertiaOf r 1)) = 1%R.
Proof. exact (fun H => conj (apm2_built eps) (conj (apm2_lever eps H) (frame_inertia_moved eps H))). Qed.
Example C47_append_frame_inertia_ex : (0 < 1 <= 1)%R. Proof. exact (conj Rlt_0_1 (Rle_refl 1)). Qed.
Print Assumptions C47_append_frame_inertia_refuted.
