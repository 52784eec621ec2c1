(** Property theorem C48 (turning joints into mimic joints). Statements only. *)
From Coq Require Import Reals List Arith.
From Verif Require Import Vec3 Spatial Inertia Joints Spec_Joints Model Spec_Model ModelFacts ModelTree Data Kinematics Spec_Kin Mimic Spec_Mimic MimicFacts MimicFacts2 MimicFacts3 MimicFacts4 CrbaFacts4 MimicFacts5.
Import ListNotations.
Local Open Scope nat_scope.

(** turning joint b into a mimic of joint a succeeds; the result is a consistent model (indexes consecutive, mimic joints
    reading the range of the joint they follow: wellFormed) in which exactly the coordinates of b are gone: the sizes drop
    by its sizes, the ordinary joints after b move down by as much, and every limit and rotor vector loses the segment of
    b; the tree, the placements, inertias, names, frames and the types of the other joints do not change *)
Theorem C48_transform (eps : R) (out m : Model) (a b : nat) (s o : R) : Assembled eps m -> mimicPair m a b ->
  exists m', transformJointIntoMimic out m a b s o = Ok m' tt /\
  wellFormed m' /\ unchanged m m' b /\
  m_nq m' + nqOf m b = m_nq m /\ m_nv m' + nvOf m b = m_nv m /\
  (jm_ref (joint m' b) = a /\ nqOf m' b = 0 /\ nvOf m' b = 0 /\ exists j, jm_type (joint m b) = JSimple j /\ jm_type (joint m' b) = JMimic j s o) /\
  (forall i, 0 < i < m_njoints m -> i <> b -> isMimic (joint m i) = false ->
     idx_q m' i = (if i <? b then idx_q m i else idx_q m i - nqOf m b) /\ idx_v m' i = (if i <? b then idx_v m i else idx_v m i - nvOf m b)) /\
  m_mimicking m' = filter (fun i => isMimic (joint m' i)) (seq 1 (m_njoints m' - 1)) /\
  (let rv := removeSeg (idx_v m b) (nvOf m b) in let rq := removeSeg (idx_q m b) (nqOf m b) in
   m_effort m' = rv (m_effort m) /\ m_velocity m' = rv (m_velocity m) /\ m_armature m' = rv (m_armature m) /\ m_rotorInertia m' = rv (m_rotorInertia m) /\
   m_rotorGearRatio m' = rv (m_rotorGearRatio m) /\ m_friction m' = rv (m_friction m) /\ m_damping m' = rv (m_damping m) /\
   m_lower m' = rq (m_lower m) /\ m_upper m' = rq (m_upper m)).
Proof. exact (transform_all eps out m a b s o). Qed.
Example C48_transform_ex (eps : R) : Assembled eps chain4 /\ mimicPair chain4 1 3 /\ isMimic (joint chain4 4) = true.
Proof. exact (conj (As_built eps chain4 (chain4_built eps)) (conj chain4_pair eq_refl)). Qed.
Print Assumptions C48_transform.

(** the transformed model moves like the original one: when q' gives the ordinary joints the coordinates they have in q,
    and q gives b the coordinate scaling*q_a + offset (and v gives it scaling*v_a), every joint has the same placement
    and the same velocity in both models, whatever the data contained *)
Theorem C48_kinematics (eps : R) (out m m' : Model) (a b : nat) (s o : R) (j : Joint1) (q q' v v' : vec) (d d' : Data) (i : nat) :
  Assembled eps m -> validModel m -> mimicPair m a b -> transformJointIntoMimic out m a b s o = Ok m' tt ->
  jm_type (joint m b) = JSimple j -> sameConfigBut m m' b q q' -> driven j s o (shift (idx_q m a) q) (shift (idx_q m b) q) ->
  sameVelocityBut m m' b v v' -> v (idx_v m b) = (s * v (idx_v m a))%R -> 0 < i < m_njoints m ->
  pl (rows (forwardKinematics0 m' d' q') i) F_oMi = pl (rows (forwardKinematics0 m d q) i) F_oMi /\
  pl (rows (forwardKinematics1 m' d' q' v') i) F_oMi = pl (rows (forwardKinematics1 m d q v) i) F_oMi /\
  mo (rows (forwardKinematics1 m' d' q' v') i) F_v = mo (rows (forwardKinematics1 m d q v) i) F_v.
Proof. exact (transform_motion eps out m m' a b s o j q q' v v' d d' i). Qed.
Example C48_kinematics_ex (eps : R) (out : Model) : Assembled eps chain4 /\ validModel chain4 /\ mimicPair chain4 1 3 /\ jm_type (joint chain4 3) = JSimple (JPrismatic 0) /\
  exists m', transformJointIntoMimic out chain4 1 3 2 1 = Ok m' tt /\ sameConfigBut chain4 m' 3 chQ chQ' /\
  driven (JPrismatic 0) 2 1 (shift (idx_q chain4 1) chQ) (shift (idx_q chain4 3) chQ) /\
  sameVelocityBut chain4 m' 3 chV chV' /\ chV (idx_v chain4 3) = (2 * chV (idx_v chain4 1))%R.
Proof. exact (conj (As_built eps chain4 (chain4_built eps)) (conj chain4_valid (conj chain4_pair (conj eq_refl (chain4_motion out))))). Qed.
Print Assumptions C48_kinematics.
(** and the same acceleration, unless b is a helical joint (the motion subspace of a mimic of a helical joint is that
    of pitch 0, see C49_helical) *)
Theorem C48_acceleration (eps : R) (out m m' : Model) (a b : nat) (s o : R) (j : Joint1) (q q' v v' c c' : vec) (d d' : Data) (i : nat) :
  Assembled eps m -> validModel m -> mimicPair m a b -> transformJointIntoMimic out m a b s o = Ok m' tt ->
  jm_type (joint m b) = JSimple j -> ~ isHelical j -> sameConfigBut m m' b q q' -> driven j s o (shift (idx_q m a) q) (shift (idx_q m b) q) ->
  sameVelocityBut m m' b v v' -> v (idx_v m b) = (s * v (idx_v m a))%R ->
  sameVelocityBut m m' b c c' -> c (idx_v m b) = (s * c (idx_v m a))%R -> 0 < i < m_njoints m ->
  mo (rows (forwardKinematics2 m' d' q' v' c') i) F_a = mo (rows (forwardKinematics2 m d q v c) i) F_a.
Proof. exact (transform_acceleration eps out m m' a b s o j q q' v v' c c' d d' i). Qed.
(* hypotheses met: C48_kinematics_ex, with the accelerations chV and chV' *)
Print Assumptions C48_acceleration.

(** buildMimicModel: the same for any list of pairs *)
Theorem C48_build (eps : R) (l : list (nat * nat * R * R)) (out m : Model) : Assembled eps m -> validModel m -> mimicPairs m l -> noHelical m l -> l <> [] ->
  exists m', buildMimicModel out m l = Ok m' tt /\ Assembled eps m' /\ m_njoints m' = m_njoints m /\
    (m_nq m' + sum (map (fun t => nqOf m (target t)) l) = m_nq m /\ m_nv m' + sum (map (fun t => nvOf m (target t)) l) = m_nv m) /\
    (forall i, 0 < i < m_njoints m -> isMimic (joint m' i) = true <-> (isMimic (joint m i) = true \/ isTarget l i)) /\
    forall q v q' v' d d', allDriven m l q v -> sameConfigElse m m' l q q' -> sameVelocityElse m m' l v v' ->
      forall i, 0 < i < m_njoints m ->
        pl (rows (forwardKinematics1 m' d' q' v') i) F_oMi = pl (rows (forwardKinematics1 m d q v) i) F_oMi /\
        mo (rows (forwardKinematics1 m' d' q' v') i) F_v = mo (rows (forwardKinematics1 m d q v) i) F_v.
Proof. exact (build_ok eps l out m). Qed.
Example C48_build_ex (eps : R) : Assembled eps chain4o /\ validModel chain4o /\ mimicPairs chain4o twoPairs /\ noHelical chain4o twoPairs /\ twoPairs <> [] /\
  allDriven chain4o twoPairs c4Q (fun _ => 0%R).
Proof. exact (conj (As_built eps _ (chain4o_built eps)) (conj chain4o_valid (conj (proj1 chain4o_pairs) (conj (proj2 chain4o_pairs) (conj twoPairs_nil chain4o_driven))))). Qed.
Print Assumptions C48_build.

(** joints beyond the number of joints and pairs in the wrong order are rejected, and the output model is not touched *)
Theorem C48_rejects_range (out m : Model) (a b : nat) (s o : R) : m_njoints m < a \/ m_njoints m < b \/ b <= a ->
  transformJointIntoMimic out m a b s o = Throw out.
Proof. exact (reject_range out m a b s o). Qed.
Example C48_rejects_range_ex : m_njoints chain4 < 6 /\ 2 <= 3. Proof. exact (conj (le_n 6) (le_S 2 2 (le_n 2))). Qed.
Print Assumptions C48_rejects_range.
(** joints of other types, and mimics of the universe, are rejected *)
Theorem C48_rejects_type (eps : R) (out m : Model) (a b : nat) (s o : R) : Assembled eps m -> a < b < m_njoints m ->
  (forall j, jm_type (joint m b) = JSimple j -> ~ mimicable j) -> transformJointIntoMimic out m a b s o = Throw m.
Proof. exact (fun A => reject_type out m a b s o (proj1 (Assembled_good eps m A))). Qed.
Example C48_rejects_type_ex : 1 < 4 < m_njoints chain4 /\ forall j, jm_type (joint chain4 4) = JSimple j -> ~ mimicable j.
Proof. exact chain4_no_type. Qed.
Print Assumptions C48_rejects_type.
Theorem C48_rejects_universe (eps : R) (out m m' : Model) (b : nat) (s o : R) : Assembled eps m -> transformJointIntoMimic out m 0 b s o <> Ok m' tt.
Proof. exact (fun A => reject_universe out m b s o (proj1 (Assembled_good eps m A)) m'). Qed.
(* hypotheses met: C48_transform_ex *)
Print Assumptions C48_rejects_universe.

(** but the bound is off by one: the first index past the last joint passes the checks and is used to read the joints *)
Theorem C48_bound_refuted (eps : R) (out m : Model) (a : nat) (s o : R) : Assembled eps m -> a < m_njoints m ->
  transformJointIntoMimic out m a (m_njoints m) s o = Undef.
Proof. exact (fun A => bound_undefined out m a s o (proj1 (Assembled_good eps m A))). Qed.
(* hypotheses met: C48_transform_ex *)
Print Assumptions C48_bound_refuted.
(** if a mimic joint follows b, it ends up with the coordinate of a and its own scaling only: joint 4 of the example, which
    follows joint 2, is at 5 in the original and at 4 in the transformed model, which is not well formed *)
Theorem C48_followed_refuted (eps : R) (out : Model) (d d' : Data) : Built eps chain4 /\
  exists m', transformJointIntoMimic out chain4 1 2 2 0 = Ok m' tt /\ sameConfigBut chain4 m' 2 folQ folQ' /\
  driven (JPrismatic 0) 2 0 (shift (idx_q chain4 1) folQ) (shift (idx_q chain4 2) folQ) /\
  vx (trans (pl (rows (forwardKinematics0 chain4 d folQ) 4) F_oMi)) = 5%R /\ vx (trans (pl (rows (forwardKinematics0 m' d' folQ') 4) F_oMi)) = 4%R /\ ~ wellFormed m'.
Proof. exact (conj (chain4_built eps) (fol_motion out d d')). Qed.
Print Assumptions C48_followed_refuted.
(** and if a is itself a mimic joint, b follows the joint a follows, without the scaling of a *)
Theorem C48_mimic_of_mimic_refuted (eps : R) (out : Model) (d d' : Data) : Built eps chain3 /\
  exists m', buildMimicModel out chain3 mmPairs = Ok m' tt /\ allDriven chain3 mmPairs mmQ (fun _ => 0%R) /\ sameConfigElse chain3 m' mmPairs mmQ mmQ' /\
  vx (trans (pl (rows (forwardKinematics0 chain3 d mmQ) 3) F_oMi)) = 5%R /\ vx (trans (pl (rows (forwardKinematics0 m' d' mmQ') 3) F_oMi)) = 4%R.
Proof. exact (conj (ex_intro _ [] (chain3_history eps)) (mm_motion out d d')). Qed.
Print Assumptions C48_mimic_of_mimic_refuted.
(** mimicking_joints and mimicked_joints are sorted separately, so they no longer correspond element by element, as their
    documentation says they do *)
Theorem C48_pairing_refuted (eps : R) (out : Model) : Built eps chain4o /\ mimicPairs chain4o twoPairs /\
  exists m', buildMimicModel out chain4o twoPairs = Ok m' tt /\ m_mimicking m' = [3; 4] /\ m_mimicked m' = [1; 2] /\
  jm_ref (joint m' 3) = 2 /\ jm_ref (joint m' 4) = 1.
Proof. exact (conj (chain4o_built eps) (conj (proj1 chain4o_pairs) (pairing out))). Qed.
Print Assumptions C48_pairing_refuted.
(** the reference configurations keep the size they had, so none of them fits the transformed model *)
Theorem C48_references_refuted (eps : R) (out m m' : Model) (a b : nat) (s o : R) (n : String.string) (r : list R) : Assembled eps m -> mimicPair m a b ->
  transformJointIntoMimic out m a b s o = Ok m' tt -> In (n, r) (m_refs m) -> length r = m_nq m -> In (n, r) (m_refs m') /\ length r <> m_nq m'.
Proof. exact (references_kept eps out m m' a b s o n r). Qed.
(* hypotheses met: C48_transform_ex; the reference configurations are a public member of the model *)
Print Assumptions C48_references_refuted.
(** with an empty list of pairs the output model is left as it was, whatever the input *)
Theorem C48_empty_refuted (out m : Model) : buildMimicModel out m [] = Ok out tt.
Proof. exact (eq_refl (Ok out tt)). Qed.
Print Assumptions C48_empty_refuted.
