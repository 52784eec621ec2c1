(** Property theorems C74 (computeAllTerms). Statements only. *)
From Coq Require Import Reals List Arith.
From Verif Require Import Vec3 Spatial Inertia Joints Model Spec_Model ModelFacts ModelTree ModelFacts2 ModelFacts3 Sums Data Kinematics Spec_Kin Spec_Mass KinFacts3 Spec_Dyn Rnea Crba CrbaFacts3 CrbaFacts4 Spec_Jac Jacobian Spec_Com Com ComFacts5 Centroidal Dccrba AllTerms AllTermsFacts3 AllTermsFacts4.
Import ListNotations.
Local Open Scope nat_scope.

(** the placements, velocities and accelerations of the joints are those of forwardKinematics(q, v, 0), whatever both Data held *)
Theorem C74_kinematics (eps : R) (m : Model) (d d0 : Data) (q v : vec) :
  Built eps m -> validModel m -> noMimic m -> regularMasses eps m -> depthFirst m -> subtreeMass m 0 <> 0%R -> validState m q ->
  let e := computeAllTerms eps m d q v in let f := forwardKinematics2 m d0 q v (fun _ => 0%R) in
  forall i, 0 < i < m_njoints m -> pl (rows e i) F_liMi = pl (rows f i) F_liMi /\ pl (rows e i) F_oMi = pl (rows f i) F_oMi /\
    mo (rows e i) F_v = mo (rows f i) F_v /\ mo (rows e i) F_a = mo (rows f i) F_a.
Proof. exact (fun B V N RM DF HM Q => cat_kin eps m B V N RM DF HM d d0 q v Q). Qed.
Example C74_ex (s : R) : let m := exD (1/1000) in Built (1/1000) m /\ validModel m /\ noMimic m /\ depthFirst m /\ regularMasses (1/1000) m /\ subtreeMass m 0 <> 0%R /\
  ang (m_gravity m) = v3zero /\ validState m (exQ s).
Proof. exact (conj (exD_built _) (conj (exD_valid _) (conj (exD_noMimic _) (conj (exD_df _) (conj exD_regularMasses (conj exD_masses (conj eq_refl (exD_validState _ s)))))))). Qed.
Print Assumptions C74_kinematics.

(** the joint Jacobians and their time variation are those of computeJointJacobiansTimeVariation *)
Theorem C74_jacobians (eps : R) (m : Model) (d d0 : Data) (q v : vec) :
  Built eps m -> validModel m -> noMimic m -> regularMasses eps m -> depthFirst m -> subtreeMass m 0 <> 0%R -> validState m q ->
  let e := computeAllTerms eps m d q v in let f := computeJointJacobiansTimeVariation m d0 q v in
  forall k, k < m_nv m -> co (gl e) F_J k = co (gl f) F_J k /\ co (gl e) F_dJ k = co (gl f) F_dJ k.
Proof. exact (fun B V N RM DF HM Q => cat_jac eps m B V N RM DF HM d d0 q v Q). Qed.
(* hypotheses met: C74_ex *)
Print Assumptions C74_jacobians.

(** the upper triangle of M is that of the mass matrix for the dofs on one branch (the other entries, where the mass matrix is
    zero, are left as they were), and nle is the vector of nonLinearEffects *)
Theorem C74_dynamics (eps : R) (m : Model) (d d0 : Data) (q v : vec) :
  Built eps m -> validModel m -> noMimic m -> regularMasses eps m -> depthFirst m -> subtreeMass m 0 <> 0%R -> validState m q ->
  let e := computeAllTerms eps m d q v in
  (forall k l, k <= l < m_nv m -> (sameBranch m k l -> ma (gl e) F_M k l = massMatrix m q k l) /\
     (~ sameBranch m k l -> massMatrix m q k l = 0%R /\ ma (gl e) F_M k l = ma (gl d) F_M k l)) /\
  (forall k, k < m_nv m -> ve (gl e) F_nle k = nonLinearEffects m d0 q v k).
Proof. exact (fun B V N RM DF HM Q => cat_dyn eps m B V N RM DF HM d d0 q v Q). Qed.
(* hypotheses met: C74_ex *)
Print Assumptions C74_dynamics.

(** the masses, and the centres of mass and their velocities of the subtrees that have a mass, are those of centerOfMass(q, v),
    and Jcom is that of jacobianCenterOfMass *)
Theorem C74_com (eps : R) (m : Model) (d d0 : Data) (q v : vec) :
  Built eps m -> validModel m -> noMimic m -> regularMasses eps m -> depthFirst m -> subtreeMass m 0 <> 0%R -> validState m q ->
  let e := computeAllTerms eps m d q v in
  exists f, centerOfMass1 m d0 q v true = Ok f (p3 (rows e 0) F_com) /\
  (forall j, j < m_njoints m -> sc (rows e j) F_mass = sc (rows f j) F_mass) /\
  (forall j, j < m_njoints m -> subtreeMass m j <> 0%R -> p3 (rows e j) F_com = p3 (rows f j) F_com /\ p3 (rows e j) F_vcom = p3 (rows f j) F_vcom) /\
  (forall k, k < m_nv m -> jcom (gl e) k = jcom (gl (jacobianCenterOfMass m d0 q true)) k).
Proof. exact (fun B V N RM DF HM Q => cat_com eps m B V N RM DF HM d d0 q v Q). Qed.
(* hypotheses met: C74_ex *)
Print Assumptions C74_com.

(** the centroidal map, its time variation, the momentum and the centroidal inertia are those of dccrba *)
Theorem C74_centroidal (eps : R) (m : Model) (d d0 : Data) (q v : vec) :
  Built eps m -> validModel m -> noMimic m -> regularMasses eps m -> depthFirst m -> subtreeMass m 0 <> 0%R -> validState m q ->
  let e := computeAllTerms eps m d q v in let f := dccrba eps m d0 q v in
  (forall k, k < m_nv m -> co (gl e) F_Ag k = co (gl f) F_Ag k /\ co (gl e) F_dAg k = co (gl f) F_dAg k) /\
  gv (gl e) F_hg = gv (gl f) F_hg /\ ig (gl e) = ig (gl f).
Proof. exact (fun B V N RM DF HM Q => cat_cent eps m B V N RM DF HM d d0 q v Q). Qed.
(* hypotheses met: C74_ex *)
Print Assumptions C74_centroidal.

(** the energies are those of the algorithms that compute them *)
Theorem C74_energy (eps : R) (m : Model) (d d0 : Data) (q v : vec) :
  Built eps m -> validModel m -> noMimic m -> regularMasses eps m -> depthFirst m -> subtreeMass m 0 <> 0%R -> validState m q ->
  let e := computeAllTerms eps m d q v in
  gs (gl e) F_kinetic = computeKineticEnergy m d0 q v /\ gs (gl e) F_potential = computePotentialEnergy m d0 q /\
  gs (gl e) F_mechanical = computeMechanicalEnergy m d0 q v.
Proof. exact (fun B V N RM DF HM Q => cat_energy eps m B V N RM DF HM d d0 q v Q). Qed.
(* hypotheses met: C74_ex *)
Print Assumptions C74_energy.

(** g is the vector of computeGeneralizedGravity when the gravity has no angular part *)
Theorem C74_gravity_partial (eps : R) (m : Model) (d d0 : Data) (q v : vec) (k : nat) :
  Built eps m -> validModel m -> noMimic m -> regularMasses eps m -> depthFirst m -> subtreeMass m 0 <> 0%R -> ang (m_gravity m) = v3zero -> validState m q -> k < m_nv m ->
  ve (gl (computeAllTerms eps m d q v)) F_g k = computeGeneralizedGravity m d0 q k.
Proof. exact (fun B V N RM DF HM => cat_gravity eps m B V N RM DF HM d d0 q v k). Qed.
(* hypotheses met: C74_ex *)
Print Assumptions C74_gravity_partial.
(** it is not when the gravity has an angular part, which computeGeneralizedGravity takes into account *)
Theorem C74_gravity_refuted (d d0 : Data) : exists m q v k, Built (1/1000) m /\ validModel m /\ noMimic m /\ depthFirst m /\ regularMasses (1/1000) m /\
  subtreeMass m 0 <> 0%R /\ validState m q /\ k < m_nv m /\
  ve (gl (computeAllTerms (1/1000) m d q v)) F_g k <> computeGeneralizedGravity m d0 q k.
Proof. exact (angular_refuted d d0). Qed.
Print Assumptions C74_gravity_refuted.

(** dhg is the rate of the centroidal momentum at zero joint acceleration when there is no gravity and data.f[0] was zero *)
Theorem C74_rate_partial (eps : R) (m : Model) (d d0 : Data) (q v : vec) :
  Built eps m -> validModel m -> noMimic m -> regularMasses eps m -> depthFirst m -> subtreeMass m 0 <> 0%R -> m_gravity m = v6zero -> mo (rows d 0) F_f = v6zero -> validState m q ->
  gv (gl (computeAllTerms eps m d q v)) F_dhg = gv (gl (computeCentroidalMomentumTimeVariation m d0 q v (fun _ => 0%R))) F_dhg.
Proof. exact (fun B V N RM DF HM => cat_rate eps m B V N RM DF HM d d0 q v). Qed.
Example C74_rate_ex (s : R) : let m := withGravity (exD (1/1000)) v6zero in Built (1/1000) m /\ validModel m /\ noMimic m /\ depthFirst m /\ regularMasses (1/1000) m /\ validState m (exQ s) /\
  subtreeMass m 0 <> 0%R /\ m_gravity m = v6zero /\ mo (rows (newData m) 0) F_f = v6zero.
Proof. exact (exD_gravity0 s). Qed.
Print Assumptions C74_rate_partial.
(** under gravity it is not, even on fresh Data: it contains the weights of the bodies *)
Theorem C74_rate_refuted (d0 : Data) : exists m q v, Built (1/1000) m /\ validModel m /\ noMimic m /\ depthFirst m /\ regularMasses (1/1000) m /\
  subtreeMass m 0 <> 0%R /\ validState m q /\
  gv (gl (computeAllTerms (1/1000) m (newData m) q v)) F_dhg <> gv (gl (computeCentroidalMomentumTimeVariation m d0 q v (fun _ => 0%R))) F_dhg.
Proof. exact (rate_refuted d0). Qed.
Print Assumptions C74_rate_refuted.
(** and a second call on the same Data with the same arguments gives another dhg, whatever the Data held before the first *)
Theorem C74_repeat_refuted (d : Data) : exists m q v, Built (1/1000) m /\ validModel m /\ noMimic m /\ depthFirst m /\ regularMasses (1/1000) m /\
  subtreeMass m 0 <> 0%R /\ validState m q /\
  let e := computeAllTerms (1/1000) m d q v in gv (gl (computeAllTerms (1/1000) m e q v)) F_dhg <> gv (gl e) F_dhg.
Proof. exact (twice_refuted d). Qed.
Print Assumptions C74_repeat_refuted.
