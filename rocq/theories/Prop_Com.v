(** Property theorems C36 (energies), C37 (centroidal momentum) and C38 (centre of mass). Statements only. *)
From Coq Require Import Reals List Arith.
From Verif Require Import Vec3 Spatial Inertia Joints Spec_Joints Deriv Model Spec_Model ModelFacts ModelTree ModelFacts2 ModelFacts3 Data Kinematics Spec_Kin KinFacts3 Spec_Mass Sums Spec_Dyn Rnea DynFacts2 TreeSums KinFacts2 MassFacts Crba CrbaFacts2 CrbaFacts3 CrbaFacts4 Spec_Jac JacFacts3 Spec_Com Com ComFacts ComFacts2 ComFacts3 Centroidal CentFacts CentFacts2 ComFacts5 ComFacts6.
Import ListNotations.
Local Open Scope nat_scope.

(** kinetic energy: half v.M(q).v, the rotor inertias (on the diagonal of massMatrix) included; with mimic joints as long
    as the mimicked degrees of freedom have no rotor inertia *)
Theorem C36_kinetic_partial (eps : R) (m : Model) (d : Data) (q v : vec) :
  Built eps m -> validModel m -> plainRotors m -> validState m q ->
  computeKineticEnergy m d q v = (/2 * dotv (m_nv m) v (fun k => dotv (m_nv m) (massMatrix m q k) v))%R.
Proof. exact (fun B V P Q => kinetic_matrix m (Built_wf _ _ B) (Built_tree _ _ B) V d q v Q P). Qed.
Example C36_ex (eps t : R) : Built eps (exTree eps) /\ validModel (exTree eps) /\ massive (exTree eps) /\ plainRotors (exTree eps) /\ ang (m_gravity (exTree eps)) = v3zero /\
  (forall s, validState (exTree eps) (exQ s)) /\ (forall s, moves (exTree eps) exQ (exV s) s) /\ accelerates (exTree eps) exV exA t /\ isMimic (joint (exTree eps) 4) = true.
Proof. exact (exCom eps t). Qed.
Print Assumptions C36_kinetic_partial.
(** every model without mimic joint is of that kind *)
Theorem C36_no_mimic (m : Model) : noMimic m -> plainRotors m.
Proof. exact (noMimic_plain m). Qed.
Print Assumptions C36_no_mimic.
(** the restriction is needed: the rotor of a mimicked joint is counted once more for each mimic joint *)
Theorem C36_mimic_refuted (eps : R) (d : Data) : exists m q v, Built eps m /\ validModel m /\ validState m q /\
  computeKineticEnergy m d q v = 1%R /\ (/2 * dotv (m_nv m) v (fun k => dotv (m_nv m) (massMatrix m q k) v))%R = (1/2)%R.
Proof. exact (ex_intro _ exR (ex_intro _ exPq (ex_intro _ exPq (exR_refuted eps d)))). Qed.
Print Assumptions C36_mimic_refuted.
(** potential energy *)
Theorem C36_potential (eps : R) (m : Model) (d : Data) (q : vec) : Built eps m ->
  computePotentialEnergy m d q = (- bodies m (fun i => mass (inertiaOf m i) * v3dot (lin (m_gravity m)) (bodyCom m q i)))%R.
Proof. exact (fun B => potential_energy m (Built_wf _ _ B) (Built_tree _ _ B) d q). Qed.
(* hypotheses met: C36_ex *)
Print Assumptions C36_potential.
(** mechanical energy: the sum of the two, whatever the data structures hold before the calls *)
Theorem C36_mechanical (eps : R) (m : Model) (d d' d'' : Data) (q v : vec) : Built eps m ->
  computeMechanicalEnergy m d q v = (computeKineticEnergy m d' q v + computePotentialEnergy m d'' q)%R.
Proof. exact (fun B => mechanical_energy m (Built_wf _ _ B) (Built_tree _ _ B) d d' d'' q v). Qed.
(* hypotheses met: C36_ex *)
Print Assumptions C36_mechanical.
(** the potential energy changes at the rate given by the generalized gravity *)
Theorem C36_potential_rate (eps : R) (m : Model) (q : R -> vec) (v : vec) (t : R) (d : Data) :
  Built eps m -> validModel m -> ang (m_gravity m) = v3zero -> (forall s, validState m (q s)) -> moves m q v t ->
  deriv (fun s => computePotentialEnergy m d (q s)) (dotv (m_nv m) (computeGeneralizedGravity m d (q t)) v) t.
Proof. exact (fun B V G => potential_deriv m (Built_wf _ _ B) (Built_tree _ _ B) V G q v t d). Qed.
(* hypotheses met: C36_ex *)
Print Assumptions C36_potential_rate.
(** along every trajectory the mechanical energy changes at the rate of the power of the joint torques of inverse dynamics *)
Theorem C36_power_balance (eps : R) (m : Model) (q v : R -> vec) (a : vec) (t : R) (d d' : Data) :
  Built eps m -> validModel m -> plainRotors m -> ang (m_gravity m) = v3zero ->
  (forall s, validState m (q s)) -> moves m q (v t) t -> accelerates m v a t ->
  deriv (fun s => computeMechanicalEnergy m d (q s) (v s)) (dotv (m_nv m) (rnea m d' (q t) (v t) a) (v t)) t.
Proof. exact (fun B V P G Q Mv A => power_balance m (Built_wf _ _ B) (Built_tree _ _ B) V G (inRange m (Built_wf _ _ B) V) q v a t d d' Q Mv A P). Qed.
(* hypotheses met: C36_ex *)
Print Assumptions C36_power_balance.

(** centroidal momentum: the total momentum of the bodies, at the centre of mass *)
Theorem C37_momentum (eps : R) (m : Model) (d : Data) (q v : vec) :
  Built eps m -> validModel m -> validState m q -> subtreeMass m 0 <> 0%R ->
  gv (gl (computeCentroidalMomentum m d q v)) F_hg = atPoint (subtreeCom m q 0) (totalMomentum m q v).
Proof. exact (fun B V Q M => proj1 (proj2 (momentum_spec m (Built_wf _ _ B) (Built_tree _ _ B) V q v d Q M))). Qed.
(* hypotheses met: C36_ex *)
Print Assumptions C37_momentum.
(** its linear part is the total mass times the velocity of the centre of mass *)
Theorem C37_linear (eps : R) (m : Model) (q : R -> vec) (v : vec) (t : R) (d : Data) :
  Built eps m -> validModel m -> subtreeMass m 0 <> 0%R -> (forall s, validState m (q s)) -> moves m q v t ->
  let d' := computeCentroidalMomentum m d (q t) v in
  lin (gv (gl d') F_hg) = v3scale (computeTotalMass m) (p3 (rows d' 0) F_vcom) /\ deriv3 (fun s => subtreeCom m (q s) 0) (p3 (rows d' 0) F_vcom) t.
Proof. exact (fun B V => b_linear eps m B V q v t d). Qed.
(* hypotheses met: C36_ex *)
Print Assumptions C37_linear.
(** the centroidal map, of computeCentroidalMap and of ccrba, times a velocity is that momentum: mimic joints included *)
Theorem C37_map (eps : R) (m : Model) (d d0 : Data) (q v w : vec) :
  Built eps m -> validModel m -> regularMasses eps m -> validState m q -> subtreeMass m 0 <> 0%R ->
  let h := fun x => gv (gl (computeCentroidalMomentum m d0 q x)) F_hg in
  colsMul (m_nv m) (co (gl (computeCentroidalMap eps m d q)) F_Ag) w = h w /\
  colsMul (m_nv m) (co (gl (ccrba eps m d q v)) F_Ag) w = h w /\ gv (gl (ccrba eps m d q v)) F_hg = h v.
Proof. exact (fun B V => b_map eps m B V d d0 q v w). Qed.
Example C37_map_ex (s : R) : Built (1/1000) (exTree (1/1000)) /\ validModel (exTree (1/1000)) /\ regularMasses (1/1000) (exTree (1/1000)) /\
  validState (exTree (1/1000)) (exQ s) /\ massive (exTree (1/1000)).
Proof. exact (conj (exTree_built _) (conj (exTree_valid _) (conj exTree_regular (conj (exQ_valid _ s) (exTree_masses _))))). Qed.
Print Assumptions C37_map.
(** the centroidal composite inertia: the momentum of the bodies frozen together and moving with the spatial velocity V of
    the frame at the centre of mass *)
Theorem C37_inertia (eps : R) (m : Model) (d : Data) (q v : vec) (V : V6) :
  Built eps m -> validModel m -> regularMasses eps m -> validState m q -> subtreeMass m 0 <> 0%R -> let c := subtreeCom m q 0 in
  inertia_mul (ig (gl (ccrba eps m d q v))) V =
  atPoint c (subBodies6 m 0 (fun b => inertia_mul (worldInertia m q b) (mkV6 (v3add (lin V) (v3cross c (ang V))) (ang V)))).
Proof. exact (fun B Vm => b_inertia eps m B Vm d q v V). Qed.
(* hypotheses met: C37_map_ex *)
Print Assumptions C37_inertia.
(** the time variation of the centroidal momentum is its derivative along every trajectory *)
Theorem C37_variation (eps : R) (m : Model) (q v : R -> vec) (a : vec) (t : R) (d d' : Data) :
  Built eps m -> validModel m -> subtreeMass m 0 <> 0%R -> (forall s, validState m (q s)) -> moves m q (v t) t -> accelerates m v a t ->
  deriv6 (fun s => gv (gl (computeCentroidalMomentum m d (q s) (v s))) F_hg) (gv (gl (computeCentroidalMomentumTimeVariation m d' (q t) (v t) a)) F_dhg) t.
Proof. exact (fun B V M Q Mv A => momentum_variation m (Built_wf _ _ B) (Built_tree _ _ B) V q v a t d d' Q Mv A M). Qed.
(* hypotheses met: C36_ex *)
Print Assumptions C37_variation.

(** masses *)
Theorem C38_mass (eps : R) (m : Model) (d : Data) : Built eps m -> computeTotalMass m = bodies m (fun b => mass (inertiaOf m b)) /\
  forall j, j < m_njoints m -> sc (rows (computeSubtreeMasses m d) j) F_mass = subtreeMass m j.
Proof. exact (fun B => b_mass eps m B d). Qed.
(* hypotheses met: C36_ex *)
Print Assumptions C38_mass.
(** the centre of mass returned is the mass-weighted mean of the centres of the bodies, and so for the bodies carried by each joint
    (data.com[j], given in the frame of joint j) *)
Theorem C38_com (eps : R) (m : Model) (d : Data) (q : vec) (sub : bool) : Built eps m -> subtreeMass m 0 <> 0%R ->
  exists d', centerOfMass0 m d q sub = Ok d' (subtreeCom m q 0) /\
  (forall j, j < m_njoints m -> sc (rows d' j) F_mass = subtreeMass m j) /\ p3 (rows d' 0) F_com = subtreeCom m q 0 /\
  (forall j, j < m_njoints m -> subtreeMass m j <> 0%R -> sub = true -> se3_actPoint (worldPl m q j) (p3 (rows d' j) F_com) = subtreeCom m q j).
Proof. exact (fun B => b_com0 eps m B d q sub). Qed.
(* hypotheses met: C36_ex *)
Print Assumptions C38_com.
(** velocities: the derivative of the centre of mass along every trajectory (data.vcom[j] is given in the axes of joint j) *)
Theorem C38_velocity (eps : R) (m : Model) (q : R -> vec) (v : vec) (t : R) (d : Data) (sub : bool) :
  Built eps m -> validModel m -> subtreeMass m 0 <> 0%R -> (forall s, validState m (q s)) -> moves m q v t ->
  exists d', centerOfMass1 m d (q t) v sub = Ok d' (subtreeCom m (q t) 0) /\ deriv3 (fun s => subtreeCom m (q s) 0) (p3 (rows d' 0) F_vcom) t /\
  (forall j, j < m_njoints m -> subtreeMass m j <> 0%R -> sub = true -> deriv3 (fun s => subtreeCom m (q s) j) (m3vec (rot (worldPl m (q t) j)) (p3 (rows d' j) F_vcom)) t).
Proof. exact (fun B V => b_com1 eps m B V q v t d sub). Qed.
(* hypotheses met: C36_ex *)
Print Assumptions C38_velocity.
(** accelerations: the second derivative *)
Theorem C38_acceleration (eps : R) (m : Model) (q v : R -> vec) (a : vec) (t : R) (d : Data) (sub : bool) :
  Built eps m -> validModel m -> subtreeMass m 0 <> 0%R -> (forall s, validState m (q s)) -> (forall s, moves m q (v s) s) -> accelerates m v a t ->
  exists d' (vel : R -> nat -> V3), centerOfMass2 m d (q t) (v t) a sub = Ok d' (subtreeCom m (q t) 0) /\
  (forall s j, j < m_njoints m -> subtreeMass m j <> 0%R -> deriv3 (fun s => subtreeCom m (q s) j) (vel s j) s) /\
  p3 (rows d' 0) F_vcom = vel t 0 /\ deriv3 (fun s => vel s 0) (p3 (rows d' 0) F_acom) t /\
  (forall j, j < m_njoints m -> subtreeMass m j <> 0%R -> sub = true -> m3vec (rot (worldPl m (q t) j)) (p3 (rows d' j) F_vcom) = vel t j /\
     deriv3 (fun s => vel s j) (m3vec (rot (worldPl m (q t) j)) (p3 (rows d' j) F_acom)) t).
Proof. exact (fun B V => b_com2 eps m B V q v a t d sub). Qed.
(* hypotheses met: C36_ex *)
Print Assumptions C38_acceleration.
(** a kinematic level that does not exist is rejected, and nothing is written *)
Theorem C38_level (m : Model) (d : Data) (lvl : nat) (sub : bool) : 2 < lvl -> centerOfMass m d lvl sub = Throw d.
Proof. exact (b_throw m d lvl sub). Qed.
Print Assumptions C38_level.
(** Jcom v is the velocity of the centre of mass, for every velocity v: mimic joints included *)
Theorem C38_jacobian (eps : R) (m : Model) (q : R -> vec) (v : vec) (t : R) (d : Data) (sub : bool) :
  Built eps m -> validModel m -> subtreeMass m 0 <> 0%R -> (forall s, validState m (q s)) -> moves m q v t ->
  deriv3 (fun s => subtreeCom m (q s) 0) (cols3Mul (m_nv m) (jcom (gl (jacobianCenterOfMass m d (q t) sub))) v) t.
Proof. exact (fun B V => b_jcom eps m B V q v t d sub). Qed.
(* hypotheses met: C36_ex *)
Print Assumptions C38_jacobian.
(** jacobianCenterOfMass also leaves the masses and the centres of mass, all in the world frame *)
Theorem C38_jacobian_com (eps : R) (m : Model) (q : vec) (d : Data) (sub : bool) :
  Built eps m -> validModel m -> subtreeMass m 0 <> 0%R -> validState m q -> let d' := jacobianCenterOfMass m d q sub in
  (forall j, j < m_njoints m -> sc (rows d' j) F_mass = subtreeMass m j) /\
  (forall j, j < m_njoints m -> subtreeMass m j <> 0%R -> j = 0 \/ sub = true -> p3 (rows d' j) F_com = subtreeCom m q j).
Proof. exact (fun B V => b_jcom_com eps m B V q d sub). Qed.
(* hypotheses met: C36_ex *)
Print Assumptions C38_jacobian_com.
(** getJacobianComFromCrba after crba in the world convention gives the same Jacobian, on models without mimic joints *)
Theorem C38_jacobian_from_crba (eps : R) (m : Model) (q : R -> vec) (v : vec) (t : R) (d : Data) :
  Built eps m -> validModel m -> noMimic m -> regularMasses eps m -> depthFirst m -> subtreeMass m 0 <> 0%R -> (forall s, validState m (q s)) -> moves m q v t ->
  exists d', crbaWorld eps m d (q t) = Ok d' tt /\ p3 (rows (getJacobianComFromCrba d') 0) F_com = subtreeCom m (q t) 0 /\
  deriv3 (fun s => subtreeCom m (q s) 0) (cols3Mul (m_nv m) (jcom (gl (getJacobianComFromCrba d'))) v) t.
Proof. exact (fun B V => b_jcrba eps m B V q v t d). Qed.
Example C38_jacobian_from_crba_ex (s : R) : (Built (1/1000) (exD (1/1000)) /\ validModel (exD (1/1000)) /\ noMimic (exD (1/1000)) /\ depthFirst (exD (1/1000)) /\
  regularMasses (1/1000) (exD (1/1000)) /\ validState (exD (1/1000)) (exQ s) /\ solid (exD (1/1000)) /\ rotors (exD (1/1000)) /\ regularJoints (exD (1/1000)) (exQ s) /\
  m_njoints (exD (1/1000)) = 4 /\ m_nv (exD (1/1000)) = 10) /\ subtreeMass (exD (1/1000)) 0 <> 0%R /\ moves (exD (1/1000)) exQ (exV s) s.
Proof. exact (conj (exD_all s) (conj exD_masses (exD_moves s))). Qed.
Print Assumptions C38_jacobian_from_crba.
(** getComFromCrba does not: after crba in the world convention it returns a point that is not the centre of mass *)
Theorem C38_com_from_crba_refuted (d : Data) : let eps := (1/1000)%R in let m := exP eps in
  Built eps m /\ validModel m /\ noMimic m /\ depthFirst m /\ regularMasses eps m /\ validState m exPq /\ (forall j, j < m_njoints m -> subtreeMass m j = 2%R) /\
  exists d', crbaWorld eps m d exPq = Ok d' tt /\ subtreeCom m exPq 0 = mkV3 2 0 0 /\ p3 (rows (getComFromCrba d') 0) F_com = mkV3 3 0 0.
Proof. exact (exP_refuted d). Qed.
Print Assumptions C38_com_from_crba_refuted.
