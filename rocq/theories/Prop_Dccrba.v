(** Property theorems C55 (time variation of the centroidal map). Statements only. *)
From Coq Require Import Reals List Arith.
From Verif Require Import Vec3 Spatial Inertia Joints Spec_Joints Deriv Model Spec_Model ModelFacts ModelTree ModelFacts2 ModelFacts3 Data Kinematics Spec_Kin KinFacts3 Spec_Mass Spec_Dyn Crba CrbaFacts3 CrbaFacts4 Spec_Jac Spec_Com Com Centroidal ComFacts5 ComFacts6 Dccrba DccrbaFacts2 DccrbaFacts3.
Import ListNotations.
Local Open Scope nat_scope.

(** dccrba leaves the centroidal map, the centre of mass, the momentum and the centroidal inertia that ccrba leaves *)
Theorem C55_map (eps : R) (m : Model) (d d0 : Data) (q v : vec) :
  Built eps m -> validModel m -> noMimic m -> regularMasses eps m -> subtreeMass m 0 <> 0%R -> validState m q ->
  let x := dccrba eps m d q v in let y := ccrba eps m d0 q v in
  (forall k, k < m_nv m -> co (gl x) F_Ag k = co (gl y) F_Ag k) /\ p3 (rows x 0) F_com = p3 (rows y 0) F_com /\
  gv (gl x) F_hg = gv (gl y) F_hg /\ ig (gl x) = ig (gl y).
Proof. exact (fun B V N R H Q => d_same eps m B V N R H d d0 q v Q). Qed.
Example C55_ex (s : R) : let m := exD (1/1000) in Built (1/1000) m /\ validModel m /\ noMimic m /\ regularMasses (1/1000) m /\ subtreeMass m 0 <> 0%R /\
  (forall i, 0 < i < m_njoints m -> fixedAxes (jm_type (joint m i))) /\ (forall t, validState m (exQ t)) /\ moves m exQ (exV s) s.
Proof. exact (conj (exD_built _) (conj (exD_valid _) (conj (exD_noMimic _) (conj exD_regularMasses (conj exD_masses (conj (exD_fixed _) (conj (exD_validState _) (exD_moves s)))))))). Qed.
Print Assumptions C55_map.

(** dAg is the derivative of the centroidal map along the motion, for joints whose axes are fixed in the joint frame *)
Theorem C55_derivative_partial (eps : R) (m : Model) (d d' : Data) (q : R -> vec) (v w : vec) (t : R) :
  Built eps m -> validModel m -> noMimic m -> regularMasses eps m -> subtreeMass m 0 <> 0%R ->
  (forall i, 0 < i < m_njoints m -> fixedAxes (jm_type (joint m i))) -> (forall s, validState m (q s)) -> moves m q v t ->
  deriv6 (fun s => colsMul (m_nv m) (co (gl (computeCentroidalMap eps m d (q s))) F_Ag) w)
         (colsMul (m_nv m) (co (gl (dccrba eps m d' (q t) v)) F_dAg) w) t.
Proof. exact (fun B V N R H FA => map_deriv eps m (Built_wf _ _ B) (Built_tree _ _ B) V N R H FA q v w t d d'). Qed.
(* hypotheses met: C55_ex *)
Print Assumptions C55_derivative_partial.

(** the rate of the momentum is Ag a + dAg v, for the same joints *)
Theorem C55_rate_partial (eps : R) (m : Model) (d d' : Data) (q v a : vec) :
  Built eps m -> validModel m -> noMimic m -> regularMasses eps m -> subtreeMass m 0 <> 0%R ->
  (forall i, 0 < i < m_njoints m -> fixedAxes (jm_type (joint m i))) -> validState m q ->
  gv (gl (computeCentroidalMomentumTimeVariation m d' q v a)) F_dhg =
  v6add (colsMul (m_nv m) (co (gl (dccrba eps m d q v)) F_Ag) a) (colsMul (m_nv m) (co (gl (dccrba eps m d q v)) F_dAg) v).
Proof. exact (fun B V N R H FA => dccrba_rate eps m (Built_wf _ _ B) (Built_tree _ _ B) V N R H FA q v a d d'). Qed.
(* hypotheses met: C55_ex *)
Print Assumptions C55_rate_partial.
(** for a joint whose axes move (here one spherical ZYX joint) it is not, whatever the Data hold *)
Theorem C55_moving_axes_refuted (d d' : Data) : exists m q v, Built (1/1000) m /\ validModel m /\ noMimic m /\ regularMasses (1/1000) m /\ subtreeMass m 0 = 1%R /\ validState m q /\
  gv (gl (computeCentroidalMomentumTimeVariation m d' q v zeroV)) F_dhg <>
  v6add (colsMul (m_nv m) (co (gl (dccrba (1/1000) m d q v)) F_Ag) zeroV) (colsMul (m_nv m) (co (gl (dccrba (1/1000) m d q v)) F_dAg) v).
Proof. exact (zyx_refuted d d'). Qed.
Print Assumptions C55_moving_axes_refuted.

(** computeCentroidalMapTimeVariation gives the same dAg on Data that hold the velocity of the centre of mass of the state;
    the Data left by dccrba itself are of that kind *)
Theorem C55_variation_partial (eps : R) (m : Model) (d d0 : Data) (q v : vec) :
  Built eps m -> validModel m -> noMimic m -> regularMasses eps m -> subtreeMass m 0 <> 0%R -> validState m q ->
  p3 (rows d 0) F_vcom = p3 (rows (dccrba eps m d0 q v) 0) F_vcom ->
  forall k, k < m_nv m -> co (gl (computeCentroidalMapTimeVariation eps m d q v)) F_dAg k = co (gl (dccrba eps m d0 q v)) F_dAg k.
Proof. exact (fun B V N R H Q => d_mapTV eps m B V N R H d d0 q v Q). Qed.
(* hypotheses met: C55_ex, with d = dccrba eps m d0 q v *)
Print Assumptions C55_variation_partial.
(** on fresh Data it does not: the velocity of the centre of mass is read and never computed *)
Theorem C55_stale_refuted : exists m q v k, Built (1/1000) m /\ validModel m /\ noMimic m /\ regularMasses (1/1000) m /\ subtreeMass m 0 = 1%R /\ validState m q /\ k < m_nv m /\
  co (gl (computeCentroidalMapTimeVariation (1/1000) m (newData m) q v)) F_dAg k <> co (gl (dccrba (1/1000) m (newData m) q v)) F_dAg k.
Proof. exact stale_refuted. Qed.
Print Assumptions C55_stale_refuted.
