(** Property theorems C82 (partial derivative of the velocity of the centre of mass). Statements only. *)
From Coq Require Import Reals List Arith.
From Verif Require Import Vec3 Spatial Inertia Joints Spec_Joints Deriv Model Spec_Model ModelFacts ModelTree ModelFacts2 ModelFacts3 Data Kinematics Spec_Kin KinFacts3 Spec_Mass Sums Spec_Dyn KinFacts2 Crba CrbaFacts2 CrbaFacts3 CrbaFacts4 Spec_Jac Spec_Com Com ComFacts2 ComFacts6 AllTerms SubCom ComDer ComDerFacts2 ComDerEx.
Import ListNotations.
Local Open Scope nat_scope.

(** After centerOfMass(q, v), getCenterOfMassVelocityDerivatives gives the matrix D such that, when the configuration moves at rate w and the
    velocity changes at rate v', the velocity of the centre of mass (data.vcom[0] of centerOfMass) changes at rate D w + Jcom v'.
    Missing: joints whose axes move with the configuration (spherical ZYX, universal and what contains them), for which the code leaves out
    a term.  No subtree may have zero mass: the code divides by the mass of each. *)
Theorem C82_velocity_partial (eps : R) (m : Model) (q v : R -> vec) (w v' : vec) (t : R) (d d0 : Data) (sub : bool) (res : Mat3) :
  Built eps m -> validModel m -> noMimic m -> (forall i, 0 < i < m_njoints m -> fixedAxes (jm_type (joint m i))) ->
  subtreeMass m 0 <> 0%R -> (forall j, 0 < j < m_njoints m -> subtreeMass m j <> 0%R) ->
  (forall s, validState m (q s)) -> moves m q w t -> accelerates m v v' t ->
  exists d1, centerOfMass1 m d (q t) (v t) true = Ok d1 (subtreeCom m (q t) 0) /\
  exists vel, (forall s, exists d', centerOfMass1 m d0 (q s) (v s) sub = Ok d' (subtreeCom m (q s) 0) /\ p3 (rows d' 0) F_vcom = vel s) /\
  deriv3 vel (v3add (cols3Mul (m_nv m) (getCenterOfMassVelocityDerivatives m d1 res) w) (cols3Mul (m_nv m) (jcom (gl (jacobianCenterOfMass m d0 (q t) sub))) v')) t.
Proof. exact (fun B V N F M0 Ms Hq Hm Hv => comder_com eps m B V N M0 F Ms q v w v' t Hq Hm Hv d d0 sub res). Qed.
Example C82_ex (s : R) (u : vec) : let m := exD (1/1000) in Built (1/1000) m /\ validModel m /\ noMimic m /\ depthFirst m /\ regularMasses (1/1000) m /\
  (forall i, 0 < i < m_njoints m -> fixedAxes (jm_type (joint m i))) /\ (forall x, validState m (exQ x)) /\ moves m exQ (exV s) s /\ accelerates m (fun x k => x * u k)%R u s /\
  subtreeMass m 0 <> 0%R /\ (forall j, 0 < j < m_njoints m -> subtreeMass m j <> 0%R) /\ m_njoints m = 4 /\ m_nv m = 10.
Proof. exact (exComDer s u). Qed.
Print Assumptions C82_velocity_partial.

(** the same after computeAllTerms(q, v) *)
Theorem C82_all_terms_partial (eps : R) (m : Model) (q v : R -> vec) (w v' : vec) (t : R) (d d0 : Data) (sub : bool) (res : Mat3) :
  Built eps m -> validModel m -> noMimic m -> (forall i, 0 < i < m_njoints m -> fixedAxes (jm_type (joint m i))) ->
  subtreeMass m 0 <> 0%R -> (forall j, 0 < j < m_njoints m -> subtreeMass m j <> 0%R) -> regularMasses eps m -> depthFirst m ->
  (forall s, validState m (q s)) -> moves m q w t -> accelerates m v v' t ->
  exists vel, (forall s, exists d', centerOfMass1 m d0 (q s) (v s) sub = Ok d' (subtreeCom m (q s) 0) /\ p3 (rows d' 0) F_vcom = vel s) /\
  deriv3 vel (v3add (cols3Mul (m_nv m) (getCenterOfMassVelocityDerivatives m (computeAllTerms eps m d (q t) (v t)) res) w) (cols3Mul (m_nv m) (jcom (gl (jacobianCenterOfMass m d0 (q t) sub))) v')) t.
Proof. exact (fun B V N F M0 Ms RM DF Hq Hm Hv => comder_all eps m B V N M0 F Ms q v w v' t Hq Hm Hv d d0 sub res RM DF). Qed.
(* hypotheses met: C82_ex *)
Print Assumptions C82_all_terms_partial.

(** every column of the output is overwritten: its former content does not matter *)
Theorem C82_fresh (eps : R) (m : Model) (d : Data) (res res' : Mat3) : Built eps m -> validModel m -> noMimic m -> forall k, k < m_nv m ->
  getCenterOfMassVelocityDerivatives m d res k = getCenterOfMassVelocityDerivatives m d res' k.
Proof. exact (fun B V N => comder_fresh m d res res' (Built_wf _ _ B) V N). Qed.
(* hypotheses met: C82_ex *)
Print Assumptions C82_fresh.

(** For joints whose axes move with the configuration the matrix is not the derivative: one spherical ZYX joint carrying a body off its centre. *)
Theorem C82_moving_axes_refuted : exists m (q : R -> vec) v w t, Built (1/1000) m /\ validModel m /\ noMimic m /\ (forall j, j < m_njoints m -> subtreeMass m j = 1%R) /\ (forall s, validState m (q s)) /\ moves m q w t /\
  forall d d0 sub res d1 c vel, centerOfMass1 m d (q t) v true = Ok d1 c -> (forall s, exists d' c', centerOfMass1 m d0 (q s) v sub = Ok d' c' /\ p3 (rows d' 0) F_vcom = vel s) ->
  ~ deriv3 vel (cols3Mul (m_nv m) (getCenterOfMassVelocityDerivatives m d1 res) w) t.
Proof. exact comder_zyx. Qed.
Print Assumptions C82_moving_axes_refuted.
