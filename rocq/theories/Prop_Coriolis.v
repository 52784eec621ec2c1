(** Property theorems C63 (the Coriolis matrix). Statements only. *)
From Coq Require Import Reals List Arith.
From Verif Require Import Vec3 Spatial Inertia Joints Spec_Joints Deriv Model Spec_Model ModelFacts ModelTree Sums Data Kinematics Spec_Kin KinFacts3 Spec_Mass Spec_Dyn Rnea Crba CrbaFacts3 CrbaFacts4 Spec_Jac Spec_Chol CholFacts5 ComFacts6 DccrbaFacts3 DataX Coriolis CoriolisFacts4 RneaDer RneaDerFacts6.
Import ListNotations.
Local Open Scope nat_scope.

(** C(q,v) v is the difference between the non-linear effects and the gravity torques, for joints whose axes are fixed in the joint frame,
    on Data whose matrix is zero between dofs of different branches, as it is on fresh Data and remains *)
Theorem C63_product_partial (eps : R) (m : Model) (s : DX) (d d' : Data) (q v : vec) (k : nat) :
  Built eps m -> validModel m -> noMimic m -> noRigidJoint m -> depthFirst m -> regularMasses eps m ->
  (forall i, 0 < i < m_njoints m -> fixedAxes (jm_type (joint m i))) -> validState m q -> treeSparse m (ma (gl (bs s)) F_C) -> k < m_nv m ->
  dotv (m_nv m) (ma (gl (bs (computeCoriolisMatrix eps m s q v))) F_C k) v =
  (nonLinearEffects m d q v k - computeGeneralizedGravity m d' q k)%R.
Proof. exact (fun B V N P D R FA Q S => cor_product eps m B V N _ q v d d' k FA Q (proj1 (coriolis_isCor eps m B V N P D R s q v Q S))). Qed.
Example C63_ex (s : R) : let m := exD (1/1000) in Built (1/1000) m /\ validModel m /\ noMimic m /\ noRigidJoint m /\ depthFirst m /\ regularMasses (1/1000) m /\
  (forall i, 0 < i < m_njoints m -> fixedAxes (jm_type (joint m i))) /\ (forall t, validState m (exQ t)) /\ moves m exQ (exV s) s /\ treeSparse m (ma (gl (newData m)) F_C) /\ m_nv m = 10.
Proof. exact (conj (exD_built _) (conj (exD_valid _) (conj (exD_noMimic _) (conj (exD_norigid _) (conj (exD_df _) (conj exD_regularMasses (conj (exD_fixed _) (conj (exD_validState _) (conj (exD_moves s) (conj (fun _ _ _ _ _ => eq_refl) eq_refl)))))))))). Qed.
Print Assumptions C63_product_partial.

(** it is not when the axes of a joint move (here one spherical ZYX joint) *)
Theorem C63_moving_axes_refuted : exists m q v k, Built (1/1000) m /\ validModel m /\ noMimic m /\ noRigidJoint m /\ depthFirst m /\ regularMasses (1/1000) m /\ validState m q /\ k < m_nv m /\
  forall s d d', treeSparse m (ma (gl (bs s)) F_C) ->
  dotv (m_nv m) (ma (gl (bs (computeCoriolisMatrix (1/1000) m s q v))) F_C k) v <> (nonLinearEffects m d q v k - computeGeneralizedGravity m d' q k)%R.
Proof. exact cor_zyx_refuted. Qed.
Print Assumptions C63_moving_axes_refuted.

(** along a motion of velocity v the mass matrix has the derivative C + C^T, so that dM/dt - 2 C is skew-symmetric, for the same joints *)
Theorem C63_skew_partial (eps : R) (m : Model) (s : DX) (q : R -> vec) (v : vec) (t : R) (k l : nat) :
  Built eps m -> validModel m -> noMimic m -> noRigidJoint m -> depthFirst m -> regularMasses eps m ->
  (forall i, 0 < i < m_njoints m -> fixedAxes (jm_type (joint m i))) -> (forall s, validState m (q s)) -> moves m q v t -> treeSparse m (ma (gl (bs s)) F_C) -> k < m_nv m -> l < m_nv m ->
  let C := ma (gl (bs (computeCoriolisMatrix eps m s (q t) v))) F_C in deriv (fun x => massMatrix m (q x) k l) (C k l + C l k)%R t.
Proof. exact (fun B V N P D R FA Q M S => cor_rate eps m B V N _ q v t k l FA Q M (proj1 (coriolis_isCor eps m B V N P D R s (q t) v (Q t) S))). Qed.
(* hypotheses met: C63_ex *)
Print Assumptions C63_skew_partial.

(** the zeros between dofs of different branches remain *)
Theorem C63_sparsity (eps : R) (m : Model) (s : DX) (q v : vec) :
  Built eps m -> validModel m -> noMimic m -> noRigidJoint m -> depthFirst m -> regularMasses eps m -> validState m q ->
  treeSparse m (ma (gl (bs s)) F_C) -> treeSparse m (ma (gl (bs (computeCoriolisMatrix eps m s q v))) F_C).
Proof. exact (fun B V N P D R Q S => proj2 (coriolis_isCor eps m B V N P D R s q v Q S)). Qed.
(* hypotheses met: C63_ex *)
Print Assumptions C63_sparsity.

(** getCoriolisMatrix called after the derivatives of the inverse dynamics: the same three statements *)
Theorem C63_after_derivatives_partial (eps : R) (m : Model) (s : DX) (d d' : Data) (q : R -> vec) (v a : vec) (t : R) (k l : nat) :
  Built eps m -> validModel m -> noMimic m -> noRigidJoint m -> depthFirst m -> regularMasses eps m ->
  (forall i, 0 < i < m_njoints m -> fixedAxes (jm_type (joint m i))) -> (forall s, validState m (q s)) -> moves m q v t -> treeSparse m (ma (gl (bs s)) F_C) -> k < m_nv m -> l < m_nv m ->
  let C := ma (gl (getCoriolisMatrix m (bs (computeRNEADerivatives eps m s (q t) v a)))) F_C in
  dotv (m_nv m) (C k) v = (nonLinearEffects m d (q t) v k - computeGeneralizedGravity m d' (q t) k)%R /\
  deriv (fun x => massMatrix m (q x) k l) (C k l + C l k)%R t /\ treeSparse m C.
Proof.
  exact (fun B V N P D R FA Q M S Hk Hl => let H := rd_coriolis eps m B V N D R P (q t) v a s (Q t) S in
    conj (cor_product eps m B V N _ (q t) v d d' k FA (Q t) (proj1 H) Hk) (conj (cor_rate eps m B V N _ q v t k l FA Q M (proj1 H) Hk Hl) (proj2 H))).
Qed.
(* hypotheses met: C63_ex *)
Print Assumptions C63_after_derivatives_partial.
