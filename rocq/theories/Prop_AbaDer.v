(** Property theorems C67 (the derivatives of forward dynamics). Statements only. [inv]: see Prop_Aba.v. *)
From Coq Require Import Reals List Arith.
From Verif Require Import Vec3 Spatial Inertia Joints Spec_Joints Deriv Model Spec_Model ModelFacts ModelTree Sums Data Kinematics Spec_Kin KinFacts3 Spec_Mass Spec_Dyn Rnea Crba CrbaFacts3 CrbaFacts4 Spec_Jac Spec_Chol CholFacts5 ComFacts6 DccrbaFacts3 DataX RneaDer Spec_Deriv RneaDerFacts6 RneaDerFacts8 Aba Spec_Aba AbaInv AbaFacts4 AbaDer AbaDerFacts6.
Import ListNotations.
Local Open Scope nat_scope.

(** Along any motion of the configuration with velocity w, and any variation of v and tau, the acceleration returned by aba varies with
    ddq_dq w + ddq_dv v' + Minv tau', for joints whose axes are fixed in the joint frame; from any previous content of the data *)
Theorem C67_differential_partial (eps : R) (m : Model) (inv : nat -> (nat -> nat -> R) -> nat -> nat -> R) (s : DX) (d : Data) (q v tau : R -> vec) (w v' tau' : vec) (t : R) (k : nat) :
  Built eps m -> validModel m -> noMimic m -> noRigidJoint m -> depthFirst m -> regularMasses eps m -> (forall i, 0 < i < m_njoints m -> fixedAxes (jm_type (joint m i))) -> invertsPD inv ->
  (forall x, validState m (q x)) -> (forall x, positiveM (m_nv m) (massMatrix m (q x))) -> moves m q w t -> accelerates m v v' t -> accelerates m tau tau' t ->
  treeSparse m (xma s P_dq) -> treeSparse m (xma s P_dv) -> k < m_nv m ->
  let D := computeABADerivatives inv eps m s (q t) (v t) (tau t) None in
  deriv (fun x => abaWorld inv m d (q x) (v x) (tau x) k)
    (dotv (m_nv m) (ad_dq D k) w + dotv (m_nv m) (ad_dv D k) v' + dotv (m_nv m) (ma (gl (bs (ad_state D))) F_Minv k) tau')%R t.
Proof. exact (fun B V N P D R FA HI Hq PM Hm Hv Ht => ad_differential eps m B V N P D R inv HI None FA q v tau w v' tau' t Hq PM Hm Hv Ht s d k). Qed.
Example C67_ex (s : R) (u u' : vec) : let m := exD (1/1000) in Built (1/1000) m /\ validModel m /\ noMimic m /\ noRigidJoint m /\ depthFirst m /\ regularMasses (1/1000) m /\
  (forall i, 0 < i < m_njoints m -> fixedAxes (jm_type (joint m i))) /\ invertsPD elimInv /\ (forall x, validState m (exQ x)) /\ (forall x, positiveM (m_nv m) (massMatrix m (exQ x))) /\
  moves m exQ (exV s) s /\ accelerates m (fun x k => x * u k)%R u s /\ accelerates m (fun x k => x * u' k)%R u' s /\
  (let z := mkDX (newData m) (fun _ _ => v6zero) (fun _ _ _ => 0%R) in treeSparse m (xma z P_dq) /\ treeSparse m (xma z P_dv)) /\ m_nv m = 10.
Proof.
  exact (conj (exD_built _) (conj (exD_valid _) (conj (exD_noMimic _) (conj (exD_norigid _) (conj (exD_df _) (conj exD_regularMasses (conj (exD_fixed _) (conj elimInv_inverts (conj (exD_validState _)
    (conj (fun x => proj1 (proj2 (proj2 (proj2 (proj2 (proj2 (aba_ex x))))))) (conj (exD_moves s) (conj (linear_accelerates _ u s) (conj (linear_accelerates _ u' s)
    (conj (conj (fun _ _ _ _ _ => eq_refl) (fun _ _ _ _ _ => eq_refl)) eq_refl)))))))))))))).
Qed.
Print Assumptions C67_differential_partial.

(** the same with external forces *)
Theorem C67_external_partial (eps : R) (m : Model) (inv : nat -> (nat -> nat -> R) -> nat -> nat -> R) (s : DX) (d : Data) (fext : nat -> Force) (q v tau : R -> vec) (w v' tau' : vec) (t : R) (k : nat) :
  Built eps m -> validModel m -> noMimic m -> noRigidJoint m -> depthFirst m -> regularMasses eps m -> (forall i, 0 < i < m_njoints m -> fixedAxes (jm_type (joint m i))) -> invertsPD inv ->
  (forall x, validState m (q x)) -> (forall x, positiveM (m_nv m) (massMatrix m (q x))) -> moves m q w t -> accelerates m v v' t -> accelerates m tau tau' t ->
  treeSparse m (xma s P_dq) -> treeSparse m (xma s P_dv) -> k < m_nv m ->
  let D := computeABADerivatives inv eps m s (q t) (v t) (tau t) (Some fext) in
  deriv (fun x => abaWorldExt inv m d (q x) (v x) (tau x) fext k)
    (dotv (m_nv m) (ad_dq D k) w + dotv (m_nv m) (ad_dv D k) v' + dotv (m_nv m) (ma (gl (bs (ad_state D))) F_Minv k) tau')%R t.
Proof. exact (fun B V N P D R FA HI Hq PM Hm Hv Ht => ad_differential eps m B V N P D R inv HI (Some fext) FA q v tau w v' tau' t Hq PM Hm Hv Ht s d k). Qed.
(* hypotheses met: C67_ex *)
Print Assumptions C67_external_partial.

(** the overloads called on the data that aba (world convention) has filled, whatever the other fields x and y of the data *)
Theorem C67_optimized_partial (eps : R) (m : Model) (inv : nat -> (nat -> nat -> R) -> nat -> nat -> R) (x : XcT -> nat -> V6) (y : XmT -> nat -> nat -> R) (d d' : Data) (q v tau : R -> vec) (w v' tau' : vec) (t : R) (k : nat) :
  Built eps m -> validModel m -> noMimic m -> noRigidJoint m -> depthFirst m -> regularMasses eps m -> (forall i, 0 < i < m_njoints m -> fixedAxes (jm_type (joint m i))) -> invertsPD inv ->
  (forall x, validState m (q x)) -> (forall x, positiveM (m_nv m) (massMatrix m (q x))) -> moves m q w t -> accelerates m v v' t -> accelerates m tau tau' t ->
  treeSparse m (y P_dq) -> treeSparse m (y P_dv) -> k < m_nv m ->
  let D := computeABADerivativesO eps m (mkDX (abaWorldData inv m d' (q t) (v t) (tau t)) x y) None in
  deriv (fun x => abaWorld inv m d (q x) (v x) (tau x) k)
    (dotv (m_nv m) (ad_dq D k) w + dotv (m_nv m) (ad_dv D k) v' + dotv (m_nv m) (ma (gl (bs (ad_state D))) F_Minv k) tau')%R t.
Proof. exact (fun B V N P D R FA HI Hq PM Hm Hv Ht => adO_differential eps m B V N P D R inv HI None FA q v tau w v' tau' t Hq PM Hm Hv Ht x y d d' k). Qed.
(* hypotheses met: C67_ex *)
Print Assumptions C67_optimized_partial.
Theorem C67_optimized_external_partial (eps : R) (m : Model) (inv : nat -> (nat -> nat -> R) -> nat -> nat -> R) (x : XcT -> nat -> V6) (y : XmT -> nat -> nat -> R) (d d' : Data) (fext : nat -> Force) (q v tau : R -> vec) (w v' tau' : vec) (t : R) (k : nat) :
  Built eps m -> validModel m -> noMimic m -> noRigidJoint m -> depthFirst m -> regularMasses eps m -> (forall i, 0 < i < m_njoints m -> fixedAxes (jm_type (joint m i))) -> invertsPD inv ->
  (forall x, validState m (q x)) -> (forall x, positiveM (m_nv m) (massMatrix m (q x))) -> moves m q w t -> accelerates m v v' t -> accelerates m tau tau' t ->
  treeSparse m (y P_dq) -> treeSparse m (y P_dv) -> k < m_nv m ->
  let D := computeABADerivativesO eps m (mkDX (abaWorldDataExt inv m d' (q t) (v t) (tau t) fext) x y) (Some fext) in
  deriv (fun x => abaWorldExt inv m d (q x) (v x) (tau x) fext k)
    (dotv (m_nv m) (ad_dq D k) w + dotv (m_nv m) (ad_dv D k) v' + dotv (m_nv m) (ma (gl (bs (ad_state D))) F_Minv k) tau')%R t.
Proof. exact (fun B V N P D R FA HI Hq PM Hm Hv Ht => adO_differential eps m B V N P D R inv HI (Some fext) FA q v tau w v' tau' t Hq PM Hm Hv Ht x y d d' k). Qed.
(* hypotheses met: C67_ex *)
Print Assumptions C67_optimized_external_partial.

(** for every joint: the derivative with respect to the torques is the inverse of the mass matrix, both triangles filled *)
Theorem C67_minverse (eps : R) (m : Model) (inv : nat -> (nat -> nat -> R) -> nat -> nat -> R) (s : DX) (fext : option (nat -> Force)) (q v tau : vec) :
  Built eps m -> validModel m -> noMimic m -> noRigidJoint m -> depthFirst m -> regularMasses eps m -> invertsPD inv -> validState m q -> positiveM (m_nv m) (massMatrix m q) ->
  let X := ma (gl (bs (ad_state (computeABADerivatives inv eps m s q v tau fext)))) F_Minv in
  symmetricM (m_nv m) X /\ identityM (m_nv m) (matMul (m_nv m) (massMatrix m q) X).
Proof. exact (fun B V N P D R HI => ad_minv eps m B V N P D R inv HI fext s q v tau). Qed.
(* hypotheses met: C67_ex *)
Print Assumptions C67_minverse.
Theorem C67_minverse_optimized (eps : R) (m : Model) (inv : nat -> (nat -> nat -> R) -> nat -> nat -> R) (x : XcT -> nat -> V6) (y : XmT -> nat -> nat -> R) (d : Data) (fext : nat -> Force) (q v tau : vec) :
  Built eps m -> validModel m -> noMimic m -> noRigidJoint m -> depthFirst m -> regularMasses eps m -> invertsPD inv -> validState m q -> positiveM (m_nv m) (massMatrix m q) ->
  (let X := ma (gl (bs (ad_state (computeABADerivativesO eps m (mkDX (abaWorldData inv m d q v tau) x y) None)))) F_Minv in
   symmetricM (m_nv m) X /\ identityM (m_nv m) (matMul (m_nv m) (massMatrix m q) X)) /\
  (let X := ma (gl (bs (ad_state (computeABADerivativesO eps m (mkDX (abaWorldDataExt inv m d q v tau fext) x y) (Some fext))))) F_Minv in
   symmetricM (m_nv m) X /\ identityM (m_nv m) (matMul (m_nv m) (massMatrix m q) X)).
Proof. exact (fun B V N P D R HI Hq PM => conj (adO_minv eps m B V N P D R inv HI None x y d q v tau Hq PM) (adO_minv eps m B V N P D R inv HI (Some fext) x y d q v tau Hq PM)). Qed.
(* hypotheses met: C67_ex *)
Print Assumptions C67_minverse_optimized.

(** for every joint: the acceleration left in the data is the one aba returns *)
Theorem C67_acceleration (eps : R) (m : Model) (inv : nat -> (nat -> nat -> R) -> nat -> nat -> R) (s : DX) (d : Data) (fext : nat -> Force) (q v tau : vec) (k : nat) :
  Built eps m -> validModel m -> noMimic m -> noRigidJoint m -> depthFirst m -> regularMasses eps m -> invertsPD inv -> validState m q -> positiveM (m_nv m) (massMatrix m q) -> k < m_nv m ->
  ve (gl (bs (ad_state (computeABADerivatives inv eps m s q v tau None)))) F_ddq k = abaWorld inv m d q v tau k /\
  ve (gl (bs (ad_state (computeABADerivatives inv eps m s q v tau (Some fext))))) F_ddq k = abaWorldExt inv m d q v tau fext k.
Proof. exact (fun B V N P D R HI Hq PM Hk => conj (ad_ddq eps m B V N P D R inv HI None s d q v tau k Hq PM Hk) (ad_ddq eps m B V N P D R inv HI (Some fext) s d q v tau k Hq PM Hk)). Qed.
(* hypotheses met: C67_ex *)
Print Assumptions C67_acceleration.
