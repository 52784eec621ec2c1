(** C40: the sparse factorisation of tree-structured matrices. *)
Require Import Reals List Arith.
From Verif Require Import Vec3 Spatial Inertia Joints Model Spec_Model Data Kinematics Spec_Kin KinFacts3 Sums Spec_Dyn Spec_Mass Crba CrbaFacts3 CrbaFacts4 Spec_Jac Spec_Aba Spec_Chol Cholesky CholFacts5.
Local Open Scope nat_scope.

(** decompose: U is unit upper triangular, respects the branches of the tree, and U D U^T is the matrix.  data.M only holds the upper
    triangle of the matrix, on the branches; U starts with the shape the constructor of Data gives it, which decompose preserves. *)
Theorem C40_decompose (eps : R) (m : Model) (M A : nat -> nat -> R) (s0 : Chol) :
  Built eps m -> validModel m -> noMimic m -> depthFirst m -> noRigidJoint m ->
  symmetricM (m_nv m) A -> treeSparse m A -> holdsUpper m M A -> unitUpper (m_nv m) (cU s0) -> treeSparse m (cU s0) ->
  let s := decompose m M s0 in (forall k, k < m_nv m -> cD s k <> 0%R) ->
  unitUpper (m_nv m) (cU s) /\ treeSparse m (cU s) /\ (forall k, k < m_nv m -> (cDinv s k * cD s k = 1)%R) /\
  forall k l, k < m_nv m -> l < m_nv m -> udut (m_nv m) (cU s) (cD s) k l = A k l.
Proof. exact (fun B Vm NM DF P => decompose_thm eps m B Vm NM DF P M A s0). Qed.
Example C40_decompose_ex (s : R) : let m := exD (1/1000) in let q := exQ s in
  Built (1/1000) m /\ validModel m /\ noMimic m /\ depthFirst m /\ noRigidJoint m /\ symmetricM (m_nv m) (massMatrix m q) /\ treeSparse m (massMatrix m q) /\
  positiveM (m_nv m) (massMatrix m q) /\ holdsUpper m (massMatrix m q) (massMatrix m q) /\ unitUpper (m_nv m) (cU cholInit) /\ treeSparse m (cU cholInit) /\
  (forall k, k < m_nv m -> cD (decompose m (massMatrix m q) cholInit) k <> 0%R) /\ m_nv m = 10.
Proof. exact (exD_chol s). Qed.
Print Assumptions C40_decompose.
(** the pivots are positive, hence not zero, when the matrix is positive definite *)
Theorem C40_pivots (eps : R) (m : Model) (M A : nat -> nat -> R) (s0 : Chol) :
  Built eps m -> validModel m -> noMimic m -> depthFirst m -> noRigidJoint m ->
  symmetricM (m_nv m) A -> treeSparse m A -> holdsUpper m M A -> unitUpper (m_nv m) (cU s0) -> treeSparse m (cU s0) ->
  positiveM (m_nv m) A -> forall k, k < m_nv m -> (0 < cD (decompose m M s0) k)%R.
Proof. exact (fun B Vm NM DF P => pivots_thm eps m B Vm NM DF P M A s0). Qed.
(* hypotheses met: C40_decompose_ex *)
Print Assumptions C40_pivots.
(** Uv, Utv and UDUtv are the products by U, U^T and U D U^T *)
Theorem C40_products (eps : R) (m : Model) (s : Chol) (v : vec) :
  Built eps m -> validModel m -> noMimic m -> depthFirst m -> noRigidJoint m -> unitUpper (m_nv m) (cU s) -> treeSparse m (cU s) ->
  sameV (m_nv m) (Uv m s v) (mulMV (m_nv m) (cU s) v) /\ sameV (m_nv m) (Utv m s v) (mulMV (m_nv m) (transp (cU s)) v) /\
  sameV (m_nv m) (UDUtv m s v) (mulMV (m_nv m) (udut (m_nv m) (cU s) (cD s)) v).
Proof. exact (fun B Vm NM DF P => products_thm eps m B Vm NM DF P s v). Qed.
(* hypotheses met: C40_decompose_ex with C40_decompose *)
Print Assumptions C40_products.
(** Uiv and Utiv are their inverses *)
Theorem C40_inverses (eps : R) (m : Model) (s : Chol) (v : vec) :
  Built eps m -> validModel m -> noMimic m -> depthFirst m -> noRigidJoint m -> unitUpper (m_nv m) (cU s) -> treeSparse m (cU s) ->
  sameV (m_nv m) (mulMV (m_nv m) (cU s) (Uiv m s v)) v /\ sameV (m_nv m) (Uiv m s (mulMV (m_nv m) (cU s) v)) v /\
  sameV (m_nv m) (mulMV (m_nv m) (transp (cU s)) (Utiv m s v)) v /\ sameV (m_nv m) (Utiv m s (mulMV (m_nv m) (transp (cU s)) v)) v.
Proof. exact (fun B Vm NM DF P => inverses_thm eps m B Vm NM DF P s v). Qed.
(* hypotheses met: C40_decompose_ex with C40_decompose *)
Print Assumptions C40_inverses.
(** Mv is the product by the matrix, whatever the result vector held before *)
Theorem C40_Mv (eps : R) (m : Model) (M A : nat -> nat -> R) (vin vout : vec) :
  Built eps m -> validModel m -> noMimic m -> depthFirst m -> noRigidJoint m -> symmetricM (m_nv m) A -> treeSparse m A -> holdsUpper m M A ->
  sameV (m_nv m) (Mv m M vin vout) (mulMV (m_nv m) A vin).
Proof. exact (fun B Vm NM DF P => Mv_thm eps m B Vm NM DF P M A vin vout). Qed.
(* hypotheses met: C40_decompose_ex *)
Print Assumptions C40_Mv.
(** solve is the product by the inverse of the matrix, on both sides *)
Theorem C40_solve (eps : R) (m : Model) (M A : nat -> nat -> R) (s0 : Chol) (v : vec) :
  Built eps m -> validModel m -> noMimic m -> depthFirst m -> noRigidJoint m ->
  symmetricM (m_nv m) A -> treeSparse m A -> holdsUpper m M A -> unitUpper (m_nv m) (cU s0) -> treeSparse m (cU s0) ->
  let s := decompose m M s0 in (forall k, k < m_nv m -> cD s k <> 0%R) ->
  sameV (m_nv m) (mulMV (m_nv m) A (cholSolve m s v)) v /\ sameV (m_nv m) (cholSolve m s (mulMV (m_nv m) A v)) v.
Proof. exact (fun B Vm NM DF P => solve_thm eps m B Vm NM DF P M A s0 v). Qed.
(* hypotheses met: C40_decompose_ex *)
Print Assumptions C40_solve.
(** computeMinv gives the inverse of the matrix, symmetric, whatever the result matrix held before *)
Theorem C40_Minv (eps : R) (m : Model) (M A : nat -> nat -> R) (s0 : Chol) (C : nat -> nat -> R) :
  Built eps m -> validModel m -> noMimic m -> depthFirst m -> noRigidJoint m ->
  symmetricM (m_nv m) A -> treeSparse m A -> holdsUpper m M A -> unitUpper (m_nv m) (cU s0) -> treeSparse m (cU s0) ->
  let s := decompose m M s0 in (forall k, k < m_nv m -> cD s k <> 0%R) ->
  identityM (m_nv m) (matMul (m_nv m) A (computeMinv m s C)) /\ symmetricM (m_nv m) (computeMinv m s C).
Proof. exact (fun B Vm NM DF P => minv_thm eps m B Vm NM DF P M A s0 C). Qed.
(* hypotheses met: C40_decompose_ex *)
Print Assumptions C40_Minv.
(** the matrix left by crba, in both conventions, is factorised, and solve inverts the joint-space inertia matrix *)
Theorem C40_crba (eps : R) (m : Model) (d : Data) (q v : vec) :
  Built eps m -> validModel m -> noMimic m -> depthFirst m -> noRigidJoint m -> regularMasses eps m -> validState m q -> solid m -> rotors m -> regularJoints m q ->
  forall d', (crbaWorld eps m d q = Ok d' tt \/ crbaLocal eps m d q = Ok d' tt) ->
  let s := decompose m (ma (gl d') F_M) cholInit in
  (forall k, k < m_nv m -> (0 < cD s k)%R) /\ (forall k l, k < m_nv m -> l < m_nv m -> udut (m_nv m) (cU s) (cD s) k l = massMatrix m q k l) /\
  sameV (m_nv m) (mulMV (m_nv m) (massMatrix m q) (cholSolve m s v)) v.
Proof. exact (fun B Vm NM DF P => crba_thm eps m B Vm NM DF P d q v). Qed.
Example C40_crba_ex (s : R) (d : Data) : let m := exD (1/1000) in noRigidJoint m /\ solid m /\ rotors m /\ regularJoints m (exQ s) /\ regularMasses (1/1000) m /\ validState m (exQ s) /\
  exists d', crbaWorld (1/1000) m d (exQ s) = Ok d' tt.
Proof. exact (exD_crba s d). Qed.
Print Assumptions C40_crba.
