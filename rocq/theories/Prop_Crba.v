(** Property theorems C34 (composite rigid body algorithm). Statements only. *)
From Coq Require Import Reals List Arith.
From Verif Require Import Vec3 Spatial Inertia Joints Model Spec_Model ModelFacts ModelTree ModelFacts2 ModelFacts3 Sums Data Kinematics Spec_Kin Spec_Mass KinFacts3 Spec_Dyn DynFacts2 MassFacts Crba CrbaFacts CrbaFacts2 CrbaFacts3 CrbaFacts4.
Local Open Scope nat_scope.

(** world convention: whatever the data [d] contained, the upper triangle of M holds the mass matrix (the matrix of the
    kinetic-energy form plus the rotor inertias, [massMatrix]) for the pairs of dofs on one branch; the mass matrix is zero for
    the other pairs, and those entries of M are left as they were *)
Theorem C34_world (eps : R) (m : Model) (d : Data) (q : vec) : Built eps m -> validModel m -> noMimic m -> regularMasses eps m -> depthFirst m -> validState m q ->
  exists d', crbaWorld eps m d q = Ok d' tt /\ forall k l, k <= l < m_nv m ->
   (sameBranch m k l -> ma (gl d') F_M k l = massMatrix m q k l) /\
   (~ sameBranch m k l -> massMatrix m q k l = 0%R /\ ma (gl d') F_M k l = ma (gl d) F_M k l).
Proof. exact (fun B Vm NM RM DF => crbaWorld_mass eps m (Built_wf eps m B) (Built_tree eps m B) Vm NM RM DF d q). Qed.
Example C34_world_ex (s : R) : Built (1/1000) (exD (1/1000)) /\ validModel (exD (1/1000)) /\ noMimic (exD (1/1000)) /\ depthFirst (exD (1/1000)) /\
  regularMasses (1/1000) (exD (1/1000)) /\ validState (exD (1/1000)) (exQ s) /\ solid (exD (1/1000)) /\ rotors (exD (1/1000)) /\ regularJoints (exD (1/1000)) (exQ s) /\
  m_njoints (exD (1/1000)) = 4 /\ m_nv (exD (1/1000)) = 10.
Proof. exact (exD_all s). Qed.
Print Assumptions C34_world.
(** local convention *)
Theorem C34_local (eps : R) (m : Model) (d : Data) (q : vec) : Built eps m -> validModel m -> noMimic m -> regularMasses eps m -> depthFirst m -> validState m q ->
  exists d', crbaLocal eps m d q = Ok d' tt /\ forall k l, k <= l < m_nv m ->
   (sameBranch m k l -> ma (gl d') F_M k l = massMatrix m q k l) /\
   (~ sameBranch m k l -> massMatrix m q k l = 0%R /\ ma (gl d') F_M k l = ma (gl d) F_M k l).
Proof. exact (fun B Vm NM RM DF => crbaLocal_mass eps m (Built_wf eps m B) (Built_tree eps m B) Vm NM RM DF d q). Qed.
(* hypotheses met: C34_world_ex *)
Print Assumptions C34_local.
(** the completed matrix is symmetric *)
Theorem C34_symmetric (eps : R) (m : Model) (q : vec) (k l : nat) : Built eps m -> validModel m -> massMatrix m q k l = massMatrix m q l k.
Proof. exact (fun B Vm => massMatrix_sym m q k l). Qed.
(* hypotheses met: C34_world_ex *)
Print Assumptions C34_symmetric.
(** and positive semidefinite *)
Theorem C34_psd (eps : R) (m : Model) (q w : vec) : Built eps m -> validModel m -> physical m -> rotors m ->
  (0 <= dotv (m_nv m) w (fun k => dotv (m_nv m) (massMatrix m q k) w))%R.
Proof. exact (fun B Vm => mass_psd m (Built_wf eps m B) (Built_tree eps m B) Vm q w). Qed.
(* hypotheses met: C34_world_ex *)
Print Assumptions C34_psd.
(** and positive definite when every body is solid and no joint is singular *)
Theorem C34_pd (eps : R) (m : Model) (q w : vec) : Built eps m -> validModel m -> validState m q -> noMimic m -> solid m -> rotors m -> regularJoints m q ->
  (exists k, k < m_nv m /\ w k <> 0%R) -> (0 < dotv (m_nv m) w (fun k => dotv (m_nv m) (massMatrix m q k) w))%R.
Proof. exact (fun B Vm => mass_pd m (Built_wf eps m B) (Built_tree eps m B) Vm q w). Qed.
(* hypotheses met: C34_world_ex *)
Print Assumptions C34_pd.
(** the checker of the algorithm accepts exactly the trees numbered depth first *)
Theorem C34_checker (eps : R) (m : Model) : Built eps m -> crbaCheck m = true <-> depthFirst m.
Proof. exact (fun B => crbaCheck_spec m (Built_wf eps m B) (Built_tree eps m B)). Qed.
(* hypotheses met: C34_world_ex *)
Print Assumptions C34_checker.
(** other trees can be built, and the algorithm is wrong on them: a non-zero entry for two joints that share no body *)
Theorem C34_order_refuted (eps : R) (d : Data) (q : vec) : exists m, Built eps m /\ validModel m /\ noMimic m /\ validState m q /\
  massMatrix m q 0 1 = 0%R /\ exists d', crbaWorld eps m d q = Ok d' tt /\ ma (gl d') F_M 0 1 = 2%R.
Proof. exact (ex_intro _ (exN eps) (conj (exN_built eps) (conj (exN_valid eps) (conj (exN_noMimic eps) (conj (exN_validState eps q) (conj (exN_mass eps q) (exN_world eps d q))))))). Qed.
Print Assumptions C34_order_refuted.
(** mimic joints: when the mimicked joint is the first of the model, both conventions read out of bounds *)
Theorem C34_mimic_first_undefined (eps : R) (m : Model) (i : nat) (d : Data) (q : vec) : In i (m_mimicking m) -> jm_idx_v (joint m i) = 0 ->
  crbaWorld eps m d q = Undef /\ crbaLocal eps m d q = Undef.
Proof. exact (crba_mimic_first eps m i d q). Qed.
Example C34_mimic_first_undefined_ex (eps : R) : Built eps (exTree eps) /\ In 4 (m_mimicking (exTree eps)) /\ jm_idx_v (joint (exTree eps) 4) = 0.
Proof. exact (conj (exTree_built eps) (conj (or_introl eq_refl) eq_refl)). Qed.
Print Assumptions C34_mimic_first_undefined.
(** mimic joints: when the last joint of a subtree is a mimic one, entries of the mass matrix are not computed at all *)
Theorem C34_mimic_last_refuted (eps : R) (d : Data) (q : vec) : exists m, Built eps m /\ validModel m /\ depthFirst m /\ validState m q /\
  sameBranch m 0 2 /\ massMatrix m q 0 2 = 2%R /\
  (exists d', crbaWorld eps m d q = Ok d' tt /\ ma (gl d') F_M 0 2 = ma (gl d) F_M 0 2) /\
  (exists d', crbaLocal eps m d q = Ok d' tt /\ ma (gl d') F_M 0 2 = ma (gl d) F_M 0 2).
Proof. exact (ex_intro _ (exMC eps) (conj (exMC_built eps) (conj (exMC_valid eps) (conj (exMC_df eps) (conj (exMC_validState eps q) (conj (exMC_branch eps) (conj (exMC_mass eps q) (conj (exMC_world eps d q) (exMC_local eps d q))))))))). Qed.
Print Assumptions C34_mimic_last_refuted.
