(** Property theorems C75 (constrained forward dynamics, impacts and the KKT matrix). Statements only.
    [inv] is the inversion of the contact matrix (a Cholesky solve of the linear-algebra library): any function that inverts
    the symmetric positive definite matrices ([invertsPD]). J has nc rows, gamma is the drift of the constraints, mu the damping. *)
From Coq Require Import Reals List Arith.
From Verif Require Import Vec3 Spatial Inertia Joints Model Spec_Model ModelFacts ModelTree ModelFacts2 ModelFacts3 Sums Data Kinematics Spec_Kin Spec_Mass KinFacts3 Spec_Dyn Rnea Crba CrbaFacts3 CrbaFacts4 Spec_Aba Aba AbaInv AbaFacts4 Spec_Jac
  Spec_Chol Cholesky CholFacts5 Spec_Com AllTerms AllTermsFacts3 Spec_ContactDyn ContactDyn ContactDynFacts2.
Local Open Scope nat_scope.

(** the accelerations and contact forces solve the damped equations of motion, the residual is the free acceleration, and the
    factorisation left behind can be used by the next call *)
Theorem C75_forward (eps mu : R) (inv : nat -> (nat -> nat -> R) -> nat -> nat -> R) (m : Model) (s0 : Chol) (M A J : nat -> nat -> R) (nc : nat) (nle tau gamma : vec) :
  Built eps m -> validModel m -> noMimic m -> depthFirst m -> noRigidJoint m -> invertsPD inv ->
  symmetricM (m_nv m) A -> treeSparse m A -> positiveM (m_nv m) A -> holdsUpper m M A -> unitUpper (m_nv m) (cU s0) -> treeSparse m (cU s0) -> wellPosed nc (m_nv m) J mu ->
  let r := forwardDynamics inv m s0 M nle tau nc J gamma mu in
  contactMotion (m_nv m) nc A J mu nle tau gamma (k_joint r) (k_multiplier r) /\
  sameV (m_nv m) (mulMV (m_nv m) A (k_residual r)) (fun k => (tau k - nle k)%R) /\
  unitUpper (m_nv m) (cU (k_chol r)) /\ treeSparse m (cU (k_chol r)).
Proof. exact (fun B Vm NM DF P HI Sy Sp Po HU U0 S0 WP => forward_motion inv HI eps m B Vm NM DF P M A s0 Sy Sp Po HU U0 S0 nc J mu WP nle tau gamma). Qed.
Example C75_ex (s : R) : let m := exD (1/1000) in Built (1/1000) m /\ validModel m /\ noMimic m /\ depthFirst m /\ noRigidJoint m /\ invertsPD elimInv /\
  symmetricM (m_nv m) (massMatrix m (exQ s)) /\ treeSparse m (massMatrix m (exQ s)) /\ positiveM (m_nv m) (massMatrix m (exQ s)) /\
  holdsUpper m (massMatrix m (exQ s)) (massMatrix m (exQ s)) /\ unitUpper (m_nv m) (cU cholInit) /\ treeSparse m (cU cholInit) /\
  wellPosed 2 (m_nv m) exRows 0 /\ wellPosed 2 (m_nv m) exRows 1.
Proof. exact (exD_contact s). Qed.
Print Assumptions C75_forward.
(** they are the only solution *)
Theorem C75_unique (eps mu : R) (inv : nat -> (nat -> nat -> R) -> nat -> nat -> R) (m : Model) (s0 : Chol) (M A J : nat -> nat -> R) (nc : nat) (nle tau gamma a f : vec) :
  Built eps m -> validModel m -> noMimic m -> depthFirst m -> noRigidJoint m -> invertsPD inv ->
  symmetricM (m_nv m) A -> treeSparse m A -> positiveM (m_nv m) A -> holdsUpper m M A -> unitUpper (m_nv m) (cU s0) -> treeSparse m (cU s0) -> wellPosed nc (m_nv m) J mu ->
  contactMotion (m_nv m) nc A J mu nle tau gamma a f ->
  let r := forwardDynamics inv m s0 M nle tau nc J gamma mu in sameV (m_nv m) (k_joint r) a /\ sameV nc (k_multiplier r) f.
Proof. exact (fun B Vm NM DF P HI Sy Sp Po HU U0 S0 WP => forward_unique inv HI eps m B Vm NM DF P M A s0 Sy Sp Po HU U0 S0 nc J mu WP nle tau gamma a f). Qed.
(* hypotheses met: C75_ex with C75_forward *)
Print Assumptions C75_unique.
(** Gauss: without damping, among all the accelerations that satisfy the constraints, the computed one is nearest to the free
    acceleration in the metric of the inertia *)
Theorem C75_gauss (eps mu : R) (inv : nat -> (nat -> nat -> R) -> nat -> nat -> R) (m : Model) (s0 : Chol) (M A J : nat -> nat -> R) (nc : nat) (nle tau gamma a : vec) :
  Built eps m -> validModel m -> noMimic m -> depthFirst m -> noRigidJoint m -> invertsPD inv ->
  symmetricM (m_nv m) A -> treeSparse m A -> positiveM (m_nv m) A -> holdsUpper m M A -> unitUpper (m_nv m) (cU s0) -> treeSparse m (cU s0) -> wellPosed nc (m_nv m) J mu ->
  mu = 0%R -> (forall i, i < nc -> (mulMV (m_nv m) J a i + gamma i = 0)%R) ->
  let r := forwardDynamics inv m s0 M nle tau nc J gamma mu in
  (energy (m_nv m) A (fun k => k_joint r k - k_residual r k) <= energy (m_nv m) A (fun k => a k - k_residual r k))%R.
Proof. exact (fun B Vm NM DF P HI Sy Sp Po HU U0 S0 WP => forward_gauss inv HI eps m B Vm NM DF P M A s0 Sy Sp Po HU U0 S0 nc J mu WP nle tau gamma a). Qed.
(* hypotheses met: C75_ex with C75_forward *)
Print Assumptions C75_gauss.
(** from the configuration: the inverse dynamics of the result are the torques plus the contact forces *)
Theorem C75_state (eps mu : R) (inv : nat -> (nat -> nat -> R) -> nat -> nat -> R) (m : Model) (d d' : Data) (s0 : Chol) (q v tau gamma : vec) (J : nat -> nat -> R) (nc : nat) :
  Built eps m -> validModel m -> noMimic m -> depthFirst m -> noRigidJoint m -> invertsPD inv -> regularMasses eps m ->
  validState m q -> positiveM (m_nv m) (massMatrix m q) -> unitUpper (m_nv m) (cU s0) -> treeSparse m (cU s0) -> wellPosed nc (m_nv m) J mu -> subtreeMass m 0 <> 0%R ->
  let r := forwardDynamicsState inv eps m d s0 q v tau nc J gamma mu in
  (forall k, k < m_nv m -> rnea m d' q v (k_joint r) k = (tau k + mulMV nc (transp J) (k_multiplier r) k)%R) /\
  (forall i, i < nc -> (mulMV (m_nv m) J (k_joint r) i + gamma i + mu * k_multiplier r i = 0)%R) /\
  (forall k, k < m_nv m -> rnea m d' q v (k_residual r) k = tau k).
Proof. exact (fun B Vm NM DF P HI RM Hq PM U0 S0 WP HM => state_motion inv HI eps m B Vm NM DF P RM q v Hq PM s0 U0 S0 nc J mu WP HM d d' tau gamma). Qed.
Example C75_state_ex (s : R) : let m := exD (1/1000) in Built (1/1000) m /\ validModel m /\ noMimic m /\ depthFirst m /\ noRigidJoint m /\ invertsPD elimInv /\ regularMasses (1/1000) m /\
  validState m (exQ s) /\ positiveM (m_nv m) (massMatrix m (exQ s)) /\ unitUpper (m_nv m) (cU cholInit) /\ treeSparse m (cU cholInit) /\
  wellPosed 2 (m_nv m) exRows 0 /\ subtreeMass m 0 <> 0%R.
Proof. exact (exD_contactState s). Qed.
Print Assumptions C75_state.
(** it is what the articulated-body algorithm computes under the torques and the contact forces *)
Theorem C75_aba (eps mu : R) (inv : nat -> (nat -> nat -> R) -> nat -> nat -> R) (m : Model) (d d' : Data) (s0 : Chol) (q v tau gamma : vec) (J : nat -> nat -> R) (nc : nat) :
  Built eps m -> validModel m -> noMimic m -> depthFirst m -> noRigidJoint m -> invertsPD inv -> regularMasses eps m ->
  validState m q -> positiveM (m_nv m) (massMatrix m q) -> unitUpper (m_nv m) (cU s0) -> treeSparse m (cU s0) -> wellPosed nc (m_nv m) J mu -> subtreeMass m 0 <> 0%R ->
  let r := forwardDynamicsState inv eps m d s0 q v tau nc J gamma mu in
  sameV (m_nv m) (k_joint r) (abaWorld inv m d' q v (fun k => (tau k + mulMV nc (transp J) (k_multiplier r) k)%R)) /\
  sameV (m_nv m) (k_residual r) (abaWorld inv m d' q v tau).
Proof. exact (fun B Vm NM DF P HI RM Hq PM U0 S0 WP HM => state_aba inv HI eps m B Vm NM DF P RM q v Hq PM s0 U0 S0 nc J mu WP HM d d' tau gamma). Qed.
(* hypotheses met: C75_state_ex *)
Print Assumptions C75_aba.
(** an impact of restitution r: the jump of momentum is J^T f and the constraint velocities are reversed *)
Theorem C75_impulse (eps mu : R) (inv : nat -> (nat -> nat -> R) -> nat -> nat -> R) (m : Model) (s0 : Chol) (M A J : nat -> nat -> R) (nc : nat) (v0 res : vec) (rest : R) :
  Built eps m -> validModel m -> noMimic m -> depthFirst m -> noRigidJoint m -> invertsPD inv ->
  symmetricM (m_nv m) A -> treeSparse m A -> positiveM (m_nv m) A -> holdsUpper m M A -> unitUpper (m_nv m) (cU s0) -> treeSparse m (cU s0) -> wellPosed nc (m_nv m) J mu ->
  let r := impulseDynamics inv m s0 M v0 nc J rest mu res in
  impact (m_nv m) nc A J mu rest v0 (k_joint r) (k_multiplier r) /\ unitUpper (m_nv m) (cU (k_chol r)) /\ treeSparse m (cU (k_chol r)).
Proof. exact (fun B Vm NM DF P HI Sy Sp Po HU U0 S0 WP => impulse_impact inv HI eps m B Vm NM DF P M A s0 Sy Sp Po HU U0 S0 nc J mu WP v0 rest res). Qed.
(* hypotheses met: C75_ex *)
Print Assumptions C75_impulse.
(** the kinetic energy lost in the impact: none is gained for a restitution in ]-1, 1], none is lost for 1 without damping *)
Theorem C75_energy (eps mu : R) (inv : nat -> (nat -> nat -> R) -> nat -> nat -> R) (m : Model) (s0 : Chol) (M A J : nat -> nat -> R) (nc : nat) (v0 res : vec) (rest : R) :
  Built eps m -> validModel m -> noMimic m -> depthFirst m -> noRigidJoint m -> invertsPD inv ->
  symmetricM (m_nv m) A -> treeSparse m A -> positiveM (m_nv m) A -> holdsUpper m M A -> unitUpper (m_nv m) (cU s0) -> treeSparse m (cU s0) -> wellPosed nc (m_nv m) J mu ->
  (-1 < rest)%R -> let r := impulseDynamics inv m s0 M v0 nc J rest mu res in
  energy (m_nv m) A (k_joint r) =
  (energy (m_nv m) A v0 - ((1 - rest) * energy (m_nv m) A (fun l => k_joint r l - v0 l) + mu * dotv nc (k_multiplier r) (k_multiplier r)) / (1 + rest))%R.
Proof. exact (fun B Vm NM DF P HI Sy Sp Po HU U0 S0 WP => impulse_energy inv HI eps m B Vm NM DF P M A s0 Sy Sp Po HU U0 S0 nc J mu WP v0 rest res). Qed.
(* hypotheses met: C75_ex *)
Print Assumptions C75_energy.
(** from the configuration: the impact is solved for the joint-space inertia matrix *)
Theorem C75_impulse_state (eps mu : R) (inv : nat -> (nat -> nat -> R) -> nat -> nat -> R) (m : Model) (d : Data) (s0 : Chol) (q v0 res : vec) (J : nat -> nat -> R) (nc : nat) (rest : R) :
  Built eps m -> validModel m -> noMimic m -> depthFirst m -> noRigidJoint m -> invertsPD inv -> regularMasses eps m ->
  validState m q -> positiveM (m_nv m) (massMatrix m q) -> unitUpper (m_nv m) (cU s0) -> treeSparse m (cU s0) -> wellPosed nc (m_nv m) J mu ->
  exists e r, impulseDynamicsState inv eps m d s0 q v0 nc J rest mu res = Ok e r /\
  impact (m_nv m) nc (massMatrix m q) J mu rest v0 (k_joint r) (k_multiplier r).
Proof. exact (fun B Vm NM DF P HI RM Hq PM U0 S0 WP => state_impact inv HI eps m B Vm NM DF P RM q Hq PM s0 U0 S0 nc J mu WP d v0 rest res). Qed.
(* hypotheses met: C75_state_ex *)
Print Assumptions C75_impulse_state.
(** the four blocks are those of the inverse of [M J^T; J -mu] *)
Theorem C75_kkt (eps mu : R) (inv : nat -> (nat -> nat -> R) -> nat -> nat -> R) (m : Model) (d : Data) (s0 : Chol) (q : vec) (J : nat -> nat -> R) (nc : nat) :
  Built eps m -> validModel m -> noMimic m -> depthFirst m -> noRigidJoint m -> invertsPD inv -> regularMasses eps m ->
  validState m q -> positiveM (m_nv m) (massMatrix m q) -> unitUpper (m_nv m) (cU s0) -> treeSparse m (cU s0) -> wellPosed nc (m_nv m) J mu ->
  exists e K, computeKKT inv eps m d s0 q nc J mu = Ok e K /\
  kktInverse (m_nv m) nc (massMatrix m q) J mu (topLeft K) (topRight K) (bottomLeft K) (bottomRight K).
Proof. exact (fun B Vm NM DF P HI RM Hq PM U0 S0 WP => state_kkt inv HI eps m B Vm NM DF P RM q Hq PM s0 U0 S0 nc J mu WP d). Qed.
(* hypotheses met: C75_state_ex *)
Print Assumptions C75_kkt.
(** after forwardDynamics, the blocks read from its factorisation and its contact matrix are those of the inverse *)
Theorem C75_kkt_after (eps mu : R) (inv : nat -> (nat -> nat -> R) -> nat -> nat -> R) (m : Model) (s0 : Chol) (M A J : nat -> nat -> R) (nc : nat) (nle tau gamma : vec) :
  Built eps m -> validModel m -> noMimic m -> depthFirst m -> noRigidJoint m -> invertsPD inv ->
  symmetricM (m_nv m) A -> treeSparse m A -> positiveM (m_nv m) A -> holdsUpper m M A -> unitUpper (m_nv m) (cU s0) -> treeSparse m (cU s0) -> wellPosed nc (m_nv m) J mu ->
  let r := forwardDynamics inv m s0 M nle tau nc J gamma mu in let K := getKKT inv m (k_chol r) nc (k_JMinvJt r) J in
  kktInverse (m_nv m) nc A J mu (topLeft K) (topRight K) (bottomLeft K) (bottomRight K).
Proof. exact (fun B Vm NM DF P HI Sy Sp Po HU U0 S0 WP => kkt_blocks inv HI eps m B Vm NM DF P M A s0 Sy Sp Po HU U0 S0 nc J mu WP). Qed.
(* hypotheses met: C75_ex *)
Print Assumptions C75_kkt_after.
(** a negative damping is refused before anything is changed *)
Theorem C75_throws (eps mu : R) (inv : nat -> (nat -> nat -> R) -> nat -> nat -> R) (m : Model) (d : Data) (s0 : Chol) (q : vec) (J : nat -> nat -> R) (nc : nat) :
  (mu < 0)%R -> computeKKT inv eps m d s0 q nc J mu = Throw d.
Proof. exact (kkt_throws inv eps m d s0 q nc J mu). Qed.
(* hypotheses met: mu = -1 *)
Print Assumptions C75_throws.
