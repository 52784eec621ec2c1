(** Property theorems C35 (articulated-body algorithm). Statements only.
    [inv] is the inversion of the joint-space blocks (a Cholesky solve of the linear-algebra library): any function that inverts
    the symmetric positive definite matrices ([invertsPD]); the division of the one-dof joints is part of the model. *)
From Coq Require Import Reals List Arith.
From Verif Require Import Vec3 Spatial Inertia Joints Model Spec_Model ModelFacts ModelTree ModelFacts2 ModelFacts3 Sums Data Kinematics Spec_Kin Spec_Mass KinFacts3 Spec_Dyn Rnea DynFacts2 MassFacts Crba Aba CrbaFacts CrbaFacts3 CrbaFacts4 Spec_Aba AbaFacts3 AbaInv AbaFacts4.
Local Open Scope nat_scope.

(** inverse dynamics of the accelerations computed by the world convention give back the torques *)
Theorem C35_world (eps : R) (m : Model) (inv : nat -> (nat -> nat -> R) -> nat -> nat -> R) (d d' : Data) (q v tau : vec) (k : nat) :
  Built eps m -> validModel m -> noMimic m -> invertsPD inv -> validState m q -> positiveM (m_nv m) (massMatrix m q) -> k < m_nv m ->
  rnea m d' q v (abaWorld inv m d q v tau) k = tau k.
Proof. exact (fun B Vm NM HI Hq PM => rnea_abaWorld m (Built_wf eps m B) (Built_tree eps m B) Vm NM inv HI q v Hq PM d d' tau k). Qed.
Example C35_world_ex (s : R) : Built (1/1000) (exD (1/1000)) /\ validModel (exD (1/1000)) /\ noMimic (exD (1/1000)) /\ invertsPD elimInv /\
  validState (exD (1/1000)) (exQ s) /\ positiveM (m_nv (exD (1/1000))) (massMatrix (exD (1/1000)) (exQ s)) /\ m_nv (exD (1/1000)) = 10.
Proof. exact (aba_ex s). Qed.
Print Assumptions C35_world.
(** local convention *)
Theorem C35_local (eps : R) (m : Model) (inv : nat -> (nat -> nat -> R) -> nat -> nat -> R) (d d' : Data) (q v tau : vec) (k : nat) :
  Built eps m -> validModel m -> noMimic m -> invertsPD inv -> validState m q -> positiveM (m_nv m) (massMatrix m q) -> k < m_nv m ->
  rnea m d' q v (abaLocal inv m d q v tau) k = tau k.
Proof. exact (fun B Vm NM HI Hq PM => rnea_abaLocal m (Built_wf eps m B) (Built_tree eps m B) Vm NM inv HI q v Hq PM d d' tau k). Qed.
(* hypotheses met: C35_world_ex *)
Print Assumptions C35_local.
(** with external forces, both conventions *)
Theorem C35_world_forces (eps : R) (m : Model) (inv : nat -> (nat -> nat -> R) -> nat -> nat -> R) (d d' : Data) (q v tau : vec) (fext : nat -> V6) (k : nat) :
  Built eps m -> validModel m -> noMimic m -> invertsPD inv -> validState m q -> positiveM (m_nv m) (massMatrix m q) -> k < m_nv m ->
  rneaExt m d' q v (abaWorldExt inv m d q v tau fext) fext k = tau k.
Proof. exact (fun B Vm NM HI Hq PM => rnea_abaWorldExt m (Built_wf eps m B) (Built_tree eps m B) Vm NM inv HI q v Hq PM d d' tau fext k). Qed.
(* hypotheses met: C35_world_ex *)
Print Assumptions C35_world_forces.
Theorem C35_local_forces (eps : R) (m : Model) (inv : nat -> (nat -> nat -> R) -> nat -> nat -> R) (d d' : Data) (q v tau : vec) (fext : nat -> V6) (k : nat) :
  Built eps m -> validModel m -> noMimic m -> invertsPD inv -> validState m q -> positiveM (m_nv m) (massMatrix m q) -> k < m_nv m ->
  rneaExt m d' q v (abaLocalExt inv m d q v tau fext) fext k = tau k.
Proof. exact (fun B Vm NM HI Hq PM => rnea_abaLocalExt m (Built_wf eps m B) (Built_tree eps m B) Vm NM inv HI q v Hq PM d d' tau fext k). Qed.
(* hypotheses met: C35_world_ex *)
Print Assumptions C35_local_forces.
(** the other way round: forward dynamics of the inverse dynamics torques give back the accelerations *)
Theorem C35_inverse (eps : R) (m : Model) (inv : nat -> (nat -> nat -> R) -> nat -> nat -> R) (d d' : Data) (q v a : vec) (fext : nat -> V6) (k : nat) :
  Built eps m -> validModel m -> noMimic m -> invertsPD inv -> validState m q -> positiveM (m_nv m) (massMatrix m q) -> k < m_nv m ->
  abaWorld inv m d q v (rnea m d' q v a) k = a k /\ abaLocal inv m d q v (rnea m d' q v a) k = a k /\
  abaWorldExt inv m d q v (rneaExt m d' q v a fext) fext k = a k /\ abaLocalExt inv m d q v (rneaExt m d' q v a fext) fext k = a k.
Proof. exact (fun B Vm NM HI Hq PM Hk => aba_inverse m (Built_wf eps m B) (Built_tree eps m B) Vm NM inv HI q v Hq PM d d' a fext k Hk). Qed.
(* hypotheses met: C35_world_ex *)
Print Assumptions C35_inverse.
(** in particular when every body has a positive definite inertia (and no joint is singular) *)
Theorem C35_solid (eps : R) (m : Model) (inv : nat -> (nat -> nat -> R) -> nat -> nat -> R) (d d' : Data) (q v tau : vec) (fext : nat -> V6) (k : nat) :
  Built eps m -> validModel m -> noMimic m -> invertsPD inv -> validState m q -> solid m -> rotors m -> regularJoints m q -> k < m_nv m ->
  rnea m d' q v (abaWorld inv m d q v tau) k = tau k /\ rnea m d' q v (abaLocal inv m d q v tau) k = tau k /\
  rneaExt m d' q v (abaWorldExt inv m d q v tau fext) fext k = tau k /\ rneaExt m d' q v (abaLocalExt inv m d q v tau fext) fext k = tau k.
Proof. exact (fun B Vm NM HI Hq => aba_solid m (Built_wf eps m B) (Built_tree eps m B) Vm NM inv HI q v Hq d d' tau fext k). Qed.
Example C35_solid_ex (s : R) : Built (1/1000) (exD (1/1000)) /\ validModel (exD (1/1000)) /\ noMimic (exD (1/1000)) /\ depthFirst (exD (1/1000)) /\
  regularMasses (1/1000) (exD (1/1000)) /\ validState (exD (1/1000)) (exQ s) /\ solid (exD (1/1000)) /\ rotors (exD (1/1000)) /\ regularJoints (exD (1/1000)) (exQ s) /\
  m_njoints (exD (1/1000)) = 4 /\ m_nv (exD (1/1000)) = 10.
Proof. exact (exD_all s). Qed.
Print Assumptions C35_solid.
(** an inversion as required exists *)
Theorem C35_inversion_exists : invertsPD elimInv.
Proof. exact elimInv_inverts. Qed.
Print Assumptions C35_inversion_exists.
