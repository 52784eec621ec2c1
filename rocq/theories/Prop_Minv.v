(** Property theorems C66 (the inverse of the joint space inertia matrix). Statements only.
    The algorithms fill the upper triangle of data.Minv: [symUpper] completes it. [inv]: see Prop_Aba.v. *)
From Coq Require Import Reals List Arith.
From Verif Require Import Vec3 Spatial Inertia Joints Model Spec_Model ModelFacts ModelTree ModelFacts2 ModelFacts3 Sums Data Kinematics Spec_Kin Spec_Mass KinFacts3 Spec_Dyn Rnea MassFacts Crba Aba CrbaFacts CrbaFacts3 CrbaFacts4 Spec_Aba AbaFacts3 AbaInv AbaFacts4 Spec_Deriv Minverse MinvFacts2 MinvFacts3 MinvFacts4.
Local Open Scope nat_scope.

(** computeMinverse(model, data, q), from any previous content of the data *)
Theorem C66_inverse (eps : R) (m : Model) (inv : nat -> (nat -> nat -> R) -> nat -> nat -> R) (d : Data) (q : vec) :
  Built eps m -> validModel m -> noMimic m -> depthFirst m -> invertsPD inv -> validState m q -> positiveM (m_nv m) (massMatrix m q) ->
  let X := symUpper (ma (gl (computeMinverse inv m d q)) F_Minv) in
  symmetricM (m_nv m) X /\ identityM (m_nv m) (matMul (m_nv m) (massMatrix m q) X).
Proof. exact (fun B Vm NM DF HI Hq PM => minverse_inverse m (Built_wf eps m B) (Built_tree eps m B) Vm NM DF inv HI q Hq PM d). Qed.
Example C66_ex (s : R) : Built (1/1000) (exD (1/1000)) /\ validModel (exD (1/1000)) /\ noMimic (exD (1/1000)) /\ depthFirst (exD (1/1000)) /\ invertsPD elimInv /\
  validState (exD (1/1000)) (exQ s) /\ positiveM (m_nv (exD (1/1000))) (massMatrix (exD (1/1000)) (exQ s)) /\ m_nv (exD (1/1000)) = 10.
Proof.
  exact (conj (exD_built _) (conj (exD_valid _) (conj (exD_noMimic _) (conj (exD_df _) (proj2 (proj2 (proj2 (aba_ex s)))))))).
Qed.
Print Assumptions C66_inverse.
(** computeMinverse(model, data) after forward dynamics with the world convention, without and with external forces *)
Theorem C66_after_aba (eps : R) (m : Model) (inv : nat -> (nat -> nat -> R) -> nat -> nat -> R) (d : Data) (q v tau : vec) :
  Built eps m -> validModel m -> noMimic m -> depthFirst m -> invertsPD inv -> validState m q -> positiveM (m_nv m) (massMatrix m q) ->
  let X := symUpper (ma (gl (computeMinverseO m (abaWorldData inv m d q v tau))) F_Minv) in
  symmetricM (m_nv m) X /\ identityM (m_nv m) (matMul (m_nv m) (massMatrix m q) X).
Proof. exact (fun B Vm NM DF HI Hq PM => minverse_after_aba m (Built_wf eps m B) (Built_tree eps m B) Vm NM DF inv HI q Hq PM d v tau). Qed.
(* hypotheses met: C66_ex *)
Print Assumptions C66_after_aba.
Theorem C66_after_aba_forces (eps : R) (m : Model) (inv : nat -> (nat -> nat -> R) -> nat -> nat -> R) (d : Data) (q v tau : vec) (fext : nat -> V6) :
  Built eps m -> validModel m -> noMimic m -> depthFirst m -> invertsPD inv -> validState m q -> positiveM (m_nv m) (massMatrix m q) ->
  let X := symUpper (ma (gl (computeMinverseO m (abaWorldDataExt inv m d q v tau fext))) F_Minv) in
  symmetricM (m_nv m) X /\ identityM (m_nv m) (matMul (m_nv m) (massMatrix m q) X).
Proof. exact (fun B Vm NM DF HI Hq PM => minverse_after_abaExt m (Built_wf eps m B) (Built_tree eps m B) Vm NM DF inv HI q Hq PM d v tau fext). Qed.
(* hypotheses met: C66_ex *)
Print Assumptions C66_after_aba_forces.
(** forward dynamics is that matrix times the torques minus the nonlinear effects: three algorithms agree *)
Theorem C66_forward (eps : R) (m : Model) (inv : nat -> (nat -> nat -> R) -> nat -> nat -> R) (d d1 d2 : Data) (q v tau : vec) (k : nat) :
  Built eps m -> validModel m -> noMimic m -> depthFirst m -> invertsPD inv -> validState m q -> positiveM (m_nv m) (massMatrix m q) -> k < m_nv m ->
  abaWorld inv m d1 q v tau k =
  dotv (m_nv m) (symUpper (ma (gl (computeMinverse inv m d q)) F_Minv) k) (fun l => tau l - nonLinearEffects m d2 q v l)%R.
Proof.
  exact (fun B Vm NM DF HI Hq PM => let H := minverse_inverse m (Built_wf eps m B) (Built_tree eps m B) Vm NM DF inv HI q Hq PM d in
    aba_minv m (Built_wf eps m B) (Built_tree eps m B) Vm NM inv HI q v Hq PM _ (proj1 H) (proj2 H) d1 d2 tau k).
Qed.
(* hypotheses met: C66_ex *)
Print Assumptions C66_forward.
(** other trees can be built, and the result is not the inverse on them, although the mass matrix is positive definite *)
Theorem C66_order_refuted (eps : R) (q : vec) : exists m, Built eps m /\ validModel m /\ noMimic m /\ validState m q /\ positiveM (m_nv m) (massMatrix m q) /\
  forall inv d, ~ identityM (m_nv m) (matMul (m_nv m) (massMatrix m q) (symUpper (ma (gl (computeMinverse inv m d q)) F_Minv))).
Proof.
  exact (ex_intro _ (exV eps) (conj (exV_built eps) (conj (exV_valid eps) (conj (exV_noMimic eps) (conj (exV_validState eps q) (conj (exV_positive eps q) (fun inv d => exV_wrong inv eps d q))))))).
Qed.
Print Assumptions C66_order_refuted.
