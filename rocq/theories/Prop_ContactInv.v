(** Property theorems C84 (contact inverse dynamics). Statements only. *)
From Coq Require Import Reals List Arith.
From Verif Require Import Vec3 Spatial Inertia Joints Spec_Joints Sums Deriv Model Spec_Model ModelFacts3 Data Kinematics Spec_Kin Spec_Mass KinFacts3 Rnea Jacobian Cone Spec_Cone Contact Spec_Contact Constraint ContactInv Spec_ContactInv ContactInvFacts2 ContactInvEx.
Import ListNotations.
Local Open Scope R_scope.

(** What computeContactImpulses returns after at least one iteration: relative_residual is the distance to the iterate before, within the accuracy
    unless max_iter iterations have been made; each impulse is in its friction cone, and satisfies the contact problem of diagonal compliance R up to
    the change of the last iteration. *)
Theorem C84_answer (imp : SVec) (c : rvec) (ncm ncd : nat) (mus : list R) (Rv corr : SVec) (P : Prox) (guess : option SVec) (s : SVec) (P' : Prox) :
  computeContactImpulses imp c ncm ncd mus Rv corr P guess = Ok s P' -> (1 <= px_max P)%nat -> frictions mus -> goodCompliance mus (sv_x Rv) (px_mu P) ->
  exists xp, px_res P' = normInf (sv_n s) (fun k => sv_x s k - xp k) /\ (1 <= px_it P' <= px_max P + 1)%nat /\
    ((px_it P' <= px_max P)%nat -> px_res P' <= px_rel P * Rmax (normInf (sv_n s) (sv_x s)) (normInf (sv_n s) xp)) /\
    forall i, (i < length mus)%nat -> let mu := nth i mus 0 in let f := seg3 (sv_x s) (3 * i) in
      let vel := fun x => seg3 (contactVel (sv_n Rv) (diagM (sv_x Rv)) c x) (3 * i) in
      let y := v3add (v3add (vel (sv_x s)) (mkV3 0 0 (mu * sqrt (vx (vel xp) * vx (vel xp) + vy (vel xp) * vy (vel xp))))) (v3scale (px_mu P) (v3sub f (seg3 xp (3 * i)))) in
      inCone mu f /\ inDual mu y /\ v3dot f y = 0.
Proof. exact (impulse_answer imp c ncm ncd mus Rv corr P guess s P'). Qed.
Example C84_ex : frictions [1 / 2] /\ goodCompliance [1 / 2] (sv_x ciR) (px_mu ciP) /\ contactSolution 3 (diagM (sv_x ciR)) ciC [1 / 2] (sv_x ciF) /\
  computeContactImpulses (mkSV 0 (fun _ => 0)) ciC 1 1 [1 / 2] ciR (mkSV 3 (fun _ => 0)) ciP (Some ciF) = Ok ciF (mkProx 1 (1 / 1000) 10 0 1).
Proof. exact ci_ex. Qed.
Print Assumptions C84_answer.

(** When the residual vanishes every contact obeys Coulomb's law, for the velocities c_ref + R x *)
Theorem C84_solution (imp : SVec) (c : rvec) (ncm ncd : nat) (mus : list R) (Rv corr : SVec) (P : Prox) (guess : option SVec) (s : SVec) (P' : Prox) :
  computeContactImpulses imp c ncm ncd mus Rv corr P guess = Ok s P' -> (1 <= px_max P)%nat -> frictions mus -> goodCompliance mus (sv_x Rv) (px_mu P) ->
  px_res P' = 0 -> contactSolution (sv_n Rv) (diagM (sv_x Rv)) c mus (sv_x s).
Proof. exact (impulse_solution imp c ncm ncd mus Rv corr P guess s P'). Qed.
(* hypotheses met: C84_ex *)
Print Assumptions C84_solution.

(** A guess that obeys Coulomb's law is returned after one iteration, with a zero residual *)
Theorem C84_warm (imp : SVec) (c : rvec) (ncd : nat) (mus : list R) (Rv corr : SVec) (P : Prox) (g : SVec) :
  sv_n corr = sv_n Rv -> ncd = (sv_n Rv / 3)%nat -> sv_n g = sv_n Rv -> (3 * length mus <= sv_n Rv)%nat -> 0 < px_mu P -> 0 <= px_rel P -> (1 <= px_max P)%nat ->
  frictions mus -> goodCompliance mus (sv_x Rv) (px_mu P) -> contactSolution (sv_n Rv) (diagM (sv_x Rv)) c mus (sv_x g) ->
  computeContactImpulses imp c (sv_n Rv / 3) ncd mus Rv corr P (Some g) = Ok g (mkProx (px_mu P) (px_rel P) (px_max P) 0 1).
Proof. exact (impulse_warm imp c ncd mus Rv corr P g). Qed.
(* hypotheses met: C84_ex *)
Print Assumptions C84_warm.

(** The calls that are refused *)
Theorem C84_throw (imp : SVec) (c : rvec) (ncm ncd : nat) (mus : list R) (Rv corr : SVec) (P : Prox) (guess : option SVec) :
  (forall g, guess = Some g -> sv_n g = sv_n Rv) ->
  (exists s, computeContactImpulses imp c ncm ncd mus Rv corr P guess = Throw s) <-> sv_n corr <> sv_n Rv \/ ncm <> (sv_n Rv / 3)%nat \/ ncd <> (sv_n Rv / 3)%nat \/ px_mu P <= 0.
Proof. exact (impulse_throw imp c ncm ncd mus Rv corr P guess). Qed.
Print Assumptions C84_throw.

(** contactInverseDynamics for contacts of joints with the universe, given in the axes of their frames: the torques are those of the inverse dynamics
    minus the transpose of the Jacobian times the contact forces, the forces are the impulses over dt, and with a zero residual the impulses obey
    Coulomb's law for the velocities J (v + dt a) *)
Theorem C84_dynamics (eps : R) (m : Model) (d d' : Data) (imp : SVec) (q v a : vec) (dt : R) (cs : list RigidConstraintModel) (ncd : nat) (mus : list R) (Rv corr : SVec)
  (P : Prox) (guess : option SVec) (s : SVec) (tau : vec) (lam : rvec) (P' : Prox) :
  Built eps m -> validModel m -> noMimic m -> validState m q -> pl (rows d 0) F_oMi = se3_Identity ->
  (forall c, In c cs -> exists j p p0, c = rcFill m CONTACT_3D j p 0 p0 LOCAL /\ (j < m_njoints m)%nat /\ isRotation (rot p) /\ isRotation (rot p0)) ->
  let D := computeJointJacobians m d q in let J := getConstraintsJacobian m D cs (fun _ _ => 0) in
  contactInverseDynamics m D imp q v a dt cs ncd mus Rv corr P guess = Ok s (tau, lam, P') ->
  (forall k, (k < m_nv m)%nat -> tau k = rnea m d' q v a k - sumN (3 * length cs) (fun r => J r k * lam r)) /\
  (forall k, lam k = sv_x s k / dt) /\
  ((1 <= px_max P)%nat -> frictions mus -> goodCompliance mus (sv_x Rv) (px_mu P) -> px_res P' = 0 ->
   contactSolution (sv_n Rv) (diagM (sv_x Rv)) (fun i => dotv (m_nv m) (J i) (fun k => v k + dt * a k)) mus (sv_x s)).
Proof. exact (inverse_dynamics eps m d d' imp q v a dt cs ncd mus Rv corr P guess s tau lam P'). Qed.
Example C84_dynamics_ex : exists eps m d imp q v a cs s o, Built eps m /\ validModel m /\ noMimic m /\ validState m q /\ pl (rows d 0) F_oMi = se3_Identity /\ cs <> [] /\
  (forall c, In c cs -> exists j p p0, c = rcFill m CONTACT_3D j p 0 p0 LOCAL /\ (j < m_njoints m)%nat /\ isRotation (rot p) /\ isRotation (rot p0)) /\
  contactInverseDynamics m (computeJointJacobians m d q) imp q v a 1 cs 1 [1/2] ciR (mkSV 3 (fun _ => 0)) ciP (Some w_g) = Ok s o /\ px_res (snd o) = 0 /\ sv_x s 2%nat = 1.
Proof. exact ci_dyn_ex. Qed.
Print Assumptions C84_dynamics.

(** constraint_correction has no effect on the result *)
Theorem C84_correction_refuted : (forall imp c ncm ncd mus Rv corr corr' P guess, sv_n corr = sv_n corr' ->
    computeContactImpulses imp c ncm ncd mus Rv corr P guess = computeContactImpulses imp c ncm ncd mus Rv corr' P guess) /\
  exists imp c mus Rv corr P g s P', computeContactImpulses imp c 1 1 mus Rv corr P (Some g) = Ok s P' /\ px_res P' = 0 /\ (1 <= px_max P)%nat /\ frictions mus /\ goodCompliance mus (sv_x Rv) (px_mu P) /\
    ~ contactSolution (sv_n Rv) (diagM (sv_x Rv)) (fun k => c k + sv_x corr k) mus (sv_x s).
Proof. exact (conj correction_ignored correction_witness). Qed.
Print Assumptions C84_correction_refuted.

(** Without a guess the impulses keep the size they had in data: on a Data that has not been used by a contact algorithm (size 0) the call is undefined *)
Theorem C84_no_guess_refuted (imp : SVec) (c : rvec) (ncd : nat) (mus : list R) (Rv corr : SVec) (P : Prox) :
  sv_n corr = sv_n Rv -> ncd = (sv_n Rv / 3)%nat -> 0 < px_mu P -> (1 <= px_max P)%nat -> (sv_n imp < 3 * length mus)%nat ->
  computeContactImpulses imp c (sv_n Rv / 3) ncd mus Rv corr P None = Undef.
Proof. exact (no_guess imp c ncd mus Rv corr P). Qed.
(* hypotheses met: imp = mkSV 0 _, and the other arguments of C84_ex *)
Print Assumptions C84_no_guess_refuted.

(** A contact between two joints: the torques are not those of the transpose of the Jacobian (the second joint receives the force, not its opposite) *)
Theorem C84_two_joints_refuted : exists eps m d imp q v a dt j1 p1 j2 p2 mus Rv corr P guess s tau lam P' k,
  Built eps m /\ validModel m /\ noMimic m /\ validState m q /\ pl (rows d 0) F_oMi = se3_Identity /\ (0 < j1 < m_njoints m)%nat /\ (0 < j2 < m_njoints m)%nat /\ (k < m_nv m)%nat /\
  let D := computeJointJacobians m d q in let c := rcFill m CONTACT_3D j1 p1 j2 p2 LOCAL in let J := getConstraintsJacobian m D [c] (fun _ _ => 0) in
  contactInverseDynamics m D imp q v a dt [c] 1 mus Rv corr P guess = Ok s (tau, lam, P') /\ px_res P' = 0 /\
  forall d', tau k <> rnea m d' q v a k - sumN 3 (fun r => J r k * lam r).
Proof. exact two_joints. Qed.
Print Assumptions C84_two_joints_refuted.
