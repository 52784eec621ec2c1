(* C77: the logarithms of rotation matrices and placements; C78: the Jacobians of exp6 and log6. *)
Require Import Reals.
From Verif Require Import Vec3 Spatial Rot Spec_Exp Deriv ExpLog LieGroup ExpJac Spec_ExpJac LogMat Spec_LogMat LogMatFacts LogMatFacts2 LogMatFacts4 LogMatFacts5 LogMatFacts6 LogMatEx.
Local Open Scope R_scope.

(* for eps = 1/4096: a turn of one radian, a half turn, the twist (2, 3, 5, 1, 0, 0), and motions at that twist *)
Example C77_middle_ex : isRotation (Rexp (mkV3 1 0 0)) /\ -1 + 2 * ts2 (1 / 4096) < m3trace (Rexp (mkV3 1 0 0)) < 3 - ts2 (1 / 4096).
Proof. exact exl_middle. Qed.
Example C77_half_ex : isRotation (Rexp (mkV3 PI 0 0)) /\ m3trace (Rexp (mkV3 PI 0 0)) < -1 + 2 * ts2 (1 / 4096).
Proof. exact exl_half. Qed.
Example C77_exp_ex : v3norm (ang exNu) <= PI /\ ts2 (1 / 4096) < 2 * (1 - cos (v3norm (ang exNu))) /\ -1 + ts2 (1 / 4096) <= cos (v3norm (ang exNu)).
Proof. exact exl_exp. Qed.
Example C77_turn_ex : let A := fun u => Rexp (v3scale u (mkV3 1 0 0)) in
  (forall u, isRotation (A u)) /\ turns A (mkV3 1 0 0) 1 /\ -1 + 2 * ts2 (1 / 4096) < m3trace (A 1) < 3 - ts2 (1 / 4096).
Proof. exact exl_turn. Qed.
Example C78_twist_ex : let M := fun u => SE3exp (v6scale u exNu) in
  (forall u, isRotation (rot (M u))) /\ hasTwist M exNu 1 /\ -1 + 2 * ts2 (1 / 4096) < m3trace (rot (M 1)) < 3 - ts2 (1 / 4096).
Proof. exact exl_twist. Qed.
Example C78_Jexp6_ex : 0 < 1 / 16 /\ ts3 (1 / 16) < v3norm (ang exNu) /\ cos (v3norm (ang exNu)) <> 1 /\ deriv6 (fun u => v6scale u exNu) exNu 1 /\ v6scale 1 exNu = exNu.
Proof. exact exl_jexp6. Qed.

(** every rotation matrix is the exponential of a rotation vector of norm at most PI *)
Theorem C77_surjective (A : M3) : isRotation A -> exists v, v3norm v <= PI /\ A = Rexp v.
Proof. exact (rot_is_exp A). Qed.
(* hypotheses met: C77_middle_ex, C77_half_ex *)
Print Assumptions C77_surjective.
(** for every rotation matrix, the exponential of log3 is that matrix up to eps^(2/3) / 16 + 8 eps, and the angle is in [0, PI] and is the norm of the vector up to sqrt eps / 16 + eps *)
Theorem C77_log3 (eps : R) (A : M3) : 0 < eps <= 1 / 4096 -> isRotation A ->
  m3close (ts2 eps ^ 2 / 16 + 8 * eps) (Rexp (fst (log3 eps A))) A /\ Rabs (snd (log3 eps A) - v3norm (fst (log3 eps A))) <= sqrt eps / 16 + eps /\ 0 <= snd (log3 eps A) <= PI.
Proof. exact (log3_all eps A). Qed.
(* hypotheses met: C77_middle_ex, C77_half_ex *)
Print Assumptions C77_log3.
(** away from the identity and from half turns it is exact, with the angle in ]0, PI[ *)
Theorem C77_log3_exact (eps : R) (A : M3) : 0 < eps <= 1 / 4096 -> isRotation A -> ts2 eps <= 3 - m3trace A -> -1 + 2 * ts2 eps <= m3trace A ->
  Rexp (fst (log3 eps A)) = A /\ snd (log3 eps A) = v3norm (fst (log3 eps A)) /\ 0 < snd (log3 eps A) < PI.
Proof. exact (log3_rot eps A). Qed.
(* hypotheses met: C77_middle_ex *)
Print Assumptions C77_log3_exact.
(** and log3 of the exponential of such a vector of norm at most PI returns the vector and its norm *)
Theorem C77_log3_of_exp3 (eps : R) (v : V3) : 0 < eps <= 1 / 4096 -> v3norm v <= PI -> ts2 eps <= 2 * (1 - cos (v3norm v)) -> -1 + ts2 eps <= cos (v3norm v) ->
  log3 eps (Rexp v) = (v, v3norm v).
Proof. exact (log3_middle eps v). Qed.
(* hypotheses met: C77_exp_ex *)
Print Assumptions C77_log3_of_exp3.
(** around half turns, whatever the axis, the error is at most 8 eps and the angle is the norm of the vector *)
Theorem C77_log3_half_turn (eps : R) (A : M3) : 0 < eps <= 1 / 4096 -> isRotation A -> m3trace A < -1 + 2 * ts2 eps ->
  m3close (8 * eps) (Rexp (fst (log3 eps A))) A /\ snd (log3 eps A) = v3norm (fst (log3 eps A)) /\ 0 < snd (log3 eps A) <= PI.
Proof. exact (log3_pi eps A). Qed.
(* hypotheses met: C77_half_ex *)
Print Assumptions C77_log3_half_turn.
(** near the identity the returned angle is not the norm of the returned vector up to any multiple of eps *)
Theorem C77_log3_angle_refuted (C : R) : exists eps A, 0 < eps <= 1 / 4096 /\ isRotation A /\ C * eps < Rabs (snd (log3 eps A) - v3norm (fst (log3 eps A))).
Proof. exact (log3_angle C). Qed.
Print Assumptions C77_log3_angle_refuted.
(** the vector of a rotation that turns at om moves at Jlog3(A) om *)
Theorem C77_log3_rate (eps : R) (A : R -> M3) (om : V3) (t : R) : 0 < eps <= 1 / 4096 -> (forall u, isRotation (A u)) -> turns A om t ->
  -1 + 2 * ts2 eps < m3trace (A t) < 3 - ts2 eps -> deriv3 (fun u => fst (log3 eps (A u))) (m3vec (Jlog3M eps (A t)) om) t.
Proof. exact (log3_rate eps A om t). Qed.
(* hypotheses met: C77_turn_ex *)
Print Assumptions C77_log3_rate.
(** log6 of every placement: the angular part is log3 of the rotation and the exponential gives back the translation up to eps^(2/3) / 4 times its norm *)
Theorem C77_log6 (eps : R) (M : SE3) : 0 < eps <= 1 / 4096 -> isRotation (rot M) ->
  ang (log6 eps M) = fst (log3 eps (rot M)) /\ v3close (ts2 eps ^ 2 / 4 * v3norm (trans M)) (trans (SE3exp (log6 eps M))) (trans M).
Proof. exact (log6_all eps M). Qed.
(* hypotheses met: C77_middle_ex, C77_half_ex *)
Print Assumptions C77_log6.
(** away from the identity, half turns included, the translation is exact *)
Theorem C77_log6_translation (eps : R) (M : SE3) : 0 < eps <= 1 / 4096 -> isRotation (rot M) -> m3trace (rot M) < 3 - ts2 eps -> trans (SE3exp (log6 eps M)) = trans M.
Proof. exact (log6_far_trans eps M). Qed.
(* hypotheses met: C77_middle_ex, C77_half_ex *)
Print Assumptions C77_log6_translation.
(** away from the identity and half turns exp6 and log6 are inverse of each other *)
Theorem C77_exp6_log6 (eps : R) (M : SE3) : 0 < eps <= 1 / 4096 -> isRotation (rot M) -> m3trace (rot M) < 3 - ts2 eps -> -1 + 2 * ts2 eps <= m3trace (rot M) -> SE3exp (log6 eps M) = M.
Proof. exact (log6_exp6 eps M). Qed.
(* hypotheses met: C77_middle_ex *)
Print Assumptions C77_exp6_log6.
Theorem C77_log6_exp6 (eps : R) (nu : V6) : 0 < eps <= 1 / 4096 -> v3norm (ang nu) <= PI -> ts2 eps < 2 * (1 - cos (v3norm (ang nu))) -> -1 + ts2 eps <= cos (v3norm (ang nu)) -> log6 eps (SE3exp nu) = nu.
Proof. exact (log6_of_exp eps nu). Qed.
(* hypotheses met: C77_exp_ex *)
Print Assumptions C77_log6_exp6.
(** along any differentiable curve of motions, the placement exp6(nu) moves at the twist Jexp6(nu) dnu/dt *)
Theorem C78_Jexp6 (eps : R) (nu : R -> V6) (dnu : V6) (t : R) (J : M66) : 0 < eps -> ts3 eps < v3norm (ang (nu t)) -> cos (v3norm (ang (nu t))) <> 1 -> deriv6 nu dnu t ->
  hasTwist (fun u => SE3exp (nu u)) (m66vec (Jexp6 eps SETTO (nu t) J) dnu) t.
Proof. exact (jexp6_rate eps nu dnu t J). Qed.
(* hypotheses met: C78_Jexp6_ex *)
Print Assumptions C78_Jexp6.
(** the assignment operators add the Jacobian to the argument or remove it from it, whatever the argument of the plain call held *)
Theorem C78_Jexp6_ops (eps : R) (nu : V6) (J K : M66) :
  Jexp6 eps ADDTO nu J = m66add J (Jexp6 eps SETTO nu K) /\ Jexp6 eps RMTO nu J = m66sub J (Jexp6 eps SETTO nu K).
Proof. exact (jexp6_ops eps nu J K). Qed.
Print Assumptions C78_Jexp6_ops.
(** the logarithm of a placement that moves at the twist V changes at Jlog6(M) V *)
Theorem C78_Jlog6 (eps : R) (M : R -> SE3) (V : V6) (t : R) : 0 < eps <= 1 / 4096 -> (forall u, isRotation (rot (M u))) -> hasTwist M V t ->
  -1 + 2 * ts2 eps < m3trace (rot (M t)) < 3 - ts2 eps -> deriv6 (fun u => log6 eps (M u)) (m66vec (Jlog6 eps (M t)) V) t.
Proof. exact (log6_rate eps M V t). Qed.
(* hypotheses met: C78_twist_ex *)
Print Assumptions C78_Jlog6.
(** away from the identity, half turns included, Jlog6(M) is the inverse of Jexp6(log6(M)) *)
Theorem C78_inverse (eps : R) (M : SE3) (J : M66) : 0 < eps <= 1 / 4096 -> isRotation (rot M) -> m3trace (rot M) < 3 - ts2 eps ->
  m66mul (Jlog6 eps M) (Jexp6 eps SETTO (log6 eps M) J) = m66id /\ m66mul (Jexp6 eps SETTO (log6 eps M) J) (Jlog6 eps M) = m66id.
Proof. exact (jlog6_inverse eps M J). Qed.
(* hypotheses met: C77_middle_ex, C77_half_ex *)
Print Assumptions C78_inverse.
