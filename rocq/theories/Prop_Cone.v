(** Property theorems C44 (Coulomb friction cone and its dual). Statements only. *)
From Coq Require Import Reals.
From Verif Require Import Vec3 Cone Spec_Cone ConeFacts.
Local Open Scope R_scope.

(** the membership test, for positive friction *)
Theorem C44_inside (mu : R) (f : V3) : 0 < mu -> isInside mu f 0 = true <-> inCone mu f.
Proof. exact (inside_spec mu f). Qed.
Print Assumptions C44_inside.
Theorem C44_inside_prec (mu : R) (f : V3) (prec : R) : isInside mu f prec = true <-> sqrt (vx f * vx f + vy f * vy f) <= mu * vz f + prec.
Proof. exact (inside_prec mu f prec). Qed.
Print Assumptions C44_inside_prec.
(** the dual object is the dual cone of the first *)
Theorem C44_inside_dual (mu : R) (v : V3) : 0 <= mu -> isInsideDual mu v 0 = true <-> inDual mu v.
Proof. exact (insideDual_spec mu v). Qed.
Print Assumptions C44_inside_dual.
(** project returns the unique nearest point of the cone *)
Theorem C44_project (mu : R) (x : V3) : 0 <= mu -> nearest (inCone mu) dist2 x (project mu x).
Proof. exact (project_nearest mu x). Qed.
(** a point outside the cone that is not mapped to its tip: friction 1, x = (3, 4, 1) *)
Example C44_ex : 0 < 1 /\ ~ inCone 1 (mkV3 3 4 1) /\ inCone 1 (mkV3 3 4 6).
Proof. exact (conj Rlt_0_1 (conj ex_out ex_in)). Qed.
Print Assumptions C44_project.
Theorem C44_project_inside (mu : R) (x : V3) : 0 <= mu -> inCone mu x -> project mu x = x.
Proof. exact (project_inside mu x). Qed.
(* hypotheses met: C44_ex *)
Print Assumptions C44_project_inside.
Theorem C44_project_twice (mu : R) (x : V3) : 0 <= mu -> project mu (project mu x) = project mu x.
Proof. exact (project_idem mu x). Qed.
Print Assumptions C44_project_twice.
Theorem C44_project_dual (mu : R) (x : V3) : 0 < mu -> nearest (inDual mu) dist2 x (projectDual mu x).
Proof. exact (projectDual_nearest mu x). Qed.
(* hypotheses met: C44_ex *)
Print Assumptions C44_project_dual.
Theorem C44_project_dual_twice (mu : R) (x : V3) : 0 < mu -> projectDual mu (projectDual mu x) = projectDual mu x.
Proof. exact (projectDual_idem mu x). Qed.
Print Assumptions C44_project_dual_twice.
(** without friction the projection on the dual cone moves points of the cone: the vertical ones go to zero *)
Theorem C44_dual_frictionless_refuted : exists x, inDual 0 x /\ isInsideDual 0 x 0 = true /\ projectDual 0 x = v3zero /\ x <> v3zero.
Proof. exact frictionless. Qed.
Print Assumptions C44_dual_frictionless_refuted.
(** every vector is the difference of its projections, which are orthogonal *)
Theorem C44_moreau (mu : R) (x : V3) : 0 < mu ->
  v3sub (project mu x) (projectDual mu (v3opp x)) = x /\ v3dot (project mu x) (projectDual mu (v3opp x)) = 0.
Proof. exact (moreau mu x). Qed.
(* hypotheses met: C44_ex *)
Print Assumptions C44_moreau.
(** weightedProject: nearest for the weighted distance, equal positive tangential weights *)
Theorem C44_weighted (mu : R) (x r : V3) : 0 <= mu -> 0 < vx r -> vy r = vx r -> 0 < vz r -> nearest (inCone mu) (wdist2 r) x (weightedProject mu x r).
Proof. exact (weighted_nearest mu x r). Qed.
Example C44_weighted_ex : 0 < vx (mkV3 2 2 1) /\ vy (mkV3 2 2 1) = vx (mkV3 2 2 1) /\ 0 < vz (mkV3 2 2 1).
Proof. exact (conj Rlt_0_2 (conj eq_refl Rlt_0_1)). Qed.
Print Assumptions C44_weighted.
(** the shift makes a velocity that does not penetrate a vector of the dual cone, and only such ones *)
Theorem C44_correction (mu : R) (v : V3) : 0 <= mu -> inDual mu (v3add v (computeNormalCorrection mu v)) <-> 0 <= vz v.
Proof. exact (correction_dual mu v). Qed.
Print Assumptions C44_correction.
Theorem C44_complementarity (mu : R) (v f : V3) : 0 <= mu -> inCone mu f -> 0 <= vz v ->
  computeContactComplementarity mu v f = v3dot f v + mu * sqrt (vx v * vx v + vy v * vy v) * vz f.
Proof. exact (complementarity mu v f). Qed.
(* hypotheses met: C44_ex *)
Print Assumptions C44_complementarity.
(** radial projection: in the cone, at the height of f (or 0), on the same half line, nearest at that height *)
Theorem C44_radial (mu : R) (f : V3) : 0 <= mu -> let p := computeRadialProjection mu f in inCone mu p /\ vz p = Rmax 0 (vz f) /\ (inCone mu f -> p = f) /\
  (exists k, 0 <= k <= 1 /\ vx p = k * vx f /\ vy p = k * vy f) /\
  (forall y, inCone mu y -> vz y = vz p -> (vx f - vx p) ^ 2 + (vy f - vy p) ^ 2 <= (vx f - vx y) ^ 2 + (vy f - vy y) ^ 2).
Proof. exact (radial_spec mu f). Qed.
(* hypotheses met: C44_ex *)
Print Assumptions C44_radial.
