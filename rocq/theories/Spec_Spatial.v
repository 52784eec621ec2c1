(** Independent vocabulary used by the statements about the spatial classes.
    Nothing here refers to the code's own formulas. *)
From Coq Require Import Reals List.
From Verif Require Import Vec3 Spatial Inertia.
Import ListNotations.
Open Scope R_scope.

(** A twist is the velocity field of a rigid body: velocity of the body point at [p]. *)
Definition velocityAt (v : Motion) (p : V3) : V3 := v3add (lin v) (v3cross (ang v) p).
(** A wrench as a field of moments: moment about the point [p]. *)
Definition momentAt (f : Force) (p : V3) : V3 := v3sub (ang f) (v3cross p (lin f)).

(** Systems of point masses. *)
Record PointMass := mkPM { pm_m : R; pm_p : V3 }.

Fixpoint sumV3 (l : list V3) : V3 := match l with [] => v3zero | a :: l' => v3add a (sumV3 l') end.
Fixpoint sumR (l : list R) : R := match l with [] => 0 | a :: l' => a + sumR l' end.

Definition totalMass (pts : list PointMass) : R := sumR (map pm_m pts).
Definition firstMoment (pts : list PointMass) : V3 := sumV3 (map (fun k => v3scale (pm_m k) (pm_p k)) pts).
(** angular momentum about [c] of the system spinning at [w] around [c] *)
Definition spin (pts : list PointMass) (c w : V3) : V3 :=
  sumV3 (map (fun k => v3scale (pm_m k) (v3cross (v3sub (pm_p k) c) (v3cross w (v3sub (pm_p k) c)))) pts).

(** [Y] describes the point masses [pts]: right mass, right centre of mass, right
    rotational inertia about the centre of mass. *)
Definition describes (Y : Inertia) (pts : list PointMass) : Prop :=
  mass Y = totalMass pts /\
  v3scale (mass Y) (lever Y) = firstMoment pts /\
  forall w, m3vec (sym3_matrix (inertia Y)) w = spin pts (lever Y) w.

(** linear momentum, angular momentum about the origin and twice the kinetic energy of
    the system moving rigidly with twist [v] *)
Definition linearMomentum (pts : list PointMass) (v : Motion) : V3 :=
  sumV3 (map (fun k => v3scale (pm_m k) (velocityAt v (pm_p k))) pts).
Definition angularMomentum (pts : list PointMass) (v : Motion) : V3 :=
  sumV3 (map (fun k => v3cross (pm_p k) (v3scale (pm_m k) (velocityAt v (pm_p k)))) pts).
Definition twiceKinetic (pts : list PointMass) (v : Motion) : R :=
  sumR (map (fun k => pm_m k * v3norm2 (velocityAt v (pm_p k))) pts).

(** Positive (semi-)definiteness of a 3x3 matrix. *)
Definition psd3 (A : M3) : Prop := forall v, 0 <= v3dot v (m3vec A v).
Definition pd3 (A : M3) : Prop := forall v, v <> v3zero -> 0 < v3dot v (m3vec A v).
(** and of the 4x4 pseudo-inertia (block form) *)
Definition quad4 (A : M4) (x : V3) (s : R) : R :=
  v3dot x (v3add (m3vec (hR A) x) (v3scale s (ht A))) + s * (v3dot (hrow A) x + hs A * s).
Definition pd4 (A : M4) : Prop := forall x s, (x <> v3zero \/ s <> 0) -> 0 < quad4 A x s.

(** A rotational inertia that a (non degenerate) solid can have: positive principal
    moments, each smaller than the sum of the other two (diagonal matrices only). *)
Definition diagonalInertia (A : M3) (a b c : R) : Prop :=
  A = mkM3 a 0 0 0 b 0 0 0 c.
Definition triangle (a b c : R) : Prop := 0 < a /\ 0 < b /\ 0 < c /\ a < b + c /\ b < a + c /\ c < a + b.

(** Concrete data for the examples. *)
Definition exRot : M3 := mkM3 (3/5) (-(4/5)) 0 (4/5) (3/5) 0 0 0 1.
Definition exRot2 : M3 := mkM3 1 0 0 0 0 (-1) 0 1 0.
Definition exM : SE3 := mkSE3 exRot (mkV3 1 2 3).
Definition exM2 : SE3 := mkSE3 exRot2 (mkV3 (-1) 0 (1/2)).
Definition exY : Inertia := mkInertia 2 (mkV3 1 (-1) 3) (mkSym3 3 (1/2) 4 (-(1/3)) 0 5).
