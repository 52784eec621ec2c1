(* Rotations about and translations along a direction. *)
Require Import Reals.
From Verif Require Import Vec3 Spatial.
Local Open Scope R_scope.

(* M turns about u with cosine c and sine s, without translation *)
Definition turns (u : V3) (c s : R) (M : SE3) : Prop :=
  trans M = v3zero /\ forall x, m3vec (rot M) x = v3add (v3add (v3scale c x) (v3scale s (v3cross u x))) (v3scale ((1 - c) * v3dot u x) u).
(* M translates by d along u *)
Definition slides (u : V3) (d : R) (M : SE3) : Prop := rot M = m3id /\ trans M = v3scale d u.
(* u is the direction of axis, up to the tolerance of the comparison with the coordinate axes *)
Definition directionOf (tol : R) (axis u : V3) : Prop :=
  v3norm2 u = 1 /\ ((exists k, 0 < k /\ axis = v3scale k u) \/ v3norm2 (v3sub axis u) <= tol * tol).
