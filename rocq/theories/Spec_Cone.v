(* The friction cone, its dual and projections. *)
Require Import Reals.
From Verif Require Import Vec3.
Local Open Scope R_scope.

(* the length of the tangential force is at most mu times the normal force *)
Definition inCone (mu : R) (f : V3) : Prop := 0 <= vz f /\ vx f ^ 2 + vy f ^ 2 <= (mu * vz f) ^ 2.
(* the vectors that make no obtuse angle with any force of the cone *)
Definition inDual (mu : R) (v : V3) : Prop := forall f, inCone mu f -> 0 <= v3dot f v.
Definition dist2 (x y : V3) : R := v3norm2 (v3sub x y).
(* the weighted distance sum_k r_k (x_k - y_k)^2 *)
Definition wdist2 (r x y : V3) : R := vx r * (vx x - vx y) ^ 2 + vy r * (vy x - vy y) ^ 2 + vz r * (vz x - vz y) ^ 2.
(* p is the unique point of the set nearest to x *)
Definition nearest (K : V3 -> Prop) (dist : V3 -> V3 -> R) (x p : V3) : Prop :=
  K p /\ (forall y, K y -> dist x p <= dist x y) /\ (forall y, K y -> dist x y = dist x p -> y = p).
