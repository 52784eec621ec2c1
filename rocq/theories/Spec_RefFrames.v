(* What the coordinates of a motion or of a force in each reference frame mean. *)
Require Import Reals.
From Verif Require Import Vec3 Spatial Kinematics.
Local Open Scope R_scope.

(* the point where the linear part of a motion is measured, and where the moment of a force is taken, in world coordinates *)
Definition referencePoint (rf : RefFrame) (M : SE3) : V3 := match rf with WORLD => v3zero | _ => trans M end.
(* the axes of the coordinates *)
Definition axes (rf : RefFrame) (M : SE3) : M3 := match rf with LOCAL => rot M | _ => m3id end.
(* the velocity in world axes of the material point that is at p, for the rigid motion with coordinates v in the frame rf of the placement M *)
Definition pointVelocity (rf : RefFrame) (M : SE3) (v : Motion) (p : V3) : V3 :=
  v3add (m3vec (axes rf M) (lin v)) (v3cross (m3vec (axes rf M) (ang v)) (v3sub p (referencePoint rf M))).
(* the resultant in world axes, and the moment at p in world axes, of the force with coordinates f *)
Definition resultant (rf : RefFrame) (M : SE3) (f : Force) : V3 := m3vec (axes rf M) (lin f).
Definition momentAt (rf : RefFrame) (M : SE3) (f : Force) (p : V3) : V3 :=
  v3add (m3vec (axes rf M) (ang f)) (v3cross (v3sub (referencePoint rf M) p) (m3vec (axes rf M) (lin f))).
