(* Vocabulary of the statements about the Jacobian of a constraint. *)
Require Import Reals Arith.
From Verif Require Import Vec3 Spatial Sums Deriv Model Kinematics.
Local Open Scope nat_scope.

(* rows b, b + 1, ... of the matrix J with n columns, times w *)
Definition rows3 (n : nat) (J : nat -> nat -> R) (b : nat) (w : nat -> R) : V3 := mkV3 (dotv n (J b) w) (dotv n (J (b + 1)) w) (dotv n (J (b + 2)) w).
Definition rows6 (n : nat) (J : nat -> nat -> R) (b : nat) (w : nat -> R) : V6 := mkV6 (rows3 n J b w) (rows3 n J (b + 3) w).
(* the point of the first frame moves with respect to the point of the second with velocity x, in world axes or in the axes of the first frame *)
Definition pointsSlide (rf : RefFrame) (M1 M2 : R -> SE3) (x : V3) (t : R) : Prop :=
  exists D, deriv3 (fun s => v3sub (trans (M1 s)) (trans (M2 s))) D t /\ x = match rf with LOCAL => m3vec (m3tr (rot (M1 t))) D | _ => D end.
(* the first frame moves with respect to the second with the velocity x, taken at the first frame, in its axes or in world axes *)
Definition framesSlide (rf : RefFrame) (M1 M2 : R -> SE3) (x : V6) (t : R) : Prop :=
  exists V, hasTwist (fun s => se3_actInv_se3 (M2 s) (M1 s)) V t /\ x = match rf with LOCAL => V | _ => mkV6 (m3vec (rot (M1 t)) (lin V)) (m3vec (rot (M1 t)) (ang V)) end.
