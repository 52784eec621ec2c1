(* Elementary rotations. *)
Require Import Reals.
From Verif Require Import Vec3.
Local Open Scope R_scope.
Definition rotX (a : R) : M3 := mkM3 1 0 0  0 (cos a) (- sin a)  0 (sin a) (cos a).
Definition rotY (a : R) : M3 := mkM3 (cos a) 0 (sin a)  0 1 0  (- sin a) 0 (cos a).
Definition rotZ (a : R) : M3 := mkM3 (cos a) (- sin a) 0  (sin a) (cos a) 0  0 0 1.
(* roll, pitch, yaw: about the fixed axes x, then y, then z *)
Definition rotRpy (r p y : R) : M3 := m3mul (rotZ y) (m3mul (rotY p) (rotX r)).
