(* algorithm/constraints/coulomb-friction-cone.hpp *)
Require Import Reals.
From Verif Require Import Vec3.
Local Open Scope R_scope.

(* x.head<2>().norm() *)
Definition tnorm (x : V3) : R := sqrt (vx x * vx x + vy x * vy x).
(* Eigen's normalize(): divides by the norm when it is positive *)
Definition normalize (x : V3) : V3 := if Rlt_dec 0 (v3norm2 x) then v3scale (/ sqrt (v3norm2 x)) x else x.

(* 57-64 *)
Definition isInside (mu : R) (f : V3) (prec : R) : bool := if Rle_dec (tnorm f) (mu * vz f + prec) then true else false.
(* 70-99 *)
Definition project (mu : R) (x : V3) : V3 :=
  let z := vz x in let mu_z := mu * z in let t_norm := tnorm x in
  if Rle_dec (mu * t_norm) (- z) then v3zero
  else if Rle_dec t_norm mu_z then x
  else let res := normalize (mkV3 (mu / t_norm * vx x) (mu / t_norm * vy x) 1) in v3scale (v3dot x res) res.
(* 107-121 *)
Definition weightedProject (mu : R) (x r : V3) : V3 :=
  let w := mkV3 (sqrt (vx r)) (sqrt (vy r)) (sqrt (vz r)) in
  let p := project (mu * sqrt (vx r / vz r)) (mkV3 (vx w * vx x) (vy w * vy x) (vz w * vz x)) in
  mkV3 (vx p / vx w) (vy p / vy w) (vz p / vz w).
(* 128-140 *)
Definition computeNormalCorrection (mu : R) (v : V3) : V3 := mkV3 0 0 (mu * tnorm v).
(* 146-167 *)
Definition computeRadialProjection (mu : R) (f : V3) : V3 :=
  let n := tnorm f in let z := Rmax 0 (vz f) in let mu_fz := mu * z in
  if Rlt_dec mu_fz n then mkV3 (mu_fz / n * vx f) (mu_fz / n * vy f) z else mkV3 (vx f) (vy f) z.
(* 169-175, 177-182 *)
Definition computeContactComplementarity (mu : R) (v f : V3) : R := Rabs (v3dot f (v3add v (computeNormalCorrection mu v))).
Definition computeConicComplementarity (v f : V3) : R := Rabs (v3dot f v).
(* 238-244 *)
Definition isInsideDual (mu : R) (v : V3) (prec : R) : bool := if Rle_dec (mu * tnorm v) (vz v + prec) then true else false.
(* 247-275 *)
Definition projectDual (mu : R) (x : V3) : V3 :=
  let z := vz x in let t_norm := tnorm x in
  if Rle_dec t_norm (- mu * z) then v3zero
  else if Rle_dec (mu * t_norm) z then x
  else let res := normalize (mkV3 (vx x) (vy x) (mu * t_norm)) in v3scale (v3dot x res) res.
