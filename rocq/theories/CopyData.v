(* algorithm/copy.hpp *)
Require Import Reals List Arith ZArith.
From Verif Require Import Vec3 Spatial Model Data Kinematics.
Import ListNotations.
Local Open Scope nat_scope.

(* multibody/fwd.hpp 59-67 *)
Definition POSITION : Z := 0. Definition VELOCITY : Z := 1. Definition ACCELERATION : Z := 2.
(* copy.hpp 55-66: the row of one joint, from the row o of the origin *)
Definition copyRow (level : Z) (o r : Row) : Row :=
  let r := setPl r F_oMi (pl o F_oMi) in
  let r := if (VELOCITY <=? level)%Z then setMo r F_v (mo o F_v) else r in
  if (ACCELERATION <=? level)%Z then setMo (setMo (setMo r F_a (mo o F_a)) F_a_gf (mo o F_a_gf)) F_f (mo o F_f) else r.
(* copy.hpp 41-67 *)
Definition copyData (m : Model) (origin dest : Data) (level : Z) : Res Data unit :=
  if (POSITION <=? level)%Z then                                                                     (* 51 *)
    Ok (fold_left (fun d j => setRow d j (copyRow level (rows origin j) (rows d j))) (seq 1 (m_njoints m - 1)) dest) tt
  else Throw dest.
