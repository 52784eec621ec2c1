(* Products of the 6 x 6 matrices that the Jacobians of exp6 and log6 fill. *)
Require Import Reals.
From Verif Require Import Vec3 Spatial LogMat.
Local Open Scope R_scope.

Definition m66vec (J : M66) (V : V6) : V6 :=
  mkV6 (v3add (m3vec (tl6 J) (lin V)) (m3vec (tr6 J) (ang V))) (v3add (m3vec (bl6 J) (lin V)) (m3vec (br6 J) (ang V))).
Definition m66mul (A B : M66) : M66 :=
  mkM66 (m3add (m3mul (tl6 A) (tl6 B)) (m3mul (tr6 A) (bl6 B))) (m3add (m3mul (tl6 A) (tr6 B)) (m3mul (tr6 A) (br6 B)))
        (m3add (m3mul (bl6 A) (tl6 B)) (m3mul (br6 A) (bl6 B))) (m3add (m3mul (bl6 A) (tr6 B)) (m3mul (br6 A) (br6 B))).
Definition m66id : M66 := mkM66 m3id m3zero m3zero m3id.
Definition m66add (A B : M66) : M66 := mkM66 (m3add (tl6 A) (tl6 B)) (m3add (tr6 A) (tr6 B)) (m3add (bl6 A) (bl6 B)) (m3add (br6 A) (br6 B)).
Definition m66sub (A B : M66) : M66 := mkM66 (m3sub (tl6 A) (tl6 B)) (m3sub (tr6 A) (tr6 B)) (m3sub (bl6 A) (bl6 B)) (m3sub (br6 A) (br6 B)).
