(* Vocabulary of the statements about Jacobians. *)
Require Import Reals List Arith.
From Verif Require Import Vec3 Spatial Joints Model Spec_Model.
Import ListNotations.
Local Open Scope nat_scope.

(* the product of a matrix with 6 rows and n columns J(0) .. J(n-1) by a vector *)
Fixpoint colsMul (n : nat) (J : nat -> V6) (w : nat -> R) : V6 :=
  match n with O => v6zero | S k => v6add (colsMul k J w) (v6scale (w k) (J k)) end.
(* a matrix filled with zeros, as the caller is asked to provide *)
Definition zeroJ : nat -> V6 := fun _ => v6zero.
(* every joint moves: no composite joint without components *)
Definition noRigidJoint (m : Model) : Prop := forall i, 0 < i < m_njoints m -> 0 < nvEOf m i.
(* joint i reads the entry k of the velocity vector *)
Definition readsV (m : Model) (i k : nat) : Prop := idx_v m i <= k < idx_v m i + nvEOf m i.
(* the motion subspace of the joint does not depend on the configuration *)
Definition fixedAxes (j : Joint) : Prop := forall q q' v v', jS (jcalc j q v) = jS (jcalc j q' v').
