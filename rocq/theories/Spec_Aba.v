(* Vocabulary of the statements about forward dynamics: square matrices as functions of two indices. *)
Require Import Reals List Arith.
From Verif Require Import Vec3 Spatial Inertia Joints Deriv Model Spec_Model Spec_Kin Sums Spec_Dyn.
Import ListNotations.
Local Open Scope R_scope.

Definition symmetricM (n : nat) (A : nat -> nat -> R) : Prop := forall k l, (k < n)%nat -> (l < n)%nat -> A k l = A l k.
(* x^T A x > 0 for every x that has a non-zero component *)
Definition positiveM (n : nat) (A : nat -> nat -> R) : Prop :=
  forall x, (exists k, (k < n)%nat /\ x k <> 0) -> 0 < sumN n (fun k => x k * sumN n (fun l => A k l * x l)).
Definition matMul (n : nat) (A B : nat -> nat -> R) (k l : nat) : R := sumN n (fun j => A k j * B j l).
Definition identityM (n : nat) (A : nat -> nat -> R) : Prop :=
  forall k l, (k < n)%nat -> (l < n)%nat -> A k l = if Nat.eqb k l then 1 else 0.
(* inv n A is an inverse of A for every symmetric positive definite n x n matrix A *)
Definition invertsPD (inv : nat -> (nat -> nat -> R) -> nat -> nat -> R) : Prop :=
  forall n A, symmetricM n A -> positiveM n A -> identityM n (matMul n A (inv n A)).
