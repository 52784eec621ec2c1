(* Vocabulary of the statements about the sparse factorisation: square matrices as functions of two indices. *)
Require Import Reals List Arith.
From Verif Require Import Vec3 Spatial Inertia Joints Model Spec_Model Spec_Kin Sums Spec_Dyn Spec_Mass Spec_Aba.
Import ListNotations.
Local Open Scope nat_scope.

(* A k l vanishes unless the joints of k and l are on one branch of the tree *)
Definition treeSparse (m : Model) (A : nat -> nat -> R) : Prop :=
  forall k l, k < m_nv m -> l < m_nv m -> ~ sameBranch m k l -> A k l = 0%R.
Definition unitUpper (n : nat) (A : nat -> nat -> R) : Prop :=
  forall k l, k < n -> l < n -> (k = l -> A k l = 1%R) /\ (l < k -> A k l = 0%R).
(* M holds the upper triangle of A, at the places where A may differ from zero *)
Definition holdsUpper (m : Model) (M A : nat -> nat -> R) : Prop :=
  forall k l, k <= l < m_nv m -> sameBranch m k l -> M k l = A k l.
(* the product of a matrix and a vector, and the transposed matrix *)
Definition mulMV (n : nat) (A : nat -> nat -> R) (x : nat -> R) (k : nat) : R := sumN n (fun l => (A k l * x l)%R).
Definition transp (A : nat -> nat -> R) (k l : nat) : R := A l k.
(* U diag(D) U^T *)
Definition udut (n : nat) (U : nat -> nat -> R) (D : nat -> R) (k l : nat) : R := sumN n (fun j => (U k j * D j * U l j)%R).
(* the vectors x and y agree on their n components *)
Definition sameV (n : nat) (x y : nat -> R) : Prop := forall k, k < n -> x k = y k.
