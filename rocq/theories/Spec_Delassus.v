(* Damped Delassus operators. *)
Require Import Reals List Arith.
From Verif Require Import Vec3 Sums Spec_Aba Cone Contact Delassus.
Import ListNotations.
Local Open Scope R_scope.

(* the damping of the last updateDamping of a history, zero when there is none *)
Definition lastDamping (h : list Call) : rvec :=
  fold_left (fun d c => match c with UpdateVec v => v | UpdateScalar mu => fun _ => mu | _ => d end) h (fun _ => 0).
(* (D + diag d) x = b *)
Definition dampedSystem (n : nat) (D : nat -> nat -> R) (d x b : rvec) : Prop :=
  forall k, (k < n)%nat -> sumN n (fun j => D k j * x j) + d k * x k = b k.
(* x^T (D + diag d) x > 0 for every x that has a non-zero component *)
Definition dampedPositive (n : nat) (D : nat -> nat -> R) (d : rvec) : Prop :=
  forall x, (exists k, (k < n)%nat /\ x k <> 0) -> 0 < sumN n (fun k => x k * (sumN n (fun j => D k j * x j) + d k * x k)).
Definition semiPositive (n : nat) (D : nat -> nat -> R) : Prop := forall x, 0 <= sumN n (fun k => x k * sumN n (fun j => D k j * x j)).
(* A is D + diag d *)
Definition isDamped (n : nat) (D : nat -> nat -> R) (d : rvec) (A : nat -> nat -> R) : Prop :=
  forall i j, (i < n)%nat -> (j < n)%nat -> (i = j -> A i j = D i j + d i) /\ (i <> j -> A i j = D i j).
(* a permutation of the n indices and its inverse *)
Definition permutes (n : nat) (p q : nat -> nat) : Prop :=
  forall k, (k < n)%nat -> (p k < n)%nat /\ (q k < n)%nat /\ p (q k) = k /\ q (p k) = k.
(* a factorisation that succeeds on the positive definite matrices, and solves whenever it succeeds *)
Definition factorises (inv : nat -> (nat -> nat -> R) -> nat -> nat -> R) (ok : nat -> (nat -> nat -> R) -> bool) : Prop :=
  forall n A, symmetricM n A -> (positiveM n A -> ok n A = true) /\ (ok n A = true -> identityM n (matMul n A (inv n A))).
(* the unit vector *)
Definition basis (j : nat) : rvec := fun k => if Nat.eqb k j then 1 else 0.
