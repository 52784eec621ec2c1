(* Dense linear algebra used to state the properties of the mathematical utilities: matrices are functions of the row and the
   column, their sizes are passed beside them. *)
Require Import Reals Arith.
From Verif Require Import Sums.
Local Open Scope R_scope.

Definition mat := nat -> nat -> R.
(* product of matrices of inner dimension n *)
Definition matMul (n : nat) (A B : mat) : mat := fun i j => sumN n (fun k => A i k * B k j).
Definition matVec (n : nat) (A : mat) (x : nat -> R) : nat -> R := fun i => sumN n (fun k => A i k * x k).
Definition col (A : mat) (j : nat) : nat -> R := fun i => A i j.
Definition matId : mat := fun i j => if Nat.eqb i j then 1 else 0.
(* two r x c matrices have the same entries *)
Definition matEq (r c : nat) (A B : mat) : Prop := forall i j, (i < r)%nat -> (j < c)%nat -> A i j = B i j.
Definition symmetric (n : nat) (A : mat) : Prop := matEq n n A (fun i j => A j i).
Definition posDef (n : nat) (A : mat) : Prop := forall x, (exists k, (k < n)%nat /\ x k <> 0) -> 0 < dotv n x (matVec n A x).
(* the symmetric tridiagonal matrix of diagonal d and sub-diagonal s *)
Definition symTri (d s : nat -> R) : mat := fun i j =>
  if Nat.eqb i j then d i else if Nat.eqb (S i) j then s i else if Nat.eqb (S j) i then s j else 0.
(* the first p columns of a matrix with n rows are orthonormal *)
Definition orthonormal (n p : nat) (Q : mat) : Prop := forall a b, (a < p)%nat -> (b < p)%nat -> dotv n (col Q a) (col Q b) = matId a b.
Definition normv (n : nat) (x : nat -> R) : R := sqrt (dotv n x x).
