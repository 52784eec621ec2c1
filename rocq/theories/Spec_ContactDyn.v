(* Vocabulary of the statements about the dynamics under contact. *)
Require Import Reals Arith.
From Verif Require Import Sums Spec_Chol.
Local Open Scope nat_scope.

(* the rows of the nc x nv matrix J are linearly independent *)
Definition fullRows (nc nv : nat) (J : nat -> nat -> R) : Prop :=
  forall x, (forall k, k < nv -> mulMV nc (transp J) x k = 0%R) -> forall i, i < nc -> x i = 0%R.
(* the damped problem is well posed *)
Definition wellPosed (nc nv : nat) (J : nat -> nat -> R) (mu : R) : Prop := (0 < mu)%R \/ (mu = 0%R /\ fullRows nc nv J).
(* the half square norm of x in the metric A *)
Definition energy (n : nat) (A : nat -> nat -> R) (x : nat -> R) : R := (/ 2 * sumN n (fun k => x k * mulMV n A x k))%R.
(* the equations of motion under contact: M a + nle = tau + J^T f, and J a + gamma = 0 up to the damping mu *)
Definition contactMotion (n nc : nat) (A J : nat -> nat -> R) (mu : R) (nle tau gamma a f : nat -> R) : Prop :=
  (forall k, k < n -> (mulMV n A a k + nle k = tau k + mulMV nc (transp J) f k)%R) /\
  (forall i, i < nc -> (mulMV n J a i + gamma i + mu * f i = 0)%R).
(* the equations of an impact of restitution r that takes the velocity v0 to v1 by the impulses f *)
Definition impact (n nc : nat) (A J : nat -> nat -> R) (mu r : R) (v0 v1 f : nat -> R) : Prop :=
  (forall k, k < n -> mulMV n A (fun l => (v1 l - v0 l)%R) k = mulMV nc (transp J) f k) /\
  (forall i, i < nc -> (mulMV n J v1 i + mu * f i = - r * mulMV n J v0 i)%R).
(* [A J^T; J -mu I] [tl tr; bl br] = I *)
Definition delta (i j : nat) : R := if i =? j then 1%R else 0%R.
Definition kktInverse (n nc : nat) (A J : nat -> nat -> R) (mu : R) (tl tr bl br : nat -> nat -> R) : Prop :=
  (forall k l, k < n -> l < n -> (sumN n (fun x => A k x * tl x l) + sumN nc (fun i => J i k * bl i l) = delta k l)%R) /\
  (forall k j, k < n -> j < nc -> (sumN n (fun x => A k x * tr x j) + sumN nc (fun i => J i k * br i j) = 0)%R) /\
  (forall i l, i < nc -> l < n -> (sumN n (fun x => J i x * tl x l) - mu * bl i l = 0)%R) /\
  (forall i j, i < nc -> j < nc -> (sumN n (fun x => J i x * tr x j) - mu * br i j = delta i j)%R).
