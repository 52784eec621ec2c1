(* Coulomb friction at contact points. *)
Require Import Reals List.
From Verif Require Import Vec3 Sums Cone Spec_Cone Contact.
Local Open Scope R_scope.

(* a contact force f and a relative velocity v obey Coulomb's law with friction mu: f is in the friction cone, v does not penetrate, a
   point that opens carries no force, a point that slides carries the largest tangential force, opposite to the sliding velocity *)
Definition coulomb (mu : R) (f v : V3) : Prop :=
  0 <= vz f /\ 0 <= vz v /\ vz f * vz v = 0 /\
  sqrt (vx f ^ 2 + vy f ^ 2) <= mu * vz f /\
  sqrt (vx v ^ 2 + vy v ^ 2) * vx f = - (mu * vz f) * vx v /\ sqrt (vx v ^ 2 + vy v ^ 2) * vy f = - (mu * vz f) * vy v.
(* the velocities G x + g of the contact points under the forces x *)
Definition contactVel (n : nat) (G : nat -> nat -> R) (g x : rvec) : rvec := fun i => sumN n (fun j => G i j * x j) + g i.
(* every contact obeys Coulomb's law *)
Definition contactSolution (n : nat) (G : nat -> nat -> R) (g : rvec) (mus : list R) (x : rvec) : Prop :=
  forall i, (i < length mus)%nat -> coulomb (nth i mus 0) (seg3 x (3 * i)) (seg3 (contactVel n G g x) (3 * i)).
(* an exact solver of (G + diag d) x = b for positive d *)
Definition exactSolve (n : nat) (G : nat -> nat -> R) (sol : rvec -> rvec -> rvec) : Prop :=
  forall d b, (forall k, (k < n)%nat -> 0 < d k) -> forall x,
    (forall k, (k < n)%nat -> sol d b k = x k) <-> (forall k, (k < n)%nat -> mulv n G x k + d k * x k = b k).
