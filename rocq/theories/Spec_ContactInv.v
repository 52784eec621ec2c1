(* Vocabulary of the statements about contact inverse dynamics. *)
Require Import Reals List Arith.
From Verif Require Import Vec3 Contact ContactInv.
Local Open Scope R_scope.

(* the matrix with the diagonal x *)
Definition diagM (x : rvec) (i j : nat) : R := if (i =? j)%nat then x i else 0.
(* the compliance of each contact plus the proximal parameter: positive, the same along the two tangents *)
Definition goodCompliance (mus : list R) (Rv : rvec) (p : R) : Prop :=
  forall i, (i < length mus)%nat -> Rv (3 * i + 1)%nat = Rv (3 * i)%nat /\ 0 < Rv (3 * i)%nat + p /\ 0 < Rv (3 * i + 2)%nat + p.
Definition frictions (mus : list R) : Prop := forall i, (i < length mus)%nat -> 0 <= nth i mus 0.
