(* Vocabulary of the statements about the derivatives of the dynamics. *)
Require Import Reals Arith.
From Verif Require Import Sums.

(* the symmetric matrix of which E holds the upper triangle *)
Definition symUpper (E : nat -> nat -> R) (k l : nat) : R := if Nat.leb k l then E k l else E l k.
