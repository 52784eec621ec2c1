(* math/tridiagonal-matrix.hpp and math/gram-schmidt-orthonormalisation.hpp. Vectors and matrices are functions; the release
   build is modelled: the asserts of Eigen and of the code are compiled out, and an access outside the storage is UNDEF. *)
Require Import Reals List Arith Lia Bool.
From Verif Require Import Sums Spec_Lin.
Import ListNotations.
Local Open Scope R_scope.

(* for (i = a; i < a + n; ++i) and for (i = n - 1; i >= 0; --i) *)
Definition forUp {S} (a n : nat) (f : S -> nat -> S) (s : S) : S := fold_left f (seq a n) s.
Definition forDown {S} (n : nat) (f : S -> nat -> S) (s : S) : S := fold_left f (rev (seq 0 n)) s.
Definition setVec (x : nat -> R) (i : nat) (a : R) : nat -> R := fun k => if Nat.eqb i k then a else x k.
Definition setRowM (A : mat) (i : nat) (x : nat -> R) : mat := fun r c => if Nat.eqb i r then x c else A r c.

(* 161-313 *)
Record Tri := mkTri { t_size : nat; t_diag : nat -> R; t_sub : nat -> R }.
(* 218-222 *)
Definition tri_setIdentity (T : Tri) : Tri := mkTri (t_size T) (fun _ => 1) (fun _ => 0).
(* 229-233 *)
Definition tri_setZero (T : Tri) : Tri := mkTri (t_size T) (fun _ => 0) (fun _ => 0).
(* 252-261; the size check is part of the type of the argument here *)
Definition tri_setDiagonal (T : Tri) (x : nat -> R) : Tri := mkTri (t_size T) x (fun _ => 0).
(* 278-284 evalTo: the three assignments in order *)
Definition tri_matrix (T : Tri) : mat :=
  let n := t_size T in
  let A := fun _ _ => 0 in
  let A := fun i j => if Nat.eqb (S i) j then if Nat.ltb j n then t_sub T i else A i j else A i j in
  let A := fun i j => if Nat.eqb i j then t_diag T i else A i j in
  fun i j => if Nat.eqb (S j) i then if Nat.ltb i n then t_sub T j else A i j else A i j.
(* 342-359 T * rhs, rhs of size r x c. None: undefined behaviour. The number of off-diagonal rows is computed from the number of
   columns of the right-hand side (350); 354-358 then work on the first and on the last c - 1 rows. A right-hand side with
   another number of rows, without column, or with more than size columns leads to accesses outside the storage. *)
Definition tri_applyOnTheRight (T : Tri) (r c : nat) (B : mat) : option mat :=
  let n := t_size T in
  if Nat.eqb r n && Nat.leb 1 c && Nat.leb c n then
    let k := (c - 1)%nat in
    let A := fun i j => t_diag T i * B i j in                                                                       (* 352 *)
    let A := fun i j => if Nat.ltb i k then A i j + t_sub T i * B (n - k + i)%nat j else A i j in                   (* 354-355 *)
    let A := fun i j => if Nat.leb (n - k) i then A i j + t_sub T (i - (n - k)) * B (i - (n - k))%nat j else A i j in (* 357-358 *)
    Some A
  else None.
(* 391-408 lhs * T, lhs of size r x c *)
Definition tri_applyOnTheLeft (T : Tri) (r c : nat) (B : mat) : option mat :=
  let n := t_size T in
  if Nat.eqb c n && Nat.leb 1 n then
    let k := (n - 1)%nat in
    let A := fun i j => B i j * t_diag T j in                                                                       (* 401 *)
    let A := fun i j => if Nat.leb (n - k) j then A i j + B i (j - (n - k))%nat * t_sub T (j - (n - k)) else A i j in (* 403-404 *)
    let A := fun i j => if Nat.ltb j k then A i j + B i (n - k + j)%nat * t_sub T j else A i j in                   (* 406-407 *)
    Some A
  else None.
(* 513-525 TridiagonalSymmetricMatrixInverse::eval: the pivots b and the multipliers w *)
Definition inv_eval (T : Tri) : (nat -> R) * (nat -> R) :=
  forUp 1 (t_size T - 1) (fun bw i => let '(b, w) := bw in
    let w := setVec w (i - 1) (w (i - 1)%nat / b (i - 1)%nat) in
    (setVec b i (b i - w (i - 1)%nat * t_sub T (i - 1)%nat), w)) (t_diag T, t_sub T).
(* 570-576, 490-496 *)
Definition inv_backward (T : Tri) (b : nat -> R) (A : mat) : mat :=
  let n := t_size T in
  let A := setRowM A (n - 1) (fun j => A (n - 1)%nat j / b (n - 1)%nat) in
  forDown (n - 1) (fun A i =>
    let A := setRowM A i (fun j => A i j - t_sub T i * A (i + 1)%nat j) in
    setRowM A i (fun j => A i j / b i)) A.
(* 550-577 T.inverse() * rhs *)
Definition inv_apply (T : Tri) (B : mat) : mat :=
  let '(b, w) := inv_eval T in
  let A := forUp 1 (t_size T - 1) (fun A i => setRowM A i (fun j => A i j - w (i - 1)%nat * A (i - 1)%nat j)) B in
  inv_backward T b A.
(* 471-497 T.inverse().eval(): the forward sweep touches the first i entries of row i only *)
Definition inv_matrix (T : Tri) : mat :=
  let '(b, w) := inv_eval T in
  let A := forUp 1 (t_size T - 1) (fun A i => setRowM A i (fun j => if Nat.ltb j i then A i j - w (i - 1)%nat * A (i - 1)%nat j else A i j)) matId in
  inv_backward T b A.

(* gram-schmidt-orthonormalisation.hpp 19-37: basis of size n x p *)
Definition orthonormalisation (n p : nat) (basis : mat) (x : nat -> R) : nat -> R :=
  forUp 0 p (fun x k => let alpha := dotv n (col basis k) x in fun i => x i - alpha * basis i k) x.
