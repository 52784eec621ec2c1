(* algorithm/delassus-operator-dense.hpp, algorithm/delassus-operator-sparse.hpp *)
Require Import Reals List Arith.
From Verif Require Import Vec3 Sums Spec_Chol Cone Contact.
Import ListNotations.
Local Open Scope nat_scope.

(* A += d.asDiagonal() *)
Definition plusDiag (A : nat -> nat -> R) (d : rvec) : nat -> nat -> R := fun i j => (A i j + (if i =? j then d i else 0))%R.
(* the calls a user can make on an operator between two queries; applyOnTheRight and inverse are const and touch no mutable field, and are left out *)
Inductive Call := UpdateVec (v : rvec) | UpdateScalar (mu : R) | GetMatrix | Solve (b : rvec).

Section Delassus.
(* the factorisation of A followed by the triangular solves is the product by inv n A; ok n A tells that the factorisation succeeded *)
Variables (inv : nat -> (nat -> nat -> R) -> nat -> nat -> R) (ok : nat -> (nat -> nat -> R) -> bool).

(* ---- dense ---- *)
(* delassus-operator-dense.hpp 143-146; de_llt is the matrix that was factorised, de_n its size *)
Record Dense := mkDense { de_n : nat; de_D : nat -> nat -> R; de_tmp : nat -> nat -> R; de_llt : nat -> nat -> R; de_damping : rvec }.
(* 45-54: tmp0 is the uninitialised content of mat_tmp; None is the exception of 53 *)
Definition denseNew (rows cols : nat) (D tmp0 : nat -> nat -> R) : option Dense :=
  if rows =? cols then Some (mkDense rows D tmp0 D (fun _ => 0%R)) else None.
(* 56-63 *)
Definition denseUpdate (o : Dense) (v : rvec) : Dense :=
  let t := plusDiag (de_D o) v in mkDense (de_n o) (de_D o) t t v.
(* 65-68 *)
Definition denseUpdateScalar (o : Dense) (mu : R) : Dense := denseUpdate o (fun _ => mu).
(* 70-92: the three forms of solve on one column *)
Definition denseSolve (o : Dense) (b : rvec) : rvec := mulMV (de_n o) (inv (de_n o) (de_llt o)) b.
(* 94-101 on one column *)
Definition denseApply (o : Dense) (x : rvec) : rvec := fun k => (mulMV (de_n o) (de_D o) x k + de_damping o k * x k)%R.
(* 103-113: x has rows rows *)
Definition denseMult (o : Dense) (rows : nat) (x : rvec) : option rvec := if rows =? de_n o then Some (denseApply o x) else None.
(* 128-133: mat_tmp is mutable *)
Definition denseMatrix (o : Dense) : Dense * (nat -> nat -> R) :=
  let t := plusDiag (de_D o) (de_damping o) in (mkDense (de_n o) (de_D o) t (de_llt o) (de_damping o), t).
(* 135-140 *)
Definition denseInverse (o : Dense) : nat -> nat -> R := fun i j => denseSolve o (fun k => if k =? j then 1%R else 0%R) i.
Definition denseCall (o : Dense) (c : Call) : Dense :=
  match c with UpdateVec v => denseUpdate o v | UpdateScalar mu => denseUpdateScalar o mu | GetMatrix => fst (denseMatrix o) | Solve _ => o end.
Definition denseRun (o : Dense) (h : list Call) : Dense := fold_left denseCall h o.

(* ---- sparse ---- *)
(* the indices of m_P and of m_Pinv: (m_P * b)[fst P i] = b[i]; None when the ordering is natural *)
Definition Ordering := option ((nat -> nat) * (nat -> nat)).
(* Eigen/SimplicialCholesky.h: the matrix that is factorised is P A P^T *)
Definition permuted (P : Ordering) (A : nat -> nat -> R) : nat -> nat -> R :=
  match P with Some (_, q) => fun k l => A (q k) (q l) | None => A end.
(* delassus-operator-sparse.hpp 42-54: the content of tmp *)
Definition solveTmp (n : nat) (P : Ordering) (A : nat -> nat -> R) (b : rvec) : rvec :=
  let t := match P with Some (_, q) => fun k => b (q k) | None => b end in
  mulMV n (inv n (permuted P A)) t.
(* 29-58: from dest and tmp to dest and tmp *)
Definition wrapperSolve (n : nat) (P : Ordering) (A : nat -> nat -> R) (b dest tmp : rvec) : rvec * rvec :=
  if ok n (permuted P A) then                                                                        (* 39-40 *)
    let t := solveTmp n P A b in
    (match P with Some (p, _) => fun i => t (p i) | None => dest end, t)                             (* 56-57 *)
  else (dest, tmp).
(* Eigen/SimplicialCholesky.h, _solve_impl: the same with dest as tmp *)
Definition eigenSolve (n : nat) (P : Ordering) (A : nat -> nat -> R) (b dest : rvec) : rvec :=
  if ok n (permuted P A) then
    let t := solveTmp n P A b in match P with Some (p, _) => fun i => t (p i) | None => t end
  else dest.
(* 250-254; sp_llt is the matrix that was factorised *)
Record Sparse := mkSparse { sp_n : nat; sp_D : nat -> nat -> R; sp_plus : nat -> nat -> R; sp_llt : nat -> nat -> R; sp_damping : rvec; sp_tmp : rvec }.
(* 144-154 *)
Definition sparseNew (rows cols : nat) (D : nat -> nat -> R) (tmp0 : rvec) : option Sparse :=
  if rows =? cols then Some (mkSparse rows D D D (fun _ => 0%R) tmp0) else None.
(* 161: A.coeffRef(k,k) += c *)
Definition bump (A : nat -> nat -> R) (k : nat) (c : R) : nat -> nat -> R :=
  fun i j => if andb (i =? k) (j =? k) then (A k k + c)%R else A i j.
(* 156-168 *)
Definition sparseUpdate (o : Sparse) (v : rvec) : Sparse :=
  let A := fold_left (fun A k => bump A k (- sp_damping o k + v k)%R) (seq 0 (sp_n o)) (sp_plus o) in
  mkSparse (sp_n o) (sp_D o) A A v (sp_tmp o).
(* 170-173 *)
Definition sparseUpdateScalar (o : Sparse) (mu : R) : Sparse := sparseUpdate o (fun _ => mu).
(* 175-189 on one column: the right-hand side is also the destination; tmp is mutable *)
Definition sparseSolve (P : Ordering) (o : Sparse) (b : rvec) : Sparse * rvec :=
  let '(x, t) := wrapperSolve (sp_n o) P (sp_llt o) b b (sp_tmp o) in
  (mkSparse (sp_n o) (sp_D o) (sp_plus o) (sp_llt o) (sp_damping o) t, x).
(* 191-198 *)
Definition sparseSolveTo (P : Ordering) (o : Sparse) (x : rvec) : rvec := eigenSolve (sp_n o) P (sp_llt o) x x.
(* 200-207 *)
Definition sparseApply (o : Sparse) (x : rvec) : rvec := fun k => (mulMV (sp_n o) (sp_D o) x k + sp_damping o k * x k)%R.
(* 209-219 *)
Definition sparseMult (o : Sparse) (rows : nat) (x : rvec) : option rvec := if rows =? sp_n o then Some (sparseApply o x) else None.
(* 234-239: delassus_matrix_plus_damping is mutable *)
Definition sparseMatrix (o : Sparse) : Sparse * (nat -> nat -> R) :=
  let A := plusDiag (sp_D o) (sp_damping o) in (mkSparse (sp_n o) (sp_D o) A (sp_llt o) (sp_damping o) (sp_tmp o), A).
(* 241-247 *)
Definition sparseInverse (P : Ordering) (o : Sparse) : nat -> nat -> R := fun i j => let e := fun k => if k =? j then 1%R else 0%R in eigenSolve (sp_n o) P (sp_llt o) e e i.
Definition sparseCall (P : Ordering) (o : Sparse) (c : Call) : Sparse :=
  match c with UpdateVec v => sparseUpdate o v | UpdateScalar mu => sparseUpdateScalar o mu | GetMatrix => fst (sparseMatrix o) | Solve b => fst (sparseSolve P o b) end.
Definition sparseRun (P : Ordering) (o : Sparse) (h : list Call) : Sparse := fold_left (sparseCall P) h o.
End Delassus.
