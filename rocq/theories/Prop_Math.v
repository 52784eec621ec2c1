(** Property theorems C52 (tridiagonal matrices, Gram-Schmidt), C61 (Lanczos decomposition), C62 (power iteration). Statements only. *)
From Coq Require Import Reals List Arith.
From Verif Require Import Sums Spec_Lin Tri TriFacts Lanczos LanFacts PowFacts MathFacts MathFacts2.
Import ListNotations.
Local Open Scope R_scope.

(** the dense matrix of a symmetric tridiagonal matrix *)
Theorem C52_matrix (T : Tri) : matEq (t_size T) (t_size T) (tri_matrix T) (symTri (t_diag T) (t_sub T)).
Proof. exact (matrix_spec T). Qed.
Print Assumptions C52_matrix.
(** lhs * T is the dense product, for every number of rows of lhs *)
Theorem C52_left (T : Tri) (r : nat) (B : mat) : (0 < t_size T)%nat ->
  exists X, tri_applyOnTheLeft T r (t_size T) B = Some X /\ matEq r (t_size T) X (matMul (t_size T) B (symTri (t_diag T) (t_sub T))).
Proof. exact (left_sym T r B). Qed.
Example C52_ex (n : nat) : (0 < n)%nat -> t_size (domTri n) = n /\ posDef n (tri_matrix (domTri n)).
Proof. exact (fun _ => conj eq_refl (dom_posdef n)). Qed.
Print Assumptions C52_left.
(** T * rhs is the dense product for a square rhs *)
Theorem C52_right_partial (T : Tri) (B : mat) : (0 < t_size T)%nat ->
  exists X, tri_applyOnTheRight T (t_size T) (t_size T) B = Some X /\ matEq (t_size T) (t_size T) X (matMul (t_size T) (symTri (t_diag T) (t_sub T)) B).
Proof. exact (right_sym T B). Qed.
(* hypotheses met: C52_ex *)
Print Assumptions C52_right_partial.
(** T * vector is not: the off-diagonal terms are dropped, since their number is taken from the number of columns of the vector *)
Theorem C52_vector_refuted : exists T B X, t_size T = 2%nat /\ tri_applyOnTheRight T 2 1 B = Some X /\ X 0%nat 0%nat <> matMul 2 (tri_matrix T) B 0%nat 0%nat.
Proof. exact vector_refuted. Qed.
Print Assumptions C52_vector_refuted.
Theorem C52_vector_diagonal (T : Tri) (B : mat) : (0 < t_size T)%nat ->
  exists X, tri_applyOnTheRight T (t_size T) 1 B = Some X /\ forall i, (i < t_size T)%nat -> X i 0%nat = t_diag T i * B i 0%nat.
Proof. exact (right_vector T B). Qed.
(* hypotheses met: C52_ex *)
Print Assumptions C52_vector_diagonal.
(** more columns than rows: the code reads outside the coefficients *)
Theorem C52_wide_undefined (T : Tri) (c : nat) (B : mat) : (t_size T < c)%nat -> tri_applyOnTheRight T (t_size T) c B = None.
Proof. exact (right_wide T c B). Qed.
(* hypotheses met: T = domTri 2, c = 3 *)
Print Assumptions C52_wide_undefined.
(** the inverse of a positive definite matrix: inverse() * rhs solves T x = rhs for any number of columns, and the evaluated
    inverse is a right inverse *)
Theorem C52_inverse (T : Tri) (B : mat) : (0 < t_size T)%nat -> posDef (t_size T) (tri_matrix T) -> forall c,
  matEq (t_size T) c (matMul (t_size T) (tri_matrix T) (inv_apply T B)) B /\
  matEq (t_size T) (t_size T) (matMul (t_size T) (tri_matrix T) (inv_matrix T)) matId.
Proof. exact (inverse_posdef T B). Qed.
(* hypotheses met: C52_ex *)
Print Assumptions C52_inverse.
(** orthonormalisation against an orthonormal basis: the result is orthogonal to the basis and the part removed is in its span *)
Theorem C52_orthogonal (n p : nat) (Q : mat) (x : nat -> R) : orthonormal n p Q -> let y := orthonormalisation n p Q x in
  (forall k, (k < p)%nat -> dotv n (col Q k) y = 0) /\ exists c, forall i, y i = x i - sumN p (fun k => c k * Q i k).
Proof. exact (gs_span n p Q x). Qed.
Example C52_orthogonal_ex (n : nat) : orthonormal n n matId.
Proof. exact (matId_orthonormal n). Qed.
Print Assumptions C52_orthogonal.
(** it is not normalised *)
Theorem C52_normal_refuted : exists Q x, orthonormal 2 1 Q /\ normv 2 (orthonormalisation 2 1 Q x) = 2.
Proof. exact gs_refuted. Qed.
Print Assumptions C52_normal_refuted.

(** the Lanczos decomposition of a symmetric matrix, whatever the storage held before: the p columns built (all s of them unless the
    loop was left early) are orthonormal, and A is tridiagonal in this basis with the coefficients of Ts *)
Theorem C61_decomposition (tol : R) (n s : nat) (A Q0 : mat) : symmetric n A -> 0 <= tol -> (1 <= s <= n)%nat ->
  exists L rank, lanczos tol n n s A Q0 = Some (L, rank) /\ let p := built s L in (1 <= p <= s)%nat /\ orthonormal n p (l_Q L) /\
  (forall j k, (j < p)%nat -> (k < p)%nat -> dotv n (col (l_Q L) j) (matVec n A (col (l_Q L) k)) = symTri (l_a L) (l_b L) j k) /\
  (forall j, (S j < p)%nat -> forall i, (i < n)%nat -> matVec n A (col (l_Q L) j) i = matMul s (l_Q L) (symTri (l_a L) (l_b L)) i j).
Proof. exact (lanczos_spec tol n s A Q0). Qed.
Example C61_ex : symmetric 3 proj3 /\ 0 <= 1/8 < 1/4 /\ (1 <= 3 <= 3)%nat.
Proof. exact ex_proj3. Qed.
Print Assumptions C61_decomposition.
(** the sizes are checked *)
Theorem C61_sizes (tol : R) (r c s : nat) (A Q0 : mat) : r <> c \/ s = 0%nat \/ (r < s)%nat -> lanczos tol r c s A Q0 = None.
Proof. exact (lanczos_sizes tol r c s A Q0). Qed.
(* hypotheses met: r = 2, c = 3 *)
Print Assumptions C61_sizes.
(** a decomposition that was not left early has no residual, and its rank is its size *)
Theorem C61_complete (tol : R) (n s : nat) (A Q0 : mat) : symmetric n A -> 0 <= tol -> (1 <= s <= n)%nat -> forall L rank,
  lanczos tol n n s A Q0 = Some (L, rank) -> built s L = s -> matEq n s (decompositionResidual n s A L) (fun _ _ => 0) /\ rank = s.
Proof. exact (lanczos_complete tol n s A Q0). Qed.
(* hypotheses met: s = 1 *)
Example C61_complete_ex (tol : R) (n : nat) (A Q0 : mat) : (1 <= n)%nat -> exists L, lanczos tol n n 1 A Q0 = Some (L, 1%nat) /\ built 1 L = 1%nat.
Proof. exact (lanczos_one tol n A Q0). Qed.
Print Assumptions C61_complete.
(** left early after p columns: these span an invariant subspace up to the tolerance *)
Theorem C61_early (tol : R) (n s : nat) (A Q0 : mat) : symmetric n A -> 0 <= tol -> (1 <= s <= n)%nat -> forall L rank,
  lanczos tol n n s A Q0 = Some (L, rank) -> (built s L < s)%nat ->
  normv n (fun i => matVec n A (col (l_Q L) (built s L - 1)%nat) i - sumN (built s L) (fun k => l_Q L i k * symTri (l_a L) (l_b L) k (built s L - 1)%nat)) <= tol.
Proof. exact (lanczos_early tol n s A Q0). Qed.
(* hypotheses met: C61_rank_refuted *)
Print Assumptions C61_early.
(** rank() is then one less than the number of columns built *)
Theorem C61_rank_refuted (tol : R) (Q0 : mat) : 0 <= tol < 1/4 -> exists A L, symmetric 3 A /\ lanczos tol 3 3 3 A Q0 = Some (L, 1%nat) /\
  built 3 L = 2%nat /\ orthonormal 3 2 (l_Q L) /\ tol < l_b L 0%nat.
Proof. exact (rank_refuted tol Q0). Qed.
Print Assumptions C61_rank_refuted.

(** power iteration on a matrix without kernel: no division by zero, the estimate never exceeds a bound of the matrix *)
Theorem C62_bound (n maxIt : nat) (tol : R) (A : mat) (x0 : nat -> R) : injective n A -> (exists i, (i < n)%nat /\ x0 i <> 0) -> (1 <= maxIt)%nat -> 0 < tol ->
  exists P, powerRun n maxIt tol A x0 = Some P /\ p_nan P = false /\ 0 < p_est P /\ p_est P = normv n (p_vec P) /\
  forall L, (forall x, normv n (matVec n A x) <= L * normv n x) -> p_est P <= L.
Proof. exact (power_bound n maxIt tol A x0). Qed.
Example C62_ex (n : nat) : (0 < n)%nat -> injective n matId /\ symmetric n matId /\ (exists i, (i < n)%nat /\ powerStart n i <> 0) /\ forall x i, (i < n)%nat -> matVec n matId x i = 1 * x i.
Proof. exact (ex_id n). Qed.
Print Assumptions C62_bound.
(** for a symmetric matrix one more iteration never gives a lower estimate *)
Theorem C62_monotone (n maxIt : nat) (tol : R) (A : mat) (x0 : nat -> R) : injective n A -> symmetric n A -> (exists i, (i < n)%nat /\ x0 i <> 0) -> (1 <= maxIt)%nat -> 0 < tol ->
  exists P P', powerRun n maxIt tol A x0 = Some P /\ powerRun n (maxIt + 1) tol A x0 = Some P' /\ p_est P <= p_est P'.
Proof. exact (power_monotone n maxIt tol A x0). Qed.
(* hypotheses met: C62_ex *)
Print Assumptions C62_monotone.
(** an eigenvector is kept, and its eigenvalue found up to the sign *)
Theorem C62_eigenvector (n maxIt : nat) (tol lam : R) (A : mat) (x0 : nat -> R) : injective n A -> (exists i, (i < n)%nat /\ x0 i <> 0) -> (1 <= maxIt)%nat -> 0 < tol ->
  (forall i, (i < n)%nat -> matVec n A x0 i = lam * x0 i) ->
  exists P, powerRun n maxIt tol A x0 = Some P /\ p_est P = Rabs lam /\ forall i, (i < n)%nat -> matVec n A (p_vec P) i = lam * p_vec P i.
Proof. exact (power_eigen n maxIt tol lam A x0). Qed.
(* hypotheses met: C62_ex *)
Print Assumptions C62_eigenvector.
(** when the criterion ends the loop after the first iteration, the vector before the last two products is an eigenvector of A A up to
    the tolerance *)
Theorem C62_residual_partial (n maxIt : nat) (tol : R) (A : mat) (x0 : nat -> R) : injective n A -> symmetric n A -> (exists i, (i < n)%nat /\ x0 i <> 0) -> (1 <= maxIt)%nat -> 0 < tol ->
  forall P1 P, powerRun n 1 tol A x0 = Some P1 -> p_done P1 = false -> powerRun n maxIt tol A x0 = Some P -> p_done P = true ->
  exists x e, normv n x = 1 /\ 0 < e <= p_est P /\ (forall i, (i < n)%nat -> p_vec P i = matVec n A (matVec n A x) i / e) /\
  Rsqr (normv n (fun i => matVec n A (matVec n A x) i - e * e * x i)) <= tol * (e * e) * p_est P * (e + p_est P).
Proof. exact (power_residual n maxIt tol A x0). Qed.
Example C62_residual_ex (tol : R) : 0 < tol < 1/4 -> exists P1 P, powerRun 1 1 tol (fun _ _ => 2) (powerStart 1) = Some P1 /\ p_done P1 = false /\ powerRun 1 2 tol (fun _ _ => 2) (powerStart 1) = Some P /\ p_done P = true.
Proof. exact (ex_two tol). Qed.
Print Assumptions C62_residual_partial.
(** the first iteration compares the estimate with the norm of the initial vector: with the default initial vector the loop can end at once
    far from any eigenvector, for every tolerance and every number of iterations *)
Theorem C62_first_iteration_refuted (maxIt : nat) (tol : R) : (1 <= maxIt)%nat -> 0 < tol -> exists A P x, symmetric 2 A /\ injective 2 A /\
  powerRun 2 maxIt tol A (powerStart 2) = Some P /\ p_done P = true /\ p_nan P = false /\ p_est P = 1 /\
  (forall i, (i < 2)%nat -> matVec 2 A x i = 7/5 * x i) /\ x 0%nat = 1 /\ forall lam, exists i, (i < 2)%nat /\ matVec 2 A (p_vec P) i <> lam * p_vec P i.
Proof. exact (first_refuted maxIt tol). Qed.
Print Assumptions C62_first_iteration_refuted.
(** the largest eigenvalue is a norm: minus the identity is given 1 *)
Theorem C62_sign_refuted (n maxIt : nat) (tol : R) : (0 < n)%nat -> (1 <= maxIt)%nat -> 0 < tol -> exists A P,
  (forall x i, (i < n)%nat -> matVec n A x i = - x i) /\ powerRun n maxIt tol A (powerStart n) = Some P /\ p_nan P = false /\ p_est P = 1.
Proof. exact (sign_refuted n maxIt tol). Qed.
Print Assumptions C62_sign_refuted.
(** lowest: given the largest eigenvalue, the lowest one is never underestimated *)
Theorem C62_lowest (n maxIt : nat) (tol large : R) (A : mat) (x0 : nat -> R) : injective n (fun i j => A i j - large * matId i j) -> (exists i, (i < n)%nat /\ x0 i <> 0) -> (1 <= maxIt)%nat -> 0 < tol ->
  exists P low, lowRun n maxIt tol A large x0 = Some (P, low) /\ p_nan P = false /\
  (forall L, (forall x, normv n (fun i => matVec n A x i - large * x i) <= (large - L) * normv n x) -> L <= low) /\
  (forall mu, (forall i, (i < n)%nat -> matVec n A x0 i = mu * x0 i) -> mu <= large -> low = mu).
Proof. exact (low_spec n maxIt tol large A x0). Qed.
Example C62_lowest_ex (n : nat) : (0 < n)%nat -> injective n (fun i j => matId i j - 2 * matId i j).
Proof. exact (ex_shift n). Qed.
Print Assumptions C62_lowest.
(** with the default initial vector and the identity, lowest divides zero by zero *)
Theorem C62_lowest_refuted (n maxIt : nat) (tol : R) : (0 < n)%nat -> (2 <= maxIt)%nat -> 0 < tol < 1 ->
  exists P r, lowest n maxIt tol matId = Some (P, r) /\ p_nan P = true.
Proof. exact (lowest_refuted n maxIt tol). Qed.
Print Assumptions C62_lowest_refuted.
