(* math/lanczos-decomposition.hpp and math/eigenvalues.hpp *)
Require Import Reals List Arith Lia Bool.
From Verif Require Import Sums Spec_Lin Tri.
Import ListNotations.
Local Open Scope R_scope.

Definition setColM (A : mat) (j : nat) (x : nat -> R) : mat := fun r c => if Nat.eqb j c then x r else A r c.
Definition leR (a b : R) : bool := if Rle_dec a b then true else false.

(* m_Qs, the coefficients of m_Ts, and where the loop was left by break *)
Record Lan := mkLan { l_Q : mat; l_a : nat -> R; l_b : nat -> R; l_stop : option nat }.
Section Lanczos.
(* 1e2 * Eigen::NumTraits<Scalar>::epsilon() *)
Variable tol : R.
(* 80-110, one turn of the loop; n: rows of A, s: size of the decomposition *)
Definition lanczosStep (n s : nat) (A : mat) (L : Lan) (k : nat) : Lan :=
  match l_stop L with
  | Some _ => L
  | None =>
    let q := col (l_Q L) k in
    let y := matVec n A q in                                                                     (* 83 *)
    let a := setVec (l_a L) k (dotv n q y) in                                                    (* 84 *)
    if Nat.ltb k (s - 1) then
      let y := fun i => y i - a k * q i in                                                       (* 89 *)
      let y := if Nat.ltb 0 k then fun i => y i - l_b L (k - 1)%nat * l_Q L i (k - 1)%nat else y in (* 90-93 *)
      let y := if Nat.ltb 0 k then orthonormalisation n k (l_Q L) y else y in                    (* 96-97 *)
      let b := setVec (l_b L) k (normv n y) in                                                   (* 100 *)
      if leR (b k) tol then mkLan (l_Q L) a b (Some k)                                           (* 101-104 *)
      else mkLan (setColM (l_Q L) (k + 1) (fun i => y i / b k)) a b None                         (* 107 *)
    else mkLan (l_Q L) a (l_b L) None
  end.
(* 67-110; Q0: the uninitialised content of m_Qs *)
Definition lanczosLoop (n s : nat) (A Q0 : mat) : Lan :=
  forUp 0 s (lanczosStep n s A) (mkLan (setColM Q0 0 (fun _ => 1 / sqrt (INR n))) (fun _ => 0) (fun _ => 0) None).
(* 33-47, 66-112: the checks on the sizes of the arguments, r x c: the matrix; None: an exception *)
Definition lanczos (r c s : nat) (A Q0 : mat) : option (Lan * nat) :=
  if Nat.eqb r c && Nat.leb 1 s && Nat.leb s r then
    let L := lanczosLoop r s A Q0 in
    Some (L, Nat.max 1 (match l_stop L with Some k => k | None => s end))                        (* 111 *)
  else None.
(* 122-143 *)
Definition decompositionResidual (n s : nat) (A : mat) (L : Lan) : mat :=
  let last := (s - 1)%nat in
  let res := matMul n A (l_Q L) in
  let QT := match tri_applyOnTheLeft (mkTri s (l_a L) (l_b L)) n s (l_Q L) with Some X => X | None => fun _ _ => 0 end in
  let res := fun i j => res i j - QT i j in
  let t := matVec n A (col (l_Q L) last) in
  let t := fun i => t i - l_a L last * l_Q L i last in
  let t := if Nat.ltb 0 last then fun i => t i - l_b L (last - 1)%nat * l_Q L i (last - 1)%nat else t in
  setColM res last (fun i => res i last - t i).
End Lanczos.

(* eigenvalues.hpp 17-131. State: the vector, the estimate, whether the loop was left, and whether the vector was divided by an
   estimate equal to zero (0/0 is NaN in the code: the vector and the estimate are then meaningless) *)
Record Pow := mkPow { p_vec : nat -> R; p_est : R; p_done : bool; p_nan : bool }.
Definition isZero (a : R) : bool := if Req_EM_T a 0 then true else false.
(* 41-55 *)
Definition powerStep (n : nat) (tol : R) (A : mat) (P : Pow) (_ : nat) : Pow :=
  if p_done P then P else
  let prev := p_est P in
  let x := fun i => p_vec P i / prev in                                                          (* 44-45 *)
  let y := matVec n A x in                                                                       (* 46 *)
  let e := normv n y in                                                                          (* 48 *)
  let nan := p_nan P || isZero prev in
  mkPow y e (negb nan && leR (Rabs (prev - e)) (tol * Rmax (Rabs prev) (Rabs e))) nan.           (* 50-54 *)
(* 35-58 run *)
Definition powerRun (n maxIt : nat) (tol : R) (A : mat) (x0 : nat -> R) : option Pow :=
  if Nat.leb 1 maxIt && negb (leR tol 0) then Some (forUp 0 maxIt (powerStep n tol A) (mkPow x0 (normv n x0) false false)) else None.
(* 110-114 reset *)
Definition powerStart (n : nat) : nat -> R := fun _ => 1 / sqrt (INR n).
(* 78-93 *)
Definition lowStep (n : nat) (tol : R) (A : mat) (large : R) (P : Pow) (_ : nat) : Pow :=
  if p_done P then P else
  let prev := p_est P in
  let x := fun i => p_vec P i / prev in                                                          (* 81-82 *)
  let y := matVec n A x in                                                                       (* 83 *)
  let y := fun i => y i - large * x i in                                                         (* 84 *)
  let e := normv n y in                                                                          (* 86 *)
  let nan := p_nan P || isZero prev in
  mkPow y e (negb nan && leR (Rabs (prev - e)) (tol * Rmax (Rabs prev) (Rabs e))) nan.           (* 88-92 *)
(* 70-71, 76-95 lowest, given the largest eigenvalue; result: the vector and the lowest eigenvalue *)
Definition lowRun (n maxIt : nat) (tol : R) (A : mat) (large : R) (x0 : nat -> R) : option (Pow * R) :=
  if Nat.leb 1 maxIt && negb (leR tol 0) then
    let P := forUp 0 maxIt (lowStep n tol A large) (mkPow x0 (normv n x0) false false) in Some (P, large - p_est P)       (* 95 *)
  else None.
(* 68-96 lowest with compute_largest, from the state left by reset *)
Definition lowest (n maxIt : nat) (tol : R) (A : mat) : option (Pow * R) :=
  match powerRun n maxIt tol A (powerStart n) with Some P => lowRun n maxIt tol A (p_est P) (powerStart n) | None => None end.
