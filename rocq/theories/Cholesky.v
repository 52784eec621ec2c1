(* algorithm/cholesky.hxx: the sparse U D U^T factorisation of the joint-space inertia matrix.
   The row tables parents_fromRow and nvSubtree_fromRow are those of Jacobian.v (data.hxx 246-313).
   The size checks at the head of the functions and the assertions (no mimic joints) are not modelled; division by a zero pivot
   gives an unspecified real.  The functions are modelled on vectors; on a matrix they run column by column. *)
Require Import Reals List Arith ZArith.
From Verif Require Import Vec3 Spatial Inertia Joints Model Spec_Model Data Kinematics Crba Jacobian Sums.
Import ListNotations.
Local Open Scope nat_scope.

(* the fields U, D, Dinv and tmp of Data *)
Record Chol := mkChol { cU : nat -> nat -> R; cD : vec; cDinv : vec; ctmp : vec }.
(* data.hxx, the constructor: U is the identity, the vectors are zero *)
Definition cholInit : Chol := mkChol (fun i j => if i =? j then 1%R else 0%R) (fun _ => 0%R) (fun _ => 0%R) (fun _ => 0%R).

(* nvSubtree_fromRow[k] - 1 *)
Definition nvt1 (m : Model) (k : nat) : nat := Z.to_nat (t_nvs (rowTables m) k - 1).
(* x.segment(b, n).dot(y.segment(b', n)) *)
Definition segDot (n : nat) (x : vec) (b : nat) (y : vec) (b' : nat) : R := sumN n (fun c => (x (b + c)%nat * y (b' + c)%nat)%R).
(* v.segment(b, n) += f, f giving the increments *)
Definition addSeg (b n : nat) (f : vec) (v : vec) : vec := setCols b n (fun c => (v (b + c)%nat + f c)%R) v.
(* M(i, j) = x *)
Definition putM (M : nat -> nat -> R) (i j : nat) (x : R) : nat -> nat -> R := putn M i (putn (M i) j x).

(* 56-58: the loop over the ancestors of row j *)
Definition decCol (M : nat -> nat -> R) (j nvt : nat) (tmp : vec) (dinv : R) (U : nat -> nat -> R) (i : nat) : nat -> nat -> R :=
  putM U i j ((M i j - segDot nvt (U i) (j + 1) tmp 0) * dinv)%R.
(* 46-59: one turn of the loop over the rows *)
Definition decStep (m : Model) (M : nat -> nat -> R) (s : Chol) (j : nat) : Chol :=
  let nvt := nvt1 m j in
  let tmp := setCols 0 nvt (fun c => (cU s j (j + 1 + c)%nat * cD s (j + 1 + c)%nat)%R) (ctmp s) in
  let dj := (M j j - segDot nvt (cU s j) (j + 1) tmp 0)%R in
  let U := fold_left (decCol M j nvt tmp (/ dj)%R) (walk (t_par (rowTables m)) (S (m_nvE m)) (t_par (rowTables m) j)) (cU s) in
  mkChol U (putn (cD s) j dj) (putn (cDinv s) j (/ dj)%R) tmp.
(* 13-62 decompose; M is data.M, whose strictly lower part is not read *)
Definition decompose (m : Model) (M : nat -> nat -> R) (s : Chol) : Chol :=
  fold_left (decStep m M) (rev (seq 0 (m_nv m))) s.

(* 104-106 *)
Definition Uv (m : Model) (s : Chol) (v : vec) : vec :=
  fold_left (fun v k => putn v k (v k + segDot (nvt1 m k) (cU s k) (k + 1) v (k + 1))%R) (seq 0 (m_nv m - 1)) v.
(* 169-171 *)
Definition Utv (m : Model) (s : Chol) (v : vec) : vec :=
  fold_left (fun v k => addSeg (k + 1) (nvt1 m k) (fun c => (cU s k (k + 1 + c)%nat * v k)%R) v) (rev (seq 0 (m_nv m - 1))) v.
(* 231-234 *)
Definition Uiv (m : Model) (s : Chol) (v : vec) : vec :=
  fold_left (fun v k => putn v k (v k - segDot (nvt1 m k) (cU s k) (k + 1) v (k + 1))%R) (rev (seq 0 (m_nv m - 1))) v.
(* 296-298 *)
Definition Utiv (m : Model) (s : Chol) (v : vec) : vec :=
  fold_left (fun v k => addSeg (k + 1) (nvt1 m k) (fun c => (- (cU s k (k + 1 + c)%nat * v k))%R) v) (seq 0 (m_nv m - 1)) v.
(* 364-369 Mv, the product by data.M *)
Definition Mv (m : Model) (M : nat -> nat -> R) (vin vout : vec) : vec :=
  fold_left (fun vout k =>
    let vout := putn vout k (segDot (Z.to_nat (t_nvs (rowTables m) k)) (M k) k vin k) in
    addSeg (k + 1) (nvt1 m k) (fun c => (M k (k + 1 + c)%nat * vin k)%R) vout) (rev (seq 0 (m_nv m))) vout.
(* v.array() *= w.array() *)
Definition scaleBy (w v : vec) : vec := fun k => (v k * w k)%R.
(* 442-444 *)
Definition UDUtv (m : Model) (s : Chol) (v : vec) : vec := Uv m s (scaleBy (cD s) (Utv m s v)).
(* 499-501 *)
Definition cholSolve (m : Model) (s : Chol) (v : vec) : vec := Utiv m s (scaleBy (cDinv s) (Uiv m s v)).
(* 550-566 internal::Miunit; v is the column as it was before the call *)
Definition Miunit (m : Model) (s : Chol) (col : nat) (v : vec) : vec :=
  let v := putn v col 1%R in
  let v := setCols (col + 1) (m_nv m - col - 1) (fun _ => 0%R) v in
  let v := fold_left (fun v k => let n := Nat.min col (nvt1 m k) in
             putn v k (- segDot n (cU s k) (k + 1) v (k + 1))%R) (rev (seq 0 (Nat.min col (m_nv m - 1)))) v in
  let v := setCols 0 (col + 1) (fun k => (v k * cDinv s k)%R) v in
  fold_left (fun v k => addSeg (k + 1) (nvt1 m k) (fun c => (- (cU s k (k + 1 + c)%nat * v k))%R) v) (seq 0 (col + 1)) v.
(* 588-594 computeMinv: all the columns, then the strictly lower part is the transposed of the upper one *)
Definition computeMinv (m : Model) (s : Chol) (A : nat -> nat -> R) : nat -> nat -> R :=
  let A := fold_left (fun A col => fun i j => if col =? j then Miunit m s col (fun k => A k col) i else A i j) (seq 0 (m_nv m)) A in
  fun i j => if j <? i then A j i else A i j.
