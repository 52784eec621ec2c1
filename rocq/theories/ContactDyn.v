(* algorithm/contact-dynamics.hxx *)
Require Import Reals List Arith.
From Verif Require Import Vec3 Spatial Inertia Joints Model Data Kinematics Sums Spec_Chol Cholesky Crba AllTerms.
Local Open Scope nat_scope.

Notation mat := (nat -> nat -> R).
(* the fields of Data that contact-dynamics.hxx writes *)
Record CDyn := mkCDyn {
  k_chol : Chol;         (* U, D, Dinv *)
  k_residual : vec;      (* torque_residual *)
  k_sDUiJt : mat;
  k_JMinvJt : mat;
  k_multiplier : vec;    (* lambda_c or impulse_c *)
  k_joint : vec }.       (* ddq or dq_after *)

Section ContactDyn.
(* Eigen::LLT: llt.compute(A) then llt.solve(b) is inv n A * b, inv a parameter *)
Variable inv : nat -> mat -> mat.
Definition lltSolve (n : nat) (A : mat) (b : vec) : vec := mulMV n (inv n A) b.
(* 116-120, 197-201, 309-313: Uiv acts on each column of J^T *)
Definition sDUiJt (m : Model) (s : Chol) (J : mat) : mat := fun k i => (Uiv m s (J i) k / sqrt (cD s k))%R.
(* 122-124, 203-205, 315-316 *)
Definition JMinvJt (m : Model) (S : mat) (mu : R) : mat := fun i j =>
  (sumN (m_nv m) (fun k => S k i * S k j) + (if i =? j then mu else 0))%R.
(* 90-139: M and nle are data.M and data.nle, J has nc rows *)
Definition forwardDynamics (m : Model) (s : Chol) (M : mat) (nle tau : vec) (nc : nat) (J : mat) (gamma : vec) (mu : R) : CDyn :=
  let s := decompose m M s in                                                      (* 110 *)
  let res := cholSolve m s (fun k => tau k - nle k)%R in                           (* 113-114 *)
  let S := sDUiJt m s J in
  let G := JMinvJt m S mu in
  let lam := (fun i => - mulMV (m_nv m) J res i - gamma i)%R in                    (* 127 *)
  let lam := lltSolve nc G lam in                                                  (* 130-131 *)
  let a := cholSolve m s (mulMV nc (transp J) lam) in                              (* 134-135 *)
  mkCDyn s res S G lam (fun k => a k + res k)%R.                                   (* 136 *)
(* 151-167 *)
Definition forwardDynamicsState (eps : R) (m : Model) (d : Data) (s : Chol) (q v tau : vec) (nc : nat) (J : mat) (gamma : vec) (mu : R) : CDyn :=
  let d := computeAllTerms eps m d q v in
  forwardDynamics m s (ma (gl d) F_M) (ve (gl d) F_nle) tau nc J gamma mu.
(* 288-331 *)
Definition impulseDynamics (m : Model) (s : Chol) (M : mat) (v0 : vec) (nc : nat) (J : mat) (r mu : R) (res : vec) : CDyn :=
  let s := decompose m M s in                                                      (* 307 *)
  let S := sDUiJt m s J in
  let G := JMinvJt m S mu in
  let imp := (fun i => (- r - 1) * mulMV (m_nv m) J v0 i)%R in                     (* 319 *)
  let imp := lltSolve nc G imp in                                                  (* 322-323 *)
  let dq := cholSolve m s (mulMV nc (transp J) imp) in                             (* 326-327 *)
  mkCDyn s res S G imp (fun k => dq k + v0 k)%R.                                   (* 328 *)
(* 264-279 *)
Definition impulseDynamicsState (eps : R) (m : Model) (d : Data) (s : Chol) (q v0 : vec) (nc : nat) (J : mat) (r mu : R) (res : vec) : Res Data CDyn :=
  match crbaWorld eps m d q with
  | Ok d _ => Ok d (impulseDynamics m s (ma (gl d) F_M) v0 nc J r mu res)
  | Throw d => Throw d
  | Undef => Undef
  end.
(* 221-254: the blocks of KKTMatrix_inv; s, G: data.U, data.D, data.Dinv and data.JMinvJt with its factorisation *)
Record KKT := mkKKT { topLeft : mat; topRight : mat; bottomLeft : mat; bottomRight : mat }.
Definition getKKT (m : Model) (s : Chol) (nc : nat) (G J : mat) : KKT :=
  let br := fun i j => lltSolve nc G (fun l => - (if l =? j then 1 else 0))%R i in                 (* 244-246 *)
  let tl := fun k l => cholSolve m s (fun x => if x =? l then 1 else 0)%R k in                     (* 247-248 *)
  let bl := fun i l => sumN (m_nv m) (fun k => J i k * tl k l)%R in                                (* 250 *)
  let tr := fun k j => sumN nc (fun i => bl i k * - br i j)%R in                                   (* 251 *)
  let tl := fun k l => (tl k l - sumN nc (fun i => tr k i * bl i l))%R in                          (* 252 *)
  let bl := fun i l => tr l i in                                                                   (* 253 *)
  mkKKT tl tr bl br.
(* 176-213; throws on a negative damping *)
Definition computeKKT (eps : R) (m : Model) (d : Data) (s : Chol) (q : vec) (nc : nat) (J : mat) (mu : R) : Res Data KKT :=
  if Rlt_dec mu 0 then Throw d else
  match crbaWorld eps m d q with
  | Ok d _ => let s := decompose m (ma (gl d) F_M) s in Ok d (getKKT m s nc (JMinvJt m (sDUiJt m s J) mu) J)
  | Throw d => Throw d
  | Undef => Undef
  end.
End ContactDyn.
