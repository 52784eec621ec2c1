(* algorithm/aba-derivatives.hxx: the derivatives of forward dynamics, computeABADerivatives *)
Require Import Reals List Arith ZArith Lia.
From Verif Require Import Vec3 Spatial Inertia Joints Model Spec_Model Sums Data Kinematics Rnea Crba Aba Minverse Jacobian Com Dccrba DataX Coriolis RneaDer.
Import ListNotations.
Local Open Scope nat_scope.
Local Open Scope bool_scope.

(* the output arguments aba_partial_dq and aba_partial_dv; aba_partial_dtau is kept in data.Minv, the argument that the overloads
   without output arguments give (857, 876, 885, 894) *)
Record AbaDq := mkAbaDq { ad_state : DX; ad_dq : nat -> nat -> R; ad_dv : nat -> nat -> R }.

Section AbaDer.
Variable inv : nat -> (nat -> nat -> R) -> nat -> nat -> R.   (* see Aba.v *)
Variable eps : R.

(* 48-72 ComputeABADerivativesForwardStep1::algo: the same statements as aba.hxx 103-134, abaWRow1 and crbaWCols; 513 *)
Definition adRow1 (m : Model) (q v : vec) (fext : option (nat -> Force)) (i : nat) (r rp : Row) : Row := minusExt fext i (abaWRow1 m q v i r rp).
(* 109-169 ComputeABADerivativesBackwardStep1::algo: 124-132 and 160-169 are aba.hxx 152-192; 134-158, the fill of Minv, uses the U
   and Dinv of the joint just computed and writes other fields *)
Definition adBack1 (m : Model) (d : Data) (i : nat) : Data :=
  let J := jointCols m i (co (gl d) F_J) in
  let d := abaWBack inv m d i in
  setGl d (minvFill m i J (jU (rows d i)) (jDinv (rows d i)) (gl d)).

(* 198-255 ComputeABADerivativesForwardStep2::algo. 216: the force on the body, *)
Definition adForce (r : Row) : Row := setMo r F_of (v6add (inertia_mul (yi r F_oYcrb) (mo r F_oa_gf)) (force_cross (mo r F_ov) (mo r F_oh))).
(* 236-251: the columns of the joint, *)
Definition adCols (m : Model) (i : nat) (s : DX) : DX :=
  let r := rows (bs s) i in let rp := rows (bs s) (parent m i) in
  let b := jm_idx_v (joint m i) in let n := jnv (jm_type (joint m i)) in
  let Jc := fun k => co (gl (bs s)) F_J (b + k) in
  let s := onBs s (fun d => onCo d F_dJ (setCols b n (fun k => motion_cross (mo r F_ov) (Jc k)))) in                          (* 241 *)
  let s := onXc s X_dAdq (setCols b n (fun k => motion_cross (mo rp F_oa_gf) (Jc k))) in                                      (* 242 *)
  let s := onXc s X_dAdv (setCols b n (fun k => co (gl (bs s)) F_dJ (b + k))) in                                              (* 243 *)
  if 0 <? parent m i then
    let s := onBs s (fun d => onCo d F_dVdq (setCols b n (fun k => motion_cross (mo rp F_ov) (Jc k)))) in                     (* 246 *)
    let s := onXc s X_dAdq (plusCols b n (fun k => motion_cross (mo rp F_ov) (co (gl (bs s)) F_dVdq (b + k)))) in             (* 247 *)
    onXc s X_dAdv (plusCols b n (fun k => co (gl (bs s)) F_dVdq (b + k)))                                                     (* 248 *)
  else onBs s (fun d => onCo d F_dVdq (setCols b n (fun _ => v6zero))).                                                       (* 251 *)
(* 253-255: the variation of the inertia *)
Definition adVar (r : Row) : Row := setM6 r F_doYcrb (addForceCross (mo r F_oh) (inertia_variation (yi r F_oYcrb) (mo r F_ov))).
(* 216-255 and 529; 218-234 are aba.hxx 816-829 *)
Definition adRest (m : Model) (fext : option (nat -> Force)) (s : DX) (i : nat) : DX :=
  let s := onBs s (fun d => setRow d i (adForce (rows d i))) in
  let s := onBs s (fun d => minvFwd m d i) in
  let s := adCols m i s in
  onBs s (fun d => setRow d i (minusExt fext i (adVar (rows d i)))).
(* 209-215 are aba.hxx 218-226; the force that abaWRow2 also writes is overwritten by adForce *)
Definition adFwd2 (m : Model) (fext : option (nat -> Force)) (s : DX) (i : nat) : DX := adRest m fext (onBs s (fun d => abaWRow2 m d i)) i.

(* 291-365 ComputeABADerivativesBackwardStep2::algo, in five parts: the derivatives in v, *)
Definition adBackV (m : Model) (i : nat) (s : DX) : DX :=
  let b := jm_idx_v (joint m i) in let n := jnv (jm_type (joint m i)) in let nt := Z.to_nat (nvSubtree m i) in
  let r := rows (bs s) i in let Y := yi r F_oYcrb in let dY := m6 r F_doYcrb in
  let Jc := fun k => co (gl (bs s)) F_J (b + k) in
  let s := onXc s X_dFdv (setCols b n (fun k => inertia_mul Y (xco s X_dAdv (b + k)))) in                                       (* 315 *)
  let s := onXc s X_dFdv (plusCols b n (fun k => m6vec dY (Jc k))) in                                                           (* 316 *)
  onXm s P_dv (setBlock b b n nt (fun k l => v6dot (Jc k) (xco s X_dFdv (b + l)))).                                             (* 318-319 *)
(* in q, *)
Definition adBackQ (m : Model) (i : nat) (s : DX) : DX :=
  let b := jm_idx_v (joint m i) in let n := jnv (jm_type (joint m i)) in let nt := Z.to_nat (nvSubtree m i) in
  let r := rows (bs s) i in let Y := yi r F_oYcrb in let dY := m6 r F_doYcrb in
  let Jc := fun k => co (gl (bs s)) F_J (b + k) in
  let s := onXc s X_dFdq (setCols b n (fun k => inertia_mul Y (xco s X_dAdq (b + k)))) in                                       (* 322 *)
  let s := if 0 <? parent m i then onXc s X_dFdq (plusCols b n (fun k => m6vec dY (co (gl (bs s)) F_dVdq (b + k)))) else s in   (* 323-324 *)
  let s := onXm s P_dq (setBlock b b n nt (fun k l => v6dot (Jc k) (xco s X_dFdq (b + l)))) in                                  (* 326-327 *)
  let s := onXc s X_dFdq (plusCols b n (fun k => force_cross (Jc k) (mo r F_of))) in                                            (* 329 *)
  onXc s X_dFda (setCols b n (fun k => inertia_mul Y (Jc k))).                                                                  (* 331 *)
(* the columns of the supporting joints, (343: StdY * x is J_cols^T (doYcrb x)) *)
Definition adBackL (m : Model) (i : nat) (s : DX) : DX :=
  let b := jm_idx_v (joint m i) in let n := jnv (jm_type (joint m i)) in let dY := m6 (rows (bs s) i) F_doYcrb in
  let Jc := fun k => co (gl (bs s)) F_J (b + k) in
  if 0 <? parent m i then
    let s := fold_left (fun s j => onXm s P_dq (setRowsCol b n j (fun k => v6dot (xco s X_dFda (b + k)) (xco s X_dAdq j)))) (aboveRows m i) s in    (* 334-337 *)
    let s := fold_left (fun s j => onXm s P_dv (setRowsCol b n j (fun k => v6dot (xco s X_dFda (b + k)) (xco s X_dAdv j)))) (aboveRows m i) s in    (* 338-341 *)
    let s := fold_left (fun s j => onXm s P_dq (addRowsCol b n j (fun k => v6dot (Jc k) (m6vec dY (co (gl (bs s)) F_dVdq j))))) (aboveRows m i) s in  (* 344-347 *)
    fold_left (fun s j => onXm s P_dv (addRowsCol b n j (fun k => v6dot (Jc k) (m6vec dY (co (gl (bs s)) F_J j))))) (aboveRows m i) s               (* 348-350 *)
  else s.
(* what the parent receives (353-358, the same as rnea-derivatives.hxx 453-458: rdBackP), and dAdq without gravity *)
Definition adBackG (m : Model) (i : nat) (s : DX) : DX :=
  let b := jm_idx_v (joint m i) in let n := jnv (jm_type (joint m i)) in
  onXc s X_dAdq (fun x k => if within b n k then mkV6 (v3add (lin (x k)) (v3cross (lin (m_gravity m)) (ang (co (gl (bs s)) F_J k)))) (ang (x k)) else x k).  (* 361-366 *)
Definition adBack2 (m : Model) (s : DX) (i : nat) : DX := adBackG m i (rdBackP eps m i (adBackL m i (adBackQ m i (adBackV m i s)))).

(* 448-452: the lower triangle of Minv and the products *)
Definition lowerFromUpper (m : Model) (x : nat -> nat -> R) : nat -> nat -> R := fun k l => if (l <? k) && (k <? m_nv m) then x l k else x k l.
Definition minusMul (m : Model) (A B : nat -> nat -> R) : nat -> nat -> R := fun k l => (- sumN (m_nv m) (fun j => A k j * B j l))%R.
Definition adEnd (m : Model) (s : DX) : AbaDq :=
  let s := onBs s (fun d => setGl d (onMinv (gl d) (lowerFromUpper m))) in
  let Minv := ma (gl (bs s)) F_Minv in
  mkAbaDq s (minusMul m Minv (xma s P_dq)) (minusMul m Minv (xma s P_dv)).
(* data.dtau_dq and data.dtau_dv are P_dq and P_dv; 372-453 without and 455-543 with external forces. The checks of the sizes and
   that gravity has no angular part (a throw) are not modelled. *)
Definition adStart (m : Model) (tau : vec) (d : Data) : Data :=
  let d := setRow d 0 (setMo (rows d 0) F_oa_gf (v6opp (m_gravity m))) in                                                     (* 410 *)
  let d := setGl d (setVe (gl d) F_u tau) in                                                                                  (* 411 *)
  setGl d (onMinv (gl d) (zeroUpper m)).                                                                                      (* 414 *)
Definition adPasses12 (m : Model) (q v tau : vec) (fext : option (nat -> Force)) (d : Data) : Data :=
  let d := upward m (rowStepG m (adRow1 m q v fext) (crbaWCols m)) (adStart m tau d) in                                       (* 420-425 *)
  let d := setGl d (onFcrb (gl d) 0 (fun _ _ => v6zero)) in                                                                   (* 427 *)
  downward m (adBack1 m) d.                                                                                                   (* 430-433 *)
Definition computeABADerivatives (m : Model) (s : DX) (q v tau : vec) (fext : option (nat -> Force)) : AbaDq :=
  let s := onBs s (adPasses12 m q v tau fext) in
  let s := upward m (adFwd2 m fext) s in                                                                                      (* 437-440 *)
  adEnd m (downward m (adBack2 m) s).                                                                                         (* 443-452 *)

(* 641-698 optimized::ComputeABADerivativesForwardStep2::algo: 658 copies oinertias to oYcrb; 659 and 697 then read oinertias *)
Definition adFwd2O (m : Model) (fext : option (nat -> Force)) (s : DX) (i : nat) : DX :=
  adRest m fext (onBs s (fun d => setRow d i (setYi (rows d i) F_oYcrb (yi (rows d i) F_oinertias)))) i.
(* 704-767 and 769-837, after aba with the world convention; 555-611, its first backward pass, is aba.hxx 741-784 *)
Definition computeABADerivativesO (m : Model) (s : DX) (fext : option (nat -> Force)) : AbaDq :=
  let s := onBs s (fun d => setGl d (onMinv (gl d) (zeroUpper m))) in                                                         (* 737 *)
  let s := onBs s (fun d => setGl d (onFcrb (gl d) 0 (fun _ _ => v6zero))) in                                                 (* 739 *)
  let s := onBs s (downward m (minvBackO m)) in                                                                               (* 743-746 *)
  let s := upward m (adFwd2O m fext) s in                                                                                     (* 751-754 *)
  adEnd m (downward m (adBack2 m) s).                                                                                         (* 757-766 *)
End AbaDer.
