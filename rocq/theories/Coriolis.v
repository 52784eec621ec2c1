(* algorithm/rnea.hxx 499-756: the Coriolis matrix *)
Require Import Reals List Arith ZArith Lia.
From Verif Require Import Vec3 Spatial Inertia Joints Model Spec_Model Data Kinematics Rnea Crba Jacobian Com Dccrba DataX.
Import ListNotations.
Local Open Scope nat_scope.
Local Open Scope bool_scope.

Section Coriolis.
Variable eps : R.
(* 534-544 and the velocities: joint quantities, placement in the world *)
Definition corRow (m : Model) (q v : vec) (i : nat) (r rp : Row) : Row :=
  let r := setJd r (calcJoint m i q v) in                                                                    (* 528 *)
  let r := setPl r F_liMi (se3_mul (placementOf m i) (jM (jd r))) in                                         (* 530 *)
  let r := setPl r F_oMi (if 0 <? parent m i then se3_mul (pl rp F_oMi) (pl r F_liMi) else pl r F_liMi) in   (* 531-534 *)
  let r := setYi r F_oYcrb (inertia_act (pl r F_oMi) (inertiaOf m i)) in                                     (* 537 *)
  let r := setMo r F_v (jv (jd r)) in                                                                        (* 539 *)
  let r := if 0 <? parent m i then setMo r F_v (v6add (mo r F_v) (motion_actInv (pl r F_liMi) (mo rp F_v))) else r in
  let r := setMo r F_ov (motion_act (pl r F_oMi) (mo r F_v)) in                                              (* 542 *)
  let r := setMo r F_oh (inertia_mul (yi r F_oYcrb) (mo r F_ov)) in                                          (* 543 *)
  setM6 r F_oB (addForceCross (v6scale (/ 2) (mo r F_oh)) (inertia_variation (yi r F_oYcrb) (v6scale (/ 2) (mo r F_ov)))). (* 556-557 *)
(* 545-554: J and dJ *)
Definition corCols (m : Model) (i : nat) (r : Row) (g : Glob) : Glob :=
  let b := jm_idx_vE (joint m i) in let n := jnvE (jm_type (joint m i)) in
  let g := setCo g F_J (setCols b n (fun k => motion_act (pl r F_oMi) (colOf (jS (jd r)) k)) (co g F_J)) in
  setCo g F_dJ (setCols b n (fun k => motion_cross (mo r F_ov) (co g F_J (b + k))) (co g F_dJ)).
Definition corFwd (m : Model) (q v : vec) (s : DX) (i : nat) : DX := onBs s (fun d => rowStepG m (corRow m q v) (corCols m) d i).

(* C.middleRows(b, n).col(j) = f, and += f *)
Definition setRowsCol (b n j : nat) (f : nat -> R) (x : nat -> nat -> R) : nat -> nat -> R := fun k l => if within b n k && (j =? l) then f (k - b) else x k l.
Definition addRowsCol (b n j : nat) (f : nat -> R) (x : nat -> nat -> R) : nat -> nat -> R := fun k l => if within b n k && (j =? l) then Rplus (x k l) (f (k - b)) else x k l.
Definition onC (d : Data) (f : (nat -> nat -> R) -> nat -> nat -> R) : Data := setGl d (setMa (gl d) F_C (f (ma (gl d) F_C))).
(* the rows j = parents_fromRow[idx_v], parents_fromRow[j], ... *)
Definition aboveRows (m : Model) (i : nat) : list nat := walk (t_par (rowTables m)) (S (m_nvE m)) (t_par (rowTables m) (jm_idx_v (joint m i))).

(* 602-621: what both backward steps do with the block C, the columns of Ag and the matrix dFdv.  The result of 621,
   Mat_tmp * J.col(j), is J_cols^T (B J.col(j)): the two products of matrices are taken in the other order. *)
Definition corBlocks (m : Model) (i : nat) (dFdv : nat -> V6) (d : Data) : Data :=
  let bv := jm_idx_v (joint m i) in let nv := jnv (jm_type (joint m i)) in let bE := jm_idx_vE (joint m i) in
  let Jc := fun k => co (gl d) F_J (bE + k) in
  let d := onC d (setBlock bv bv nv (Z.to_nat (nvSubtree m i)) (fun k l => v6dot (Jc k) (dFdv (bv + l)))) in              (* 605-606 *)
  let d := onCo d F_Ag (setCols bv nv (fun k => inertia_mul (yi (rows d i) F_oYcrb) (Jc k))) in                          (* 608 *)
  let d := fold_left (fun d j => onC d (setRowsCol bv nv j (fun k => v6dot (co (gl d) F_Ag (bv + k)) (co (gl d) F_dJ j)))) (aboveRows m i) d in   (* 609-612 *)
  fold_left (fun d j => onC d (addRowsCol bv nv j (fun k => v6dot (Jc k) (m6vec (m6 (rows d i) F_oB) (co (gl d) F_J j))))) (aboveRows m i) d.      (* 614-618 *)
(* 574-629 CoriolisMatrixBackwardStep *)
Definition corBack (m : Model) (s : DX) (i : nat) : DX :=
  let bv := jm_idx_v (joint m i) in let nv := jnv (jm_type (joint m i)) in let bE := jm_idx_vE (joint m i) in
  let s := onXc s X_dFdv (setCols bv nv (fun k => inertia_mul (yi (rows (bs s) i) F_oYcrb) (co (gl (bs s)) F_dJ (bE + k)))) in        (* 602 *)
  let s := onXc s X_dFdv (plusCols bv nv (fun k => m6vec (m6 (rows (bs s) i) F_oB) (co (gl (bs s)) F_J (bE + k)))) in                (* 603 *)
  let s := onBs s (corBlocks m i (xco s X_dFdv)) in
  if 0 <? parent m i then
    let Y := yi (rows (bs s) i) F_oYcrb in let B := m6 (rows (bs s) i) F_oB in
    onBs (onBs s (fun d => onYi d (parent m i) F_oYcrb (fun Yp => inertia_pequ eps Yp Y))) (fun d => onM6 d (parent m i) F_oB (fun Bp => m6add Bp B))
  else s.
(* 631-667; the result is data.C *)
Definition computeCoriolisMatrix (m : Model) (s : DX) (q v : vec) : DX := downward m (corBack m) (upward m (corFwd m q v) s).

(* 671-727 GetCoriolisMatrixBackwardStep: dFdv is kept in Fcrb[0], and oYcrb is not accumulated *)
Definition getCorBack (m : Model) (d : Data) (i : nat) : Data :=
  let bv := jm_idx_v (joint m i) in let nv := jnv (jm_type (joint m i)) in
  let on0 := fun d f => setGl d (setFcrb (gl d) (putn (fcrb (gl d)) 0 (f (fcrb (gl d) 0)))) in
  let d := on0 d (setCols bv nv (fun k => inertia_mul (yi (rows d i) F_oYcrb) (co (gl d) F_dJ (bv + k)))) in
  let d := on0 d (plusCols bv nv (fun k => m6vec (m6 (rows d i) F_oB) (co (gl d) F_J (bv + k)))) in
  let d := corBlocks m i (fcrb (gl d) 0) d in
  if 0 <? parent m i then let B := m6 (rows d i) F_oB in onM6 d (parent m i) F_oB (fun Bp => m6add Bp B) else d.
(* 730-756 *)
Definition getCorRow (m : Model) (i : nat) (r : Row) : Row :=
  setM6 r F_oB (addForceCross (v6scale (/ 2) (mo r F_oh)) (inertia_variation (inertia_act (pl r F_oMi) (inertiaOf m i)) (v6scale (/ 2) (mo r F_ov)))).
Definition getCoriolisMatrix (m : Model) (d : Data) : Data := downward m (getCorBack m) (upward m (fun d i => onRow d i (getCorRow m i)) d).
End Coriolis.
