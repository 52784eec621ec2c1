(* algorithm/rnea-derivatives.hxx: the derivatives of inverse dynamics, of the generalized gravity and of static torques *)
Require Import Reals List Arith ZArith Lia.
From Verif Require Import Vec3 Spatial Inertia Joints Model Spec_Model Data Kinematics Rnea Crba Jacobian Com Dccrba DataX Coriolis.
Import ListNotations.
Local Open Scope nat_scope.
Local Open Scope bool_scope.

(* X.jointVelocitySelector() = y *)
Definition setSeg (b n : nat) (y x : vec) : vec := fun k => if within b n k then y (k - b) else x k.
(* of[i] -= oMi[i].act(fext[i]), when external forces are given *)
Definition minusExt (fext : option (nat -> Force)) (i : nat) (r : Row) : Row :=
  match fext with None => r | Some f => setMo r F_of (v6sub (mo r F_of) (force_act (pl r F_oMi) (f i))) end.

Section Der.
Variable eps : R.
(* 281-319 and 335-337 ComputeRNEADerivativesForwardStep, the row of the joint, in three parts: placement and velocity, *)
Definition rdRow1 (m : Model) (q v : vec) (i : nat) (r rp : Row) : Row :=
  let r := setJd r (calcJoint m i q v) in                                                                    (* 281 *)
  let r := setPl r F_liMi (se3_mul (placementOf m i) (jM (jd r))) in                                         (* 283 *)
  let r := setMo r F_v (jv (jd r)) in                                                                        (* 285 *)
  if 0 <? parent m i                                                                                         (* 287-293 *)
  then setMo (setPl r F_oMi (se3_mul (pl rp F_oMi) (pl r F_liMi))) F_v (v6add (mo r F_v) (motion_actInv (pl r F_liMi) (mo rp F_v)))
  else setPl r F_oMi (pl r F_liMi).
(* acceleration, *)
Definition rdRow2 (m : Model) (a : vec) (i : nat) (r rp : Row) : Row :=
  let r := setMo r F_a (v6add (v6add (Smul (jS (jd r)) (velSel m i a)) (jc (jd r))) (motion_cross (mo r F_v) (jv (jd r)))) in  (* 295-296 *)
  if 0 <? parent m i then setMo r F_a (v6add (mo r F_a) (motion_actInv (pl r F_liMi) (mo rp F_a))) else r.                     (* 297-300 *)
(* and the same in the world *)
Definition rdRow3 (m : Model) (i : nat) (r : Row) : Row :=
  let r := setYi r F_oinertias (inertia_act (pl r F_oMi) (inertiaOf m i)) in
  let r := setYi r F_oYcrb (yi r F_oinertias) in                                                             (* 302 *)
  let r := setMo r F_ov (motion_act (pl r F_oMi) (mo r F_v)) in                                              (* 303 *)
  let r := setMo r F_oa (motion_act (pl r F_oMi) (mo r F_a)) in                                              (* 304 *)
  setMo r F_oa_gf (v6sub (mo r F_oa) (m_gravity m)).                                                         (* 305 *)
Definition rdRow4 (r : Row) : Row :=
  let r := setMo r F_oh (inertia_mul (yi r F_oYcrb) (mo r F_ov)) in                                          (* 307 *)
  let r := setMo r F_of (v6add (inertia_mul (yi r F_oYcrb) (mo r F_oa_gf)) (force_cross (mo r F_ov) (mo r F_oh))) in  (* 308 *)
  setM6 r F_doYcrb (addForceCross (mo r F_oh) (inertia_variation (yi r F_oYcrb) (mo r F_ov))).               (* 335-337 *)
Definition rdRow (m : Model) (q v a : vec) (i : nat) (r rp : Row) : Row := rdRow4 (rdRow3 m i (rdRow2 m a i (rdRow1 m q v i r rp) rp)).
(* 310-333: the columns of the joint; rp is the row of its parent *)
Definition rdCols (m : Model) (i : nat) (r rp : Row) (s : DX) : DX :=
  let b := jm_idx_v (joint m i) in let n := jnv (jm_type (joint m i)) in
  let s := onBs s (fun d => onCo d F_J (setCols b n (fun k => motion_act (pl r F_oMi) (colOf (jS (jd r)) k)))) in             (* 319 *)
  let Jc := fun k => co (gl (bs s)) F_J (b + k) in
  let s := onBs s (fun d => onCo d F_dJ (setCols b n (fun k => motion_cross (mo r F_ov) (Jc k)))) in                          (* 320 *)
  let s := onXc s X_dAdq (setCols b n (fun k => motion_cross (mo rp F_oa_gf) (Jc k))) in                                      (* 321 *)
  let s := onXc s X_dAdv (setCols b n (fun k => co (gl (bs s)) F_dJ (b + k))) in                                              (* 322 *)
  if 0 <? parent m i then
    let s := onBs s (fun d => onCo d F_dVdq (setCols b n (fun k => motion_cross (mo rp F_ov) (Jc k)))) in                     (* 325 *)
    let s := onXc s X_dAdq (plusCols b n (fun k => motion_cross (mo rp F_ov) (co (gl (bs s)) F_dVdq (b + k)))) in             (* 326 *)
    onXc s X_dAdv (plusCols b n (fun k => co (gl (bs s)) F_dVdq (b + k)))                                                     (* 327 *)
  else onBs s (fun d => onCo d F_dVdq (setCols b n (fun _ => v6zero))).                                                       (* 331 *)
Definition rdFwd (m : Model) (q v a : vec) (fext : option (nat -> Force)) (s : DX) (i : nat) : DX :=
  let rp := rows (bs s) (parent m i) in
  let r := rdRow m q v a i (rows (bs s) i) rp in
  let s := rdCols m i r rp (onBs s (fun d => setRow d i r)) in
  onBs s (fun d => setRow d i (minusExt fext i (rows d i))).                                                                  (* 596 *)

(* 354-461 ComputeRNEADerivativesBackwardStep, in four parts: the torques, the derivatives in a and the columns dF/dq, *)
Definition rdBackA (m : Model) (i : nat) (s : DX) : DX :=
  let b := jm_idx_v (joint m i) in let n := jnv (jm_type (joint m i)) in let nt := Z.to_nat (nvSubtree m i) in
  let r := rows (bs s) i in let Y := yi r F_oYcrb in let dY := m6 r F_doYcrb in
  let Jc := fun k => co (gl (bs s)) F_J (b + k) in
  let Vc := fun k => co (gl (bs s)) F_dVdq (b + k) in
  let Aq := fun k => xco s X_dAdq (b + k) in
  let s := onBs s (fun d => setGl d (setVe (gl d) F_tau (setSeg b n (fun k => v6dot (Jc k) (mo r F_of)) (ve (gl d) F_tau)))) in   (* 409-410 *)
  let s := onXc s X_dFda (setCols b n (fun k => inertia_mul Y (Jc k))) in                                                       (* 419 *)
  let s := onXm s P_da (setBlock b b n nt (fun k l => v6dot (Jc k) (xco s X_dFda (b + l)))) in                                  (* 420-421 *)
  let s := onXc s X_dFdq (setCols b n (fun k => if 0 <? parent m i then v6add (m6vec dY (Vc k)) (inertia_mul Y (Aq k)) else inertia_mul Y (Aq k))) in (* 424-430 *)
  onBs s (fun d => setGl d (setFcrb (gl d) (putn (fcrb (gl d)) 0 (setCols b n (fun k => m6vec (m6tr dY) (Jc k)) (fcrb (gl d) 0))))).              (* 432 *)
(* the derivatives in q, *)
Definition rdBackQ (m : Model) (i : nat) (s : DX) : DX :=
  let b := jm_idx_v (joint m i) in let n := jnv (jm_type (joint m i)) in
  let nt := Z.to_nat (nvSubtree m i) in let bp := b + n in let np := nt - n in
  let r := rows (bs s) i in
  let Jc := fun k => co (gl (bs s)) F_J (b + k) in
  let Vc := fun k => co (gl (bs s)) F_dVdq (b + k) in
  let Aq := fun k => xco s X_dAdq (b + k) in
  let dYtJ := fcrb (gl (bs s)) 0 in
  let s := onXm s P_dq (setBlock bp b np n (fun k l => v6dot (xco s X_dFda (bp + k)%nat) (Aq l) + v6dot (dYtJ (bp + k)%nat) (Vc l))%R) in      (* 433-435 *)
  let s := onXm s P_dq (setBlock b b n nt (fun k l => v6dot (Jc k) (xco s X_dFdq (b + l)))) in                                  (* 437-438 *)
  onXc s X_dFdq (plusCols b n (fun k => force_cross (Jc k) (mo r F_of))).                                                       (* 440 *)
(* in v, *)
Definition rdBackV (m : Model) (i : nat) (s : DX) : DX :=
  let b := jm_idx_v (joint m i) in let n := jnv (jm_type (joint m i)) in
  let nt := Z.to_nat (nvSubtree m i) in let bp := b + n in let np := nt - n in
  let r := rows (bs s) i in let Y := yi r F_oYcrb in let dY := m6 r F_doYcrb in
  let Jc := fun k => co (gl (bs s)) F_J (b + k) in
  let Av := fun k => xco s X_dAdv (b + k) in
  let dYtJ := fcrb (gl (bs s)) 0 in
  let s := onXc s X_dFdv (setCols b n (fun k => v6add (m6vec dY (Jc k)) (inertia_mul Y (Av k)))) in                             (* 443-444 *)
  let s := onXm s P_dv (setBlock bp b np n (fun k l => v6dot (xco s X_dFda (bp + k)%nat) (Av l) + v6dot (dYtJ (bp + k)%nat) (Jc l))%R) in      (* 446-448 *)
  onXm s P_dv (setBlock b b n nt (fun k l => v6dot (Jc k) (xco s X_dFdv (b + l)))).                                             (* 450-451 *)
(* and what the parent receives *)
Definition rdBackP (m : Model) (i : nat) (s : DX) : DX :=
  if 0 <? parent m i then                                                                                                     (* 453-458 *)
    onBs s (fun d => let r := rows d i in let rp := rows d (parent m i) in
      setRow d (parent m i) (setMo (setM6 (setYi rp F_oYcrb (inertia_pequ eps (yi rp F_oYcrb) (yi r F_oYcrb))) F_doYcrb (m6add (m6 rp F_doYcrb) (m6 r F_doYcrb))) F_of (v6add (mo rp F_of) (mo r F_of))))
  else s.
Definition rdBack (m : Model) (s : DX) (i : nat) : DX := rdBackP m i (rdBackV m i (rdBackQ m i (rdBackA m i s))).

(* 528-535, 610-617: dAdq without gravity *)
Definition rdRestore (m : Model) (s : DX) : DX :=
  onXc s X_dAdq (fun x k => if k <? m_nv m then mkV6 (v3add (lin (x k)) (v3cross (lin (m_gravity m)) (ang (co (gl (bs s)) F_J k)))) (ang (x k)) else x k).
Definition addDiag (m : Model) (x : nat -> nat -> R) : nat -> nat -> R := fun k l => if (k =? l) && (k <? m_nv m) then (x k l + armatureOf m k)%R else x k l.
Definition rdStart (m : Model) (s : DX) : DX := onBs s (fun d => setRow d 0 (setMo (rows d 0) F_oa_gf (v6opp (m_gravity m)))).   (* 504, 585 *)
Definition rdPasses (m : Model) (q v a : vec) (fext : option (nat -> Force)) (s : DX) : DX :=
  onBs (rdRestore m (downward m (rdBack m) (upward m (rdFwd m q v a fext) (rdStart m s)))) (addArmature m a).                  (* 504-539 *)
(* 472-540; the size checks and the check that gravity has no angular part (499-501, a throw) are not modelled *)
Definition computeRNEADerivatives (m : Model) (s : DX) (q v a : vec) : DX := onXm (rdPasses m q v a None s) P_da (addDiag m).
(* 553-622: the caller gives its own matrices; the rotor inertias go to data.M (622), not to rnea_partial_da *)
Definition computeRNEADerivativesExt (m : Model) (s : DX) (q v a : vec) (fext : nat -> Force) : DX :=
  onBs (rdPasses m q v a (Some fext) s) (fun d => setGl d (setMa (gl d) F_M (addDiag m (ma (gl d) F_M)))).
(* 649-669: the overload without output arguments passes data.dtau_dq, data.dtau_dv and data.M; then rnea_partial_da and data.M are
   the same matrix, and 622 adds to it *)
Definition computeRNEADerivativesExtData (m : Model) (s : DX) (q v a : vec) (fext : nat -> Force) : DX :=
  onXm (rdPasses m q v a (Some fext) s) P_da (addDiag m).

(* 43-66 ComputeGeneralizedGravityDerivativeForwardStep *)
Definition gdRow (m : Model) (q : vec) (g : V6) (i : nat) (r rp : Row) : Row :=
  let r := setJd r (calcJoint0 m i (jd r) q) in
  let r := setPl r F_liMi (se3_mul (placementOf m i) (jM (jd r))) in
  let r := setPl r F_oMi (if 0 <? parent m i then se3_mul (pl rp F_oMi) (pl r F_liMi) else pl r F_liMi) in
  let r := setYi r F_oinertias (inertia_act (pl r F_oMi) (inertiaOf m i)) in
  let r := setYi r F_oYcrb (yi r F_oinertias) in
  setMo r F_of (inertia_mul (yi r F_oYcrb) g).
Definition gdFwd (m : Model) (q : vec) (fext : option (nat -> Force)) (s : DX) (i : nat) : DX :=
  let b := jm_idx_v (joint m i) in let n := jnv (jm_type (joint m i)) in
  let g := mo (rows (bs s) 0) F_oa_gf in
  let r := gdRow m q g i (rows (bs s) i) (rows (bs s) (parent m i)) in
  let s := onBs s (fun d => onCo (setRow d i r) F_J (setCols b n (fun k => motion_act (pl r F_oMi) (colOf (jS (jd r)) k)))) in
  let s := onXc s X_dAdq (setCols b n (fun k => motion_cross g (co (gl (bs s)) F_J (b + k)))) in
  onBs s (fun d => setRow d i (minusExt fext i (rows d i))).                                                                  (* 219 *)
(* 68-139 ComputeGeneralizedGravityDerivativeBackwardStep, in three parts; T: data.g or data.tau *)
Definition gdBackA (m : Model) (i : nat) (s : DX) : DX :=
  let b := jm_idx_v (joint m i) in let n := jnv (jm_type (joint m i)) in let nt := Z.to_nat (nvSubtree m i) in
  let r := rows (bs s) i in let Y := yi r F_oYcrb in
  let Jc := fun k => co (gl (bs s)) F_J (b + k) in
  let s := onXc s X_dFdq (setCols b n (fun k => inertia_mul Y (xco s X_dAdq (b + k)))) in                                       (* 116 *)
  let s := onXm s P_dq (setBlock b b n nt (fun k l => v6dot (Jc k) (xco s X_dFdq (b + l)))) in                                  (* 120-121 *)
  let s := onXc s X_dFdq (plusCols b n (fun k => force_cross (Jc k) (mo r F_of))) in                                            (* 123 *)
  onBs s (fun d => onCo d F_Ag (setCols b n (fun k => inertia_mul Y (Jc k)))).                                                  (* 125 *)
Definition gdBackL (m : Model) (i : nat) (s : DX) : DX :=
  let b := jm_idx_v (joint m i) in let n := jnv (jm_type (joint m i)) in
  fold_left (fun s j => onXm s P_dq (setRowsCol b n j (fun k => v6dot (co (gl (bs s)) F_Ag (b + k)) (xco s X_dAdq j)))) (aboveRows m i) s.   (* 126-129 *)
Definition gdBackT (m : Model) (T : VeT) (i : nat) (s : DX) : DX :=
  let b := jm_idx_v (joint m i) in let n := jnv (jm_type (joint m i)) in
  let r := rows (bs s) i in let Y := yi r F_oYcrb in
  let Jc := fun k => co (gl (bs s)) F_J (b + k) in
  let s := onBs s (fun d => setGl d (setVe (gl d) T (setSeg b n (fun k => v6dot (Jc k) (mo r F_of)) (ve (gl d) T)))) in           (* 131 *)
  if 0 <? parent m i then                                                                                                     (* 132-136 *)
    onBs s (fun d => let rp := rows d (parent m i) in
      setRow d (parent m i) (setMo (setYi rp F_oYcrb (inertia_pequ eps (yi rp F_oYcrb) Y)) F_of (v6add (mo rp F_of) (mo r F_of))))
  else s.
Definition gdBack (m : Model) (T : VeT) (s : DX) (i : nat) : DX := gdBackT m T i (gdBackL m i (gdBackA m i s)).
(* 141-182 and 184-236 *)
Definition computeGeneralizedGravityDerivatives (m : Model) (s : DX) (q : vec) : DX :=
  downward m (gdBack m F_g) (upward m (gdFwd m q None) (rdStart m s)).
Definition computeStaticTorqueDerivatives (m : Model) (s : DX) (q : vec) (fext : nat -> Force) : DX :=
  downward m (gdBack m F_tau) (upward m (gdFwd m q (Some fext)) (rdStart m s)).
End Der.
