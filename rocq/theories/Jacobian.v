(* algorithm/jacobian.hxx, the Jacobian part of algorithm/frames.hxx, and the row tables of data.hxx they read.
   A Jacobian is the function giving its columns.  The size checks at the head of the algorithms are not modelled. *)
Require Import Reals List Arith ZArith Lia Bool.
From Verif Require Import Vec3 Spatial Inertia Joints Model Spec_Model Data Kinematics Crba.
Import ListNotations.
Local Open Scope nat_scope.
Local Open Scope bool_scope.

(* ---- data.hxx 246-313 computeParents_fromRow ---- *)
(* parents_fromRow, non_mimic_parents_fromRow, mimic_parents_fromRow, idx_vExtended_to_idx_v_fromRow, nvSubtree_fromRow.
   start_idx_v_fromRow and end_idx_v_fromRow (297-298, 307-310) are not modelled. *)
Record RowTables := mkRT { t_par : nat -> Z; t_non : nat -> Z; t_mim : nat -> Z; t_red : nat -> nat; t_nvs : nat -> Z }.
(* 266-272, 281-287: while (p > 0 && !stop(p)) p = parents[p]; p decreases, hence p steps are enough *)
Fixpoint ancestorWith (m : Model) (stop : nat -> bool) (fuel p : nat) : nat :=
  match fuel with
  | O => p
  | S f => if (0 <? p) && negb (stop p) then ancestorWith m stop f (parent m p) else p
  end.
(* 260-264, 274-279, 289-294: the last column of joint p, -1 for the universe *)
Definition lastCol (m : Model) (p : nat) : Z :=
  if 0 <? p then (Z.of_nat (jm_idx_vE (joint m p)) + Z.of_nat (jnvE (jm_type (joint m p))) - 1)%Z else (-1)%Z.
(* 261 and 303: the entry of the first row of a joint, then the other rows *)
Definition rowEntry (b n : nat) (x : Z) (t : nat -> Z) : nat -> Z :=
  setCols (b + 1) (n - 1) (fun k => (Z.of_nat b + Z.of_nat k)%Z) (putn t b x).
Definition rowTab (m : Model) (t : RowTables) (i : nat) : RowTables :=
  let p := parent m i in
  let b := jm_idx_vE (joint m i) in let n := jnvE (jm_type (joint m i)) in
  mkRT (rowEntry b n (lastCol m p) (t_par t))
       (rowEntry b n (lastCol m (ancestorWith m (fun k => negb (isMimic (joint m k))) p p)) (t_non t))
       (rowEntry b n (lastCol m (ancestorWith m (fun k => isMimic (joint m k)) p p)) (t_mim t))
       (setCols (b + 1) (n - 1) (fun k => jm_idx_v (joint m i) + S k) (putn (t_red t) b (jm_idx_v (joint m i))))
       (setCols (b + 1) (n - 1) (fun k => (nvSubtree m i - Z.of_nat (S k))%Z) (putn (t_nvs t) b (nvSubtree m i))).
(* the vectors are created with -1 (data.hxx 74-85); every entry of idx_vExtended_to_idx_v_fromRow that is read has been
   written, its initial value is 0 here *)
Definition rowTables (m : Model) : RowTables :=
  upward m (rowTab m) (mkRT (fun _ => (-1)%Z) (fun _ => (-1)%Z) (fun _ => (-1)%Z) (fun _ => 0) (fun _ => (-1)%Z)).
(* for (j = e; j >= 0; j = next[j]): the rows visited.  next[j] < j, hence e + 1 steps are enough *)
Fixpoint walk (next : nat -> Z) (fuel : nat) (e : Z) : list nat :=
  match fuel with
  | O => []
  | S f => if (e <? 0)%Z then [] else Z.to_nat e :: walk next f (next (Z.to_nat e))
  end.

Definition Jac := nat -> V6.

(* ---- jacobian.hxx 37-95 computeJointJacobians(model, data, q) ---- *)
(* jointExtendedModelCols(J) = oMi.act(S) (60): crbaWCols is the same statement *)
Definition computeJointJacobians (m : Model) (d : Data) (q : vec) : Data :=
  upward m (rowStepG m (fk0Row m q) (crbaWCols m)) d.
(* jacobian.hxx 107-137 computeJointJacobians(model, data): from the placements already in data *)
Definition computeJointJacobiansFK (m : Model) (d : Data) : Data :=
  upward m (rowStepG m (fun _ r _ => r) (crbaWCols m)) d.

(* what translateJointJacobian writes for the input column v: 224, 244-245, 266 *)
Definition toFrame (rf : RefFrame) (P : SE3) (v : V6) : V6 :=
  match rf with
  | WORLD => v
  | LOCAL_WORLD_ALIGNED => mkV6 (v3sub (lin v) (v3cross (trans P) (ang v))) (ang v)
  | LOCAL => motion_actInv P v
  end.
(* jacobian.hxx 175-283 translateJointJacobian.  254-255 adds the column, then subtracts the cross product: the difference
   with adding toFrame is the order of two real additions *)
Definition translateJointJacobian (m : Model) (j : nat) (rf : RefFrame) (P : SE3) (Jin Jout : Jac) : Jac :=
  let t := rowTables m in
  let mim := last (nth j (m_mimic_supports m) []) 0 =? j in
  let first := idx_vE m j in
  let last := (Z.of_nat (idx_vE m j) + Z.of_nat (nvEOf m j) - 1)%Z in
  let c1 := if mim then t_non t first else last in
  let c2 := if mim then last else t_mim t first in
  let J1 := fold_left (fun J e => putn J (t_red t e) (toFrame rf P (Jin e))) (walk (t_non t) (S (m_nvE m)) c1) Jout in
  fold_left (fun J e => putn J (t_red t e) (v6add (J (t_red t e)) (toFrame rf P (Jin e)))) (walk (t_mim t) (S (m_nvE m)) c2) J1.
(* jacobian.hxx 315-326 getJointJacobian *)
Definition getJointJacobian (m : Model) (d : Data) (j : nat) (rf : RefFrame) (Jout : Jac) : Jac :=
  translateJointJacobian m j rf (pl (rows d j) F_oMi) (co (gl d) F_J) Jout.
(* frames.hxx 156-175 getFrameJacobian; the overload on a frame index (frames.hpp 348-366) passes the frame's parent and placement *)
Definition getFrameJacobian (m : Model) (d : Data) (j : nat) (P : SE3) (rf : RefFrame) (Jout : Jac) : Jac :=
  translateJointJacobian m j rf (se3_mul (pl (rows d j) F_oMi) P) (co (gl d) F_J) Jout.

(* jmodel.jointCols(J) = f(S) and += f(S): joint-model-base.hpp 430-460, joint-mimic.hpp 826-837 *)
Definition colCount (m : Model) (i : nat) : nat :=
  if isMimic (joint m i) then jnvE (jm_type (joint m i)) else jnv (jm_type (joint m i)).
Definition assignCols (m : Model) (i : nat) (f : V6 -> V6) (S : list V6) (J : Jac) : Jac :=
  setCols (jm_idx_v (joint m i)) (colCount m i) (fun k => f (colOf S k)) J.
Definition addCols (m : Model) (i : nat) (f : V6 -> V6) (S : list V6) (J : Jac) : Jac :=
  fun k => if within (jm_idx_v (joint m i)) (colCount m i) k then v6add (J k) (f (colOf S (k - jm_idx_v (joint m i)))) else J k.

(* jacobian.hxx 549-589 JointJacobianLocalBackwardStep, ordinary and mimic joints *)
Definition jacLocalStep (m : Model) (q : vec) (s : Data * Jac) (i : nat) : Data * Jac :=
  let d := fst s in
  let r := setJd (rows d i) (calcJoint0 m i (jd (rows d i)) q) in
  let r := setPl r F_liMi (se3_mul (placementOf m i) (jM (jd r))) in
  let d := setRow d i r in
  let d := setRow d (parent m i) (setPl (rows d (parent m i)) F_iMf (se3_mul (pl (rows d i) F_liMi) (pl (rows d i) F_iMf))) in
  (d, if isMimic (joint m i) then snd s else assignCols m i (motion_actInv (pl (rows d i) F_iMf)) (jS (jd (rows d i))) (snd s)).
(* for (i = j; i > 0; i = parents[i]) *)
Fixpoint climbList (m : Model) (fuel j : nat) : list nat :=
  match fuel with O => [] | S f => if 0 <? j then j :: climbList m f (parent m j) else [] end.
(* jacobian.hxx 606-619 JointJacobianLocalMimicStep *)
Definition jacLocalMimic (m : Model) (d : Data) (J : Jac) (i : nat) : Jac :=
  addCols m i (motion_actInv (pl (rows d i) F_iMf)) (jS (jd (rows d i))) J.
(* jacobian.hxx 627-665 computeJointJacobian (P the identity), frames.hxx 259-284 computeFrameJacobian, LOCAL (P the placement) *)
Definition jacobianLocal (m : Model) (d : Data) (q : vec) (j : nat) (P : SE3) (Jout : Jac) : Data * Jac :=
  let d := setRow d j (setPl (rows d j) F_iMf P) in
  let s := fold_left (jacLocalStep m q) (climbList m j j) (d, Jout) in
  (fst s, fold_left (jacLocalMimic m (fst s)) (tl (nth j (m_mimic_supports m) [])) (snd s)).
Definition computeJointJacobian (m : Model) (d : Data) (q : vec) (j : nat) (Jout : Jac) : Data * Jac :=
  jacobianLocal m d q j se3_Identity Jout.

(* jacobian.hxx 351-412 JointJacobianWorldForwardStep, ordinary and mimic joints *)
Definition jacWorldStep (m : Model) (q : vec) (s : Data * Jac) (i : nat) : Data * Jac :=
  let d := rowStep m (fk0Row m q) (fst s) i in
  (d, if isMimic (joint m i) then snd s else assignCols m i (motion_act (pl (rows d i) F_oMi)) (jS (jd (rows d i))) (snd s)).
(* frames.hxx 212-233 computeFrameJacobian, WORLD; the step on mimic joints is jacobian.hxx 428-441 *)
Definition jacobianWorld (m : Model) (d : Data) (q : vec) (j : nat) (Jout : Jac) : Data * Jac :=
  let s := fold_left (jacWorldStep m q) (tl (support m j)) (d, Jout) in
  (fst s, fold_left (fun J i => addCols m i (motion_act (pl (rows (fst s) i) F_oMi)) (jS (jd (rows (fst s) i))) J) (tl (nth j (m_mimic_supports m) [])) (snd s)).

(* jacobian.hxx 477-512 JointJacobianLocalWorldAlignedForwardStep, ordinary and mimic joints *)
Definition jacAlignedStep (m : Model) (d : Data) (oMframe : SE3) (J : Jac) (i : nat) : Jac :=
  let P := pl (rows d i) F_oMi in
  let P := mkSE3 (rot P) (v3sub (trans P) (trans oMframe)) in
  (if isMimic (joint m i) then addCols else assignCols) m i (motion_act P) (jS (jd (rows d i))) J.
(* frames.hxx 235-257 computeFrameJacobian, LOCAL_WORLD_ALIGNED; f: the frame index *)
Definition jacobianAligned (m : Model) (d : Data) (q : vec) (f : nat) (Jout : Jac) : Data * Jac :=
  let j := fr_parentJoint (frameAt m f) in
  let d := fold_left (rowStep m (fk0Row m q)) (tl (support m j)) d in
  let d := updateFramePlacement m d f in
  (d, fold_left (jacAlignedStep m d (oMf (gl d) f)) (tl (support m j)) Jout).
(* frames.hxx 183-286 computeFrameJacobian *)
Definition computeFrameJacobian (m : Model) (d : Data) (q : vec) (f : nat) (rf : RefFrame) (Jout : Jac) : Data * Jac :=
  match rf with
  | WORLD => jacobianWorld m d q (fr_parentJoint (frameAt m f)) Jout
  | LOCAL_WORLD_ALIGNED => jacobianAligned m d q f Jout
  | LOCAL => jacobianLocal m d q (fr_parentJoint (frameAt m f)) (fr_placement (frameAt m f)) Jout
  end.

(* ---- jacobian.hxx 688-769 computeJointJacobiansTimeVariation ---- *)
Definition dJRow (m : Model) (q v : vec) (i : nat) (r rp : Row) : Row :=
  let r := fk1Row m q v i r rp in                                 (* 707-720 *)
  setMo r F_ov (motion_act (pl r F_oMi) (mo r F_v)).
Definition dJCols (m : Model) (i : nat) (r : Row) (g : Glob) : Glob :=
  let g := crbaWCols m i r g in                                   (* 722 *)
  setCo g F_dJ (setCols (jm_idx_vE (joint m i)) (jnvE (jm_type (joint m i)))
    (fun k => motion_cross (mo r F_ov) (co g F_J (jm_idx_vE (joint m i) + k))) (co g F_dJ)).
Definition computeJointJacobiansTimeVariation (m : Model) (d : Data) (q v : vec) : Data :=
  upward m (rowStepG m (dJRow m q v) (dJCols m)) d.
(* the correction subtracted from column e: jacobian.hxx 813 and 832-834, frames.hxx 342 and 359-361.
   P: placement of the frame in the world; vl: its velocity in its own frame; vo: velocity of the joint in the world *)
Definition dFrame_corr (rf : RefFrame) (P : SE3) (vl vo : V6) (v : V6) : V6 :=
  match rf with
  | WORLD => v6zero
  | LOCAL => motion_cross vl (motion_actInv P v)
  | LOCAL_WORLD_ALIGNED => mkV6 (v3cross (v3add (lin vo) (v3cross (ang vo) (trans P))) (ang v)) v3zero
  end.
(* jacobian.hxx 776-842 getJointJacobianTimeVariation.  The WORLD case has no loop; subtracting zero stands for it *)
Definition getJointJacobianTimeVariation (m : Model) (d : Data) (j : nat) (rf : RefFrame) (Jout : Jac) : Jac :=
  let t := rowTables m in
  let P := pl (rows d j) F_oMi in
  let J := translateJointJacobian m j rf P (co (gl d) F_dJ) Jout in
  fold_left (fun J e => putn J (t_red t e) (v6sub (J (t_red t e)) (dFrame_corr rf P (mo (rows d j) F_v) (mo (rows d j) F_ov) (co (gl d) F_J e))))
    (walk (t_par t) (S (m_nvE m)) (Z.of_nat (nvEOf m j) + Z.of_nat (idx_vE m j) - 1)%Z) J.
(* frames.hxx 293-370 getFrameJacobianTimeVariation: starts at column nv + idx_v - 1 (331, 348) and reads column j of the
   extended Jacobian while writing column j of the result (339-340, 356-357) *)
Definition getFrameJacobianTimeVariation (m : Model) (d : Data) (f : nat) (rf : RefFrame) (Jout : Jac) : Data * Jac :=
  let t := rowTables m in
  let d := updateFramePlacement m d f in
  let j := fr_parentJoint (frameAt m f) in
  let P := oMf (gl d) f in
  let J := translateJointJacobian m j rf P (co (gl d) F_dJ) Jout in
  let vl := motion_actInv (fr_placement (frameAt m f)) (mo (rows d j) F_v) in
  (d, fold_left (fun J e => putn J e (v6sub (J e) (dFrame_corr rf P vl (mo (rows d j) F_ov) (co (gl d) F_J e))))
    (walk (t_par t) (S (m_nvE m)) (Z.of_nat (jnv (jm_type (joint m j))) + Z.of_nat (jm_idx_v (joint m j)) - 1)%Z) J).
