(* algorithm/center-of-mass.hxx 336-539: the Jacobian of the centre of mass of a subtree.
   The checks of the sizes of the argument (417-420, 509-512) are not modelled; the assertions 414-415 and 506-507 exclude mimic joints. *)
Require Import Reals List Arith ZArith Lia.
From Verif Require Import Vec3 Spatial Inertia Joints Model Spec_Model Data Kinematics Crba Jacobian Com.
Import ListNotations.
Local Open Scope nat_scope.

Definition Mat3 := nat -> V3.
(* 441-445 *)
Definition subFirst (m : Model) (d : Data) (i : nat) : Data :=
  onRow d i (fun r => setP3 (setSc r F_mass (mass (inertiaOf m i))) F_com
                        (v3scale (mass (inertiaOf m i)) (se3_actPoint (pl r F_oMi) (lever (inertiaOf m i))))).
(* 221-275 JacobianCenterOfMassBackwardStep run on the matrix of the caller (455-457), with computeSubtreeComs = true (430) *)
Definition subBack (m : Model) (s : Data * Mat3) (i : nat) : Data * Mat3 :=
  let d := fst s in
  let d := onRow d (parent m i) (fun r => jcomAdd r (rows d i)) in
  let n := jnvE (jm_type (joint m i)) in
  let d := onCo d F_J (setCols (jm_idx_vE (joint m i)) n (fun k => motion_act (pl (rows d i) F_oMi) (colOf (jS (jd (rows d i))) k))) in
  let J := addCols3 (jm_idx_v (joint m i)) n
             (fun k => jcomCol (sc (rows d i) F_mass) (p3 (rows d i) F_com) (co (gl d) F_J (jm_idx_vE (joint m i) + k))) (snd s) in
  (onRow d i (comDiv 0), J).
(* 336-380 JacobianSubtreeCenterOfMassBackwardStep *)
Definition subUp (m : Model) (r : nat) (s : Data * Mat3) (i : nat) : Data * Mat3 :=
  let d := fst s in
  let n := jnvE (jm_type (joint m i)) in
  let d := onCo d F_J (setCols (jm_idx_vE (joint m i)) n (fun k => motion_act (pl (rows d i) F_oMi) (colOf (jS (jd (rows d i))) k))) in
  let J := addCols3 (jm_idx_v (joint m i)) n
             (fun k => let x := co (gl d) F_J (jm_idx_vE (joint m i) + k) in v3sub (lin x) (v3cross (p3 (rows d r) F_com) (ang x))) (snd s) in
  (d, J).
(* 484-490: for (parent = parents[r]; parent > 0; parent = parents[parent]); parents decrease, hence the fuel *)
Fixpoint subUps (m : Model) (r fuel p : nat) (s : Data * Mat3) : Data * Mat3 :=
  match fuel with
  | O => s
  | S f => if 0 <? p then subUps m r f (parent m p) (subUp m r s p) else s
  end.
(* 400-491; a matrix is the function that gives its columns.  460: the exception leaves what has been written *)
Definition jacobianSubtreeCenterOfMassFK (m : Model) (d : Data) (r : nat) (res : Mat3) : Res (Data * Mat3) unit :=
  if negb (r <? m_njoints m) then Throw (d, res) else                                                 (* 416 *)
  let d := if r =? 0 then onRow d 0 (comZero 0) else d in                                             (* 432-436 *)
  let d := fold_left (subFirst m) (subtree m r) d in                                                  (* 438-446 *)
  let d := setGl d (setJcom (gl d) (fun _ => v3zero)) in                                              (* 449 *)
  let s := fold_left (subBack m) (rev (subtree m r)) (d, res) in                                      (* 452-458 *)
  let M := sc (rows (fst s) r) F_mass in
  if Rlt_dec 0 M then
    if r =? 0 then Ok (fst s, fun k => v3scale (/ M) (snd s k)) tt                                    (* 468-472 *)
    else
      let b := jm_idx_v (joint m r) in let n := Z.to_nat (nvSubtree m r) in                           (* 474-475 *)
      let J := fun k => if within b n k then v3scale (/ M) (snd s k) else snd s k in                  (* 477 *)
      Ok (subUps m r (m_njoints m) (parent m r) (fst s, J)) tt
  else Throw s.                                                                                       (* 460-462 *)
(* 383-398 *)
Definition jacobianSubtreeCenterOfMass (m : Model) (d : Data) (q : vec) (r : nat) (res : Mat3) : Res (Data * Mat3) unit :=
  jacobianSubtreeCenterOfMassFK m (forwardKinematics0 m d q) r res.
(* 493-539 getJacobianSubtreeCenterOfMass; 531: the rows parents_fromRow[idx_v], ... *)
Definition getJacobianSubtreeCenterOfMass (m : Model) (d : Data) (r : nat) (res : Mat3) : Res unit Mat3 :=
  if negb (r <? m_njoints m) then Throw tt else                                                       (* 508 *)
  if r =? 0 then Ok tt (jcom (gl d)) else                                                             (* 516-520 *)
  let b := jm_idx_v (joint m r) in let n := Z.to_nat (nvSubtree m r) in                               (* 522-523 *)
  let ratio := (sc (rows d 0) F_mass / sc (rows d r) F_mass)%R in                                     (* 525 *)
  let J := fun k => if within b n k then v3scale ratio (jcom (gl d) k) else res k in                  (* 526-527 *)
  let com := p3 (rows d r) F_com in
  Ok tt (fold_left (fun J e => let x := co (gl d) F_J e in putn J e (v3sub (lin x) (v3cross com (ang x))))
           (walk (t_par (rowTables m)) (S (m_nvE m)) (t_par (rowTables m) b)) J).                     (* 529-538 *)
