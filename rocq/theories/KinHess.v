(* algorithm/kinematics-derivatives.hxx: the kinematic Hessians; data.hxx: the row tables they read *)
Require Import Reals List Arith ZArith Lia.
From Verif Require Import Vec3 Spatial Inertia Joints Model Spec_Model Data Kinematics Crba Jacobian.
Import ListNotations.
Local Open Scope nat_scope.

(* data.hxx 297, 307-308 start_idx_v_fromRow; entries that are never written are 0 here *)
Definition startIdx (m : Model) : nat -> nat :=
  upward m (fun t i => let b := jm_idx_vE (joint m i) in
    let t := putn t (jm_idx_v (joint m i)) (jm_idx_v (joint m i)) in
    setCols (b + 1) (jnvE (jm_type (joint m i)) - 1) (fun _ => t b) t) (fun _ => 0).
(* data.hxx 298, 309-310 end_idx_v_fromRow *)
Definition endIdx (m : Model) : nat -> nat :=
  upward m (fun t i => let b := jm_idx_vE (joint m i) in
    let t := putn t (jm_idx_v (joint m i)) (jm_idx_v (joint m i) + jnvE (jm_type (joint m i)) - 1) in
    setCols (b + 1) (jnvE (jm_type (joint m i)) - 1) (fun _ => t b) t) (fun _ => 0).
(* data.hxx 317-343 computeSupports_fromRow, from the empty vectors of the constructor *)
Definition supportsRow (m : Model) : nat -> list nat :=
  upward m (fun t i => let b := jm_idx_v (joint m i) in
    let p := t_par (rowTables m) b in                                                  (* 330 *)
    let t := if (0 <=? p)%Z then putn t b (t (Z.to_nat p)) else t in                   (* 332-333 *)
    let t := putn t b (t b ++ [b]) in                                                  (* 335 *)
    fold_left (fun t row => putn t (b + row) (t (b + row - 1) ++ [b + row])) (seq 1 (jnv (jm_type (joint m i)) - 1)) t)   (* 337-341 *)
  (fun _ => []).

(* a tensor 6 x nv x nv: H o k is column k of the slice o, that is the six entries at data() + o * slice_matrix_size + k * 6 *)
Definition Hess := nat -> nat -> V6.
Definition zeroH : Hess := fun _ _ => v6zero.
Definition putH (H : Hess) (o k : nat) (x : V6) : Hess := putn H o (putn (H o) k x).

(* the columns of joint s: 1005-1009 *)
Definition colsAsc (m : Model) (s : nat) : list nat := seq (idx_v m s) (nvOf m s).
(* 1012-1017, 1027-1032: column k of slice o becomes minus column o of slice k *)
Definition hNeg (o : nat) (K : Hess) (k : nat) : Hess := putH K o k (v6opp (K k o)).
(* 1038-1044, 1057-1063 *)
Definition hCross (J : Jac) (o : nat) (K : Hess) (k : nat) : Hess := putH K o k (motion_cross (J o) (J k)).
(* 997-1066: slice of row r of joint i *)
Definition hessSlice (m : Model) (J : Jac) (i : nat) (K : Hess) (r : nat) : Hess :=
  let b := idx_v m i in let o := b + r in
  let K := fold_left (hNeg o) (concat (map (colsAsc m) (removelast (support m i)))) K in              (* 1001-1019 *)
  let K := fold_left (hNeg o) (seq b r) K in                                                          (* 1024-1033 *)
  let K := fold_left (hCross J o) (seq (b + r + 1) (nvOf m i - r - 1)) K in                           (* 1035-1045 *)
  fold_left (hCross J o) (concat (map (colsAsc m) (tl (subtree m i)))) K.                             (* 1047-1065 *)
(* 969-1068; J is data.J, K the previous content of data.kinematic_hessians *)
Definition computeJointKinematicHessians (m : Model) (J : Jac) (K : Hess) : Hess :=
  upward m (fun K i => fold_left (hessSlice m J i) (seq 0 (nvOf m i)) K) K.
(* kinematics-derivatives.hpp 339-351: the overload that takes q *)
Definition computeJointKinematicHessiansQ (m : Model) (d : Data) (q : vec) (K : Hess) : Data * Hess :=
  let d := computeJointJacobians m d q in (d, computeJointKinematicHessians m (co (gl d) F_J) K).

(* one slice after the other, for the indexes of l; body o rest row: rest are the indexes after o *)
Fixpoint slices (body : nat -> list nat -> Jac -> Jac) (l : list nat) (H : Hess) : Hess :=
  match l with [] => H | o :: rest => slices body rest (putn H o (body o rest (H o))) end.
Definition updAt (g : nat -> V6 -> V6) (row : Jac) (k : nat) : Jac := putn row k (g k (row k)).
(* 1157-1161: the indexes of l before the first one that is >= x *)
Fixpoint below (x : nat) (l : list nat) : list nat := match l with [] => [] | k :: r => if x <=? k then [] else k :: below x r end.
(* the linear part that LOCAL_WORLD_ALIGNED subtracts: 1174, 1193, 1204, 1222 *)
Definition atLast (P : SE3) (S1 S2 : V6) : V3 := v3cross (v3sub (lin S1) (v3cross (trans P) (ang S1))) (ang S2).
Definition rowWorld (st : nat -> nat) (K : Hess) (o : nat) (rest : list nat) (row : Jac) : Jac :=
  let row := fold_left (updAt (fun k _ => K o k)) (seq (st o) (o - st o)) row in                      (* 1121-1131 *)
  fold_left (updAt (fun k _ => K o k)) rest row.                                                      (* 1133-1144 *)
(* 1191-1194, 1220-1223 *)
Definition alignedCol (P : SE3) (J : Jac) (K : Hess) (o k : nat) : V6 :=
  mkV6 (v3sub (lin (K o k)) (v3add (atLast P (J o) (J k)) (v3cross (trans P) (ang (K o k))))) (ang (K o k)).
Definition rowAligned (P : SE3) (J : Jac) (st : nat -> nat) (K : Hess) (all : list nat) (o : nat) (rest : list nat) (row : Jac) : Jac :=
  let row := fold_left (updAt (fun k x => mkV6 (v3opp (atLast P (J o) (J k))) (ang x))) (below (st o) all) row in   (* 1157-1175 *)
  let row := fold_left (updAt (fun k _ => alignedCol P J K o k)) (seq (st o) (o - st o)) row in       (* 1178-1195 *)
  let row := updAt (fun k x => mkV6 (v3opp (atLast P (J o) (J o))) (ang x)) row o in                  (* 1198-1205 *)
  fold_left (updAt (fun k _ => alignedCol P J K o k)) rest row.                                       (* 1207-1224 *)
Definition rowLocal (P : SE3) (par : nat -> Z) (st en : nat -> nat) (K : Hess) (o : nat) (rest : list nat) (row : Jac) : Jac :=
  if (par (st o) <? 0)%Z then row                                                                     (* 1237-1238 *)
  else let row := fold_left (updAt (fun k _ => motion_actInv P (K k o))) (rev (seq (o + 1) (en o - o))) row in   (* 1241-1253 *)
       fold_left (updAt (fun k _ => motion_actInv P (K k o))) rest row.                               (* 1256-1270 *)
(* 1071-1279; the assertion 1080-1082 and the size checks 1092-1097 are not modelled *)
Definition getJointKinematicHessian (m : Model) (d : Data) (K : Hess) (j : nat) (rf : RefFrame) (H : Hess) : Hess :=
  let l := supportsRow m (jm_idx_v (joint m j) + jnv (jm_type (joint m j)) - 1) in                    (* 1104-1106 *)
  let P := pl (rows d j) F_oMi in
  match rf with
  | WORLD => slices (rowWorld (startIdx m) K) l H
  | LOCAL_WORLD_ALIGNED => slices (rowAligned P (co (gl d) F_J) (startIdx m) K l) l H
  | LOCAL => slices (rowLocal P (t_par (rowTables m)) (startIdx m) (endIdx m) K) (rev l) H
  end.
