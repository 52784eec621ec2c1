(* The derivatives of the operations of the Lie groups: dDifference, dIntegrate, dIntegrateTransport of
   multibody/liegroup/{vector-space,special-orthogonal,special-euclidean,cartesian-product}.hpp and their loops over the
   joints, algorithm/joint-configuration.hxx.  A matrix is a function of the row and of the column, read below nv.  The
   checks of the sizes of the arguments are not modelled here. *)
Require Import Reals Arith Bool List.
From Verif Require Import Vec3 Spatial Joints Model Kinematics Rot ExpLog LieGroup ExpJac LogMat.
Local Open Scope R_scope.

Definition jac := nat -> nat -> R.
Inductive ArgPos := ARG0 | ARG1.
(* blocks of a matrix, rows of a matrix *)
Definition blockAt (i j : nat) (J : jac) : jac := fun k l => J (i + k)%nat (j + l)%nat.
Definition rowsAt (i : nat) (J : jac) : jac := fun k l => J (i + k)%nat l.
Definition m3At (J : jac) : M3 := mkM3 (J 0%nat 0%nat) (J 0%nat 1%nat) (J 0%nat 2%nat) (J 1%nat 0%nat) (J 1%nat 1%nat) (J 1%nat 2%nat) (J 2%nat 0%nat) (J 2%nat 1%nat) (J 2%nat 2%nat).
Definition m66At (J : jac) : M66 := mkM66 (m3At J) (m3At (blockAt 0 3 J)) (m3At (blockAt 3 0 J)) (m3At (blockAt 3 3 J)).
Definition m3Out (A : M3) : jac := m3get A.
Definition blocks (n : nat) (a b c d : jac) : jac :=
  fun k l => if k <? n then (if l <? n then a k l else b k (l - n)%nat) else (if l <? n then c (k - n)%nat l else d (k - n) (l - n))%nat.
Definition m66Out (A : M66) : jac := blocks 3 (m3Out (tl6 A)) (m3Out (tr6 A)) (m3Out (bl6 A)) (m3Out (br6 A)).
(* the assignment operators on whole matrices *)
Definition put3 (op : AssignOp) (A J : M3) : M3 := match op with SETTO => A | ADDTO => m3add J A | RMTO => m3sub J A end.
Definition put66 (op : AssignOp) (A J : M66) : M66 :=
  mkM66 (put3 op (tl6 A) (tl6 J)) (put3 op (tr6 A) (tr6 J)) (put3 op (bl6 A) (bl6 J)) (put3 op (br6 A) (br6 J)).
Definition idJac : jac := fun k l => if k =? l then 1 else 0.
Definition putJac (op : AssignOp) (A J : jac) : jac :=
  fun k l => match op with SETTO => A k l | ADDTO => J k l + A k l | RMTO => J k l - A k l end.

(* special-euclidean.hpp 92-128 toInverseActionMatrix, of the result of exp (60-90) *)
Definition se2_inv (v : vec) : M3 :=
  let '(c, s, t0, t1) := se2_exp (v 0%nat) (v 1%nat) (v 2%nat) in
  let x := c * t0 + s * t1 in let y := - s * t0 + c * t1 in
  mkM3 c s (- y) (- s) c x 0 0 1.
(* special-euclidean.hpp 163-203: Jlog of the rotation [r00 r01; r10 r11] and the translation p *)
Definition se2_Jlog (r00 r01 r10 r11 p0 p1 : R) : M3 :=
  let t := so2_log r00 r01 r10 r11 in let tabs := Rabs t in let t2 := t * t in let st := sin t in let ct := cos t in
  let inv_2_1_ct := / 2 / (1 - ct) in
  let alpha := if Rlt_dec tabs (1 / 10 ^ 4) then 1 - t2 / 12 else t * st * inv_2_1_ct in
  let alpha_dot := if Rlt_dec tabs (1 / 10 ^ 4) then - t / 6 - t2 * t / 180 else (st - t) * inv_2_1_ct in
  let v10 := - t / 2 in let v01 := - v10 in
  mkM3 (alpha * r00 + v01 * r10) (alpha * r01 + v01 * r11) (alpha_dot * p0 + p1 / 2)
       (v10 * r00 + alpha * r10) (v10 * r01 + alpha * r11) (- p0 / 2 + alpha_dot * p1)
       0 0 1.
(* special-euclidean.hpp 350-362: the twist of a planar motion and the rows and columns 0, 1, 5 of Jexp6 *)
Definition planarTwist (v : vec) : V6 := mkV6 (mkV3 (v 0%nat) (v 1%nat) 0) (mkV3 0 0 (v 2%nat)).
Definition planarPart (J : M66) : M3 :=
  mkM3 (m00 (tl6 J)) (m01 (tl6 J)) (m02 (tr6 J)) (m10 (tl6 J)) (m11 (tl6 J)) (m12 (tr6 J)) (m20 (bl6 J)) (m21 (bl6 J)) (m22 (br6 J)).
(* the initial content of a local 6 x 6 matrix, which Jexp6 overwrites *)
Definition m66any : M66 := mkM66 m3zero m3zero m3zero m3zero.
Definition se2_Jexp (eps : R) (v : vec) : M3 := planarPart (Jexp6 eps SETTO (planarTwist v) m66any).
(* se3-tpl.hpp 235-247 toDualActionMatrix, transposed *)
Definition dualActionTr (M : SE3) : M66 :=
  mkM66 (m3tr (rot M)) (m3tr (m3mul (skew (trans M)) (rot M))) (m3scale 0 m3id) (m3tr (rot M)).

(* dDifference_impl: vector-space.hpp 91-102, special-orthogonal.hpp 148-160 and 421-462, special-euclidean.hpp 249-286 and
   616-657, cartesian-product.hpp 108-119 *)
Fixpoint lg_dDifference (eps : R) (g : LG) (arg : ArgPos) (q0 q1 : vec) : jac :=
  match g with
  | LVec _ => match arg with ARG0 => fun k l => - idJac k l | ARG1 => idJac end
  | LSO2 => match arg with ARG0 => fun _ _ => -1 | ARG1 => fun _ _ => 1 end
  | LSO3 =>
      let Rm := qmat (qmul (qconj (quatAt q0)) (quatAt q1)) in
      match arg with
      | ARG0 => m3Out (m3mul (m3scale (-1) (Jlog3M eps Rm)) (m3tr Rm))
      | ARG1 => m3Out (Jlog3M eps Rm)
      end
  | LSE2 =>
      let c0 := q0 2%nat in let s0 := q0 3%nat in let c1 := q1 2%nat in let s1 := q1 3%nat in
      let x := q1 0%nat - q0 0%nat in let y := q1 1%nat - q0 1%nat in
      let r00 := c0 * c1 + s0 * s1 in let r01 := c0 * - s1 + s0 * c1 in let r10 := - s0 * c1 + c0 * s1 in let r11 := - s0 * - s1 + c0 * c1 in
      let J1 := se2_Jlog r00 r01 r10 r11 (c0 * x + s0 * y) (- s0 * x + c0 * y) in
      match arg with
      | ARG0 =>
          let px := q1 1%nat - q0 1%nat in let py := q0 0%nat - q1 0%nat in
          m3Out (m3mul J1 (mkM3 (- r00) (- r10) (c1 * px + s1 * py) (- r01) (- r11) (- s1 * px + c1 * py) 0 0 (-1)))
      | ARG1 => m3Out J1
      end
  | LSE3 =>
      let quat0 := quatAt (shift 3 q0) in let quat1 := quatAt (shift 3 q1) in
      let dv_pre := v3sub (v3At q1) (v3At q0) in
      let M := mkSE3 (qmat (qmul (qconj quat0) quat1)) (qtransform (qconj quat0) dv_pre) in
      match arg with
      | ARG0 =>
          let J1 := Jlog6 eps M in let Rt := m3tr (rot M) in
          let p1_p0 := qtransform (qconj quat1) dv_pre in
          let N := m3mul (skew p1_p0) Rt in let O := m3scale (-1) Rt in
          (* J1 times [O N; 0 O] *)
          m66Out (mkM66 (m3mul (tl6 J1) O) (m3add (m3mul (tl6 J1) N) (m3mul (tr6 J1) O))
                        (m3mul (bl6 J1) O) (m3add (m3mul (bl6 J1) N) (m3mul (br6 J1) O)))
      | ARG1 => m66Out (Jlog6 eps M)
      end
  | LProd a b =>
      blocks (lg_nv a) (lg_dDifference eps a arg q0 q1) (fun _ _ => 0) (fun _ _ => 0)
             (lg_dDifference eps b arg (shift (lg_nq a) q0) (shift (lg_nq a) q1))
  end.
(* dIntegrate_dq_impl: vector-space.hpp 157-180, special-orthogonal.hpp 197-220 and 521-543, special-euclidean.hpp 324-340 and
   747-770, cartesian-product.hpp 144-166 *)
Fixpoint lg_dIntegrate_dq (eps : R) (g : LG) (op : AssignOp) (v : vec) (J : jac) : jac :=
  match g with
  | LVec _ => putJac op idJac J
  | LSO2 => putJac op (fun _ _ => 1) J
  | LSO3 => m3Out (put3 op (exp3 eps (v3opp (v3At v))) (m3At J))
  | LSE2 => m3Out (put3 op (se2_inv v) (m3At J))
  | LSE3 => m66Out (put66 op (dualActionTr (exp6 eps (v6At v))) (m66At J))
  | LProd a b =>
      let n := lg_nv a in
      let off := match op with SETTO => fun _ _ => 0 | _ => J end in
      blocks n (lg_dIntegrate_dq eps a op v J) (blockAt 0 n off)
             (blockAt n 0 off) (lg_dIntegrate_dq eps b op (shift n v) (blockAt n n J))
  end.
(* dIntegrate_dv_impl: vector-space.hpp 182-205, special-orthogonal.hpp 222-245 and 546-567, special-euclidean.hpp 343-381 and
   773-794, cartesian-product.hpp 168-190 *)
Fixpoint lg_dIntegrate_dv (eps : R) (g : LG) (op : AssignOp) (v : vec) (J : jac) : jac :=
  match g with
  | LVec _ => putJac op idJac J
  | LSO2 => putJac op (fun _ _ => 1) J
  | LSO3 => m3Out (Jexp3 eps op (v3At v) (m3At J))
  | LSE2 => m3Out (put3 op (se2_Jexp eps v) (m3At J))
  | LSE3 => m66Out (Jexp6 eps op (v6At v) (m66At J))
  | LProd a b =>
      let n := lg_nv a in
      let off := match op with SETTO => fun _ _ => 0 | _ => J end in
      blocks n (lg_dIntegrate_dv eps a op v J) (blockAt 0 n off) (blockAt n 0 off) (lg_dIntegrate_dv eps b op (shift n v) (blockAt n n J))
  end.
(* liegroup-base.hxx 42-64 *)
Definition lg_dIntegrate (eps : R) (g : LG) (arg : ArgPos) (op : AssignOp) (v : vec) (J : jac) : jac :=
  match arg with ARG0 => lg_dIntegrate_dq eps g op v J | ARG1 => lg_dIntegrate_dv eps g op v J end.

(* products by 3 x 3 matrices, column by column *)
Definition mul3 (A : M3) (J : jac) : jac := fun k l => v3Out (m3vec A (mkV3 (J 0%nat l) (J 1%nat l) (J 2%nat l))) k.
(* the block products of special-euclidean.hpp 804-814, 829-834 *)
Definition mul66 (A : M66) (Jin : jac) : jac :=
  let top := Jin in let bottom := rowsAt 3 Jin in
  fun k l => if (k <? 3) then mul3 (tl6 A) top k l + mul3 (tr6 A) bottom k l else mul3 (br6 A) bottom (k - 3)%nat l.
(* special-euclidean.hpp 400-406 and 419-429: two rows, then one *)
Definition mul21 (A : M3) (Jin : jac) : jac :=
  fun k l => match k with
             | 0%nat => m00 A * Jin 0%nat l + m01 A * Jin 1%nat l + m02 A * Jin 2%nat l
             | 1%nat => m10 A * Jin 0%nat l + m11 A * Jin 1%nat l + m12 A * Jin 2%nat l
             | _ => m20 A * Jin 0%nat l + m21 A * Jin 1%nat l + m22 A * Jin 2%nat l
             end.
(* dIntegrateTransport_dq_impl and _dv_impl with an input and an output: vector-space.hpp 232-252, special-orthogonal.hpp 247-266
   and 570-600, special-euclidean.hpp 384-431 and 797-835, cartesian-product.hpp 192-224 *)
Fixpoint lg_transport (eps : R) (g : LG) (arg : ArgPos) (v : vec) (Jin : jac) : jac :=
  match g with
  | LVec _ | LSO2 => Jin
  | LSO3 => mul3 (match arg with ARG0 => exp3 eps (v3opp (v3At v)) | ARG1 => Jexp3 eps SETTO (v3At v) m3zero end) Jin
  | LSE2 =>
      match arg with
      | ARG0 =>
          let A := se2_inv v in
          fun k l => match k with
                     | 0%nat => m00 A * Jin 0%nat l + m01 A * Jin 1%nat l + m02 A * Jin 2%nat l
                     | 1%nat => m10 A * Jin 0%nat l + m11 A * Jin 1%nat l + m12 A * Jin 2%nat l
                     | _ => Jin 2%nat l
                     end
      | ARG1 => mul21 (se2_Jexp eps v) Jin
      end
  | LSE3 => mul66 (match arg with ARG0 => dualActionTr (exp6 eps (v6At v)) | ARG1 => Jexp6 eps SETTO (v6At v) m66any end) Jin
  | LProd a b =>
      fun k l => if k <? lg_nv a then lg_transport eps a arg v Jin k l
                 else lg_transport eps b arg (shift (lg_nv a) v) (rowsAt (lg_nv a) Jin) (k - lg_nv a)%nat l
  end.
(* the versions in place: vector-space.hpp 254-266, special-orthogonal.hpp 268-280 and 602-625 (a temporary), special-euclidean.hpp
   434-479 and 837-875: the top rows are updated before the bottom rows; cartesian-product.hpp 226-246 *)
Fixpoint lg_transportInPlace (eps : R) (g : LG) (arg : ArgPos) (v : vec) (J : jac) : jac :=
  match g with
  | LVec _ | LSO2 => J
  | LSO3 => mul3 (match arg with ARG0 => exp3 eps (v3opp (v3At v)) | ARG1 => Jexp3 eps SETTO (v3At v) m3zero end) J
  | LSE2 =>
      match arg with
      | ARG0 =>
          let A := se2_inv v in
          let J1 : jac := fun k l => match k with 0%nat => m00 A * J 0%nat l + m01 A * J 1%nat l | 1%nat => m10 A * J 0%nat l + m11 A * J 1%nat l | _ => J k l end in
          fun k l => match k with 0%nat => J1 0%nat l + m02 A * J1 2%nat l | 1%nat => J1 1%nat l + m12 A * J1 2%nat l | _ => J1 k l end
      | ARG1 =>
          let A := se2_Jexp eps v in
          let J1 : jac := fun k l => match k with 0%nat => m00 A * J 0%nat l + m01 A * J 1%nat l | 1%nat => m10 A * J 0%nat l + m11 A * J 1%nat l | _ => J k l end in
          let J2 : jac := fun k l => match k with 0%nat => J1 0%nat l + m02 A * J1 2%nat l | 1%nat => J1 1%nat l + m12 A * J1 2%nat l | _ => J1 k l end in
          let J3 : jac := fun k l => match k with 2%nat => m22 A * J2 2%nat l | _ => J2 k l end in
          fun k l => match k with 2%nat => J3 2%nat l + (m20 A * J3 0%nat l + m21 A * J3 1%nat l) | _ => J3 k l end
      end
  | LSE3 =>
      let A := match arg with ARG0 => dualActionTr (exp6 eps (v6At v)) | ARG1 => Jexp6 eps SETTO (v6At v) m66any end in
      let J1 : jac := fun k l => if k <? 3 then mul3 (tl6 A) J k l else J k l in
      let J2 : jac := fun k l => if k <? 3 then J1 k l + mul3 (tr6 A) (rowsAt 3 J1) k l else J1 k l in
      fun k l => if k <? 3 then J2 k l else mul3 (br6 A) (rowsAt 3 J2) (k - 3)%nat l
  | LProd a b =>
      fun k l => if k <? lg_nv a then lg_transportInPlace eps a arg v J k l
                 else lg_transportInPlace eps b arg (shift (lg_nv a) v) (rowsAt (lg_nv a) J) (k - lg_nv a)%nat l
  end.

(* ---------- models ---------- *)
(* joint-model-base.hpp jointBlock and jointRows: assignment to a block, to rows *)
Definition writeBlk (i n : nat) (X J : jac) : jac :=
  fun k l => if (i <=? k) && (k <? i + n) && ((i <=? l) && (l <? i + n)) then X (k - i)%nat (l - i)%nat else J k l.
Definition writeRows (i n : nat) (X J : jac) : jac := fun k l => if (i <=? k) && (k <? i + n) then X (k - i)%nat l else J k l.
(* joint-configuration.hxx 216-250, liegroup-algo.hxx 208-260 *)
Definition dIntegrate (eps : R) (m : Model) (v : vec) (J : jac) (arg : ArgPos) (op : AssignOp) : jac :=
  fold_left (fun J p => let '(g, iq, iv) := p in writeBlk iv (lg_nv g) (lg_dIntegrate eps g arg op (shift iv v) (blockAt iv iv J)) J) (modelPieces m) J.
(* joint-configuration.hxx 332-365, liegroup-algo.hxx 355-398 *)
Definition dDifference (eps : R) (m : Model) (q0 q1 : vec) (J : jac) (arg : ArgPos) : jac :=
  fold_left (fun J p => let '(g, iq, iv) := p in writeBlk iv (lg_nv g) (lg_dDifference eps g arg (shift iq q0) (shift iq q1)) J) (modelPieces m) J.
(* joint-configuration.hxx 255-294, liegroup-algo.hxx 262-310 *)
Definition dIntegrateTransport (eps : R) (m : Model) (v : vec) (Jin Jout : jac) (arg : ArgPos) : jac :=
  fold_left (fun J p => let '(g, iq, iv) := p in writeRows iv (lg_nv g) (lg_transport eps g arg (shift iv v) (rowsAt iv Jin)) J) (modelPieces m) Jout.
(* joint-configuration.hxx 297-330, liegroup-algo.hxx 312-353 *)
Definition dIntegrateTransportInPlace (eps : R) (m : Model) (v : vec) (J : jac) (arg : ArgPos) : jac :=
  fold_left (fun J p => let '(g, iq, iv) := p in writeRows iv (lg_nv g) (lg_transportInPlace eps g arg (shift iv v) (rowsAt iv J)) J) (modelPieces m) J.
