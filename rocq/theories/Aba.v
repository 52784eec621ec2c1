(* algorithm/aba.hxx: the articulated-body algorithm, and calc_aba of every joint. *)
Require Import Reals List Arith Lia Bool.
From Verif Require Import Vec3 Spatial Inertia Joints Model Spec_Model Sums Data Kinematics Rnea Crba.
Import ListNotations.
Local Open Scope nat_scope.
Local Open Scope bool_scope.

(* ---- products of small matrices given by their columns ---- *)
(* A -= a * b^T *)
Definition subOuter (A : M6) (a b : list V6) : M6 := fold_left (fun A p => m6sub A (m6outer (fst p) (snd p))) (combine a b) A.
(* U * D *)
Definition colsMul (U : list V6) (D : nat -> nat -> R) : list V6 := map (fun k => Smul U (fun l => D l k)) (seq 0 (length U)).
(* S^T * U with the armature on the diagonal *)
Definition StU (S U : list V6) (ar : nat -> R) (k l : nat) : R := (v6dot (nth k S v6zero) (nth l U v6zero) + if k =? l then ar k else 0)%R.
(* entry k, column k, products with the two halves of the columns of a 6x6 matrix *)
Definition atLin (v : V6) (k : nat) : R := v3get (lin v) k.   (* v(LINEAR + k) *)
Definition atAng (v : V6) (k : nat) : R := v3get (ang v) k.   (* v(ANGULAR + k) *)
Definition v6at (v : V6) (k : nat) : R := if k <? 3 then atLin v k else atAng v (k - 3).
Definition colLin (I : M6) (k : nat) : V6 := mkV6 (m3col (mLL I) k) (m3col (mAL I) k).   (* I.col(LINEAR + k) *)
Definition colAng (I : M6) (k : nat) : V6 := mkV6 (m3col (mLA I) k) (m3col (mAA I) k).   (* I.col(ANGULAR + k) *)
Definition m6col (I : M6) (k : nat) : V6 := if k <? 3 then colLin I k else colAng I (k - 3).
Definition m6Lin (I : M6) (x : V3) : V6 := mkV6 (m3vec (mLL I) x) (m3vec (mAL I) x).
Definition m6Ang (I : M6) (x : V3) : V6 := mkV6 (m3vec (mLA I) x) (m3vec (mAA I) x).

(* ---- calc_aba ----
   U: joint-revolute.hpp 831, joint-revolute-unbounded.hpp 193, joint-revolute-unaligned.hpp 702,
   joint-revolute-unbounded-unaligned.hpp 230, joint-prismatic.hpp 735, joint-prismatic-unaligned.hpp 678, joint-helical.hpp 913,
   joint-helical-unaligned.hpp 740-741, joint-free-flyer.hpp 383, joint-spherical.hpp 581, joint-spherical-ZYX.hpp 479,
   joint-planar.hpp 649-650, joint-translation.hpp 636, joint-universal.hpp 580 *)
Definition abaU1 (j : Joint1) (S : list V6) (I : M6) : list V6 :=
  match j with
  | JRevolute ax | JRUB ax => [colAng I ax]
  | JRevoluteUnaligned a | JRUBUnaligned a => [m6Ang I a]
  | JPrismatic ax => [colLin I ax]
  | JPrismaticUnaligned a => [m6Lin I a]
  | JHelical ax h => [v6add (colAng I ax) (v6scale h (colLin I ax))]
  | JHelicalUnaligned a h => [v6add (m6Ang I a) (v6scale h (m6Lin I a))]
  | JFreeFlyer => [m6col I 0; m6col I 1; m6col I 2; m6col I 3; m6col I 4; m6col I 5]
  | JSpherical => [m6col I 3; m6col I 4; m6col I 5]
  | JSphericalZYX | JUniversal _ _ => map (fun c => m6Ang I (ang c)) S
  | JPlanar => [m6col I 0; m6col I 1; m6col I 5]
  | JTranslation => [m6col I 0; m6col I 1; m6col I 2]
  end.
(* StU without the armature, same functions, the lines that follow.  JPlanar, 652-653: the transpose of S^T U is stored. *)
Definition abaStU1 (j : Joint1) (S U : list V6) (k l : nat) : R :=
  let Uc := fun l => nth l U v6zero in
  match j with
  | JRevolute ax | JRUB ax => atAng (Uc l) ax
  | JRevoluteUnaligned a | JRUBUnaligned a => v3dot a (ang (Uc l))
  | JPrismatic ax => atLin (Uc l) ax
  | JPrismaticUnaligned a => v3dot a (lin (Uc l))
  | JHelical ax h => (atAng (Uc l) ax + h * atLin (Uc l) ax)%R
  | JHelicalUnaligned a h => (v3dot a (ang (Uc l)) + h * v3dot a (lin (Uc l)))%R
  | JFreeFlyer => v6at (Uc l) k
  | JSpherical => v6at (Uc l) (3 + k)
  | JSphericalZYX | JUniversal _ _ => v3dot (ang (nth k S v6zero)) (ang (Uc l))
  | JPlanar => if l <? 2 then v6at (Uc k) l else v6at (Uc k) 5
  | JTranslation => v6at (Uc l) k
  end.
Definition abaD1 (j : Joint1) (S U : list V6) (ar : nat -> R) (k l : nat) : R := (abaStU1 j S U k l + if k =? l then ar k else 0)%R.
(* the joints with one dof divide *)
Definition oneDof (j : Joint1) : bool :=
  match j with
  | JRevolute _ | JRUB _ | JRevoluteUnaligned _ | JRUBUnaligned _ | JPrismatic _ | JPrismaticUnaligned _ | JHelical _ _ | JHelicalUnaligned _ _ => true
  | _ => false
  end.

Section Aba.
(* joint-common-operations.hpp 22-33 PerformStYSInversion: Dinv.setIdentity(); StYS.llt().solveInPlace(Dinv).  Eigen's LLT is
   not part of this code base: the model is parametric in the result, a function of the size and of the matrix. *)
Variable inv : nat -> (nat -> nat -> R) -> nat -> nat -> R.

(* (U, Dinv, UDinv) as calc_aba leaves them; joint-composite.hpp 354-369 for composites; joint-mimic.hpp 719-729 is assert(false),
   compiled out: nothing is written. *)
Definition calcAba (j : Joint) (S : list V6) (ar : nat -> R) (I : M6) (old : list V6 * (nat -> nat -> R) * list V6) : list V6 * (nat -> nat -> R) * list V6 :=
  match j with
  | JSimple j =>
      let U := abaU1 j S I in
      let D := abaD1 j S U ar in
      let Dinv := if oneDof j then fun _ _ => (1 / D 0%nat 0%nat)%R else inv (length U) D in
      (U, Dinv, colsMul U Dinv)
  | JMimic _ _ _ => old
  | JComposite _ => let U := map (m6vec I) S in let Dinv := inv (length U) (StU S U ar) in (U, Dinv, colsMul U Dinv)
  end.
(* if (update_I) I -= UDinv * U^T *)
Definition calcAbaI (j : Joint) (r : list V6 * (nat -> nat -> R) * list V6) (I : M6) : M6 :=
  match j with JMimic _ _ _ => I | _ => subOuter I (snd r) (fst (fst r)) end.

(* aba.hxx 21-76 internal::SE3actOn::run *)
Definition addRowsCross (t : V3) (D B : M3) : M3 := m3add D (m3tr (m3ofcols (v3cross t (m3col B 0)) (v3cross t (m3col B 1)) (v3cross t (m3col B 2)))).
Definition colsCross (t : V3) (A : M3) : M3 := m3ofcols (v3cross t (m3col A 0)) (v3cross t (m3col A 1)) (v3cross t (m3col A 2)).
Definition se3ActOn (M : SE3) (I : M6) : M6 :=
  let R := rot M in let t := trans M in
  let Ao := m3mul (m3mul R (mLL I)) (m3tr R) in
  let Bo := m3mul (m3mul R (mLA I)) (m3tr R) in
  let Do := m3mul (m3mul R (mAA I)) (m3tr R) in
  let Do := addRowsCross t Do Bo in
  let Co := m3add (colsCross t Ao) (m3tr Bo) in
  let Bo := m3tr Co in
  let Do := m3add Do (colsCross t Bo) in
  mkM6 Ao Bo Co Do.

Definition armSel (m : Model) (i : nat) (k : nat) : R := nth (idx_v m i + k) (m_armature m) 0%R.
(* jmodel.jointVelocitySelector(x) -= S^T f *)
Definition subSeg (b n : nat) (y x : vec) : vec := fun k => if within b n k then Rminus (x k) (y (k - b)) else x k.
Definition setSeg (b n : nat) (y x : vec) : vec := fun k => if within b n k then y (k - b) else x k.
(* Dinv * u - UDinv^T * a *)
Definition abaSolve (n : nat) (Dinv : nat -> nat -> R) (UD : list V6) (u : nat -> R) (a : V6) (k : nat) : R :=
  (sumN n (fun l => Dinv k l * u l) - v6dot (nth k UD v6zero) a)%R.

(* ---- local convention ---- *)
(* aba.hxx 376-401 AbaLocalConventionForwardStep1::algo *)
Definition abaLRow1 (m : Model) (q v : vec) (i : nat) (r rp : Row) : Row :=
  let r := velRow m q v i r rp in
  let r := setMo r F_a_gf (v6add (jc (jd r)) (motion_cross (mo r F_v) (jv (jd r)))) in
  let r := setM6 r F_Yaba (inertia_matrix (inertiaOf m i)) in
  let r := setMo r F_h (inertia_mul (inertiaOf m i) (mo r F_v)) in
  setMo r F_f (force_cross (mo r F_v) (mo r F_h)).
(* aba.hxx 415-441 AbaLocalConventionBackwardStep::algo *)
Definition abaLBack (m : Model) (d : Data) (i : nat) : Data :=
  let p := parent m i in let j := jm_type (joint m i) in let bv := idx_v m i in
  let r := rows d i in
  let d := setGl d (setVe (gl d) F_u (subSeg bv (nvOf m i) (StMul (jS (jd r)) (mo r F_f)) (ve (gl d) F_u))) in
  let w := calcAba j (jS (jd r)) (armSel m i) (m6 r F_Yaba) (jU r, jDinv r, jUDinv r) in
  let r := setAba r (fst (fst w)) (snd (fst w)) (snd w) in
  if 0 <? p then
    let r := setM6 r F_Yaba (calcAbaI j w (m6 r F_Yaba)) in
    let r := setMo r F_f (v6add (mo r F_f) (v6add (m6vec (m6 r F_Yaba) (mo r F_a_gf)) (Smul (jUDinv r) (velSel m i (ve (gl d) F_u))))) in
    let d := setRow d i r in
    let rp := rows d p in
    let rp := setM6 rp F_Yaba (m6add (m6 rp F_Yaba) (se3ActOn (pl r F_liMi) (m6 r F_Yaba))) in
    let rp := setMo rp F_f (v6add (mo rp F_f) (force_act (pl r F_liMi) (mo r F_f))) in
    setRow d p rp
  else setRow d i r.
(* aba.hxx 455-475 AbaLocalConventionForwardStep2::algo *)
Definition abaLRow2 (m : Model) (d : Data) (i : nat) : Data :=
  let r := rows d i in let rp := rows d (parent m i) in
  let r := setMo r F_a_gf (v6add (mo r F_a_gf) (motion_actInv (pl r F_liMi) (mo rp F_a_gf))) in
  let d := setGl d (setVe (gl d) F_ddq (setSeg (idx_v m i) (nvOf m i)
             (abaSolve (nvOf m i) (jDinv r) (jUDinv r) (velSel m i (ve (gl d) F_u)) (mo r F_a_gf)) (ve (gl d) F_ddq))) in
  let r := setMo r F_a_gf (v6add (mo r F_a_gf) (Smul (jS (jd r)) (velSel m i (ve (gl d) F_ddq)))) in
  let r := setMo r F_a (mkV6 (v3add (lin (mo r F_a_gf)) (m3vec (m3tr (rot (pl r F_oMi))) (lin (m_gravity m)))) (ang (mo r F_a_gf))) in
  let r := setMo r F_f (v6add (inertia_mul (inertiaOf m i) (mo r F_a_gf)) (force_cross (mo r F_v) (mo r F_h))) in
  setRow d i r.
(* aba.hxx 533-537, 599-603 *)
Definition pushF (m : Model) (d : Data) (i : nat) : Data :=
  let rp := rows d (parent m i) in
  setRow d (parent m i) (setMo rp F_f (v6add (mo rp F_f) (force_act (pl (rows d i) F_liMi) (mo (rows d i) F_f)))).
(* aba.hxx 486-540 abaLocalConvention; the result is data.ddq *)
Definition abaLocalData (m : Model) (d : Data) (q v tau : vec) : Data :=
  let d := setRow d 0 (setMo (setMo (setMo (rows d 0) F_v v6zero) F_a_gf (v6opp (m_gravity m))) F_f v6zero) in
  let d := setGl d (setVe (gl d) F_u tau) in
  let d := upward m (rowStep m (abaLRow1 m q v)) d in
  let d := downward m (abaLBack m) d in
  let d := upward m (abaLRow2 m) d in
  downward m (pushF m) d.
Definition abaLocal (m : Model) (d : Data) (q v tau : vec) : vec := ve (gl (abaLocalData m d q v tau)) F_ddq.
(* aba.hxx 551-606 abaLocalConvention with external forces: data.f[0] is not reset *)
Definition abaLocalDataExt (m : Model) (d : Data) (q v tau : vec) (fext : nat -> Force) : Data :=
  let d := setRow d 0 (setMo (setMo (rows d 0) F_v v6zero) F_a_gf (v6opp (m_gravity m))) in
  let d := setGl d (setVe (gl d) F_u tau) in
  let d := upward m (rowStep m (fun i r rp => let r := abaLRow1 m q v i r rp in setMo r F_f (v6sub (mo r F_f) (fext i)))) d in
  let d := downward m (abaLBack m) d in
  let d := upward m (abaLRow2 m) d in
  downward m (pushF m) d.
Definition abaLocalExt (m : Model) (d : Data) (q v tau : vec) (fext : nat -> Force) : vec := ve (gl (abaLocalDataExt m d q v tau fext)) F_ddq.

(* ---- world convention ---- *)
(* aba.hxx 101-138 AbaWorldConventionForwardStep1::algo: the row of the joint, then data.J *)
Definition abaWKin (m : Model) (q v : vec) (i : nat) (r rp : Row) : Row :=   (* 101-116 *)
  let r := setJd r (calcJoint m i q v) in
  let r := setPl r F_liMi (se3_mul (placementOf m i) (jM (jd r))) in
  setPl r F_oMi (if 0 <? parent m i then se3_mul (pl rp F_oMi) (pl r F_liMi) else pl r F_liMi).
Definition abaWVel (m : Model) (i : nat) (r rp : Row) : Row :=   (* 120-122 *)
  let r := setMo r F_ov (motion_act (pl r F_oMi) (jv (jd r))) in
  if 0 <? parent m i then setMo r F_ov (v6add (mo r F_ov) (mo rp F_ov)) else r.
Definition abaWAcc (m : Model) (i : nat) (r rp : Row) : Row :=   (* 124-126 *)
  let r := setMo r F_oa_gf (motion_act (pl r F_oMi) (jc (jd r))) in
  if 0 <? parent m i then setMo r F_oa_gf (v6add (mo r F_oa_gf) (motion_cross (mo rp F_ov) (mo r F_ov))) else r.
Definition abaWDyn (m : Model) (i : nat) (r : Row) : Row :=   (* 128-137 *)
  let r := setYi r F_oYcrb (inertia_act (pl r F_oMi) (inertiaOf m i)) in
  let r := setYi r F_oinertias (yi r F_oYcrb) in
  let r := setM6 r F_oYaba (inertia_matrix (yi r F_oYcrb)) in
  let r := setMo r F_oh (inertia_mul (yi r F_oYcrb) (mo r F_ov)) in
  setMo r F_of (force_cross (mo r F_ov) (mo r F_oh)).
Definition abaWRow1 (m : Model) (q v : vec) (i : nat) (r rp : Row) : Row :=
  abaWDyn m i (abaWAcc m i (abaWVel m i (abaWKin m q v i r rp) rp) rp).
(* jmodel.jointCols(data.J), as a list of columns *)
Definition jointCols (m : Model) (i : nat) (J : nat -> V6) : list V6 := map (fun k => J (idx_vE m i + k)) (seq 0 (nvEOf m i)).
(* aba.hxx 152-192 AbaWorldConventionBackwardStep::algo *)
Definition abaWBack (m : Model) (d : Data) (i : nat) : Data :=
  let p := parent m i in let bv := idx_v m i in
  let r := rows d i in let J := jointCols m i (co (gl d) F_J) in
  let d := setGl d (setVe (gl d) F_u (subSeg bv (nvOf m i) (StMul J (mo r F_of)) (ve (gl d) F_u))) in
  let U := map (m6vec (m6 r F_oYaba)) J in
  let Dinv := inv (length U) (StU J U (armSel m i)) in
  let r := setAba r U Dinv (colsMul U Dinv) in
  if 0 <? p then
    let r := setM6 r F_oYaba (subOuter (m6 r F_oYaba) (jUDinv r) (jU r)) in
    let r := setMo r F_of (v6add (mo r F_of) (v6add (m6vec (m6 r F_oYaba) (mo r F_oa_gf)) (Smul (jUDinv r) (velSel m i (ve (gl d) F_u))))) in
    let d := setRow d i r in
    let rp := rows d p in
    let rp := setM6 rp F_oYaba (m6add (m6 rp F_oYaba) (m6 r F_oYaba)) in
    let rp := setMo rp F_of (v6add (mo rp F_of) (mo r F_of)) in
    setRow d p rp
  else setRow d i r.
(* aba.hxx 206-231 AbaWorldConventionForwardStep2::algo *)
Definition abaWRow2 (m : Model) (d : Data) (i : nat) : Data :=
  let r := rows d i in let rp := rows d (parent m i) in let J := jointCols m i (co (gl d) F_J) in
  let r := setMo r F_oa_gf (v6add (mo r F_oa_gf) (mo rp F_oa_gf)) in
  let d := setGl d (setVe (gl d) F_ddq (setSeg (idx_v m i) (nvOf m i)
             (abaSolve (nvOf m i) (jDinv r) (jUDinv r) (velSel m i (ve (gl d) F_u)) (mo r F_oa_gf)) (ve (gl d) F_ddq))) in
  let r := setMo r F_oa_gf (v6add (mo r F_oa_gf) (Smul J (velSel m i (ve (gl d) F_ddq)))) in
  let r := setMo r F_oa (v6add (mo r F_oa_gf) (m_gravity m)) in
  let r := setMo r F_of (v6add (inertia_mul (yi r F_oinertias) (mo r F_oa_gf)) (force_cross (mo r F_ov) (mo r F_oh))) in
  setRow d i r.
(* aba.hxx 286-290 *)
Definition pushOf (m : Model) (d : Data) (i : nat) : Data :=
  let rp := rows d (parent m i) in setRow d (parent m i) (setMo rp F_of (v6add (mo rp F_of) (mo (rows d i) F_of))).
(* aba.hxx 242-293 abaWorldConvention; the result is data.ddq *)
Definition abaWorldData (m : Model) (d : Data) (q v tau : vec) : Data :=
  let d := setRow d 0 (setMo (setMo (rows d 0) F_oa_gf (v6opp (m_gravity m))) F_of v6zero) in
  let d := setGl d (setVe (gl d) F_u tau) in
  let d := upward m (rowStepG m (abaWRow1 m q v) (crbaWCols m)) d in
  let d := downward m (abaWBack m) d in
  let d := upward m (abaWRow2 m) d in
  downward m (pushOf m) d.
Definition abaWorld (m : Model) (d : Data) (q v tau : vec) : vec := ve (gl (abaWorldData m d q v tau)) F_ddq.
(* aba.hxx 304-352 abaWorldConvention with external forces *)
Definition abaWorldDataExt (m : Model) (d : Data) (q v tau : vec) (fext : nat -> Force) : Data :=
  let d := setRow d 0 (setMo (rows d 0) F_oa_gf (v6opp (m_gravity m))) in
  let d := setGl d (setVe (gl d) F_u tau) in
  let d := upward m (rowStepG m (fun i r rp => let r := abaWRow1 m q v i r rp in setMo r F_of (v6sub (mo r F_of) (force_act (pl r F_oMi) (fext i)))) (crbaWCols m)) d in
  let d := downward m (abaWBack m) d in
  upward m (abaWRow2 m) d.
Definition abaWorldExt (m : Model) (d : Data) (q v tau : vec) (fext : nat -> Force) : vec := ve (gl (abaWorldDataExt m d q v tau fext)) F_ddq.
End Aba.
