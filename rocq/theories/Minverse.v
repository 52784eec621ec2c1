(* algorithm/aba.hxx: the inverse of the joint space inertia matrix, computeMinverse(model, data, q) and computeMinverse(model, data) *)
Require Import Reals List Arith ZArith Lia Bool.
From Verif Require Import Vec3 Spatial Inertia Joints Model Spec_Model Sums Data Kinematics Rnea Crba Aba.
Import ListNotations.
Local Open Scope nat_scope.
Local Open Scope bool_scope.

Definition onMinv (g : Glob) (f : (nat -> nat -> R) -> nat -> nat -> R) : Glob := setMa g F_Minv (f (ma g F_Minv)).
(* the columns b .. b+n-1 of data.Fcrb[i] *)
Definition onFcrb (g : Glob) (i : nat) (f : (nat -> V6) -> nat -> V6) : Glob := setFcrb g (putn (fcrb g) i (f (fcrb g i))).
Definition addCols (b n : nat) (f : nat -> V6) (x : nat -> V6) : nat -> V6 := fun k => if within b n k then v6add (x k) (f (k - b)) else x k.

(* 850, 886: data.Minv.triangularView<Upper>().setZero() *)
Definition zeroUpper (m : Model) (x : nat -> nat -> R) : nat -> nat -> R := fun k l => if (k <=? l) && (l <? m_nv m) then 0%R else x k l.
(* 632-641, 649-650 ComputeMinverseForwardStep1::algo, the row of the joint; 643-647, its columns of data.J, is crbaWCols *)
Definition minvRow1 (m : Model) (q : vec) (i : nat) (r rp : Row) : Row :=
  let r := setJd r (calcJoint0 m i (jd r) q) in
  let r := setPl r F_liMi (se3_mul (placementOf m i) (jM (jd r))) in
  let r := setPl r F_oMi (if 0 <? parent m i then se3_mul (pl rp F_oMi) (pl r F_liMi) else pl r F_liMi) in
  let r := setYi r F_oYcrb (inertia_act (pl r F_oMi) (inertiaOf m i)) in
  setM6 r F_oYaba (inertia_matrix (yi r F_oYcrb)).
(* 695-718, 760-783: the rows of joint i in Minv and the forces in Fcrb[0]; J, U and Dinv are those of the joint.
   data.SDinv, written at 700 and used at 704 only, is the local SD. *)
Definition minvFill (m : Model) (i : nat) (J U : list V6) (Dinv : nat -> nat -> R) (g : Glob) : Glob :=
  let b := jm_idx_v (joint m i) in let n := jnv (jm_type (joint m i)) in let nt := Z.to_nat (nvSubtree m i) in
  let g := onMinv g (setBlock b b n n Dinv) in                                                                        (* 695 *)
  if (Z.of_nat n <? nvSubtree m i)%Z then                                                                             (* 696-697 *)
    let SD := colsMul J Dinv in                                                                                       (* 700 *)
    let F := fcrb g 0 in
    let g := onMinv g (setBlock b (b + n) n (nt - n) (fun k l => (- v6dot (colOf SD k) (F (b + n + l)%nat))%R)) in    (* 702-704 *)
    if 0 <? parent m i
    then let X := ma g F_Minv in onFcrb g 0 (addCols b nt (fun l => Smul U (fun k => X (b + k) (b + l))))             (* 708-710 *)
    else g
  else let X := ma g F_Minv in onFcrb g 0 (setCols b nt (fun l => Smul U (fun k => X (b + k) (b + l)))).              (* 716-717 *)
(* 816-829 ComputeMinverseForwardStep2::algo *)
Definition minvFwdG (m : Model) (i : nat) (J UD : list V6) (g : Glob) : Glob :=
  let b := jm_idx_v (joint m i) in let n := jnv (jm_type (joint m i)) in let p := parent m i in let nr := m_nv m - b in
  let g := if 0 <? p then let F := fcrb g p in onMinv g (addBlock b b n nr (fun k l => (- v6dot (colOf UD k) (F (b + l)%nat))%R)) else g in   (* 816-822 *)
  let X := ma g F_Minv in
  let g := onFcrb g i (setCols b nr (fun l => Smul J (fun k => X (b + k) (b + l)))) in                                (* 824-826 *)
  if 0 <? p then let F := fcrb g p in onFcrb g i (addCols b nr (fun l => F (b + l))) else g.                          (* 827-829 *)
Definition minvFwd (m : Model) (d : Data) (i : nat) : Data := setGl d (minvFwdG m i (jointCols m i (co (gl d) F_J)) (jUDinv (rows d i)) (gl d)).

Section Minv.
Variable inv : nat -> (nat -> nat -> R) -> nat -> nat -> R.   (* see Aba.v *)
(* 674-724 ComputeMinverseBackwardStep::algo *)
Definition minvBack (m : Model) (d : Data) (i : nat) : Data :=
  let p := parent m i in
  let r := rows d i in let J := jointCols m i (co (gl d) F_J) in
  let U := map (m6vec (m6 r F_oYaba)) J in                                                                            (* 686 *)
  let Dinv := inv (length U) (StU J U (armSel m i)) in                                                                (* 687-692 *)
  let r := setAba r U Dinv (colsMul U Dinv) in                                                                        (* 693 *)
  let d := setGl d (minvFill m i J U Dinv (gl d)) in
  if 0 <? p then                                                                                                      (* 720-724 *)
    let r := setM6 r F_oYaba (subOuter (m6 r F_oYaba) (jUDinv r) (jU r)) in
    let d := setRow d i r in
    let rp := rows d p in
    setRow d p (setM6 rp F_oYaba (m6add (m6 rp F_oYaba) (m6 r F_oYaba)))
  else setRow d i r.
(* 838-873 computeMinverse(model, data, q); the result is data.Minv *)
Definition computeMinverse (m : Model) (d : Data) (q : vec) : Data :=
  let d := setGl d (onMinv (gl d) (zeroUpper m)) in
  let d := upward m (rowStepG m (minvRow1 m q) (crbaWCols m)) d in
  let d := setGl d (onFcrb (gl d) 0 (fun _ _ => v6zero)) in
  let d := downward m (minvBack m) d in
  upward m (minvFwd m) d.
End Minv.
(* 741-784 optimized::ComputeMinverseBackwardStep::algo *)
Definition minvBackO (m : Model) (d : Data) (i : nat) : Data :=
  setGl d (minvFill m i (jointCols m i (co (gl d) F_J)) (jU (rows d i)) (jDinv (rows d i)) (gl d)).
(* 877-902 computeMinverse(model, data), after aba with the world convention *)
Definition computeMinverseO (m : Model) (d : Data) : Data :=
  let d := setGl d (onMinv (gl d) (zeroUpper m)) in
  let d := setGl d (onFcrb (gl d) 0 (fun _ _ => v6zero)) in
  let d := downward m (minvBackO m) d in
  upward m (minvFwd m) d.
