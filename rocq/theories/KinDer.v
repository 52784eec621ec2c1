(* algorithm/kinematics-derivatives.hxx and frames-derivatives.hxx: the derivatives of the velocity and acceleration of joints, frames and points *)
Require Import Reals List Arith ZArith Lia.
From Verif Require Import Vec3 Spatial Inertia Joints Model Spec_Model Data Kinematics Crba Jacobian Com DataX.
Import ListNotations.
Local Open Scope nat_scope.

(* 66-92 ForwardKinematicsDerivativesForwardStep, the row of the joint *)
Definition fkdRow (m : Model) (q v a : vec) (i : nat) (r rp : Row) : Row :=
  let r := setJd r (calcJoint m i q v) in                                                                    (* 66 *)
  let r := setPl r F_liMi (se3_mul (placementOf m i) (jM (jd r))) in                                         (* 68 *)
  let r := setPl r F_oMi (if 0 <? parent m i then se3_mul (pl rp F_oMi) (pl r F_liMi) else pl r F_liMi) in   (* 70-73 *)
  let r := setMo r F_v (jv (jd r)) in                                                                        (* 75 *)
  let r := if 0 <? parent m i then setMo r F_v (v6add (mo r F_v) (motion_actInv (pl r F_liMi) (mo rp F_v))) else r in   (* 76-77 *)
  let r := setMo r F_a (v6add (v6add (Smul (jS (jd r)) (velSel m i a)) (jc (jd r))) (motion_cross (mo r F_v) (jv (jd r)))) in  (* 79 *)
  let r := if 0 <? parent m i then setMo r F_a (v6add (mo r F_a) (motion_actInv (pl r F_liMi) (mo rp F_a))) else r in   (* 80-81 *)
  let r := setMo r F_ov (motion_act (pl r F_oMi) (mo r F_v)) in                                              (* 90 *)
  setMo r F_oa (motion_act (pl r F_oMi) (mo r F_a)).                                                         (* 92 *)
(* 86-91: the columns of J and dJ *)
Definition fkdCols (m : Model) (i : nat) (r : Row) (g : Glob) : Glob :=
  let b := jm_idx_v (joint m i) in let n := jnv (jm_type (joint m i)) in
  let g := setCo g F_J (setCols b n (fun k => motion_act (pl r F_oMi) (colOf (jS (jd r)) k)) (co g F_J)) in  (* 89 *)
  setCo g F_dJ (setCols b n (fun k => motion_cross (mo r F_ov) (co g F_J (b + k))) (co g F_dJ)).             (* 91 *)
(* 103-133; mimic joints are rejected by 116 *)
Definition computeForwardKinematicsDerivatives (m : Model) (d : Data) (q v a : vec) : Data :=
  let d := setRow d 0 (setMo (setMo (rows d 0) F_v v6zero) F_a v6zero) in                                    (* 121-122 *)
  upward m (rowStepG m (fkdRow m q v a) (fkdCols m)) d.

(* ---- joints ---- *)
(* data.x[parent] - last, or -last when the parent is the universe: 216-219, 426-429 *)
Definition minusLast (m : Model) (d : Data) (f : MoT) (i j : nat) : V6 :=
  if 0 <? parent m i then v6sub (mo (rows d (parent m i)) f) (mo (rows d j) f) else v6opp (mo (rows d j) f).
(* x.linear() += x.angular().cross(p): 227, 396, 441 *)
Definition moveTo (p : V3) (x : V6) : V6 := mkV6 (v3add (lin x) (v3cross (ang x) p)) (ang x).

(* 157-240 JointVelocityDerivativesBackwardStep; V = (v_partial_dq, v_partial_dv) *)
Definition jvdStep (m : Model) (d : Data) (j : nat) (rf : RefFrame) (V : Jac * Jac) (i : nat) : Jac * Jac :=
  let b := jm_idx_v (joint m i) in let n := jnv (jm_type (joint m i)) in
  let P := pl (rows d j) F_oMi in
  let Jc := fun k => co (gl d) F_J (b + k) in
  let Vv := setCols b n (fun k => toFrame rf P (Jc k)) (snd V) in                                            (* 196-209 *)
  let Vq := match rf with
            | WORLD => setCols b n (fun k => motion_cross (minusLast m d F_ov i j) (Jc k)) (fst V)           (* 215-221 *)
            | LOCAL_WORLD_ALIGNED => setCols b n (fun k => motion_cross (moveTo (trans P) (minusLast m d F_ov i j)) (Vv (b + k))) (fst V)   (* 222-229 *)
            | LOCAL => if 0 <? parent m i then setCols b n (fun k => motion_cross (motion_actInv P (mo (rows d (parent m i)) F_ov)) (Vv (b + k))) (fst V)
                       else fst V                                                                            (* 230-236 *)
            end in
  (Vq, Vv).
(* 249-281; Throw when jointId is out of range (264).  for (i = jointId; i > 0; i = parents[i]) is climbList *)
Definition getJointVelocityDerivatives (m : Model) (d : Data) (j : nat) (rf : RefFrame) (Vq Vv : Jac) : Res unit (Jac * Jac) :=
  if j <? m_njoints m then Ok tt (fold_left (jvdStep m d j rf) (climbList m j j) (Vq, Vv)) else Throw tt.

(* v_partial_dq, a_partial_dq, a_partial_dv, a_partial_da *)
Record AccDer := mkAD { ad_vq : Jac; ad_aq : Jac; ad_av : Jac; ad_aa : Jac }.
(* 301-460 JointAccelerationDerivativesBackwardStep, one case of the three switches at a time *)
Definition jadStep (m : Model) (d : Data) (j : nat) (rf : RefFrame) (A : AccDer) (i : nat) : AccDer :=
  let b := jm_idx_v (joint m i) in let n := jnv (jm_type (joint m i)) in
  let P := pl (rows d j) F_oMi in
  let Jc := fun k => co (gl d) F_J (b + k) in
  let dJc := fun k => co (gl d) F_dJ (b + k) in
  let aa := setCols b n (fun k => toFrame rf P (Jc k)) (ad_aa A) in                                          (* 364-375 *)
  match rf with
  | WORLD =>
      let vtmp := minusLast m d F_ov i j in                                                                  (* 381-384 *)
      let vq := setCols b n (fun k => motion_cross vtmp (Jc k)) (ad_vq A) in                                 (* 387 *)
      let av := setCols b n (fun k => v6add (vq (b + k)) (dJc k)) (ad_av A) in                               (* 389 *)
      let aq := setCols b n (fun k => motion_cross (minusLast m d F_oa i j) (Jc k)) (ad_aq A) in             (* 426-430 *)
      let aq := if 0 <? parent m i then plusCols b n (fun k => motion_cross vtmp (dJc k)) aq else aq in      (* 432-433 *)
      mkAD vq aq av aa
  | LOCAL_WORLD_ALIGNED =>
      let vtmp := moveTo (trans P) (minusLast m d F_ov i j) in                                               (* 392-396 *)
      let vq := setCols b n (fun k => motion_cross vtmp (aa (b + k))) (ad_vq A) in                           (* 399 *)
      let av := setCols b n (fun k => toFrame LOCAL_WORLD_ALIGNED P (dJc k)) (ad_av A) in                    (* 401 *)
      let aq := setCols b n (fun k => motion_cross (moveTo (trans P) (minusLast m d F_oa i j)) (aa (b + k))) (ad_aq A) in   (* 436-442 *)
      let aq := if 0 <? parent m i then plusCols b n (fun k => motion_cross vtmp (av (b + k))) aq else aq in (* 444-445 *)
      let av := plusCols b n (fun k => vq (b + k)) av in                                                     (* 447 *)
      mkAD vq aq av aa
  | LOCAL =>
      let vp := motion_actInv P (mo (rows d (parent m i)) F_ov) in                                           (* 408 *)
      let vq := if 0 <? parent m i then setCols b n (fun k => motion_cross vp (aa (b + k))) (ad_vq A) else ad_vq A in   (* 406-410 *)
      let vtmp := if 0 <? parent m i then v6sub vp (mo (rows d j) F_v) else v6opp (mo (rows d j) F_v) in     (* 412-415 *)
      let av := setCols b n (fun k => motion_cross vtmp (aa (b + k))) (ad_av A) in                           (* 417 *)
      let av := plusCols b n (fun k => motion_actInv P (dJc k)) av in                                        (* 418 *)
      let aq := if 0 <? parent m i then
          let atmp := motion_actInv P (mo (rows d (parent m i)) F_oa) in                                     (* 452 *)
          plusCols b n (fun k => motion_cross vtmp (vq (b + k))) (setCols b n (fun k => motion_cross atmp (aa (b + k))) (ad_aq A))   (* 453-455 *)
        else ad_aq A in
      mkAD vq aq av aa
  end.
(* 471-514 *)
Definition getJointAccelerationDerivatives (m : Model) (d : Data) (j : nat) (rf : RefFrame) (A : AccDer) : Res unit AccDer :=
  if j <? m_njoints m then Ok tt (fold_left (jadStep m d j rf) (climbList m j j) A) else Throw tt.
(* 516-542: v_partial_dv = a_partial_da, the whole matrix *)
Definition getJointAccelerationDerivatives5 (m : Model) (d : Data) (j : nat) (rf : RefFrame) (A : AccDer) : Res unit (AccDer * Jac) :=
  match getJointAccelerationDerivatives m d j rf A with Ok s A => Ok s (A, ad_aa A) | Throw s => Throw s | Undef => Undef end.

(* ---- frames (frames-derivatives.hxx) ---- *)
(* the second loop: columns colRef, parents_fromRow[colRef], ...; 48-80, 136-178 *)
Definition reframe (rf : RefFrame) (P M : SE3) (x : V6) : V6 :=
  match rf with
  | WORLD => x
  | LOCAL_WORLD_ALIGNED => mkV6 (v3sub (lin x) (v3cross (m3vec (rot P) (trans M)) (ang x))) (ang x)          (* 61, 149 *)
  | LOCAL => motion_actInv M x                                                                              (* 72, 165 *)
  end.
Definition reframeCols (m : Model) (d : Data) (j : nat) (rf : RefFrame) (M : SE3) (X : Jac) : Jac :=
  match rf with
  | WORLD => X                                                                                              (* 52-54 *)
  | _ => fold_left (fun X e => putn X e (reframe rf (pl (rows d j) F_oMi) M (X e)))
           (walk (t_par (rowTables m)) (S (m_nvE m)) (Z.of_nat (jnv (jm_type (joint m j))) + Z.of_nat (jm_idx_v (joint m j)) - 1)%Z) X
  end.
(* 20-81; the two matrices are rewritten column by column in one loop: two loops here *)
Definition getFrameVelocityDerivatives (m : Model) (d : Data) (j : nat) (M : SE3) (rf : RefFrame) (Vq Vv : Jac) : Res unit (Jac * Jac) :=
  match getJointVelocityDerivatives m d j rf Vq Vv with
  | Ok s (Vq, Vv) => Ok s (reframeCols m d j rf M Vq, reframeCols m d j rf M Vv)
  | Throw s => Throw s | Undef => Undef
  end.
(* 91-178 *)
Definition getFrameAccelerationDerivatives (m : Model) (d : Data) (j : nat) (M : SE3) (rf : RefFrame) (A : AccDer) : Res unit AccDer :=
  match getJointAccelerationDerivatives m d j rf A with
  | Ok s A => Ok s (mkAD (reframeCols m d j rf M (ad_vq A)) (reframeCols m d j rf M (ad_aq A)) (reframeCols m d j rf M (ad_av A)) (reframeCols m d j rf M (ad_aa A)))
  | Throw s => Throw s | Undef => Undef
  end.

(* ---- points: matrices with three rows ---- *)
Definition Jac3 := nat -> V3.
(* the linear part of the cross product of two motions, as written in 623-624, 810-811, 830-831, 836-837 *)
Definition crossLin (x y : V6) : V3 := v3add (v3cross (ang x) (lin y)) (v3cross (lin x) (ang y)).
(* 572-643 PointVelocityDerivativesBackwardStep; vp = spatial velocity of the point *)
Definition pvdStep (m : Model) (d : Data) (P : SE3) (vp : V6) (rf : RefFrame) (V : Jac3 * Jac3) (i : nat) : Jac3 * Jac3 :=
  let b := jm_idx_v (joint m i) in let n := jnv (jm_type (joint m i)) in
  let Jl := fun k => motion_actInv P (co (gl d) F_J (b + k)) in                                              (* 614 *)
  let Vv := setCols b n (fun k => lin (Jl k)) (snd V) in                                                     (* 615 *)
  let Vq := if 0 <? parent m i
            then let vtmp := motion_actInv P (mo (rows d (parent m i)) F_ov) in setCols b n (fun k => crossLin vtmp (Jl k)) (fst V)   (* 618-625 *)
            else setCols b n (fun _ => v3zero) (fst V) in                                                    (* 627 *)
  match rf with
  | LOCAL_WORLD_ALIGNED =>
      (setCols b n (fun k => m3vec (rot P) (v3add (Vq (b + k)) (v3cross (ang (Jl k)) (lin vp)))) Vq,         (* 631-635 *)
       setCols b n (fun k => m3vec (rot P) (Vv (b + k))) Vv)                                                 (* 636-637 *)
  | _ => (Vq, Vv)
  end.
(* 652-694; Throw when the joint is out of range (670) or for the WORLD frame (671-673) *)
Definition getPointVelocityDerivatives (m : Model) (d : Data) (j : nat) (M : SE3) (rf : RefFrame) (Vq Vv : Jac3) : Res unit (Jac3 * Jac3) :=
  if j <? m_njoints m then
    match rf with
    | WORLD => Throw tt
    | _ => let P := se3_mul (pl (rows d j) F_oMi) M in                                                       (* 680 *)
           Ok tt (fold_left (pvdStep m d P (motion_actInv P (mo (rows d j) F_ov)) rf) (climbList m j j) (Vq, Vv))   (* 681-692 *)
    end
  else Throw tt.
Record PAccDer := mkPAD { pd_vq : Jac3; pd_aq : Jac3; pd_av : Jac3; pd_aa : Jac3 }.
(* the terms called wxv: 819-821, 841-843 *)
Definition wxv (vl x : V6) : V3 := v3sub (v3cross (ang vl) (lin x)) (v3cross (lin vl) (ang x)).
(* 713-869 PointClassicAccelerationDerivativesBackwardStep; vl = spatial_point_velocity = v_last, acc = point_classic_acceleration *)
Definition padStep (m : Model) (d : Data) (P : SE3) (vl : V6) (acc : V3) (rf : RefFrame) (A : PAccDer) (i : nat) : PAccDer :=
  let b := jm_idx_v (joint m i) in let n := jnv (jm_type (joint m i)) in
  let Jl := fun k => motion_actInv P (co (gl d) F_J (b + k)) in                                              (* 788 *)
  let dJc := fun k => co (gl d) F_dJ (b + k) in
  let vp := motion_actInv P (mo (rows d (parent m i)) F_ov) in                                               (* 795 *)
  let vsq := fun k => motion_cross vp (Jl k) in                                                              (* 796 *)
  let aa := setCols b n (fun k => lin (Jl k)) (pd_aa A) in                                                   (* 789 *)
  let vq := if 0 <? parent m i then setCols b n (fun k => lin (vsq k)) (pd_vq A) else setCols b n (fun _ => v3zero) (pd_vq A) in   (* 793-800 *)
  let vtmp := if 0 <? parent m i then v6sub vp vl else v6opp vl in                                           (* 802-805 *)
  let av := setCols b n (fun k => crossLin vtmp (Jl k)) (pd_av A) in                                         (* 808-811 *)
  let av := setCols b n (fun k => v3add (av (b + k)) (m3vec (m3tr (rot P)) (v3add (lin (dJc k)) (v3cross (ang (dJc k)) (trans P))))) av in   (* 813-816 *)
  let av := setCols b n (fun k => v3add (av (b + k)) (wxv vl (Jl k))) av in                                  (* 818-821 *)
  let aq := if 0 <? parent m i then
      let atmp := motion_actInv P (mo (rows d (parent m i)) F_oa) in                                         (* 826 *)
      let aq := setCols b n (fun k => crossLin atmp (Jl k)) (pd_aq A) in                                     (* 828-831 *)
      let aq := setCols b n (fun k => v3add (aq (b + k)) (crossLin vtmp (vsq k))) aq in                      (* 834-837 *)
      setCols b n (fun k => v3add (aq (b + k)) (wxv vl (vsq k))) aq                                          (* 840-843 *)
    else setCols b n (fun _ => v3zero) (pd_aq A) in                                                          (* 846 *)
  match rf with
  | LOCAL_WORLD_ALIGNED =>
      mkPAD (setCols b n (fun k => m3vec (rot P) (v3add (vq (b + k)) (v3cross (ang (Jl k)) (lin vl)))) vq)   (* 851-855 *)
            (setCols b n (fun k => m3vec (rot P) (v3add (aq (b + k)) (v3cross (ang (Jl k)) acc))) aq)        (* 856-859 *)
            (setCols b n (fun k => m3vec (rot P) (av (b + k))) av)                                           (* 860-861 *)
            (setCols b n (fun k => m3vec (rot P) (aa (b + k))) aa)                                           (* 862-863 *)
  | _ => mkPAD vq aq av aa
  end.
(* spatial/classic-acceleration.hpp 29-40 classicAcceleration(v, a) *)
Definition classicAcceleration (v a : V6) : V3 := v3add (lin a) (v3cross (ang v) (lin v)).
(* 880-931 *)
Definition getPointClassicAccelerationDerivatives (m : Model) (d : Data) (j : nat) (M : SE3) (rf : RefFrame) (A : PAccDer) : Res unit PAccDer :=
  if j <? m_njoints m then
    match rf with
    | WORLD => Throw tt
    | _ => let P := se3_mul (pl (rows d j) F_oMi) M in
           let vl := motion_actInv P (mo (rows d j) F_ov) in
           let al := motion_actInv P (mo (rows d j) F_oa) in
           Ok tt (fold_left (padStep m d P vl (classicAcceleration vl al) rf) (climbList m j j) A)
    end
  else Throw tt.
(* 943-965: v_point_partial_dv = a_point_partial_da *)
Definition getPointClassicAccelerationDerivatives5 (m : Model) (d : Data) (j : nat) (M : SE3) (rf : RefFrame) (A : PAccDer) : Res unit (PAccDer * Jac3) :=
  match getPointClassicAccelerationDerivatives m d j M rf A with Ok s A => Ok s (A, pd_aa A) | Throw s => Throw s | Undef => Undef end.
