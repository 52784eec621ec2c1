(* algorithm/kinematics.hxx and the frame part of algorithm/frames.hxx.
   Configuration, velocity and acceleration vectors are functions from indexes to reals; the size checks at the head of
   each algorithm (PINOCCHIO_CHECK_ARGUMENT_SIZE) are not modelled. *)
Require Import Reals String List Arith Lia.
From Verif Require Import Vec3 Spatial Inertia Joints Model Spec_Model Data.
Import ListNotations.
Local Open Scope nat_scope.
Local Open Scope string_scope.
Local Open Scope list_scope.
Local Open Scope nat_scope.

Definition vec := nat -> R.

(* jmodel.calc(jdata, q, v): q.segment(idx_q) and v.segment(idx_v) of the joint (joint-*.hpp; visitor in joint-basic-visitors.hxx) *)
Definition calcJoint (m : Model) (i : nat) (q v : vec) : JData :=
  jcalc (jm_type (joint m i)) (shift (jm_idx_q (joint m i)) q) (shift (jm_idx_v (joint m i)) v).
(* jmodel.calc(jdata, q) *)
Definition calcJoint0 (m : Model) (i : nat) (d : JData) (q : vec) : JData :=
  jcalc0 (jm_type (joint m i)) d (shift (jm_idx_q (joint m i)) q).
(* jmodel.JointMappedVelocitySelector(a) / jointVelocitySelector(a): the segment of the joint *)
Definition velSel (m : Model) (i : nat) (a : vec) : vec := shift (jm_idx_v (joint m i)) a.

(* kinematics.hxx 28-31, 68-71: data.oMi[i] = parent > 0 ? data.oMi[parent] * data.liMi[i] : data.liMi[i] *)
Definition place (m : Model) (i : nat) (r rp : Row) : Row :=
  setPl r F_oMi (if 0 <? parent m i then se3_mul (pl rp F_oMi) (pl r F_liMi) else pl r F_liMi).

(* kinematics.hxx 16-33 updateGlobalPlacements *)
Definition updateGlobalPlacements (m : Model) (d : Data) : Data := upward m (rowStep m (place m)) d.

(* kinematics.hxx 52-72 ForwardKinematicZeroStep *)
Definition fk0Row (m : Model) (q : vec) (i : nat) (r rp : Row) : Row :=
  let r := setJd r (calcJoint0 m i (jd r) q) in
  let r := setPl r F_liMi (se3_mul (placementOf m i) (jM (jd r))) in
  place m i r rp.
(* kinematics.hxx 80-97 *)
Definition forwardKinematics0 (m : Model) (d : Data) (q : vec) : Data := upward m (rowStep m (fk0Row m q)) d.

(* kinematics.hxx 121-146 ForwardKinematicFirstStep *)
Definition fk1Row (m : Model) (q v : vec) (i : nat) (r rp : Row) : Row :=
  let r := setJd r (calcJoint m i q v) in
  let r := setMo r F_v (jv (jd r)) in
  let r := setPl r F_liMi (se3_mul (placementOf m i) (jM (jd r))) in
  if 0 <? parent m i
  then let r := setPl r F_oMi (se3_mul (pl rp F_oMi) (pl r F_liMi)) in
       setMo r F_v (v6add (mo r F_v) (motion_actInv (pl r F_liMi) (mo rp F_v)))
  else setPl r F_oMi (pl r F_liMi).
(* kinematics.hxx 155-179; data.v[0].setZero() *)
Definition forwardKinematics1 (m : Model) (d : Data) (q v : vec) : Data :=
  let d := setRow d 0 (setMo (rows d 0) F_v v6zero) in
  upward m (rowStep m (fk1Row m q v)) d.

(* kinematics.hxx 208-239 ForwardKinematicSecondStep *)
Definition fk2Row (m : Model) (q v a : vec) (i : nat) (r rp : Row) : Row :=
  let r := fk1Row m q v i r rp in                                 (* 223-234 repeat the first-order step *)
  let r := setMo r F_a (v6add (v6add (Smul (jS (jd r)) (velSel m i a)) (jc (jd r)))
                              (motion_cross (mo r F_v) (jv (jd r)))) in
  setMo r F_a (v6add (mo r F_a) (motion_actInv (pl r F_liMi) (mo rp F_a))).
(* kinematics.hxx 249-277 *)
Definition forwardKinematics2 (m : Model) (d : Data) (q v a : vec) : Data :=
  let d := setRow d 0 (setMo (setMo (rows d 0) F_v v6zero) F_a v6zero) in
  upward m (rowStep m (fk2Row m q v a)) d.

(* multibody/fwd.hpp 46-52 *)
Inductive RefFrame := WORLD | LOCAL | LOCAL_WORLD_ALIGNED.
Inductive Convention := C_WORLD | C_LOCAL.

(* kinematics.hxx 301-313: the two loops; supports[j] read from its end down to index k+1 *)
Definition chainBack (m : Model) (d : Data) (s : list nat) (k : nat) : SE3 :=
  fold_left (fun M j => se3_mul (pl (rows d j) F_liMi) M) (rev (skipn (S k) s)) se3_Identity.
(* kinematics.hxx 282-321 getRelativePlacement *)
Definition getRelativePlacement (m : Model) (d : Data) (ref target : nat) (c : Convention) : Res unit SE3 :=
  match c with
  | C_LOCAL =>
      match findCommonAncestor m ref target with
      | Ok _ (_, kr, kt) =>
          Ok tt (se3_actInv_se3 (chainBack m d (nth ref (m_supports m) []) kr) (chainBack m d (nth target (m_supports m) []) kt))
      | Throw s => Throw s
      | Undef => Undef
      end
  | C_WORLD => Ok tt (se3_actInv_se3 (pl (rows d ref) F_oMi) (pl (rows d target) F_oMi))
  end.

Definition rotateBoth (Rm : M3) (v : V6) : V6 := mkV6 (m3vec Rm (lin v)) (m3vec Rm (ang v)).
(* kinematics.hxx 325-345 getVelocity *)
Definition getVelocity (d : Data) (i : nat) (rf : RefFrame) : Motion :=
  let r := rows d i in
  match rf with
  | LOCAL => mo r F_v
  | WORLD => motion_act (pl r F_oMi) (mo r F_v)
  | LOCAL_WORLD_ALIGNED => rotateBoth (rot (pl r F_oMi)) (mo r F_v)
  end.
(* kinematics.hxx 349-370 getAcceleration *)
Definition getAcceleration (d : Data) (i : nat) (rf : RefFrame) : Motion :=
  let r := rows d i in
  match rf with
  | LOCAL => mo r F_a
  | WORLD => motion_act (pl r F_oMi) (mo r F_a)
  | LOCAL_WORLD_ALIGNED => rotateBoth (rot (pl r F_oMi)) (mo r F_a)
  end.
(* kinematics.hxx 373-388 getClassicalAcceleration *)
Definition getClassicalAcceleration (d : Data) (i : nat) (rf : RefFrame) : Motion :=
  let vel := getVelocity d i rf in
  let acc := getAcceleration d i rf in
  mkV6 (v3add (lin acc) (v3cross (ang vel) (lin vel))) (ang acc).

(* ---- frames.hxx ---- *)
Definition dFrame : Frame := mkFrame "" 0 0 se3_Identity OP_FRAME inertia_Zero.
Definition frameAt (m : Model) (f : nat) : Frame := nth f (m_frames m) dFrame.

(* frames.hxx 16-35 updateFramePlacements *)
Definition updateFramePlacements (m : Model) (d : Data) : Data :=
  fold_left (fun d f => setGl d (setOMf (gl d) (putn (oMf (gl d)) f
      (se3_mul (pl (rows d (fr_parentJoint (frameAt m f))) F_oMi) (fr_placement (frameAt m f))))))
    (seq 1 (m_nframes m - 1)) d.
(* frames.hxx 38-52 updateFramePlacement *)
Definition updateFramePlacement (m : Model) (d : Data) (f : nat) : Data :=
  setGl d (setOMf (gl d) (putn (oMf (gl d)) f
      (se3_mul (pl (rows d (fr_parentJoint (frameAt m f))) F_oMi) (fr_placement (frameAt m f))))).
(* frames.hxx 59-68 *)
Definition framesForwardKinematics (m : Model) (d : Data) (q : vec) : Data :=
  updateFramePlacements m (forwardKinematics0 m d q).

(* frames.hxx 71-99 getFrameVelocity(joint, placement); frames.hpp 119-142: the overload on a frame index passes
   frame.parentJoint and frame.placement *)
Definition getFrameVelocity (d : Data) (j : nat) (P : SE3) (rf : RefFrame) : Motion :=
  let r := rows d j in
  match rf with
  | LOCAL => motion_actInv P (mo r F_v)
  | WORLD => motion_act (pl r F_oMi) (mo r F_v)
  | LOCAL_WORLD_ALIGNED =>
      mkV6 (m3vec (rot (pl r F_oMi)) (v3add (lin (mo r F_v)) (v3cross (ang (mo r F_v)) (trans P))))
           (m3vec (rot (pl r F_oMi)) (ang (mo r F_v)))
  end.
(* frames.hxx 102-130 getFrameAcceleration *)
Definition getFrameAcceleration (d : Data) (j : nat) (P : SE3) (rf : RefFrame) : Motion :=
  let r := rows d j in
  match rf with
  | LOCAL => motion_actInv P (mo r F_a)
  | WORLD => motion_act (pl r F_oMi) (mo r F_a)
  | LOCAL_WORLD_ALIGNED =>
      mkV6 (m3vec (rot (pl r F_oMi)) (v3add (lin (mo r F_a)) (v3cross (ang (mo r F_a)) (trans P))))
           (m3vec (rot (pl r F_oMi)) (ang (mo r F_a)))
  end.
(* frames.hxx 133-149 getFrameClassicalAcceleration *)
Definition getFrameClassicalAcceleration (d : Data) (j : nat) (P : SE3) (rf : RefFrame) : Motion :=
  let vel := getFrameVelocity d j P rf in
  let acc := getFrameAcceleration d j P rf in
  mkV6 (v3add (lin acc) (v3cross (ang vel) (lin vel))) (ang acc).
