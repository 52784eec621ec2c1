(* algorithm/frames.hxx 373-461: the inertia and the force supported by a frame. *)
Require Import Reals List Arith.
From Verif Require Import Vec3 Spatial Inertia Joints Model Spec_Model Data Kinematics.
Import ListNotations.
Local Open Scope nat_scope.

(* 389-401: one turn of the loop over the frames placed after frame f; the state is (child_frames, I) *)
Definition childStep (eps : R) (m : Model) (f : nat) (s : list nat * Inertia) (i : nat) : list nat * Inertia :=
  if negb (fr_parentJoint (frameAt m i) =? fr_parentJoint (frameAt m f)) then s                       (* 392-393 *)
  else if negb (existsb (Nat.eqb (fr_parentFrame (frameAt m i))) (fst s)) then s                      (* 394-397 *)
  else (fst s ++ [i], inertia_pequ eps (snd s) (inertia_act (fr_placement (frameAt m i)) (fr_inertia (frameAt m i)))).  (* 398-399 *)
(* 388-401, in the frame of the joint *)
Definition frameInertias (eps : R) (m : Model) (f : nat) : Inertia :=
  snd (fold_left (childStep eps m f) (seq (S f) (m_nframes m - S f))
         ([f], inertia_act (fr_placement (frameAt m f)) (fr_inertia (frameAt m f)))).
(* 373-424 computeSupportedInertiaByFrame.  383: model.frames[frame_id] is not checked; the model is meant for f < nframes. *)
Definition computeSupportedInertiaByFrame (eps : R) (m : Model) (d : Data) (f : nat) (with_subtree : bool) : Inertia :=
  let P := fr_placement (frameAt m f) in
  let j := fr_parentJoint (frameAt m f) in
  let I := frameInertias eps m f in
  if negb with_subtree then inertia_actInv P I                                                        (* 403-406 *)
  else
    let I := inertia_act (pl (rows d j) F_oMi) I in                                                   (* 409 *)
    let I := fold_left (fun I b => inertia_pequ eps I (inertia_act (pl (rows d b) F_oMi) (inertiaOf m b)))
               (skipn 1 (subtree m j)) I in                                                           (* 412-418 *)
    inertia_actInv (se3_mul (pl (rows d j) F_oMi) P) I.                                               (* 420-421 *)
(* 426-461 computeSupportedForceByFrame *)
Definition computeSupportedForceByFrame (eps : R) (m : Model) (d : Data) (f : nat) : Force :=
  let P := fr_placement (frameAt m f) in
  let j := fr_parentJoint (frameAt m f) in
  let fI := computeSupportedInertiaByFrame eps m d f false in                                         (* 439 *)
  let oMf := se3_mul (pl (rows d j) F_oMi) P in                                                       (* 440 *)
  let v := getFrameVelocity d j P LOCAL in
  let a := getFrameAcceleration d j P LOCAL in
  let fo := v6add (inertia_vxiv fI v) (inertia_mul fI (v6sub a (motion_actInv oMf (m_gravity m)))) in (* 443 *)
  let fo := force_act P fo in                                                                         (* 446 *)
  let fo := fold_left (fun fo c => if negb (parent m c =? j) then fo
                                   else v6add fo (force_act (pl (rows d c) F_liMi) (mo (rows d c) F_f)))
              (skipn 1 (subtree m j)) fo in                                                           (* 447-457 *)
  force_actInv P fo.                                                                                  (* 460 *)
