(* algorithm/utils/motion.hpp, algorithm/utils/force.hpp *)
Require Import Reals.
From Verif Require Import Vec3 Spatial Kinematics.
Local Open Scope R_scope.

(* motion.hpp 19-75, 90-103: changeReferenceFrame; m_out does not alias m_in.  The tests are read in the order of the source; the assertion of 73 is not reached *)
Definition changeMotion (M : SE3) (v : Motion) (rin rout : RefFrame) : Motion :=
  match rin, rout with
  | LOCAL, LOCAL | WORLD, WORLD | LOCAL_WORLD_ALIGNED, LOCAL_WORLD_ALIGNED => v                                     (* 27-31 *)
  | LOCAL, WORLD => motion_act M v                                                                                 (* 34-38 *)
  | WORLD, LOCAL => motion_actInv M v                                                                              (* 39-43 *)
  | LOCAL, LOCAL_WORLD_ALIGNED => mkV6 (m3vec (rot M) (lin v)) (m3vec (rot M) (ang v))                             (* 46-51 *)
  | LOCAL_WORLD_ALIGNED, LOCAL => mkV6 (m3vec (m3tr (rot M)) (lin v)) (m3vec (m3tr (rot M)) (ang v))               (* 52-57 *)
  | WORLD, LOCAL_WORLD_ALIGNED => mkV6 (v3add (lin v) (v3cross (ang v) (trans M))) (ang v)                         (* 60-65 *)
  | LOCAL_WORLD_ALIGNED, WORLD => mkV6 (v3sub (lin v) (v3cross (ang v) (trans M))) (ang v)                         (* 66-71 *)
  end.
(* force.hpp 18-74, 89-102 *)
Definition changeForce (M : SE3) (f : Force) (rin rout : RefFrame) : Force :=
  match rin, rout with
  | LOCAL, LOCAL | WORLD, WORLD | LOCAL_WORLD_ALIGNED, LOCAL_WORLD_ALIGNED => f                                     (* 26-30 *)
  | LOCAL, WORLD => force_act M f                                                                                  (* 33-37 *)
  | WORLD, LOCAL => force_actInv M f                                                                               (* 38-42 *)
  | LOCAL, LOCAL_WORLD_ALIGNED => mkV6 (m3vec (rot M) (lin f)) (m3vec (rot M) (ang f))                             (* 45-50 *)
  | LOCAL_WORLD_ALIGNED, LOCAL => mkV6 (m3vec (m3tr (rot M)) (lin f)) (m3vec (m3tr (rot M)) (ang f))               (* 51-56 *)
  | WORLD, LOCAL_WORLD_ALIGNED => mkV6 (lin f) (v3add (ang f) (v3cross (lin f) (trans M)))                         (* 59-64 *)
  | LOCAL_WORLD_ALIGNED, WORLD => mkV6 (lin f) (v3sub (ang f) (v3cross (lin f) (trans M)))                         (* 65-70 *)
  end.
