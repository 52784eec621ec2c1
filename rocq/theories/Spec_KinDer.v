(* Specification used by the derivatives of the kinematics. *)
Require Import Reals List Arith.
From Verif Require Import Vec3 Spatial Inertia Joints Spec_Joints Deriv Model Spec_Model Sums Data Kinematics Spec_Kin.
Local Open Scope nat_scope.

(* a velocity (or a spatial acceleration) given at the origin of the world, seen at the point p of the world *)
Definition seenAt (p : V3) (x : V6) : V6 := mkV6 (v3sub (lin x) (v3cross p (ang x))) (ang x).
(* the velocity of joint j that the derivatives refer to; in the LOCAL_WORLD_ALIGNED frame, the velocity of the body at the FIXED point p of the world *)
Definition jointVelocityAt (p : V3) (d : Data) (j : nat) (rf : RefFrame) : V6 :=
  match rf with LOCAL_WORLD_ALIGNED => seenAt p (getVelocity d j WORLD) | _ => getVelocity d j rf end.
Definition jointAccelerationAt (p : V3) (d : Data) (j : nat) (rf : RefFrame) : V6 :=
  match rf with LOCAL_WORLD_ALIGNED => seenAt p (getAcceleration d j WORLD) | _ => getAcceleration d j rf end.
(* joints that are not attached to the universe have commuting axes (joints with one degree of freedom, translations) *)
Definition commutingAxes (m : Model) (q : vec) : Prop :=
  forall i, 0 < i < m_njoints m -> 0 < parent m i -> forall x y, motion_cross (jointTwist m q x i) (jointTwist m q y i) = v6zero.
(* column k belongs to joint i *)
Definition columnOf (m : Model) (i k : nat) : Prop := idx_v m i <= k < idx_v m i + nvOf m i.
(* matrices with three rows: product by a vector, and the matrix filled with zeros *)
Fixpoint colsMul3 (n : nat) (X : nat -> V3) (w : nat -> R) : V3 := match n with O => v3zero | S k => v3add (colsMul3 k X w) (v3scale (w k) (X k)) end.
Definition zeroJ3 : nat -> V3 := fun _ => v3zero.
(* the same for the frame placed at M on joint j *)
Definition frameVelocityAt (p : V3) (d : Data) (j : nat) (M : SE3) (rf : RefFrame) : V6 :=
  match rf with LOCAL_WORLD_ALIGNED => seenAt p (getFrameVelocity d j M WORLD) | _ => getFrameVelocity d j M rf end.
Definition frameAccelerationAt (p : V3) (d : Data) (j : nat) (M : SE3) (rf : RefFrame) : V6 :=
  match rf with LOCAL_WORLD_ALIGNED => seenAt p (getFrameAcceleration d j M WORLD) | _ => getFrameAcceleration d j M rf end.
