(* Independent description of the dynamics of a kinematic tree: accelerations, momenta and the principle of virtual power. *)
Require Import Reals List Arith.
From Verif Require Import Vec3 Spatial Inertia Joints Spec_Joints Deriv Model Spec_Model Spec_Kin Sums.
Import ListNotations.
Local Open Scope R_scope.

(* acceleration that joint i adds to its body, in the frame of the body: S a + c + v x (S v) *)
Definition jointAcc (m : Model) (q v a : nat -> R) (i : nat) : V6 :=
  v6add (v6add (Smul (jS (jointAt m q noVel i)) (shift (idx_v m i) a)) (jc (jointAt m q v i)))
        (motion_cross (bodyVel m q v i) (jointTwist m q v i)).
(* acceleration of body i: the sum over its support, each term moved to the frame of joint i.
   DynFacts.bodyAcc_deriv: along every trajectory this is the time derivative of bodyVel. *)
Definition bodyAcc (m : Model) (q v a : nat -> R) (i : nat) : V6 :=
  sumV6 (map (fun j => motion_actInv (worldPl m q i) (motion_act (worldPl m q j) (jointAcc m q v a j))) (tl (support m i))).
(* gravity field in the frame of body i *)
Definition gravityAt (m : Model) (q : nat -> R) (i : nat) : V6 := motion_actInv (worldPl m q i) (m_gravity m).

(* wrench that moves body i: rate of change of its momentum minus its weight *)
Definition bodyForce (m : Model) (q v a : nat -> R) (i : nat) : V6 :=
  v6add (inertia_mul (inertiaOf m i) (v6sub (bodyAcc m q v a i) (gravityAt m q i)))
        (force_cross (bodyVel m q v i) (inertia_mul (inertiaOf m i) (bodyVel m q v i))).
(* spatial momentum of body i, expressed in the world *)
Definition worldMomentum (m : Model) (q v : nat -> R) (i : nat) : V6 :=
  force_act (worldPl m q i) (inertia_mul (inertiaOf m i) (bodyVel m q v i)).
(* weight of body i: the inertial wrench of the gravity field, expressed in the world *)
Definition worldWeight (m : Model) (q : nat -> R) (i : nat) : V6 :=
  force_act (worldPl m q i) (inertia_mul (inertiaOf m i) (gravityAt m q i)).

(* sum over the bodies 1 .. njoints-1 *)
Definition bodies (m : Model) (f : nat -> R) : R := sumN (m_njoints m - 1) (fun k => f (S k)).
(* power of the body wrenches F when the joints move with velocity w *)
Definition power (m : Model) (q : nat -> R) (F : nat -> V6) (w : nat -> R) : R :=
  bodies m (fun i => v6dot (bodyVel m q w i) (F i)).
(* rotor inertias *)
Definition armaturePower (m : Model) (a w : nat -> R) : R := sumN (m_nv m) (fun k => nth k (m_armature m) 0 * a k * w k).
(* the kinetic-energy form of the bodies: <w, M(q) w'> *)
Definition kineticForm (m : Model) (q w w' : nat -> R) : R :=
  bodies m (fun i => v6dot (bodyVel m q w i) (inertia_mul (inertiaOf m i) (bodyVel m q w' i))).
(* entry (k,l) of the joint-space inertia matrix, rotor inertias on the diagonal *)
Definition massMatrix (m : Model) (q : nat -> R) (k l : nat) : R :=
  kineticForm m q (unitv k) (unitv l) + (if Nat.eqb k l then nth k (m_armature m) 0 else 0).
