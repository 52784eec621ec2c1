(* Independent description of the motion of a kinematic tree. *)
Require Import Reals List Arith.
From Verif Require Import Vec3 Spatial Inertia Joints Spec_Joints Deriv Model Spec_Model.
Import ListNotations.
Local Open Scope R_scope.

(* what joint i computes from the configuration and velocity vectors of the whole model *)
Definition jointAt (m : Model) (q v : nat -> R) (i : nat) : JData :=
  jcalc (jm_type (joint m i)) (shift (idx_q m i) q) (shift (idx_v m i) v).
Definition noVel : nat -> R := fun _ => 0.
(* placement of joint i in its parent *)
Definition relPl (m : Model) (q : nat -> R) (i : nat) : SE3 := se3_mul (placementOf m i) (jM (jointAt m q noVel i)).
(* ordered product of relative placements *)
Fixpoint product (m : Model) (q : nat -> R) (l : list nat) : SE3 :=
  match l with [] => se3_Identity | j :: r => se3_mul (relPl m q j) (product m q r) end.
(* placement of joint i in the world: product over its support, the universe left out *)
Definition worldPl (m : Model) (q : nat -> R) (i : nat) : SE3 := product m q (tl (support m i)).

(* twist of joint i with respect to its parent, for joint velocities w *)
Definition jointTwist (m : Model) (q w : nat -> R) (i : nat) : V6 := Smul (jS (jointAt m q noVel i)) (shift (idx_v m i) w).
Fixpoint sumV6 (l : list V6) : V6 := match l with [] => v6zero | a :: r => v6add a (sumV6 r) end.
(* body velocity of joint i: joint twists along the support, each moved to the frame of joint i *)
Definition bodyVel (m : Model) (q w : nat -> R) (i : nat) : V6 :=
  sumV6 (map (fun j => motion_actInv (worldPl m q i) (motion_act (worldPl m q j) (jointTwist m q w j))) (tl (support m i))).

(* admissible configurations *)
Definition validState (m : Model) (q : nat -> R) : Prop :=
  forall i, (0 < i < m_njoints m)%nat -> validConfig (jm_type (joint m i)) (shift (idx_q m i) q).
(* the trajectory q has velocity w at time t *)
Definition moves (m : Model) (q : R -> nat -> R) (w : nat -> R) (t : R) : Prop :=
  forall i k, (0 < i < m_njoints m)%nat -> (k < readsQ (jm_type (joint m i)))%nat ->
    deriv (fun s => q s (idx_q m i + k)%nat)
          (configRate (jm_type (joint m i)) (shift (idx_q m i) (q t)) (shift (idx_v m i) w) k) t.
(* the velocity v has derivative a at time t *)
Definition accelerates (m : Model) (v : R -> nat -> R) (a : nat -> R) (t : R) : Prop :=
  forall k, (k < m_nv m)%nat -> deriv (fun s => v s k) (a k) t.

(* the point of the world occupied by point p of a moving frame *)
Definition worldPoint (M : R -> SE3) (p : V3) : R -> V3 := fun s => se3_actPoint (M s) p.
