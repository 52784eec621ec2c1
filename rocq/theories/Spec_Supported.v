(* What a frame supports: the bodies mounted on it and, through the joint that carries it, the joints below. *)
Require Import Reals List Arith.
From Verif Require Import Vec3 Spatial Inertia Spec_Spatial Joints Model Spec_Model Kinematics Spec_Kin Spec_Dyn Spec_Mass.
Import ListNotations.
Local Open Scope nat_scope.

(* frame g is f, or is mounted, on the same joint, on a frame that f carries *)
Inductive carried (m : Model) (f : nat) : nat -> Prop :=
| carried_self : carried m f f
| carried_on g : g < m_nframes m -> fr_parentJoint (frameAt m g) = fr_parentJoint (frameAt m f) ->
    carried m f (fr_parentFrame (frameAt m g)) -> carried m f g.
(* joint b is strictly below joint j *)
Definition below (m : Model) (j b : nat) : Prop := b < m_njoints m /\ onPath m j b /\ b <> j.
(* l lists the elements of P, each once *)
Definition enumerates (l : list nat) (P : nat -> Prop) : Prop := NoDup l /\ forall x, In x l <-> P x.

(* frames are added after the frame they are mounted on; frame 0 is the universe *)
Definition framesOrdered (m : Model) : Prop := forall g, g < m_nframes m ->
  fr_parentFrame (frameAt m g) < g \/ (g = 0 /\ fr_parentFrame (frameAt m g) = 0).
Definition goodFrames (eps : R) (m : Model) : Prop := forall g, g < m_nframes m ->
  isRotation (rot (fr_placement (frameAt m g))) /\ regularMass eps (mass (fr_inertia (frameAt m g))).

(* placement of frame g in the world *)
Definition worldFrame (m : Model) (q : nat -> R) (g : nat) : SE3 :=
  se3_mul (worldPl m q (fr_parentJoint (frameAt m g))) (fr_placement (frameAt m g)).
(* momentum, in the world, of a body of inertia Y placed at Q when it moves with the twist V (in the world) *)
Definition momentumAt (Q : SE3) (Y : Inertia) (V : V6) : V6 := force_act Q (inertia_mul Y (motion_actInv Q V)).
Definition frameMomentum (m : Model) (q : nat -> R) (V : V6) (g : nat) : V6 := momentumAt (worldFrame m q g) (fr_inertia (frameAt m g)) V.
Definition jointMomentum (m : Model) (q : nat -> R) (V : V6) (b : nat) : V6 := momentumAt (worldPl m q b) (inertiaOf m b) V.
(* wrench that moves the body of frame g (rate of change of its momentum minus its weight), in the world *)
Definition frameWrench (m : Model) (q v a : nat -> R) (g : nat) : V6 :=
  let P := fr_placement (frameAt m g) in let j := fr_parentJoint (frameAt m g) in let Y := fr_inertia (frameAt m g) in
  let V := motion_actInv P (bodyVel m q v j) in let A := motion_actInv P (bodyAcc m q v a j) in
  force_act (worldFrame m q g)
    (v6add (inertia_mul Y (v6sub A (motion_actInv (worldFrame m q g) (m_gravity m)))) (force_cross V (inertia_mul Y V))).
(* wrench that moves body b, less the external wrench applied to it, in the world *)
Definition jointWrench (m : Model) (q v a : nat -> R) (fext : nat -> V6) (b : nat) : V6 :=
  force_act (worldPl m q b) (v6sub (bodyForce m q v a b) (fext b)).
Definition sumR (l : list R) : R := fold_right Rplus 0%R l.
