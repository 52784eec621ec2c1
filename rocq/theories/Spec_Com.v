(* Independent description of masses, centres of mass, energies and momenta of a kinematic tree. *)
Require Import Reals List Arith.
From Verif Require Import Vec3 Spatial Inertia Joints Model Spec_Model Spec_Kin Spec_Dyn Sums.
Import ListNotations.
Local Open Scope R_scope.

(* body b is carried by joint r *)
Definition inSubtree (m : Model) (r b : nat) : bool := existsb (fun k => Nat.eqb k r) (support m b).
(* sums over the bodies carried by joint r; r = 0: all bodies *)
Definition subBodies (m : Model) (r : nat) (f : nat -> R) : R := bodies m (fun b => if inSubtree m r b then f b else 0).
Definition subBodies3 (m : Model) (r : nat) (f : nat -> V3) : V3 :=
  mkV3 (subBodies m r (fun b => vx (f b))) (subBodies m r (fun b => vy (f b))) (subBodies m r (fun b => vz (f b))).
Definition subBodies6 (m : Model) (r : nat) (f : nat -> V6) : V6 :=
  mkV6 (subBodies3 m r (fun b => lin (f b))) (subBodies3 m r (fun b => ang (f b))).

Definition subtreeMass (m : Model) (r : nat) : R := subBodies m r (fun b => mass (inertiaOf m b)).
(* centre of mass of body b, in the world *)
Definition bodyCom (m : Model) (q : nat -> R) (b : nat) : V3 := se3_actPoint (worldPl m q b) (lever (inertiaOf m b)).
(* centre of mass of the bodies carried by joint r, in the world *)
Definition subtreeCom (m : Model) (q : nat -> R) (r : nat) : V3 :=
  v3scale (/ subtreeMass m r) (subBodies3 m r (fun b => v3scale (mass (inertiaOf m b)) (bodyCom m q b))).

(* J w for a matrix with three rows, given by its columns *)
Fixpoint cols3Mul (n : nat) (J : nat -> V3) (w : nat -> R) : V3 :=
  match n with O => v3zero | S k => v3add (cols3Mul k J w) (v3scale (w k) (J k)) end.

(* total momentum, in the world, and moved to the point c (axes of the world) *)
Definition totalMomentum (m : Model) (q v : nat -> R) : V6 := subBodies6 m 0 (worldMomentum m q v).
Definition atPoint (c : V3) (f : V6) : V6 := mkV6 (lin f) (v3sub (ang f) (v3cross c (lin f))).

(* the degrees of freedom that a mimic joint follows have no rotor inertia *)
Definition plainRotors (m : Model) : Prop := forall i k, (0 < i < m_njoints m)%nat -> isMimic (joint m i) = true -> (k < nvEOf m i)%nat ->
  nth (idx_v m i + k) (m_armature m) 0 = 0.
(* no joint carries bodies of total mass zero *)
Definition massive (m : Model) : Prop := forall j, (j < m_njoints m)%nat -> subtreeMass m j <> 0.
