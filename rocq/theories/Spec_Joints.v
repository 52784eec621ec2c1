(* What a joint is, independently of how calc computes it: which configurations are valid, how a configuration
   evolves when the joint velocity is v, and which joints the theorems cover. *)
Require Import Reals List.
From Verif Require Import Vec3 Spatial Joints.
Import ListNotations.
Local Open Scope R_scope.

Definition unit3 (a : V3) : Prop := v3dot a a = 1.

(* joints given by an axis are given by a unit axis *)
Definition validJoint1 (j : Joint1) : Prop :=
  match j with
  | JRevoluteUnaligned a | JRUBUnaligned a | JPrismaticUnaligned a | JHelicalUnaligned a _ => unit3 a
  | JUniversal a1 a2 => unit3 a1 /\ unit3 a2
  | _ => True
  end.

(* a configuration lies on the configuration space of the joint *)
Definition validConfig1 (j : Joint1) (q : nat -> R) : Prop :=
  match j with
  | JRUB _ | JRUBUnaligned _ => q 0%nat * q 0%nat + q 1%nat * q 1%nat = 1
  | JPlanar => q 2%nat * q 2%nat + q 3%nat * q 3%nat = 1
  | JSpherical => q 0%nat * q 0%nat + q 1%nat * q 1%nat + q 2%nat * q 2%nat + q 3%nat * q 3%nat = 1
  | JFreeFlyer => q 3%nat * q 3%nat + q 4%nat * q 4%nat + q 5%nat * q 5%nat + q 6%nat * q 6%nat = 1
  | _ => True
  end.

(* the vector u rotated by the unit quaternion (x,y,z,w): u + 2w (n x u) + 2 n x (n x u), n = (x,y,z) *)
Definition quatRotate (x y z w : R) (u : V3) : V3 :=
  let n := mkV3 x y z in
  v3add u (v3add (v3scale (2 * w) (v3cross n u)) (v3scale 2 (v3cross n (v3cross n u)))).

(* k-th component of half the product of the quaternion (x,y,z,w) with the pure quaternion (a,b,c) *)
Definition quatRate (x y z w a b c : R) (k : nat) : R :=
  match k with
  | 0%nat => (w * a + y * c - z * b) / 2
  | 1%nat => (w * b + z * a - x * c) / 2
  | 2%nat => (w * c + x * b - y * a) / 2
  | _ => - (x * a + y * b + z * c) / 2
  end.

(* dq/dt when the joint moves with velocity v at configuration q *)
Definition configRate1 (j : Joint1) (q v : nat -> R) (k : nat) : R :=
  match j with
  | JRUB _ | JRUBUnaligned _ =>
      match k with 0%nat => - q 1%nat * v 0%nat | _ => q 0%nat * v 0%nat end
  | JPlanar =>
      match k with
      | 0%nat => q 2%nat * v 0%nat - q 3%nat * v 1%nat
      | 1%nat => q 3%nat * v 0%nat + q 2%nat * v 1%nat
      | 2%nat => - q 3%nat * v 2%nat
      | _ => q 2%nat * v 2%nat
      end
  | JSpherical => quatRate (q 0%nat) (q 1%nat) (q 2%nat) (q 3%nat) (v 0%nat) (v 1%nat) (v 2%nat) k
  | JFreeFlyer =>
      let p := quatRotate (q 3%nat) (q 4%nat) (q 5%nat) (q 6%nat) (mkV3 (v 0%nat) (v 1%nat) (v 2%nat)) in
      match k with
      | 0%nat => vx p | 1%nat => vy p | 2%nat => vz p
      | S (S (S k')) => quatRate (q 3%nat) (q 4%nat) (q 5%nat) (q 6%nat) (v 3%nat) (v 4%nat) (v 5%nat) k'
      end
  | _ => v k
  end.

(* joint types accepted inside a mimic joint (is_mimicable_t in each joint header, e.g. joint-prismatic.hpp 596) *)
Definition mimicable (j : Joint1) : Prop :=
  match j with
  | JRevolute _ | JRevoluteUnaligned _ | JRUB _ | JRUBUnaligned _ | JPrismatic _ | JPrismaticUnaligned _
  | JHelical _ _ | JHelicalUnaligned _ _ => True
  | _ => False
  end.
Definition isHelical (j : Joint1) : Prop :=
  match j with JHelical _ _ | JHelicalUnaligned _ _ => True | _ => False end.
(* the angle of an unbounded revolute joint is read with atan2, which jumps at half a turn *)
Definition awayFromCut (j : Joint1) (q : nat -> R) : Prop :=
  match j with
  | JRUB _ | JRUBUnaligned _ => q 1%nat = 0 -> 0 < q 0%nat
  | _ => True
  end.

(* number of configuration and velocity coefficients a joint reads *)
Definition readsQ (j : Joint) : nat :=
  match j with JMimic j _ _ => nq1 j | j => jnq j end.

Definition notMimic (j : Joint) : Prop := match j with JMimic _ _ _ => False | _ => True end.

Fixpoint validJoint (j : Joint) : Prop :=
  match j with
  | JSimple j => validJoint1 j
  | JMimic j _ _ => validJoint1 j /\ mimicable j /\ ~ isHelical j
  | JComposite l =>
      (fix go (l : list (SE3 * Joint)) : Prop :=
         match l with
         | [] => True
         | (P, j) :: r => (isRotation (rot P) /\ notMimic j /\ validJoint j) /\ go r
         end) l
  end.

Fixpoint validConfig (j : Joint) (q : nat -> R) : Prop :=
  match j with
  | JSimple j => validConfig1 j q
  | JMimic j _ _ => validConfig1 j q /\ awayFromCut j q
  | JComposite l =>
      (fix go (l : list (SE3 * Joint)) (q : nat -> R) : Prop :=
         match l with [] => True | (P, j) :: r => validConfig j q /\ go r (shift (jnq j) q) end) l q
  end.

(* a mimic joint follows the configuration and velocity of the joint it mimics *)
Fixpoint configRate (j : Joint) (q v : nat -> R) : nat -> R :=
  match j with
  | JSimple j => configRate1 j q v
  | JMimic j _ _ => configRate1 j q v
  | JComposite l =>
      (fix go (l : list (SE3 * Joint)) (q v : nat -> R) : nat -> R :=
         match l with
         | [] => fun _ => 0
         | (P, j) :: r => fun k =>
             if Nat.ltb k (jnq j) then configRate j q v k else go r (shift (jnq j) q) (shift (jnv j) v) (k - jnq j)%nat
         end) l q v
  end.

(* the neutral configuration: zero coordinates, unit complex number, unit quaternion *)
Definition neutral1 (j : Joint1) : nat -> R :=
  match j with
  | JRUB _ | JRUBUnaligned _ => fun k => match k with 0%nat => 1 | _ => 0 end
  | JPlanar => fun k => match k with 2%nat => 1 | _ => 0 end
  | JSpherical => fun k => match k with 3%nat => 1 | _ => 0 end
  | JFreeFlyer => fun k => match k with 6%nat => 1 | _ => 0 end
  | _ => fun _ => 0
  end.
