(* Configurations of the Lie groups, exact motions on them and what it means for two configurations to agree. *)
Require Import Reals Arith List.
From Verif Require Import Vec3 Spatial Joints Spec_Joints Model Spec_Model Rot ExpLog Spec_Exp Kinematics LieGroup.
Local Open Scope R_scope.

(* a valid configuration: its circle and quaternion parts have norm one *)
Fixpoint onGroup (g : LG) (q : vec) : Prop :=
  match g with
  | LVec _ => True
  | LSO2 => q 0%nat * q 0%nat + q 1%nat * q 1%nat = 1
  | LSO3 => q 0%nat * q 0%nat + q 1%nat * q 1%nat + q 2%nat * q 2%nat + q 3%nat * q 3%nat = 1
  | LSE2 => q 2%nat * q 2%nat + q 3%nat * q 3%nat = 1
  | LSE3 => q 3%nat * q 3%nat + q 4%nat * q 4%nat + q 5%nat * q 5%nat + q 6%nat * q 6%nat = 1
  | LProd a b => onGroup a q /\ onGroup b (shift (lg_nq a) q)
  end.
(* equal up to index n *)
Definition eqTo (n : nat) (p q : vec) : Prop := forall k, (k < n)%nat -> p k = q k.

(* planar motions: the position and heading reached after unit time from pose q with constant body velocity v *)
Definition planarFlow (q v : vec) : vec :=
  let w := v 2%nat in
  let x := sinc w * v 0%nat - w * cosc w * v 1%nat in let y := w * cosc w * v 0%nat + sinc w * v 1%nat in
  let c := q 2%nat in let s := q 3%nat in
  fun k => match k with
           | 0%nat => q 0%nat + c * x - s * y
           | 1%nat => q 1%nat + s * x + c * y
           | 2%nat => c * cos w - s * sin w
           | 3%nat => s * cos w + c * sin w
           | _ => 0
           end.
(* two quaternions of the same rotation, up to an error d on the coefficients *)
Definition sameRotation (d : R) (p q : Quat) : Prop := qclose d p q \/ qclose d p (qscale (-1) q).
(* p is the configuration q1, up to the relative error d: exactly on the flat groups and the circle, exactly for the heading
   of SE(2), up to sign and d for quaternions, up to d times the distance from q0 for positions *)
Fixpoint reaches (d : R) (g : LG) (q0 q1 p : vec) : Prop :=
  match g with
  | LVec n => eqTo n p q1
  | LSO2 => eqTo 2 p q1
  | LSO3 => sameRotation d (quatAt p) (quatAt q1)
  | LSE2 => eqTo 2 (shift 2 p) (shift 2 q1) /\
      forall k, (k < 2)%nat -> Rabs (p k - q1 k) <= d * (Rabs (q1 0%nat - q0 0%nat) + Rabs (q1 1%nat - q0 1%nat))
  | LSE3 => sameRotation d (quatAt (shift 3 p)) (quatAt (shift 3 q1)) /\
      v3close (d * v3norm (v3sub (v3At q1) (v3At q0))) (v3At p) (v3At q1)
  | LProd a b => reaches d a q0 q1 p /\ reaches d b (shift (lg_nq a) q0) (shift (lg_nq a) q1) (shift (lg_nq a) p)
  end.
(* the circle configurations that are nearly opposite *)
Definition opposite (q0 q1 : vec) : Prop := 
  let c := q0 0%nat * q1 0%nat + q0 1%nat * q1 1%nat in let s := q0 0%nat * q1 1%nat - q0 1%nat * q1 0%nat in
  PI - 1 / 10 ^ 6 <= Rabs (atan2 s c).

(* coordinate k of the group is a Euclidean one: it has limits *)
Fixpoint euclid (g : LG) (k : nat) : Prop :=
  match g with
  | LVec n => (k < n)%nat
  | LSO2 | LSO3 => False
  | LSE2 => (k < 2)%nat
  | LSE3 => (k < 3)%nat
  | LProd a b => (k < lg_nq a)%nat /\ euclid a k \/ (lg_nq a <= k)%nat /\ euclid b (k - lg_nq a)
  end.
(* the simple joint s sits at offsets oq and ov of joint j *)
Inductive leaf : Joint -> nat -> nat -> Joint1 -> Prop :=
| leaf_simple s : leaf (JSimple s) 0 0 s
| leaf_composite l1 p j l2 oq ov s : leaf j oq ov s ->
    leaf (JComposite (l1 ++ (p, j) :: l2)) (jnq (JComposite l1) + oq) (jnv (JComposite l1) + ov) s.
(* the simple joint s sits at index iq of the configurations and iv of the velocities of the model *)
Definition leafOf (m : Model) (iq iv : nat) (s : Joint1) : Prop :=
  exists i oq ov, (0 < i < m_njoints m)%nat /\ leaf (jm_type (joint m i)) oq ov s /\ iq = (idx_q m i + oq)%nat /\ iv = (idx_v m i + ov)%nat.
(* a valid configuration of the model *)
Definition validConf (m : Model) (q : vec) : Prop := forall iq iv s, leafOf m iq iv s -> onGroup (lieGroup1 s) (shift iq q).
(* p and q are the same configuration *)
Definition sameConf (g : LG) (p q : vec) : Prop := reaches 0 g q q p.
(* the circle and quaternion parts can be normalized *)
Fixpoint nonzeroParts (g : LG) (q : vec) : Prop :=
  match g with
  | LVec _ => True
  | LSO2 => exists k, (k < 2)%nat /\ q k <> 0
  | LSO3 => exists k, (k < 4)%nat /\ q k <> 0
  | LSE2 => exists k, (2 <= k < 4)%nat /\ q k <> 0
  | LSE3 => exists k, (3 <= k < 7)%nat /\ q k <> 0
  | LProd a b => nonzeroParts a q /\ nonzeroParts b (shift (lg_nq a) q)
  end.
(* a stream of rand() / RAND_MAX *)
Definition stream (r : vec) : Prop := forall k, 0 <= r k <= 1.
(* limits: None is infinite *)
Definition orderedLimits (lower upper : nat -> option R) : Prop := forall k l u, lower k = Some l -> upper k = Some u -> l <= u.
Definition inLimit (lower upper : nat -> option R) (k : nat) (x : R) : Prop := exists l u, lower k = Some l /\ upper k = Some u /\ l <= x <= u.
(* coordinate k of the model is a Euclidean one *)
Definition euclidean (m : Model) (k : nat) : Prop := exists iq iv s j, leafOf m iq iv s /\ euclid (lieGroup1 s) j /\ k = (iq + j)%nat.
(* the precision: of the unit quaternion returned by the exponential, of the threshold of the planar exponential, of a
   difference followed by an integration (ts2 = eps^(1/3) and ts3 = eps^(1/4) are the thresholds of the code) *)
Definition e14 : R := 1 / 10 ^ 14.
Definition eE (eps : R) : R := eps + ts3 eps ^ 3 / 46080.
Definition reachErr (eps : R) : R := 520 * eps + 12 * ts2 eps ^ 2 + ts3 eps ^ 3 / 11520 + e14.
(* a sequence of integrations *)
Fixpoint steps (eps : R) (g : LG) (q : vec) (l : list vec) : vec := match l with nil => q | v :: l => steps eps g (lg_integrate eps g q v) l end.
(* the motion of the simple joint s that starts at q and keeps the velocity v *)
Definition motionFrom (s : Joint1) (q v : vec) (F : R -> vec) : Prop :=
  eqTo (nq1 s) (F 0) q /\ forall t k, (k < nq1 s)%nat -> derivable_pt_lim (fun x => F x k) t (configRate1 s (F t) v k).
(* r is the configuration p of the joint, up to d: quaternions up to sign, positions up to d times the linear velocity *)
Definition endsAt (d : R) (s : Joint1) (v p r : vec) : Prop :=
  match s with
  | JSpherical => sameRotation d (quatAt r) (quatAt p)
  | JFreeFlyer => sameRotation d (quatAt (shift 3 r)) (quatAt (shift 3 p)) /\ v3close (d * v3norm (v3At v)) (v3At r) (v3At p)
  | JPlanar => eqTo 2 (shift 2 r) (shift 2 p) /\ forall k, (k < 2)%nat -> Rabs (r k - p k) <= d * (Rabs (v 0%nat) + Rabs (v 1%nat))
  | _ => eqTo (nq1 s) r p
  end.
Definition motionErr (eps : R) : R := 28 * eps + 4 * eE eps + e14.
