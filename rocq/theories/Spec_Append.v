(* What it means to build a model out of joints of other models. *)
Require Import Reals String List Arith.
From Verif Require Import Vec3 Spatial Inertia Joints Spec_Joints Model Spec_Model Spec_Kin Reduce.
Import ListNotations.
Local Open Scope nat_scope.

Definition nameOf (m : Model) (i : nat) : string := nth i (m_names m) ""%string.
Definition coord (l : list R) : nat -> R := fun k => nth k l 0%R.

(* the entries of joint i in a vector indexed by the configuration (velocity) coordinates of the model *)
Definition segQ (m : Model) (i : nat) (l : list R) : list R := firstn (nqOf m i) (skipn (idx_q m i) l).
Definition segV (m : Model) (i : nat) (l : list R) : list R := firstn (nvOf m i) (skipn (idx_v m i) l).

(* joint k of r is joint i of m: same name, type, limits and rotor parameters.  A mimic joint is linked to the joint of r
   that has the name of its mimicked joint. *)
Record copied (m : Model) (i : nat) (r : Model) (k : nat) : Prop := {
  cp_range : 0 < i < m_njoints m /\ 0 < k < m_njoints r;
  cp_name : nameOf r k = nameOf m i;
  cp_type : jm_type (joint r k) = jm_type (joint m i);
  cp_mimic : isMimic (joint m i) = true -> nameOf r (jm_ref (joint r k)) = nameOf m (jm_ref (joint m i));
  cp_position : segQ r k (m_lower r) = segQ m i (m_lower m) /\ segQ r k (m_upper r) = segQ m i (m_upper m);
  cp_velocity : segV r k (m_velocity r) = segV m i (m_velocity m) /\ segV r k (m_effort r) = segV m i (m_effort m);
  cp_friction : segV r k (m_friction r) = segV m i (m_friction m) /\ segV r k (m_damping r) = segV m i (m_damping m);
  cp_rotor : segV r k (m_rotorInertia r) = segV m i (m_rotorInertia m) /\
             segV r k (m_rotorGearRatio r) = segV m i (m_rotorGearRatio m)
}.

(* the configuration qr (velocity wr) of r gives to the copies of the joints of m the coordinates they have in q (w) *)
Definition sameCoordinates (m r : Model) (q qr : nat -> R) : Prop :=
  forall i k c, copied m i r k -> isMimic (joint m i) = false -> c < nqOf m i -> qr (idx_q r k + c) = q (idx_q m i + c).
Definition sameVelocities (m r : Model) (w wr : nat -> R) : Prop :=
  forall i k c, copied m i r k -> isMimic (joint m i) = false -> c < nvOf m i -> wr (idx_v r k + c) = w (idx_v m i + c).

(* ---- locking joints ---- *)
(* joint i is rigidly attached to joint a, which is not locked: placement of i in a when the joints of L are at q0 *)
Inductive attached (m : Model) (L : list nat) (q0 : nat -> R) : nat -> nat -> SE3 -> Prop :=
| att_kept i : ~ In i L -> attached m L q0 i i se3_Identity
| att_locked i a M : In i L -> attached m L q0 (parent m i) a M -> attached m L q0 i a (se3_mul M (relPl m q0 i)).

(* the frame of joint j is at its origin; the frames before it belong to earlier joints *)
Definition hasOwnFrame (m : Model) (j : nat) : Prop :=
  exists p pf Y, nth_error (m_frames m) p = Some (mkFrame (nameOf m j) j pf se3_Identity JOINT Y) /\
    forall n f, n < p -> nth_error (m_frames m) n = Some f -> fr_parentJoint f < j.

(* models whose joints and frames can be told by their names *)
Record wellNamed (m : Model) : Prop := {
  wn_joints : NoDup (m_names m);
  wn_frames : NoDup (map fr_name (m_frames m));
  wn_types : forall f, In f (m_frames m) -> In (fr_type f) [OP_FRAME; JOINT; FIXED_JOINT; BODY; SENSOR];
  wn_parents : forall f, In f (m_frames m) -> fr_parentFrame f < m_nframes m;
  wn_refs : forall key c, In (key, c) (m_refs m) -> length c = m_nq m
}.

(* L lists distinct joints that have a frame; no kept joint mimics a locked one *)
Record lockable (m : Model) (L : list nat) : Prop := {
  lo_distinct : NoDup L;
  lo_joints : forall j, In j L -> 0 < j < m_njoints m;
  lo_frames : forall j, In j L -> hasOwnFrame m j;
  lo_mimic : forall i, 0 < i < m_njoints m -> ~ In i L -> isMimic (joint m i) = true -> ~ In (jm_ref (joint m i)) L
}.

(* in q the locked joints are where they are in q0; in w they do not move *)
Definition lockedAt (m : Model) (L : list nat) (q0 q : nat -> R) : Prop :=
  forall i c, In i L -> c < readsQ (jm_type (joint m i)) -> q (idx_q m i + c) = q0 (idx_q m i + c).
Definition readsV (j : Joint) : nat := match j with JMimic j _ _ => nv1 j | j => jnv j end.
Definition lockedStill (m : Model) (L : list nat) (w : nat -> R) : Prop :=
  forall i c, In i L -> c < readsV (jm_type (joint m i)) -> w (idx_v m i + c) = 0%R.

(* a model built with the construction functions; rotor parameters and reference configurations may then be assigned *)
Definition Configured (eps : R) (m : Model) : Prop :=
  exists m0 ri rg refs, Built eps m0 /\ length ri = m_nv m0 /\ length rg = m_nv m0 /\ m = setRefs (setRotor m0 ri rg) refs.
(* joint k of r is the universe, or the copy of joint a of m *)
Definition stands (m r : Model) (a k : nat) : Prop := (a = 0 /\ k = 0) \/ copied m a r k.
(* the bodies of m, each with the joint of r that carries it and its placement there *)
Definition carriedBodies (m : Model) (L : list nat) (q0 : nat -> R) (r : Model) (l : list (nat * SE3 * Inertia)) : Prop :=
  length l = m_njoints m /\
  forall i x, nth_error l i = Some x -> snd x = inertiaOf m i /\ exists a, attached m L q0 i a (snd (fst x)) /\ stands m r a (fst (fst x)).
(* masses that the sum of inertias handles exactly *)
Definition regularMasses (eps : R) (m : Model) : Prop :=
  (0 < eps)%R /\ forall i, i < m_njoints m -> (mass (inertiaOf m i) = 0 \/ eps <= mass (inertiaOf m i))%R.
(* inputs that buildReducedModel is meant for *)
Record reducible (eps : R) (m : Model) (L : list nat) (q0 : list R) : Prop := {
  rd_model : Configured eps m;
  rd_named : wellNamed m;
  rd_joints : lockable m L;
  rd_config : length q0 = m_nq m
}.
