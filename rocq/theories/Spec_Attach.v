(* What it means to mount a model on a frame of another one. *)
Require Import Reals String List Arith.
From Verif Require Import Vec3 Spatial Inertia Joints Spec_Joints Model Spec_Model Spec_Kin LieGroup Reduce Spec_Append.
Import ListNotations.
Local Open Scope nat_scope.

(* neutral(model) as a vector of size nq; a coordinate it does not write would stay at 0 *)
Definition neutralVector (m : Model) : list R := map (neutral m (fun _ => 0%R)) (seq 0 (m_nq m)).

(* inputs that appendModel is meant for: two models built with the construction functions, whose joints and frames have
   different names (universe excepted).  f is the frame of a on which b is mounted.  A mimic joint of a placed below the
   parent joint p of f mimics a joint at most p or below p. *)
Record appendable (eps : R) (a b : Model) (fi : nat) (f : Frame) : Prop := {
  ap_models : Configured eps a /\ Configured eps b;
  ap_named : wellNamed a /\ wellNamed b;
  ap_joints : NoDup (m_names a ++ tl (m_names b));
  ap_frames : NoDup (map fr_name (m_frames a ++ tl (m_frames b)));
  ap_refs : NoDup (map fst (m_refs a)) /\ NoDup (map fst (m_refs b));
  ap_frame : nth_error (m_frames a) fi = Some f;
  ap_mimic : forall i, 0 < i < m_njoints a -> isMimic (joint a i) = true -> onPath a (fr_parentJoint f) i ->
               jm_ref (joint a i) <= fr_parentJoint f \/ onPath a (fr_parentJoint f) (jm_ref (joint a i))
}.
(* the velocity of body i of b when its base moves with the velocity V of the frame at placement M in V's frame *)
Definition carriedVel (b : Model) (q w : nat -> R) (M : SE3) (V : V6) (i : nat) : V6 :=
  v6add (bodyVel b q w i) (motion_actInv (worldPl b q i) (motion_actInv M V)).
(* frames without inertia *)
Definition plainFrames (m : Model) : Prop := forall f, In f (m_frames m) -> fr_inertia f = inertia_Zero.
