(* What a well-built kinematic tree is, and which models the construction API can produce. *)
Require Import Reals String List Arith.
From Verif Require Import Vec3 Spatial Inertia Joints Spec_Joints Model.
Import ListNotations.
Local Open Scope nat_scope.

Definition dJ : JointM := freshJoint (JSimple (JRevolute 0)).
Definition joint (m : Model) (i : nat) : JointM := nth i (m_joints m) dJ.
Definition parent (m : Model) (i : nat) : nat := nth i (m_parents m) 0.
Definition support (m : Model) (i : nat) : list nat := nth i (m_supports m) [].
Definition subtree (m : Model) (i : nat) : list nat := nth i (m_subtrees m) [].
Definition childrenOf (m : Model) (i : nat) : list nat := nth i (m_children m) [].
Definition inertiaOf (m : Model) (i : nat) : Inertia := nth i (m_inertias m) inertia_Zero.
Definition placementOf (m : Model) (i : nat) : SE3 := nth i (m_placements m) se3_Identity.
Definition idx_q (m : Model) (i : nat) : nat := nth i (m_idx_qs m) 0.
Definition idx_v (m : Model) (i : nat) : nat := nth i (m_idx_vs m) 0.
Definition idx_vE (m : Model) (i : nat) : nat := nth i (m_idx_vEs m) 0.
Definition nqOf (m : Model) (i : nat) : nat := nth i (m_nqs m) 0.
Definition nvOf (m : Model) (i : nat) : nat := nth i (m_nvs m) 0.
Definition nvEOf (m : Model) (i : nat) : nat := nth i (m_nvEs m) 0.
Definition sum (l : list nat) : nat := fold_right plus 0 l.

(* One successful call of the construction API.  The label is the body the call attaches, if any:
   joint, placement on the joint, inertia. *)
Inductive Step (eps : R) (m m' : Model) : option (nat * SE3 * Inertia) -> Prop :=
| S_joint p j pl nm lim id :
    notMimic j -> addJoint m p (freshJoint j) pl nm lim = Ok m' id -> Step eps m m' None
| S_mimic p j k s o pl nm lim id :   (* a mimic joint built from joint k of this model, of the same dimensions *)
    0 < k < m_njoints m -> mimicable j -> isMimic (joint m k) = false -> nq1 j = nqOf m k -> nv1 j = nvOf m k ->
    addJoint m p (mkMimic j (joint m k) s o) pl nm lim = Ok m' id -> Step eps m m' None
| S_body j Y pl : appendBodyToJoint eps m j Y pl = Ok m' tt -> Step eps m m' (Some (j, pl, Y))
| S_frame f id : addFrame eps m f true = Ok m' id -> id = m_nframes m ->
    Step eps m m' (Some (fr_parentJoint f, fr_placement f, fr_inertia f))
| S_frame_again f b id : addFrame eps m f b = Ok m' id -> id < m_nframes m -> Step eps m m' None
| S_frame_no_inertia f id : addFrame eps m f false = Ok m' id -> Step eps m m' None
| S_set g arm : length arm = m_nv m -> m' = setGravityArmature m g arm -> Step eps m m' None.

(* Construction histories from an empty model, with the list of bodies attached. *)
Inductive History (eps : R) : Model -> list (nat * SE3 * Inertia) -> Prop :=
| H_empty : History eps emptyModel []
| H_step m m' l b : History eps m l -> Step eps m m' b ->
    History eps m' (match b with Some x => l ++ [x] | None => l end).
Definition Built (eps : R) (m : Model) : Prop := exists l, History eps m l.

Record wellFormed (m : Model) : Prop := {
  wf_n : 1 <= m_njoints m;
  wf_lengths : length (m_inertias m) = m_njoints m /\ length (m_placements m) = m_njoints m /\
    length (m_joints m) = m_njoints m /\ length (m_idx_qs m) = m_njoints m /\ length (m_nqs m) = m_njoints m /\
    length (m_idx_vs m) = m_njoints m /\ length (m_nvs m) = m_njoints m /\ length (m_idx_vEs m) = m_njoints m /\
    length (m_nvEs m) = m_njoints m /\ length (m_parents m) = m_njoints m /\ length (m_children m) = m_njoints m /\
    length (m_names m) = m_njoints m /\ length (m_supports m) = m_njoints m /\
    length (m_mimic_supports m) = m_njoints m /\ length (m_subtrees m) = m_njoints m;
  wf_parent0 : parent m 0 = 0;
  wf_parent : forall i, 0 < i < m_njoints m -> parent m i < i;
  (* the indexes stored in the joints are those stored in the model *)
  wf_joint : forall i, 0 < i < m_njoints m ->
    jm_id (joint m i) = i /\ jm_idx_q (joint m i) = idx_q m i /\ jm_idx_v (joint m i) = idx_v m i /\
    jm_idx_vE (joint m i) = idx_vE m i /\ jnq (jm_type (joint m i)) = nqOf m i /\
    jnv (jm_type (joint m i)) = nvOf m i /\ jnvE (jm_type (joint m i)) = nvEOf m i;
  wf_zero : nqOf m 0 = 0 /\ nvOf m 0 = 0 /\ nvEOf m 0 = 0;
  (* consecutive ranges *)
  wf_range : forall i, 0 < i < m_njoints m -> isMimic (joint m i) = false ->
    idx_q m i = sum (firstn i (m_nqs m)) /\ idx_v m i = sum (firstn i (m_nvs m));
  wf_rangeE : forall i, 0 < i < m_njoints m -> idx_vE m i = sum (firstn i (m_nvEs m));
  (* a mimic joint reads the range of an earlier, ordinary joint of the same size *)
  wf_mimic : forall i j s o, 0 < i < m_njoints m -> jm_type (joint m i) = JMimic j s o ->
    let k := jm_ref (joint m i) in
    mimicable j /\ 0 < k < i /\ isMimic (joint m k) = false /\
    idx_q m i = idx_q m k /\ idx_v m i = idx_v m k /\ nq1 j = nqOf m k /\ nv1 j = nvOf m k;
  wf_total : m_nq m = sum (m_nqs m) /\ m_nv m = sum (m_nvs m) /\ m_nvE m = sum (m_nvEs m);
  wf_dofs : length (m_armature m) = m_nv m /\ length (m_rotorInertia m) = m_nv m /\
    length (m_rotorGearRatio m) = m_nv m /\ length (m_friction m) = m_nv m /\ length (m_damping m) = m_nv m /\
    length (m_effort m) = m_nv m /\ length (m_velocity m) = m_nv m /\
    length (m_lower m) = m_nq m /\ length (m_upper m) = m_nq m;
  wf_frames : m_nframes m = length (m_frames m) /\
    forall f, In f (m_frames m) -> fr_parentJoint f < m_njoints m
}.

(* [l] is the path from the universe (joint 0) to joint j *)
Inductive path (m : Model) : nat -> list nat -> Prop :=
| path_root : path m 0 [0]
| path_joint j l : 0 < j < m_njoints m -> path m (parent m j) l -> path m j (l ++ [j]).

(* joint k is on the path to joint j *)
Definition onPath (m : Model) (k j : nat) : Prop := exists l, path m j l /\ In k l.

(* a model whose joints, placements are valid, as assumed by the kinematics theorems *)
Definition validModel (m : Model) : Prop :=
  forall i, 0 < i < m_njoints m -> validJoint (jm_type (joint m i)) /\ isRotation (rot (placementOf m i)).

(* a joint argument that addJoint accepts: an ordinary joint, or a mimic of an ordinary joint of this model *)
Definition goodArg (m : Model) (jm : JointM) : Prop :=
  (exists j, jm = freshJoint j /\ notMimic j) \/
  (exists j k s o, jm = mkMimic j (joint m k) s o /\ 0 < k < m_njoints m /\ mimicable j /\
     isMimic (joint m k) = false /\ nq1 j = nqOf m k /\ nv1 j = nvOf m k).

(* joint i owns coordinate k of the configuration (velocity) vector *)
Definition ownsQ (m : Model) (k i : nat) : Prop :=
  0 < i < m_njoints m /\ isMimic (joint m i) = false /\ idx_q m i <= k < idx_q m i + nqOf m i.

Definition ownsV (m : Model) (k i : nat) : Prop :=
  0 < i < m_njoints m /\ isMimic (joint m i) = false /\ idx_v m i <= k < idx_v m i + nvOf m i.

(* frame f has that name and one of the types of the mask *)
Definition matches (nm : string) (mask : nat) (f : Frame) : Prop := fr_name f = nm /\ Nat.land mask (fr_type f) <> 0.

(* masses and inertias of attached bodies *)
Definition totalMass (m : Model) : R := fold_right Rplus 0%R (map mass (m_inertias m)).

Definition massSum (l : list (nat * SE3 * Inertia)) : R := fold_right Rplus 0%R (map (fun x => mass (snd x)) l).

(* the 6x6 inertia carried by joint j according to a list of attached bodies *)
Fixpoint attachedMatrix (j : nat) (l : list (nat * SE3 * Inertia)) : M6 :=
  match l with
  | [] => inertia_matrix inertia_Zero
  | (k, pl, Y) :: r => if k =? j then m6add (inertia_matrix (inertia_act pl Y)) (attachedMatrix j r) else attachedMatrix j r
  end.

(* bodies whose mass the sum of inertias handles exactly *)
Definition regularBody (eps : R) (x : nat * SE3 * Inertia) : Prop := (eps <= mass (snd x))%R \/ mass (snd x) = 0%R.

(* joints without an aligned helical joint or a mimic joint, at any depth *)
Definition comparable1 (j : Joint1) : Prop := match j with JHelical _ _ => False | _ => True end.

Fixpoint comparable (j : Joint) : Prop :=
  match j with
  | JSimple j => comparable1 j
  | JMimic _ _ _ => False
  | JComposite l => (fix go (l : list (SE3 * Joint)) : Prop := match l with [] => True | (_, j) :: r => comparable j /\ go r end) l
  end.

(* joints without a helical joint or a mimic joint, at any depth *)
Fixpoint plainJoint (j : Joint) : Prop :=
  match j with
  | JSimple j => ~ isHelical j
  | JMimic _ _ _ => False
  | JComposite l => (fix go (l : list (SE3 * Joint)) : Prop := match l with [] => True | (_, j) :: r => plainJoint j /\ go r end) l
  end.

(* limit vectors of the sizes the joint requires *)
Definition goodSizes (jt : Joint) (lim : Limits) : Prop :=
  length (l_effort lim) = jnv jt /\ length (l_velocity lim) = jnv jt /\ length (l_lower lim) = jnq jt /\
  length (l_upper lim) = jnq jt /\ length (l_friction lim) = jnv jt /\ length (l_damping lim) = jnv jt.
