(* The kinematic tree container and its construction API (multibody/model.hpp, multibody/model.hxx).
   std::vector is modelled by list, push_back by appending at the end, int and std::size_t by nat (no overflow),
   Eigen vectors stored in the model by list R.  Asserts are compiled out (release build). *)
Require Import Reals String List Arith Bool.
From Verif Require Import Vec3 Spatial Inertia Joints.
Import ListNotations.
Local Open Scope nat_scope.

(* Outcome of a call: normal return, exception (with the state the object is left in), or undefined behaviour
   (out-of-range access or a loop that does not end). *)
Inductive Res (S A : Type) := Ok (s : S) (a : A) | Throw (s : S) | Undef.
Arguments Ok {S A} s a. Arguments Throw {S A} s. Arguments Undef {S A}.

(* A joint model with its indexes: multibody/joint/joint-model-base.hpp 365-371 (i_id, i_q, i_v, i_vExtended).
   [jm_ref] is the id of the wrapped joint of a mimic joint, that is, of the mimicked joint
   (joint-mimic.hpp 665-674 setMimicIndexes); it is unused for other joints.
   Simplification: indexes of a joint that has not been added to a model are 0 instead of -1. *)
Record JointM := mkJointM { jm_type : Joint; jm_id : nat; jm_idx_q : nat; jm_idx_v : nat; jm_idx_vE : nat; jm_ref : nat }.

(* A default-constructed joint, before addJoint. *)
Definition freshJoint (j : Joint) : JointM := mkJointM j 0 0 0 0 0.

(* joint-mimic.hpp 597-616: JointModelMimicTpl(jmodel_mimicking, jmodel_mimicked, scaling, offset) *)
Definition mkMimic (j : Joint1) (mimicked : JointM) (scaling offset : R) : JointM :=
  mkJointM (JMimic j scaling offset) 0 (jm_idx_q mimicked) (jm_idx_v mimicked) 0 (jm_id mimicked).

Definition isMimic (jm : JointM) : bool := match jm_type jm with JMimic _ _ _ => true | _ => false end.

(* joint-model-base.hpp 176-199 setIndexes / setIndexes_impl; joint-mimic.hpp 645-654 (throws: None) *)
Definition setIndexes (jm : JointM) (id q v vE : nat) : option JointM :=
  if isMimic jm
  then if jm_ref jm <? id then Some (mkJointM (jm_type jm) id (jm_idx_q jm) (jm_idx_v jm) vE (jm_ref jm)) else None
  else Some (mkJointM (jm_type jm) id q v vE (jm_ref jm)).

(* multibody/frame.hpp 27-37: FrameType is a bit field *)
Definition OP_FRAME : nat := 1.
Definition JOINT : nat := 2.
Definition FIXED_JOINT : nat := 4.
Definition BODY : nat := 8.
Definition SENSOR : nat := 16.

(* multibody/frame.hpp 123-140 and multibody/model-item.hpp 20-40 *)
Record Frame := mkFrame {
  fr_name : string; fr_parentJoint : nat; fr_parentFrame : nat; fr_placement : SE3; fr_type : nat; fr_inertia : Inertia }.

(* multibody/model.hpp 93-216 *)
Record Model := mkModel {
  m_nq : nat; m_nv : nat; m_nvE : nat; m_njoints : nat; m_nbodies : nat; m_nframes : nat;
  m_inertias : list Inertia; m_placements : list SE3; m_joints : list JointM;
  m_idx_qs : list nat; m_nqs : list nat; m_idx_vs : list nat; m_nvs : list nat; m_idx_vEs : list nat; m_nvEs : list nat;
  m_parents : list nat; m_children : list (list nat);
  m_mimicking : list nat; m_mimicked : list nat;
  m_names : list string;
  m_refs : list (string * list R);   (* std::map, in key order *)
  m_armature : list R; m_rotorInertia : list R; m_rotorGearRatio : list R; m_friction : list R; m_damping : list R;
  m_effort : list R; m_velocity : list R; m_lower : list R; m_upper : list R;
  m_frames : list Frame;
  m_supports : list (list nat); m_mimic_supports : list (list nat); m_subtrees : list (list nat);
  m_gravity : Motion; m_name : string }.

Definition upd {A} (l : list A) (i : nat) (f : A -> A) : list A :=
  match nth_error l i with Some x => firstn i l ++ f x :: skipn (S i) l | None => l end.

Definition universeFrame : Frame := mkFrame "universe" 0 0 se3_Identity FIXED_JOINT inertia_Zero.

(* multibody/model.hpp 223-252: constructor, including its addFrame call.  The joint stored at index 0 is a
   default-constructed variant (joints(1)), that is, the first type of the collection (joint-collection.hpp 101-103). *)
Definition emptyModel : Model :=
  mkModel 0 0 0 1 1 1
    [inertia_Zero] [se3_Identity] [freshJoint (JSimple (JRevolute 0))]
    [0] [0] [0] [0] [0] [0]
    [0] [[]] [] [] ["universe"%string] []
    [] [] [] [] [] [] [] [] []
    [universeFrame]
    [[0]] [[0]] [[]]
    (mkV6 (mkV3 0 0 (-981/100)) v3zero) "".

(* Eigen conservativeResize followed by the assignment of a segment; fresh coefficients are uninitialised in Eigen
   and 0 here. *)
Definition resize (n : nat) (l : list R) : list R := firstn n l ++ repeat 0%R (n - length l).
Definition setSegment (l : list R) (i : nat) (x : list R) : list R := firstn i l ++ x ++ skipn (i + length x) l.

Record Limits := mkLimits {
  l_effort : list R; l_velocity : list R; l_lower : list R; l_upper : list R; l_friction : list R; l_damping : list R }.

(* model.hxx 511-520: the ancestors visited by addJointIndexToParentSubtrees, from the parent upwards.
   None: the loop does not end (fuel is njoints). *)
Fixpoint climb (fuel : nat) (parents : list nat) (p : nat) : option (list nat) :=
  if p =? 0 then Some [] else
  match fuel with
  | 0 => None
  | S f => match nth_error parents p with
           | None => None
           | Some pp => option_map (cons p) (climb f parents pp)
           end
  end.
Definition pushAll (id : nat) (ks : list nat) (l : list (list nat)) : list (list nat) :=
  fold_left (fun l k => upd l k (fun x => x ++ [id])) ks l.

(* model.hxx 59-168 addJoint *)
Definition addJoint (m : Model) (parent : nat) (jm0 : JointM) (placement : SE3) (name : string) (lim : Limits)
  : Res Model nat :=
  let jt := jm_type jm0 in
  if negb ((length (l_effort lim) =? jnv jt) && (length (l_velocity lim) =? jnv jt)
           && (length (l_lower lim) =? jnq jt) && (length (l_upper lim) =? jnq jt)
           && (length (l_friction lim) =? jnv jt) && (length (l_damping lim) =? jnv jt))
  then Throw m
  else if negb (parent <? m_njoints m) then Throw m
  else
  let id := m_njoints m in
  match setIndexes jm0 id (m_nq m) (m_nv m) (m_nvE m) with
  | None => (* thrown after njoints++ and joints.push_back *)
      Throw (mkModel (m_nq m) (m_nv m) (m_nvE m) (S id) (m_nbodies m) (m_nframes m)
               (m_inertias m) (m_placements m) (m_joints m ++ [jm0])
               (m_idx_qs m) (m_nqs m) (m_idx_vs m) (m_nvs m) (m_idx_vEs m) (m_nvEs m)
               (m_parents m) (m_children m) (m_mimicking m) (m_mimicked m) (m_names m) (m_refs m)
               (m_armature m) (m_rotorInertia m) (m_rotorGearRatio m) (m_friction m) (m_damping m)
               (m_effort m) (m_velocity m) (m_lower m) (m_upper m)
               (m_frames m) (m_supports m) (m_mimic_supports m) (m_subtrees m) (m_gravity m) (m_name m))
  | Some jm =>
      let parents := m_parents m ++ [parent] in
      match climb (S id) parents parent, nth_error (m_supports m) parent, nth_error (m_mimic_supports m) parent with
      | Some anc, Some sup, Some msup =>
          let nq := m_nq m + jnq jt in
          let nv := m_nv m + jnv jt in
          Ok (mkModel nq nv (m_nvE m + jnvE jt) (S id) (m_nbodies m) (m_nframes m)
                (m_inertias m ++ [inertia_Zero]) (m_placements m ++ [placement]) (m_joints m ++ [jm])
                (m_idx_qs m ++ [jm_idx_q jm]) (m_nqs m ++ [jnq jt])
                (m_idx_vs m ++ [jm_idx_v jm]) (m_nvs m ++ [jnv jt])
                (m_idx_vEs m ++ [jm_idx_vE jm]) (m_nvEs m ++ [jnvE jt])
                parents (upd (m_children m ++ [[]]) parent (fun l => l ++ [id]))
                (if isMimic jm then m_mimicking m ++ [id] else m_mimicking m)
                (if isMimic jm then m_mimicked m ++ [jm_ref jm] else m_mimicked m)
                (m_names m ++ [name]) (m_refs m)
                (setSegment (resize nv (m_armature m)) (jm_idx_v jm) (repeat 0%R (jnv jt)))
                (setSegment (resize nv (m_rotorInertia m)) (jm_idx_v jm) (repeat 0%R (jnv jt)))
                (setSegment (resize nv (m_rotorGearRatio m)) (jm_idx_v jm) (repeat 1%R (jnv jt)))
                (setSegment (resize nv (m_friction m)) (jm_idx_v jm) (l_friction lim))
                (setSegment (resize nv (m_damping m)) (jm_idx_v jm) (l_damping lim))
                (setSegment (resize nv (m_effort m)) (jm_idx_v jm) (l_effort lim))
                (setSegment (resize nv (m_velocity m)) (jm_idx_v jm) (l_velocity lim))
                (setSegment (resize nq (m_lower m)) (jm_idx_q jm) (l_lower lim))
                (setSegment (resize nq (m_upper m)) (jm_idx_q jm) (l_upper lim))
                (m_frames m)
                (m_supports m ++ [sup ++ [id]])
                (m_mimic_supports m ++ [if isMimic jm then msup ++ [id] else msup])
                (upd (pushAll id anc (m_subtrees m ++ [[id]])) 0 (fun l => l ++ [id]))
                (m_gravity m) (m_name m)) id
      | _, _, _ => Undef
      end
  end.

(* model.hxx 170-210: overloads with default friction and damping, and with unbounded limits
   ([big] is std::numeric_limits<Scalar>::max()) *)
Definition addJointLimits (m : Model) (parent : nat) (jm : JointM) (placement : SE3) (name : string)
  (effort velocity lower upper : list R) : Res Model nat :=
  addJoint m parent jm placement name
    (mkLimits effort velocity lower upper (repeat 0%R (jnv (jm_type jm))) (repeat 0%R (jnv (jm_type jm)))).
Definition addJointDefault (big : R) (m : Model) (parent : nat) (jm : JointM) (placement : SE3) (name : string) : Res Model nat :=
  let nv := jnv (jm_type jm) in let nq := jnq (jm_type jm) in
  addJointLimits m parent jm placement name (repeat big nv) (repeat big nv) (repeat (- big)%R nq) (repeat big nq).

Definition setInertias (m : Model) (l : list Inertia) (nbodies : nat) : Model :=
  mkModel (m_nq m) (m_nv m) (m_nvE m) (m_njoints m) nbodies (m_nframes m)
    l (m_placements m) (m_joints m)
    (m_idx_qs m) (m_nqs m) (m_idx_vs m) (m_nvs m) (m_idx_vEs m) (m_nvEs m)
    (m_parents m) (m_children m) (m_mimicking m) (m_mimicked m) (m_names m) (m_refs m)
    (m_armature m) (m_rotorInertia m) (m_rotorGearRatio m) (m_friction m) (m_damping m)
    (m_effort m) (m_velocity m) (m_lower m) (m_upper m)
    (m_frames m) (m_supports m) (m_mimic_supports m) (m_subtrees m) (m_gravity m) (m_name m).
Definition setFrames (m : Model) (l : list Frame) (nframes : nat) : Model :=
  mkModel (m_nq m) (m_nv m) (m_nvE m) (m_njoints m) (m_nbodies m) nframes
    (m_inertias m) (m_placements m) (m_joints m)
    (m_idx_qs m) (m_nqs m) (m_idx_vs m) (m_nvs m) (m_idx_vEs m) (m_nvEs m)
    (m_parents m) (m_children m) (m_mimicking m) (m_mimicked m) (m_names m) (m_refs m)
    (m_armature m) (m_rotorInertia m) (m_rotorGearRatio m) (m_friction m) (m_damping m)
    (m_effort m) (m_velocity m) (m_lower m) (m_upper m)
    l (m_supports m) (m_mimic_supports m) (m_subtrees m) (m_gravity m) (m_name m).
(* direct assignment of the public members gravity and armature *)
Definition setGravityArmature (m : Model) (g : Motion) (arm : list R) : Model :=
  mkModel (m_nq m) (m_nv m) (m_nvE m) (m_njoints m) (m_nbodies m) (m_nframes m)
    (m_inertias m) (m_placements m) (m_joints m)
    (m_idx_qs m) (m_nqs m) (m_idx_vs m) (m_nvs m) (m_idx_vEs m) (m_nvEs m)
    (m_parents m) (m_children m) (m_mimicking m) (m_mimicked m) (m_names m) (m_refs m)
    arm (m_rotorInertia m) (m_rotorGearRatio m) (m_friction m) (m_damping m)
    (m_effort m) (m_velocity m) (m_lower m) (m_upper m)
    (m_frames m) (m_supports m) (m_mimic_supports m) (m_subtrees m) g (m_name m).

(* model.hxx 405-412 appendBodyToJoint (no range check: inertias[joint_index] out of range is undefined) *)
Definition appendBodyToJoint (eps : R) (m : Model) (j : nat) (Y : Inertia) (placement : SE3) : Res Model unit :=
  if j <? length (m_inertias m)
  then Ok (setInertias m (upd (m_inertias m) j (fun Y0 => inertia_pequ eps Y0 (inertia_act placement Y))) (S (m_nbodies m))) tt
  else Undef.

(* std::find / std::find_if: index of the first match, or the length *)
Fixpoint findIndex {A} (p : A -> bool) (l : list A) : nat :=
  match l with [] => 0 | x :: r => if p x then 0 else S (findIndex p r) end.

(* model.hxx 446-462 getJointId, existJointName *)
Definition getJointId (m : Model) (name : string) : nat := findIndex (fun n => String.eqb n name) (m_names m).
Definition existJointName (m : Model) (name : string) : bool := negb (getJointId m name =? length (m_names m)).

(* model.hxx 19-35 FilterFrame *)
Definition filterFrame (name : string) (mask : nat) (f : Frame) : bool :=
  negb (Nat.land mask (fr_type f) =? 0) && String.eqb name (fr_name f).
(* model.hxx 464-484 getFrameId (None: "Several frames match the filter"), existFrame *)
Definition getFrameId (m : Model) (name : string) (mask : nat) : option nat :=
  let i := findIndex (filterFrame name mask) (m_frames m) in
  let rest := skipn (S i) (m_frames m) in
  if (i =? length (m_frames m)) || (findIndex (filterFrame name mask) rest =? length rest) then Some i else None.
Definition existFrame (m : Model) (name : string) (mask : nat) : bool :=
  negb (findIndex (filterFrame name mask) (m_frames m) =? length (m_frames m)).

(* model.hxx 486-509 addFrame *)
Definition addFrame (eps : R) (m : Model) (f : Frame) (append_inertia : bool) : Res Model nat :=
  if negb (fr_parentJoint f <? m_njoints m) then Throw m
  else if existFrame m (fr_name f) (fr_type f)
  then match getFrameId m (fr_name f) (fr_type f) with Some i => Ok m i | None => Throw m end
  else
    let m1 := setFrames m (m_frames m ++ [f]) (S (m_nframes m)) in
    if append_inertia
    then if fr_parentJoint f <? length (m_inertias m)
         then Ok (setInertias m1 (upd (m_inertias m) (fr_parentJoint f)
                    (fun Y0 => inertia_pequ eps Y0 (inertia_act (fr_placement f) (fr_inertia f)))) (m_nbodies m)) (m_nframes m)
         else Undef
    else Ok m1 (m_nframes m).

(* model.hxx 212-232 addJointFrame; [prev] = None stands for a negative previous_frame_index *)
Definition addJointFrame (eps : R) (m : Model) (j : nat) (prev : option nat) : Res Model nat :=
  if negb (j <? length (m_joints m)) then Throw m
  else match nth_error (m_names m) j with
  | None => Undef
  | Some nm =>
      match prev with
      | Some k => addFrame eps m (mkFrame nm j k se3_Identity JOINT inertia_Zero) true
      | None =>
          match nth_error (m_parents m) j with
          | None => Undef
          | Some p => match nth_error (m_names m) p with
                      | None => Undef
                      | Some pn => match getFrameId m pn (Nat.lor JOINT FIXED_JOINT) with
                                   | None => Throw m
                                   | Some k => addFrame eps m (mkFrame nm j k se3_Identity JOINT inertia_Zero) true
                                   end
                      end
          end
      end
  end.

(* model.hxx 414-430 addBodyFrame *)
Definition addBodyFrame (eps : R) (m : Model) (name : string) (j : nat) (placement : SE3) (prev : option nat) : Res Model nat :=
  let go k := if k <? length (m_frames m)
              then addFrame eps m (mkFrame name j k placement BODY inertia_Zero) true else Throw m in
  match prev with
  | Some k => go k
  | None => match nth_error (m_names m) j with
            | None => Undef
            | Some pn => match getFrameId m pn (Nat.lor JOINT FIXED_JOINT) with None => Throw m | Some k => go k end
            end
  end.
(* model.hxx 432-444 getBodyId, existBodyName *)
Definition getBodyId (m : Model) (name : string) : option nat := getFrameId m name BODY.
Definition existBodyName (m : Model) (name : string) : bool := existFrame m name BODY.

(* hasConfigurationLimit of each joint: joint-revolute.hpp 777-785, joint-prismatic.hpp 689-697,
   joint-revolute-unbounded.hpp 143-151, joint-helical.hpp 862-869, joint-helical-unaligned.hpp 678-685,
   joint-free-flyer.hpp 293-301, joint-spherical.hpp 509-517, joint-spherical-ZYX.hpp 393-401, joint-planar.hpp 585-593,
   joint-translation.hpp 590-598, joint-universal.hpp 460-468 and the unaligned headers *)
Definition configLimit1 (j : Joint1) : list bool :=
  match j with
  | JRevolute _ | JRevoluteUnaligned _ | JPrismatic _ | JPrismaticUnaligned _ => [true]
  | JRUB _ | JRUBUnaligned _ => [false; false]
  | JHelical _ _ | JHelicalUnaligned _ _ => [true; true]
  | JFreeFlyer => [true; true; true; false; false; false; false]
  | JSpherical => [false; false; false; false]
  | JSphericalZYX | JTranslation => [true; true; true]
  | JPlanar => [true; true; false; false]
  | JUniversal _ _ => [true; true]
  end.
Definition configLimitTangent1 (j : Joint1) : list bool :=
  match j with
  | JRevolute _ | JRevoluteUnaligned _ | JPrismatic _ | JPrismaticUnaligned _ => [true]
  | JRUB _ | JRUBUnaligned _ => [false]
  | JHelical _ _ | JHelicalUnaligned _ _ => [true; true]
  | JFreeFlyer => [true; true; true; false; false; false]
  | JSpherical => [false; false; false]
  | JSphericalZYX | JTranslation => [true; true; true]
  | JPlanar => [true; true; false]
  | JUniversal _ _ => [true; true]
  end.
(* joint-mimic.hpp 682-690 (delegates to the wrapped joint); joint-composite.hpp 310-330 (concatenation) *)
Fixpoint configLimit (j : Joint) : list bool :=
  match j with
  | JSimple j => configLimit1 j
  | JMimic j _ _ => configLimit1 j
  | JComposite l => (fix go l := match l with [] => [] | (_, j) :: r => configLimit j ++ go r end) l
  end.
Fixpoint configLimitTangent (j : Joint) : list bool :=
  match j with
  | JSimple j => configLimitTangent1 j
  | JMimic j _ _ => configLimitTangent1 j
  | JComposite l => (fix go l := match l with [] => [] | (_, j) :: r => configLimitTangent j ++ go r end) l
  end.
(* model.hxx 522-544 *)
Definition hasConfigurationLimit (m : Model) : list bool :=
  flat_map (fun jm => configLimit (jm_type jm)) (tl (m_joints m)).
Definition hasConfigurationLimitInTangent (m : Model) : list bool :=
  flat_map (fun jm => configLimitTangent (jm_type jm)) (tl (m_joints m)).

(* algorithm/model.hxx 305-320 hasAncestor *)
Definition hasAncestor (m : Model) (child parent : nat) : bool :=
  existsb (fun k => k =? parent) (nth child (m_supports m) []).

(* algorithm/model.hxx 1017-1052 findCommonAncestor; the loop reads support[--index]; index 0 would wrap: None *)
Fixpoint caLoop (fuel : nat) (s1 s2 : list nat) (j1 j2 i1 i2 : nat) : option (nat * nat * nat) :=
  if j1 =? j2 then Some (j1, i1, i2) else
  match fuel with
  | 0 => None
  | S f =>
      if j2 <? j1
      then match i1 with
           | 0 => None
           | S i => match nth_error s1 i with None => None | Some j => caLoop f s1 s2 j j2 i i2 end
           end
      else match i2 with
           | 0 => None
           | S i => match nth_error s2 i with None => None | Some j => caLoop f s1 s2 j1 j i1 i end
           end
  end.
Definition findCommonAncestor (m : Model) (j1 j2 : nat) : Res unit (nat * nat * nat) :=
  if negb (j1 <? m_njoints m) then Throw tt else
  if negb (j2 <? m_njoints m) then Throw tt else
  if (j1 =? 0) || (j2 =? 0) then Ok tt (0, 0, 0) else
  let s1 := nth j1 (m_supports m) [] in
  let s2 := nth j2 (m_supports m) [] in
  match caLoop (length s1 + length s2) s1 s2 j1 j2 (length s1 - 1) (length s2 - 1) with
  | Some r => Ok tt r | None => Undef
  end.
