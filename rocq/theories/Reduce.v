(* Locking joints of a model (algorithm/model.hxx 507-760).  The memory reservations are left out. *)
Require Import Reals String List Arith Bool.
From Verif Require Import Vec3 Spatial Inertia Joints Model Mimic.
Import ListNotations.
Local Open Scope nat_scope.

(* model.hpp 447-449, 459-461: the default mask JOINT | FIXED_JOINT | BODY | OP_FRAME | SENSOR *)
Definition ANY_FRAME : nat := 31.

(* joint-model-base.hpp 319-350 and 380-411, jointVelocitySelector and jointConfigSelector: a segment of a vector, read or written.
   None: out of range (an empty segment touches nothing) *)
Definition readSeg (l : list R) (i n : nat) : option (list R) :=
  if (n =? 0) || (i + n <=? length l) then Some (firstn n (skipn i l)) else None.
Definition writeSeg (l : list R) (i : nat) (x : list R) : option (list R) :=
  if (length x =? 0) || (i + length x <=? length l) then Some (setSegment l i x) else None.
Definition selV (jm : JointM) (l : list R) : option (list R) := readSeg l (jm_idx_v jm) (jnv (jm_type jm)).
Definition selQ (jm : JointM) (l : list R) : option (list R) := readSeg l (jm_idx_q jm) (jnq (jm_type jm)).
(* the six limit vectors of a joint, selected from those of the model (665-670, 678-683) *)
Definition limitsOf (m : Model) (jm : JointM) : option Limits :=
  match selV jm (m_effort m), selV jm (m_velocity m), selQ jm (m_lower m), selQ jm (m_upper m),
        selV jm (m_friction m), selV jm (m_damping m) with
  | Some e, Some v, Some lo, Some up, Some f, Some d => Some (mkLimits e v lo up f d)
  | _, _, _, _, _, _ => None
  end.

(* direct assignment of rotorInertia and rotorGearRatio *)
Definition setRotor (m : Model) (ri rg : list R) : Model :=
  mkModel (m_nq m) (m_nv m) (m_nvE m) (m_njoints m) (m_nbodies m) (m_nframes m)
    (m_inertias m) (m_placements m) (m_joints m)
    (m_idx_qs m) (m_nqs m) (m_idx_vs m) (m_nvs m) (m_idx_vEs m) (m_nvEs m)
    (m_parents m) (m_children m) (m_mimicking m) (m_mimicked m) (m_names m) (m_refs m)
    (m_armature m) ri rg (m_friction m) (m_damping m)
    (m_effort m) (m_velocity m) (m_lower m) (m_upper m)
    (m_frames m) (m_supports m) (m_mimic_supports m) (m_subtrees m) (m_gravity m) (m_name m).
(* direct assignment of referenceConfigurations *)
Definition setRefs (m : Model) (refs : list (string * list R)) : Model :=
  mkModel (m_nq m) (m_nv m) (m_nvE m) (m_njoints m) (m_nbodies m) (m_nframes m)
    (m_inertias m) (m_placements m) (m_joints m)
    (m_idx_qs m) (m_nqs m) (m_idx_vs m) (m_nvs m) (m_idx_vEs m) (m_nvEs m)
    (m_parents m) (m_children m) (m_mimicking m) (m_mimicked m) (m_names m) refs
    (m_armature m) (m_rotorInertia m) (m_rotorGearRatio m) (m_friction m) (m_damping m)
    (m_effort m) (m_velocity m) (m_lower m) (m_upper m)
    (m_frames m) (m_supports m) (m_mimic_supports m) (m_subtrees m) (m_gravity m) (m_name m).
(* 548-555: entry 0 of the vectors of joints, the name and the gravity are copied *)
Definition set0 {A} (d : A) (src dst : list A) : list A := upd dst 0 (fun _ => nth 0 src d).
Definition copyUniverse (m r : Model) : Model :=
  mkModel (m_nq r) (m_nv r) (m_nvE r) (m_njoints r) (m_nbodies r) (m_nframes r)
    (set0 inertia_Zero (m_inertias m) (m_inertias r)) (set0 se3_Identity (m_placements m) (m_placements r))
    (set0 (freshJoint (JSimple (JRevolute 0))) (m_joints m) (m_joints r))
    (m_idx_qs r) (m_nqs r) (m_idx_vs r) (m_nvs r) (m_idx_vEs r) (m_nvEs r)
    (set0 0 (m_parents m) (m_parents r)) (m_children r) (m_mimicking r) (m_mimicked r)
    (set0 ""%string (m_names m) (m_names r)) (m_refs r)
    (m_armature r) (m_rotorInertia r) (m_rotorGearRatio r) (m_friction r) (m_damping r)
    (m_effort r) (m_velocity r) (m_lower r) (m_upper r)
    (m_frames r) (m_supports r) (m_mimic_supports r) (m_subtrees r) (m_gravity m) (m_name m).

(* std::sort (527) by insertion *)
Definition sortIndexes (l : list nat) : list nat := fold_right insertSort [] l.
(* 532-537 *)
Fixpoint increasing (l : list nat) : bool :=
  match l with a :: ((b :: _) as r) => (a <? b) && increasing r | _ => true end.

(* 571-585: the joint, the placement and the frame of the reduced model that carry the joint called [nm] of the input *)
Definition carrier (r : Model) (nm : string) : Res Model (nat * SE3 * nat) :=
  if existJointName r nm then Ok r (getJointId r nm, se3_Identity, 0) else
  match getFrameId r nm ANY_FRAME with
  | None => Throw r
  | Some k => match nth_error (m_frames r) k with
              | None => Undef
              | Some f => Ok r (fr_parentJoint f, fr_placement f, k)
              end
  end.

(* 597-628 and 728-759: one frame of the input is added to the reduced model; [lk] is the list of joints to lock *)
Definition addInputFrame (eps : R) (m : Model) (lk : list nat) (r : Model) (f : Frame) : Res Model unit :=
  let add f := match addFrame eps r f false with Ok r _ => Ok r tt | Throw r => Throw r | Undef => Undef end in
  match nth_error (m_names m) (fr_parentJoint f) with
  | None => Undef
  | Some support =>
      if existsb (fun k => k =? fr_parentJoint f) lk
      then if (fr_type f =? JOINT) && existFrame r (fr_name f) ANY_FRAME && String.eqb support (fr_name f)
           then Ok r tt
           else match getFrameId r support ANY_FRAME with
                | None => Throw r
                | Some k => match nth_error (m_frames r) k, nth_error (m_frames m) (fr_parentFrame f) with
                            | Some jf, Some pf =>
                                match getFrameId r (fr_name pf) ANY_FRAME with
                                | None => Throw r
                                | Some pk => add (mkFrame (fr_name f) (fr_parentJoint jf) pk
                                                    (se3_mul (fr_placement jf) (fr_placement f)) (fr_type f) (fr_inertia f))
                                end
                            | _, _ => Undef
                            end
                end
      else match nth_error (m_frames m) (fr_parentFrame f) with
           | None => Undef
           | Some pf =>
               match getFrameId r (fr_name pf) ANY_FRAME with
               | None => Throw r
               | Some pk => add (mkFrame (fr_name f) (getJointId r support) pk (fr_placement f) (fr_type f) (fr_inertia f))
               end
           end
  end.

(* 591-629: the frames between frame_it and the frame called [nm].  [fs] are the frames from frame_it on; the result
   is the new value of frame_it.  Reading past the last frame is undefined. *)
Fixpoint framesUpTo (eps : R) (m : Model) (lk : list nat) (nm : string) (r : Model) (fs : list Frame) : Res Model (list Frame) :=
  match fs with
  | [] => Undef
  | f :: rest =>
      if String.eqb (fr_name f) nm then Ok r fs else
      match rest with
      | [] => Undef
      | g :: _ =>
          if String.eqb (fr_name g) nm then Ok r rest else
          match addInputFrame eps m lk r g with
          | Ok r _ => framesUpTo eps m lk nm r rest
          | Throw r => Throw r
          | Undef => Undef
          end
      end
  end.

(* 724-760 *)
Fixpoint framesLeft (eps : R) (m : Model) (lk : list nat) (r : Model) (fs : list Frame) : Res Model unit :=
  match fs with
  | [] => Ok r tt
  | f :: rest =>
      match addInputFrame eps m lk r f with
      | Ok r _ => framesLeft eps m lk r rest
      | Throw r => Throw r
      | Undef => Undef
      end
  end.

(* 589-646: joint [i] becomes a fixed frame of joint [p]; [pl] and [prev] are the placement and the frame found by
   [carrier].  joint.calc reads the coordinates of the joint in the reference configuration [q0]. *)
Definition lockJoint (eps : R) (m : Model) (lk : list nat) (q0 : list R) (r : Model) (fs : list Frame)
  (i : nat) (nm : string) (jm : JointM) (p : nat) (pl : SE3) (prev : nat) : Res Model (list Frame) :=
  match framesUpTo eps m lk nm r fs with
  | Throw r => Throw r
  | Undef => Undef
  | Ok r fs =>
      match nth_error (m_placements m) i, nth_error (m_inertias m) i with
      | Some jpl, Some Y =>
          let M := jM (jcalc (jm_type jm) (shift (jm_idx_q jm) (fun k => nth k q0 0%R)) (fun _ => 0%R)) in
          match addFrame eps r (mkFrame nm p prev (se3_mul (se3_mul pl jpl) M) FIXED_JOINT Y) true with
          | Throw r => Throw r
          | Undef => Undef
          | Ok r id =>
              Ok (setFrames r (upd (m_frames r) id (fun f => mkFrame (fr_name f) (fr_parentJoint f) id (fr_placement f)
                                                               (fr_type f) (fr_inertia f))) (m_nframes r)) fs
          end
      | _, _ => Undef
      end
  end.

(* joint [i] of [m], in its adapted form [jm'], is added to [r] as a child of joint [p] with its limits [lim]; its
   inertia and its rotor parameters follow (buildReducedModel 675-694, AppendJointOfModelAlgo 209-230) *)
Definition copyToModel (eps : R) (m r : Model) (i : nat) (nm : string) (jm jm' : JointM) (lim : Limits) (p : nat) (pl : SE3)
  : Res Model nat :=
  match nth_error (m_placements m) i, nth_error (m_inertias m) i with
  | Some jpl, Some Y =>
      match addJoint r p jm' (se3_mul pl jpl) nm lim with
      | Throw r => Throw r
      | Undef => Undef
      | Ok r id =>
          match appendBodyToJoint eps r id Y se3_Identity, nth_error (m_joints r) id with
          | Ok r _, Some jo =>
              match selV jm (m_rotorInertia m), selV jm (m_rotorGearRatio m) with
              | Some ri, Some rg =>
                  match writeSeg (m_rotorInertia r) (jm_idx_v jo) ri, writeSeg (m_rotorGearRatio r) (jm_idx_v jo) rg with
                  | Some ri, Some rg => Ok (setRotor r ri rg) id
                  | _, _ => Undef
                  end
              | _, _ => Undef
              end
          | Throw r, _ => Throw r
          | _, _ => Undef
          end
      end
  | _, _ => Undef
  end.

(* 651-661: a mimic joint is linked to the joint of the reduced model that has the name of its mimicked joint *)
Definition relink (m r : Model) (jm : JointM) : option JointM :=
  if isMimic jm
  then match nth_error (m_names m) (jm_ref jm) with
       | None => None
       | Some mimicked =>
           let k := getJointId r mimicked in
           match nth_error (m_idx_qs r) k, nth_error (m_idx_vs r) k with
           | Some q, Some v => Some (setMimicIndexes jm k q v)
           | _, _ => None
           end
       end
  else Some jm.
(* 650-695: joint [i] is kept *)
Definition keepJoint (eps : R) (m r : Model) (i : nat) (nm : string) (jm : JointM) (p : nat) (pl : SE3) : Res Model nat :=
  match relink m r jm with
  | Some jm' => match limitsOf m jm' with
                | Some lim => copyToModel eps m r i nm jm jm' lim p pl
                | None => Undef
                end
  | None => Undef
  end.

(* 559-696: [ids] are the joints still to visit, [todo] the joints to lock from current_index_to_lock on *)
Fixpoint reduceLoop (eps : R) (m : Model) (lk : list nat) (q0 : list R) (ids : list nat) (r : Model) (fs : list Frame) (todo : list nat)
  : Res Model (list Frame) :=
  match ids with
  | [] => Ok r fs
  | i :: ids =>
      match nth_error (m_parents m) i, nth_error (m_names m) i, nth_error (m_joints m) i with
      | Some ip, Some nm, Some jm =>
          match nth_error (m_names m) ip with
          | None => Undef
          | Some pn =>
              match carrier r pn with
              | Throw r => Throw r
              | Undef => Undef
              | Ok _ (p, pl, prev) =>
                  if i =? hd 0 todo
                  then match lockJoint eps m lk q0 r fs i nm jm p pl prev with
                       | Ok r fs => reduceLoop eps m lk q0 ids r fs (tl todo)
                       | Throw r => Throw r
                       | Undef => Undef
                       end
                  else match keepJoint eps m r i nm jm p pl with
                       | Ok r _ => reduceLoop eps m lk q0 ids r fs todo
                       | Throw r => Throw r
                       | Undef => Undef
                       end
              end
          end
      | _, _, _ => Undef
      end
  end.

(* 707-718: one reference configuration restricted to the joints of the reduced model *)
Fixpoint restrictConfig (m r : Model) (c : list R) (ids : list nat) (out : list R) : option (list R) :=
  match ids with
  | [] => Some out
  | k :: ids =>
      match nth_error (m_names r) k, nth_error (m_joints r) k with
      | Some nm, Some jo =>
          match nth_error (m_joints m) (getJointId m nm) with
          | None => None
          | Some ji => match selQ ji c with
                       | None => None
                       | Some x => match writeSeg out (jm_idx_q jo) x with
                                   | None => None
                                   | Some out => restrictConfig m r c ids out
                                   end
                       end
          end
      | _, _ => None
      end
  end.
(* 699-722; std::map::insert keeps an entry that is already there: the output model has none *)
Fixpoint restrictConfigs (m r : Model) (l : list (string * list R)) : option (list (string * list R)) :=
  match l with
  | [] => Some []
  | (key, c) :: l =>
      match restrictConfig m r c (seq 1 (length (m_joints r) - 1)) (repeat 0%R (m_nq r)), restrictConfigs m r l with
      | Some x, Some l => Some ((key, x) :: l)
      | _, _ => None
      end
  end.

(* 507-760 buildReducedModel on an output model that is still empty (the overload of algorithm/model.hpp 141-151
   declares it just before the call) *)
Definition buildReducedModel (eps : R) (m : Model) (l : list nat) (q0 : list R) : Res Model unit :=
  let r := emptyModel in
  if negb (length q0 =? m_nq m) then Throw r else
  if negb (length l <=? m_njoints m) then Throw r else
  let lk := sortIndexes l in
  if negb (increasing lk) then Throw r else
  match reduceLoop eps m lk q0 (seq 1 (m_njoints m - 1)) (copyUniverse m r) (m_frames m) lk with
  | Throw r => Throw r
  | Undef => Undef
  | Ok r fs =>
      match restrictConfigs m r (m_refs m) with
      | None => Undef
      | Some refs => framesLeft eps m lk (setRefs r refs) fs
      end
  end.
