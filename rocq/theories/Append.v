(* Appending a model to a frame of another one (algorithm/model.hxx 14-463).  Geometry models are left out (the overload
   of 289-300 passes empty ones), as are the memory reservations.  Reals have no NaN: the tests inertia == inertia hold. *)
Require Import Reals String List Arith Bool.
From Verif Require Import Vec3 Spatial Inertia Joints Model Mimic Reduce.
Import ListNotations.
Local Open Scope nat_scope.

(* 22-33 details::getJointId; parents[0] of the input is read when the name is that of its joint 0 *)
Definition outJointId (m r : Model) (nm : string) : nat :=
  if (getJointId m nm =? 0) && (nth 0 (m_parents m) 0 =? 0)
  then getJointId r (nth 0 (m_names r) ""%string) else getJointId r nm.

(* 40-54 details::getFrameId (None: throws) *)
Definition outFrameId (m r : Model) (nm : string) (ty : nat) : option nat :=
  match getFrameId m nm ANY_FRAME with
  | None => None
  | Some k =>
      let f0 := nth 0 (m_frames m) universeFrame in
      if (k =? 0) && (fr_parentFrame f0 =? 0) && (fr_parentJoint f0 =? 0)
      then getFrameId r (fr_name (nth 0 (m_frames r) universeFrame)) ty else getFrameId r nm ty
  end.

(* 107-111 and 253-257: the inertia of a frame is removed from its joint, then added back by addFrame *)
Definition isZeroInertia (Y : Inertia) : bool :=
  if Req_EM_T (mass Y) 0 then
    if Req_EM_T (vx (lever Y)) 0 then if Req_EM_T (vy (lever Y)) 0 then if Req_EM_T (vz (lever Y)) 0 then
    if Req_EM_T (s0 (inertia Y)) 0 then if Req_EM_T (s1 (inertia Y)) 0 then if Req_EM_T (s2 (inertia Y)) 0 then
    if Req_EM_T (s3 (inertia Y)) 0 then if Req_EM_T (s4 (inertia Y)) 0 then if Req_EM_T (s5 (inertia Y)) 0 then true
    else false else false else false else false else false else false else false else false else false else false.
Definition moveFrame (eps : R) (r : Model) (f : Frame) : Res Model unit :=
  match (if isZeroInertia (fr_inertia f) then Some r
         else if fr_parentJoint f <? length (m_inertias r)
         then Some (setInertias r (upd (m_inertias r) (fr_parentJoint f) (fun Y => inertia_mequ eps Y (fr_inertia f))) (m_nbodies r))
         else None) with
  | None => Undef
  | Some r => match addFrame eps r f true with Ok r _ => Ok r tt | Throw r => Throw r | Undef => Undef end
  end.

(* the frame [pf] of the input seen from the output: 91-100 and 244-249 *)
Definition parentFrameOf (m r : Model) (pf dflt : nat) : Res Model nat :=
  if pf =? 0 then Ok r dflt else
  match nth_error (m_frames m) pf with
  | None => Undef
  | Some f => match outFrameId m r (fr_name f) (fr_type f) with Some k => Ok r k | None => Throw r end
  end.

(* 81-113 and 233-259: the frames of joint [j] of the input are attached to joint [jid] of the output, moved by [M].
   [dflt] replaces a parent frame 0. *)
Fixpoint moveFrames (eps : R) (m r : Model) (j jid dflt : nat) (M : SE3) (fs : list Frame) : Res Model unit :=
  match fs with
  | [] => Ok r tt
  | f :: fs =>
      if fr_parentJoint f =? j
      then if existFrame r (fr_name f) (fr_type f) then Throw r else
           match parentFrameOf m r (fr_parentFrame f) dflt with
           | Throw r => Throw r
           | Undef => Undef
           | Ok _ pf =>
               match moveFrame eps r (mkFrame (fr_name f) jid pf (se3_mul M (fr_placement f)) (fr_type f) (fr_inertia f)) with
               | Ok r _ => moveFrames eps m r j jid dflt M fs
               | Throw r => Throw r
               | Undef => Undef
               end
           end
      else moveFrames eps m r j jid dflt M fs
  end.

(* 57-135 appendUniverseToModel *)
Definition appendUniverse (eps : R) (m : Model) (parentFrame : nat) (pfM : SE3) (r : Model) : Res Model unit :=
  match nth_error (m_frames r) parentFrame with
  | None => Throw r
  | Some pframe =>
      let jid := fr_parentJoint pframe in
      let M := se3_mul (fr_placement pframe) pfM in
      match appendBodyToJoint eps r jid (nth 0 (m_inertias m) inertia_Zero) M with
      | Throw r => Throw r
      | Undef => Undef
      | Ok r _ => moveFrames eps m r 0 jid parentFrame M (tl (m_frames m))
      end
  end.

(* 187-278 AppendJointOfModelAlgo for joint [i] of the input, with updateMimicIds (160-184).  Frames keep their placement
   on the joint; a frame whose parent frame is 0 keeps that parent. *)
Definition appendJoint (eps : R) (m : Model) (parent_id : nat) (pMi : SE3) (r : Model) (i : nat) : Res Model unit :=
  match nth_error (m_parents m) i, nth_error (m_names m) i, nth_error (m_joints m) i with
  | Some ip, Some nm, Some jm =>
      match (if 0 <? ip then option_map (outJointId m r) (nth_error (m_names m) ip) else Some parent_id) with
      | None => Undef
      | Some p =>
          if existJointName r nm then Throw r else
          match (if isMimic jm
                 then match nth_error (m_names m) (jm_ref jm) with
                      | None => None
                      | Some mimicked =>
                          let k := getJointId r mimicked in
                          option_map (fun jk => setMimicIndexes jm k (jm_idx_q jk) (jm_idx_v jk)) (nth_error (m_joints r) k)
                      end
                 else Some jm), limitsOf m jm with
          | Some jm', Some lim =>
              match copyToModel eps m r i nm jm jm' lim p pMi with
              | Throw r => Throw r
              | Undef => Undef
              | Ok r id => moveFrames eps m r i id 0 se3_Identity (tl (m_frames m))
              end
          | _, _ => Undef
          end
      end
  | _, _, _ => Undef
  end.
Fixpoint appendJoints (eps : R) (m : Model) (parent_id : nat) (pMi : nat -> SE3) (ids : list nat) (r : Model) : Res Model unit :=
  match ids with
  | [] => Ok r tt
  | i :: ids => match appendJoint eps m parent_id (pMi i) r i with
                | Ok r _ => appendJoints eps m parent_id pMi ids r
                | x => x
                end
  end.

(* 362-380 *)
Definition beforeB (a : Model) (p : nat) : list nat :=
  seq 1 p ++ filter (fun j => hasAncestor a j p) (seq (S p) (length (m_joints a) - S p)).
Definition afterB (a : Model) (p : nat) : list nat :=
  filter (fun j => negb (hasAncestor a j p)) (seq (S p) (length (m_joints a) - S p)).

(* 424-433 and 452-462: the segments of the joints of the input are written in a configuration of the output *)
Fixpoint fillConfig (m r : Model) (c : list R) (ids : list nat) (out : list R) : option (list R) :=
  match ids with
  | [] => Some out
  | i :: ids =>
      match nth_error (m_names m) i, nth_error (m_joints m) i with
      | Some nm, Some ji =>
          match nth_error (m_joints r) (getJointId r nm) with
          | None => None
          | Some jo => match selQ ji c with
                       | None => None
                       | Some x => match writeSeg out (jm_idx_q jo) x with
                                   | None => None
                                   | Some out => fillConfig m r c ids out
                                   end
                       end
          end
      | _, _ => None
      end
  end.
(* std::map: find and insert.  The order of the entries is left out: new entries go to the end *)
Fixpoint lookup (key : string) (l : list (string * list R)) : option (list R) :=
  match l with [] => None | (k, c) :: l => if String.eqb k key then Some c else lookup key l end.
Fixpoint store (key : string) (c : list R) (l : list (string * list R)) : list (string * list R) :=
  match l with [] => [(key, c)] | (k, c0) :: l => if String.eqb k key then (k, c) :: l else (k, c0) :: store key c l end.
(* 417-463: each configuration of the input is written over the entry of the same name (neutral when there is none) *)
Fixpoint mergeConfigs (m r : Model) (neutral : list R) (l : list (string * list R)) (refs : list (string * list R))
  : option (list (string * list R)) :=
  match l with
  | [] => Some refs
  | (key, c) :: l =>
      let base := match lookup key refs with Some x => x | None => neutral end in
      match fillConfig m r c (seq 1 (length (m_joints m) - 1)) base with
      | None => None
      | Some x => mergeConfigs m r neutral l (store key x refs)
      end
  end.

(* 323-463 appendModel on an output model that is still empty (algorithm/model.hpp 38-73 declare it just before the call).
   [neutralOf] is the function neutral (modelled in LieGroup.v). *)
Definition appendModel (eps : R) (neutralOf : Model -> list R) (a b : Model) (frameInModelA : nat) (aMb : SE3) : Res Model unit :=
  let r := emptyModel in
  if negb (frameInModelA <? m_nframes a) then Throw r else
  match nth_error (m_frames a) frameInModelA with
  | None => Undef
  | Some frame =>
      let p := fr_parentJoint frame in
      match appendUniverse eps a 0 se3_Identity r with
      | Ok r _ =>
          match appendJoints eps a 0 (fun _ => se3_Identity) (beforeB a p) r with
          | Ok r _ =>
              match outFrameId a r (fr_name frame) (fr_type frame) with
              | None => Throw r
              | Some pf =>
                  match appendUniverse eps b pf aMb r with
                  | Ok r _ =>
                      match appendJoints eps b p
                              (fun j => if nth j (m_parents b) 0 =? 0 then se3_mul (fr_placement frame) aMb else se3_Identity)
                              (seq 1 (length (m_joints b) - 1)) r with
                      | Ok r _ =>
                          match appendJoints eps a 0 (fun _ => se3_Identity) (afterB a p) r with
                          | Ok r _ =>
                              match mergeConfigs a r (neutralOf r) (m_refs a) (m_refs r) with
                              | None => Undef
                              | Some refs => match mergeConfigs b r (neutralOf r) (m_refs b) refs with
                                             | None => Undef
                                             | Some refs => Ok (setRefs r refs) tt
                                             end
                              end
                          | x => x
                          end
                      | x => x
                      end
                  | x => x
                  end
              end
          | x => x
          end
      | x => x
      end
  end.
