(* Loading a URDF description: the traversal of the link tree (src/parsers/urdf/model.cpp 67-320) and the operations it
   performs on the model (parsers/urdf/model.hxx 205-380, 601-616).  The XML reader is not modelled: a description is the
   tree of links that urdfdom returns.  A joint carries the joint model chosen from its URDF type and axis (UrdfJoint.v; the switches of
   model.cpp 103-255 and model.hxx 248-329, 438-475) and its limits; None is a fixed joint.  URDF mimic tags, the log output and
   the name of the model are left out. *)
Require Import Reals String List Arith Bool.
From Verif Require Import Vec3 Spatial Inertia Joints Model Append.
Import ListNotations.
Local Open Scope nat_scope.

(* the joint between a link and its parent link: urdf::Joint (name, parent_to_joint_origin_transform, type and limits) *)
Record Conn := mkConn { c_name : string; c_origin : SE3; c_joint : option (Joint * Limits) }.
(* urdf::Link: name, inertial, child_links with their parent joints *)
Inductive Link := mkLink (name : string) (Y : Inertia) (kids : list (Conn * Link)).

Definition bind {A B} (x : Res Model A) (k : Model -> A -> Res Model B) : Res Model B :=
  match x with Ok m a => k m a | Throw m => Throw m | Undef => Undef end.
Definition frameAt (m : Model) (k : nat) : Frame := nth k (m_frames m) universeFrame.

(* model.hxx 376-387 getBodyId of the visitor *)
Definition visitorBodyId (m : Model) (name : string) : Res Model nat :=
  if existFrame m name BODY
  then match getFrameId m name BODY with Some k => Ok m k | None => Throw m end
  else Throw m.

(* model.hxx 351-374 appendBodyToJoint of the visitor *)
Definition visitorAppend (eps : R) (m : Model) (fid : nat) (Y : Inertia) (placement : SE3) (body : string) : Res Model unit :=
  let f := frameAt m fid in
  let p := se3_mul (fr_placement f) placement in
  bind (if isZeroInertia Y then Ok m tt else appendBodyToJoint eps m (fr_parentJoint f) Y p)
    (fun m1 _ => bind (addBodyFrame eps m1 body (fr_parentJoint f) p (Some fid)) (fun m2 _ => Ok m2 tt)).

(* model.hxx 213-332 addJointAndBody *)
Definition visitorJoint (eps : R) (m : Model) (pf : nat) (j : Joint) (lim : Limits) (M : SE3) (jname : string)
  (Y : Inertia) (body : string) : Res Model unit :=
  let f := frameAt m pf in
  bind (addJoint m (fr_parentJoint f) (freshJoint j) (se3_mul (fr_placement f) M) jname lim)
    (fun m1 id => bind (addJointFrame eps m1 id (Some pf)) (fun m2 fid => visitorAppend eps m2 fid Y se3_Identity body)).

(* model.hxx 334-349 addFixedJointAndBody *)
Definition visitorFixed (eps : R) (m : Model) (pf : nat) (M : SE3) (jname : string) (Y : Inertia) (body : string) : Res Model unit :=
  let f := frameAt m pf in
  let p := se3_mul (fr_placement f) M in
  bind (addFrame eps m (mkFrame jname (fr_parentJoint f) pf p FIXED_JOINT Y) true)
    (fun m1 fid => bind (addBodyFrame eps m1 body (fr_parentJoint f) p (Some fid)) (fun m2 _ => Ok m2 tt)).

(* model.cpp 76-286: one link with a parent *)
Definition parseLink (eps : R) (m : Model) (parent : string) (c : Conn) (name : string) (Y : Inertia) : Res Model unit :=
  bind (visitorBodyId m parent) (fun m0 pf =>
    match c_joint c with
    | Some (j, lim) => visitorJoint eps m0 pf j lim (c_origin c) (c_name c) Y name
    | None => visitorFixed eps m0 pf (c_origin c) (c_name c) Y name
    end).

(* model.cpp 67-294 parseTree: the link, then its children in order *)
Fixpoint parseTree (eps : R) (parent : string) (c : Conn) (l : Link) (m : Model) {struct l} : Res Model unit :=
  match l with
  | mkLink name Y kids =>
      bind (parseLink eps m parent c name Y) (fun m1 _ =>
        (fix go (ks : list (Conn * Link)) (m : Model) : Res Model unit :=
           match ks with
           | [] => Ok m tt
           | (c', l') :: r => bind (parseTree eps name c' l' m) (fun m2 _ => go r m2)
           end) kids m1)
  end.

(* model.hxx 205-212 addRootJoint, 601-616 addRootJoint with a root joint.  The default limits of the root joint (infinite)
   are an argument here. *)
Definition parseRoot (eps : R) (m : Model) (root : option (Joint * string * Limits)) (Y : Inertia) (name : string) : Res Model unit :=
  match root with
  | None => let f := frameAt m 0 in
            bind (addFrame eps m (mkFrame name (fr_parentJoint f) 0 (fr_placement f) BODY Y) true) (fun m1 _ => Ok m1 tt)
  | Some (j, rjn, lim) =>
      if existJointName m rjn then Throw m
      else bind (addJoint m (fr_parentJoint (frameAt m 0)) (freshJoint j) se3_Identity rjn lim)
             (fun m1 id => bind (addJointFrame eps m1 id (Some 0)) (fun m2 fid => visitorAppend eps m2 fid Y se3_Identity name))
  end.

(* model.cpp 304-316 parseRootTree: the root link, then its children; child links of the root have it as parent *)
Definition parseRootTree (eps : R) (m : Model) (root : option (Joint * string * Limits)) (l : Link) : Res Model unit :=
  match l with
  | mkLink name Y kids =>
      bind (parseRoot eps m root Y name) (fun m1 _ =>
        fold_left (fun r k => bind r (fun m2 _ => parseTree eps name (fst k) (snd k) m2)) kids (Ok m1 tt))
  end.
