(* What a loaded model says about the links of the description. *)
Require Import Reals String List Arith.
From Verif Require Import Vec3 Spatial Inertia Joints Spec_Joints Model Spec_Model Data Kinematics Spec_Kin Urdf.
Import ListNotations.
Local Open Scope nat_scope.

(* the links below the root, each with the name of its parent link and the joint that connects them *)
Record Edge := mkEdge { e_parent : string; e_conn : Conn; e_name : string; e_Y : Inertia }.
Fixpoint edges (parent : string) (c : Conn) (l : Link) : list Edge :=
  match l with
  | mkLink name Y kids => mkEdge parent c name Y :: flat_map (fun k => edges name (fst k) (snd k)) kids
  end.
Definition treeEdges (l : Link) : list Edge :=
  match l with mkLink name _ kids => flat_map (fun k => edges name (fst k) (snd k)) kids end.
Definition rootName (l : Link) : string := match l with mkLink name _ _ => name end.
Definition rootInertia (l : Link) : Inertia := match l with mkLink _ Y _ => Y end.
Definition jointNames (root : option (Joint * string * Limits)) (l : Link) : list string :=
  match root with Some (_, rjn, _) => [rjn] | None => [] end ++ map (fun e => c_name (e_conn e)) (treeEdges l).
Definition linkNames (l : Link) : list string := rootName l :: map e_name (treeEdges l).

(* a joint the loader can add: not a mimic, limits of its sizes *)
Definition goodJoint (j : option (Joint * Limits)) : Prop :=
  match j with Some (jt, lim) => notMimic jt /\ goodSizes jt lim | None => True end.
(* a well-formed description: distinct link names, distinct joint names, none of them "universe" *)
Definition goodTree (root : option (Joint * string * Limits)) (l : Link) : Prop :=
  NoDup (linkNames l) /\ NoDup ("universe"%string :: jointNames root l) /\
  (forall e, In e (treeEdges l) -> goodJoint (c_joint (e_conn e))) /\
  match root with Some (jt, _, lim) => notMimic jt /\ goodSizes jt lim | None => True end.

(* f is the only body frame of that name *)
Definition bodyFrame (m : Model) (name : string) (f : Frame) : Prop :=
  In f (m_frames m) /\ fr_name f = name /\ fr_type f = BODY /\
  forall g, In g (m_frames m) -> fr_name g = name -> fr_type g = BODY -> g = f.
(* placement of a frame in the world *)
Definition framePl (m : Model) (q : nat -> R) (f : Frame) : SE3 := se3_mul (worldPl m q (fr_parentJoint f)) (fr_placement f).
Definition linkMass (l : Link) : R := (mass (rootInertia l) + fold_right Rplus 0 (map (fun e => mass (e_Y e)) (treeEdges l)))%R.
(* the number of joints that are not fixed *)
Definition moving (es : list Edge) : nat := fold_right Nat.add 0 (map (fun e => match c_joint (e_conn e) with Some _ => 1 | None => 0 end) es).
