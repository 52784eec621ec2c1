(* C89: the model loaded from a URDF description. *)
Require Import Reals String List Arith.
From Verif Require Import Vec3 Spatial Inertia Joints Spec_Joints Model Spec_Model ModelFacts3 Data Kinematics Spec_Kin Append Urdf Spec_Urdf UrdfFacts UrdfFacts2 UrdfFacts3.
Import ListNotations.
Local Open Scope nat_scope.

(** a well-formed description is loaded; there is one joint per joint that is not fixed; each link has one body frame; the root link is at the origin or
    moved by the root joint; every other link is placed in its parent link by the origin of its joint followed by the motion of that joint, for every configuration *)
Theorem C89_kinematics (eps : R) (root : option (Joint * string * Limits)) (l : Link) : goodTree root l ->
  exists m', parseRootTree eps emptyModel root l = Ok m' tt /\ Built eps m' /\
  m_njoints m' = 1 + (match root with Some _ => 1 | None => 0 end) + moving (treeEdges l) /\
  (exists f, bodyFrame m' (rootName l) f /\ forall q, framePl m' q f =
     match root with Some (j, _, _) => jM (jcalc j (shift (idx_q m' (fr_parentJoint f)) q) noVel) | None => se3_Identity end) /\
  forall e, In e (treeEdges l) -> exists f g, bodyFrame m' (e_name e) f /\ bodyFrame m' (e_parent e) g /\
    match c_joint (e_conn e) with
    | None => fr_parentJoint f = fr_parentJoint g /\ forall q, framePl m' q f = se3_mul (framePl m' q g) (c_origin (e_conn e))
    | Some (j, _) => nth (fr_parentJoint f) (m_names m') ""%string = c_name (e_conn e) /\ jm_type (joint m' (fr_parentJoint f)) = j /\
        parent m' (fr_parentJoint f) = fr_parentJoint g /\
        forall q, framePl m' q f = se3_mul (framePl m' q g) (se3_mul (c_origin (e_conn e)) (jM (jcalc j (shift (idx_q m' (fr_parentJoint f)) q) noVel)))
    end.
Proof. exact (load_kin eps root l). Qed.
Print Assumptions C89_kinematics.
Example C89_kinematics_ex : goodTree None urdfEx /\ goodTree (Some (JSimple JFreeFlyer, "root_joint"%string, exLim 7 6)) urdfEx.
Proof. exact urdfEx_good. Qed.

(** no mass is lost: the bodies attached to the joints are the links with an inertia, in the order of the description, each at its body frame *)
Theorem C89_bodies (eps : R) (root : option (Joint * string * Limits)) (l : Link) : goodTree root l ->
  exists m', parseRootTree eps emptyModel root l = Ok m' tt /\ totalMass m' = linkMass l /\
  exists bodies, History eps m' bodies /\
    Forall2 (fun (link : string * Inertia) (x : nat * SE3 * Inertia) => snd x = snd link /\
               exists f, bodyFrame m' (fst link) f /\ fst x = (fr_parentJoint f, fr_placement f))
      (filter (fun p => negb (isZeroInertia (snd p))) ((rootName l, rootInertia l) :: map (fun e => (e_name e, e_Y e)) (treeEdges l)))
      (filter (fun x => negb (isZeroInertia (snd x))) bodies).
Proof. exact (load_bodies eps root l). Qed.
Print Assumptions C89_bodies.
(* hypotheses met: C89_kinematics_ex *)

(** without the condition on the name "universe" the mass of a link can be lost silently: a fixed joint of that name is taken for the frame of the universe *)
Theorem C89_universe_refuted (eps : R) : NoDup (linkNames urdfUniverse) /\ NoDup (jointNames None urdfUniverse) /\ linkMass urdfUniverse = 2%R /\
  exists m', parseRootTree eps emptyModel None urdfUniverse = Ok m' tt /\ totalMass m' = 0%R.
Proof. exact (universe_lost eps). Qed.
Print Assumptions C89_universe_refuted.
