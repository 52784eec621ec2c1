(** Property theorems C41 (joint models). Statements only. *)
From Coq Require Import Reals Lra List.
From Verif Require Import Vec3 Spatial Deriv Joints Spec_Joints JointFacts JointFacts2.
Import ListNotations.
Open Scope R_scope.

Theorem C41_rotation (j : Joint) (q v : nat -> R) :
  validJoint j -> validConfig j q -> isRotation (rot (jM (jcalc j q v))).
Proof. exact (jM_rotation j q v). Qed.
Example C41_rotation_ex : validJoint exJoint /\ validConfig exJoint (exTraj 1).
Proof. exact (conj exJoint_valid (exTraj_valid 1)). Qed.
Print Assumptions C41_rotation.

(** data.v is the motion subspace times the joint velocity *)
Theorem C41_velocity (j : Joint) (q v : nat -> R) :
  validJoint j ->
  length (jS (jcalc j q v)) = jnvE j /\ jv (jcalc j q v) = Smul (jS (jcalc j q v)) v.
Proof. exact (fun H => conj (jS_lengthE j q v H) (jv_S j q v H)). Qed.
Example C41_velocity_ex : validJoint exJoint. Proof. exact exJoint_valid. Qed.
Print Assumptions C41_velocity.

(** along any configuration curve with joint velocity w, data.v is the body twist of the joint transform *)
Theorem C41_twist (j : Joint) (q v : R -> nat -> R) (w : nat -> R) (t : R) :
  validJoint j -> validConfig j (q t) ->
  (forall k, (k < readsQ j)%nat -> deriv (fun s => q s k) (configRate j (q t) w k) t) ->
  hasTwist (fun s => jM (jcalc j (q s) (v s))) (Smul (jS (jcalc j (q t) w)) w) t.
Proof. exact (jM_twist_S j q v w t). Qed.
Example C41_twist_ex : validJoint exJoint /\ forall t, validConfig exJoint (exTraj t) /\
  forall k, (k < readsQ exJoint)%nat -> deriv (fun s => exTraj s k) (configRate exJoint (exTraj t) exVel k) t.
Proof. exact (conj exJoint_valid (fun t => conj (exTraj_valid t) (exTraj_rate t))). Qed.
Print Assumptions C41_twist.

(** data.c is what remains of the derivative of data.v when the joint acceleration is taken out *)
Theorem C41_bias (j : Joint) (q v : R -> nat -> R) (a : nat -> R) (t : R) :
  validJoint j -> validConfig j (q t) ->
  (forall k, (k < readsQ j)%nat -> deriv (fun s => q s k) (configRate j (q t) (v t) k) t) ->
  (forall k, (k < jnvE j)%nat -> deriv (fun s => v s k) (a k) t) ->
  let d := jcalc j (q t) (v t) in
  deriv6 (fun s => jv (jcalc j (q s) (v s))) (v6add (Smul (jS d) a) (jc d)) t.
Proof. exact (jv_biasE j q v a t). Qed.
Example C41_bias_ex : validJoint exJoint /\ forall t, validConfig exJoint (exTraj t) /\
  (forall k, (k < readsQ exJoint)%nat -> deriv (fun s => exTraj s k) (configRate exJoint (exTraj t) exVel k) t) /\
  (forall k, (k < jnvE exJoint)%nat -> deriv (fun s => exVel k) 0 t).
Proof. exact (conj exJoint_valid (fun t => conj (exTraj_valid t) (conj (exTraj_rate t) (fun k _ => deriv_const (exVel k) t)))). Qed.
Print Assumptions C41_bias.

(** at the neutral configuration the transform of every joint is the identity; together with C41_twist this
    determines the transform *)
Theorem C41_neutral (j : Joint1) (v : nat -> R) :
  validJoint1 j -> validConfig1 j (neutral1 j) /\ jM (jcalc (JSimple j) (neutral1 j) v) = se3_Identity.
Proof. exact (neutral_identity j v). Qed.
Example C41_neutral_ex : validJoint1 (JRevoluteUnaligned (mkV3 (3/5) 0 (4/5))). Proof. exact exUnit. Qed.
Print Assumptions C41_neutral.

(** spherical and free-flyer joints rotate vectors by their quaternion, translate by their position *)
Theorem C41_quaternion (q v : nat -> R) (u : V3) :
  se3_actPoint (jM (jcalc (JSimple JSpherical) q v)) u = quatRotate (q 0%nat) (q 1%nat) (q 2%nat) (q 3%nat) u /\
  se3_actPoint (jM (jcalc (JSimple JFreeFlyer) q v)) u =
    v3add (quatRotate (q 3%nat) (q 4%nat) (q 5%nat) (q 6%nat) u) (mkV3 (q 0%nat) (q 1%nat) (q 2%nat)).
Proof. exact (quaternion_joints q v u). Qed.
Print Assumptions C41_quaternion.

(** a mimic joint moves as the joint it wraps, at the affinely transformed configuration *)
Theorem C41_mimic (j : Joint1) (s o : R) (q v : nat -> R) :
  mimicable j ->
  (match j with JRUB _ | JRUBUnaligned _ => False | _ => True end ->
     jM (jcalc (JMimic j s o) q v) = jM (jcalc (JSimple j) (fun k => s * q k + o) v)) /\
  (forall th : R, (match j with JRUB _ | JRUBUnaligned _ => True | _ => False end) -> - PI < th < PI ->
     q 0%nat = cos th -> q 1%nat = sin th ->
     jM (jcalc (JMimic j s o) q v) =
     jM (jcalc (JSimple j) (fun k => match k with 0%nat => cos (s * th + o) | _ => sin (s * th + o) end) v)).
Proof. exact (mimic_moves j s o q v). Qed.
Example C41_mimic_ex : mimicable (JRUB 2) /\ - PI < 1 < PI. Proof. exact (conj I one_lt_PI). Qed.
Print Assumptions C41_mimic.

(** mimicking a helical joint: the motion subspace keeps pitch zero, so v = S v_q fails *)
Theorem C41_mimic_helical_refuted :
  exists q v : nat -> R, jv (jcalc (JMimic (JHelical 0 1) 1 0) q v) <> Smul (jS (jcalc (JMimic (JHelical 0 1) 1 0) q v)) v.
Proof. exact mimic_helical_wrong. Qed.
Print Assumptions C41_mimic_helical_refuted.
