(* algorithm/rnea.hxx: inverse dynamics, nonlinear effects, generalized gravity, static torques. *)
Require Import Reals List Arith Lia.
From Verif Require Import Vec3 Spatial Inertia Joints Model Spec_Model Data Kinematics.
Import ListNotations.
Local Open Scope nat_scope.
Local Open Scope bool_scope.

(* x.segment(b, n) += y *)
Definition addSeg (b n : nat) (y x : vec) : vec :=
  fun k => if (b <=? k) && (k <? b + n) then Rplus (x k) (y (k - b)) else x k.

(* the velocity part shared by the forward steps, e.g. rnea.hxx 59-65: calc(q, v); liMi; v *)
Definition velRow (m : Model) (q v : vec) (i : nat) (r rp : Row) : Row :=
  let r := setJd r (calcJoint m i q v) in
  let r := setPl r F_liMi (se3_mul (placementOf m i) (jM (jd r))) in
  let r := setMo r F_v (jv (jd r)) in
  if 0 <? parent m i then setMo r F_v (v6add (mo r F_v) (motion_actInv (pl r F_liMi) (mo rp F_v))) else r.

(* rnea.hxx 45-79 RneaForwardStep::algo *)
Definition rneaRow (m : Model) (q v a : vec) (i : nat) (r rp : Row) : Row :=
  let r := velRow m q v i r rp in
  let r := setMo r F_a_gf (v6add (jc (jd r)) (motion_cross (mo r F_v) (jv (jd r)))) in
  let r := setMo r F_a_gf (v6add (mo r F_a_gf) (Smul (jS (jd r)) (velSel m i a))) in
  let r := setMo r F_a_gf (v6add (mo r F_a_gf) (motion_actInv (pl r F_liMi) (mo rp F_a_gf))) in
  let r := setMo r F_h (inertia_mul (inertiaOf m i) (mo r F_v)) in
  let r := setMo r F_f (inertia_mul (inertiaOf m i) (mo r F_a_gf)) in
  setMo r F_f (v6add (mo r F_f) (force_cross (mo r F_v) (mo r F_h))).

(* rnea.hxx 91-107 RneaBackwardStep::algo, 277-292 NLEBackwardStep::algo, 388-403 ComputeGeneralizedGravityBackwardStep::algo:
   they differ only in the vector they accumulate into.  The selector has the extended size, so that a mimic joint adds to
   the rows of the joint it mimics. *)
Definition torqueStep (m : Model) (T : VeT) (d : Data) (i : nat) : Data :=
  let r := rows d i in
  let d := setGl d (setVe (gl d) T (addSeg (idx_v m i) (nvEOf m i) (StMul (jS (jd r)) (mo r F_f)) (ve (gl d) T))) in
  if 0 <? parent m i
  then setRow d (parent m i) (setMo (rows d (parent m i)) F_f (v6add (mo (rows d (parent m i)) F_f) (force_act (pl r F_liMi) (mo r F_f))))
  else d.

Definition zeroVe (d : Data) (T : VeT) : Data := setGl d (setVe (gl d) T (fun _ => 0%R)).
Definition armatureOf (m : Model) (k : nat) : R := nth k (m_armature m) 0%R.
(* data.tau.array() += model.armature.array() * a.array() *)
Definition addArmature (m : Model) (a : vec) (d : Data) : Data :=
  setGl d (setVe (gl d) F_tau (fun k => (ve (gl d) F_tau k + armatureOf m k * a k)%R)).

(* rnea.hxx 117-161 rnea(model, data, q, v, a); the result is data.tau *)
Definition rneaData (m : Model) (d : Data) (q v a : vec) : Data :=
  let d := zeroVe d F_tau in
  let d := setRow d 0 (setMo (setMo (rows d 0) F_v v6zero) F_a_gf (v6opp (m_gravity m))) in
  let d := upward m (rowStep m (rneaRow m q v a)) d in
  let d := downward m (torqueStep m F_tau) d in
  addArmature m a d.
Definition rnea (m : Model) (d : Data) (q v a : vec) : vec := ve (gl (rneaData m d q v a)) F_tau.

(* rnea.hxx 171-219 rnea(model, data, q, v, a, fext): data.f[i] -= fext[i] after each forward step *)
Definition rneaDataExt (m : Model) (d : Data) (q v a : vec) (fext : nat -> Force) : Data :=
  let d := zeroVe d F_tau in
  let d := setRow d 0 (setMo (setMo (rows d 0) F_v v6zero) F_a_gf (v6opp (m_gravity m))) in
  let d := upward m (rowStep m (fun i r rp => let r := rneaRow m q v a i r rp in setMo r F_f (v6sub (mo r F_f) (fext i)))) d in
  let d := downward m (torqueStep m F_tau) d in
  addArmature m a d.
Definition rneaExt (m : Model) (d : Data) (q v a : vec) (fext : nat -> Force) : vec := ve (gl (rneaDataExt m d q v a fext)) F_tau.

(* rnea.hxx 239-264 NLEForwardStep::algo *)
Definition nleRow (m : Model) (q v : vec) (i : nat) (r rp : Row) : Row :=
  let r := velRow m q v i r rp in
  let r := setMo r F_a_gf (v6add (jc (jd r)) (motion_cross (mo r F_v) (jv (jd r)))) in
  let r := setMo r F_a_gf (v6add (mo r F_a_gf) (motion_actInv (pl r F_liMi) (mo rp F_a_gf))) in
  setMo r F_f (v6add (inertia_mul (inertiaOf m i) (mo r F_a_gf)) (inertia_vxiv (inertiaOf m i) (mo r F_v))).
(* rnea.hxx 302-339 nonLinearEffects; the result is data.nle *)
Definition nleData (m : Model) (d : Data) (q v : vec) : Data :=
  let d := zeroVe d F_nle in
  let d := setRow d 0 (setMo (setMo (rows d 0) F_v v6zero) F_a_gf (v6opp (m_gravity m))) in
  let d := upward m (rowStep m (nleRow m q v)) d in
  downward m (torqueStep m F_nle) d.
Definition nonLinearEffects (m : Model) (d : Data) (q v : vec) : vec := ve (gl (nleData m d q v)) F_nle.

(* rnea.hxx 356-374 ComputeGeneralizedGravityForwardStep::algo *)
Definition gravityRow (m : Model) (q : vec) (i : nat) (r rp : Row) : Row :=
  let r := setJd r (calcJoint0 m i (jd r) q) in
  let r := setPl r F_liMi (se3_mul (placementOf m i) (jM (jd r))) in
  let r := setMo r F_a_gf (motion_actInv (pl r F_liMi) (mo rp F_a_gf)) in
  setMo r F_f (inertia_mul (inertiaOf m i) (mo r F_a_gf)).
(* rnea.hxx 412-446 computeGeneralizedGravity; the result is data.g *)
Definition gravityData (m : Model) (d : Data) (q : vec) : Data :=
  let d := zeroVe d F_g in
  let d := setRow d 0 (setMo (rows d 0) F_a_gf (v6opp (m_gravity m))) in
  let d := upward m (rowStep m (gravityRow m q)) d in
  let d := zeroVe d F_g in
  downward m (torqueStep m F_g) d.
Definition computeGeneralizedGravity (m : Model) (d : Data) (q : vec) : vec := ve (gl (gravityData m d q)) F_g.

(* rnea.hxx 454-491 computeStaticTorque; the result is data.tau *)
Definition staticData (m : Model) (d : Data) (q : vec) (fext : nat -> Force) : Data :=
  let d := setRow d 0 (setMo (rows d 0) F_a_gf (v6opp (m_gravity m))) in
  let d := upward m (rowStep m (fun i r rp => let r := gravityRow m q i r rp in setMo r F_f (v6sub (mo r F_f) (fext i)))) d in
  let d := zeroVe d F_tau in
  downward m (torqueStep m F_tau) d.
Definition computeStaticTorque (m : Model) (d : Data) (q : vec) (fext : nat -> Force) : vec := ve (gl (staticData m d q fext)) F_tau.
