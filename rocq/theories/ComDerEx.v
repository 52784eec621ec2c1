(* A spherical ZYX joint: its axes move with the configuration. *)
Require Import Reals List Arith ZArith Lia Lra Bool String.
From Verif Require Import Vec3 Spatial Inertia InertiaFacts SpatialFacts Joints Spec_Joints Deriv JointFacts JointFacts2 Model Spec_Model ModelFacts ModelTree ModelFacts2 ModelFacts3 Sums Data Kinematics Spec_Kin Spec_Mass KinFacts KinFacts2 KinFacts3 Spec_Dyn Rnea DynFacts DynFacts2 TreeSums MassFacts Crba CrbaFacts CrbaFacts2 Jacobian Spec_Jac JacFacts JacFacts2 JacFacts3 Spec_Com Com ComFacts ComFacts2 ComFacts3 ComFacts4 ComFacts5 ComFacts6 DccrbaFacts DccrbaFacts3 DerSums RneaDerFacts6 SubCom SubComFacts3 ComDer ComDerFacts ComDerFacts2.
Import ListNotations.
Local Open Scope nat_scope.

Definition offBody : Inertia := mkInertia 1 (mkV3 0 1 0) (mkSym3 1 0 1 0 0 1).
Definition off : Model := okModel (appendBodyToJoint (1/1000) (one0 JSphericalZYX) 1 offBody se3_Identity) (one0 JSphericalZYX).
Lemma off_built : Built (1/1000) off.
Proof.
  assert (H1 : History (1/1000) (one0 JSphericalZYX) []).
  { apply (H_step (1/1000) emptyModel _ [] None); [constructor|]. apply (S_joint (1/1000) emptyModel _ 0 (JSimple JSphericalZYX) se3_Identity "a"%string (exLim 3 3) 1); [exact I|reflexivity]. }
  eexists. exact (H_step (1/1000) (one0 JSphericalZYX) off _ _ H1 (S_body (1/1000) (one0 JSphericalZYX) off 1 offBody se3_Identity eq_refl)).
Qed.
Lemma off_body : mass (inertiaOf off 1) = 1%R /\ lever (inertiaOf off 1) = mkV3 0 1 0.
Proof.
  unfold inertiaOf, off, one0. cbn [okModel appendBodyToJoint]. cbn. unfold inertia_pequ, inertia_act, offBody, inertia_Zero. cbn.
  assert (E : Rmax (0 + 1) (1/1000) = 1%R) by (unfold Rmax; destruct (Rle_dec (0 + 1) (1 / 1000)); lra). rewrite E. split; [ring|]. apply v3_ext; cbn; field.
Qed.
Definition offQ (s : R) : vec := fun k => if k =? 1 then s else 0%R.
Lemma off_state s : validState off (offQ s).
Proof. intros i Hi. change (m_njoints off) with 2 in Hi. replace i with 1 by lia. cbn. auto. Qed.
Lemma comder_zyx : exists m (q : R -> vec) v w t, Built (1/1000) m /\ validModel m /\ noMimic m /\ (forall j, j < m_njoints m -> subtreeMass m j = 1%R) /\ (forall s, validState m (q s)) /\ moves m q w t /\
  forall d d0 sub res d1 c vel, centerOfMass1 m d (q t) v true = Ok d1 c -> (forall s, exists d' c', centerOfMass1 m d0 (q s) v sub = Ok d' c' /\ p3 (rows d' 0) F_vcom = vel s) ->
  ~ deriv3 vel (cols3Mul (m_nv m) (getCenterOfMassVelocityDerivatives m d1 res) w) t.
Proof.
  exists off, offQ, (unitv 0), (unitv 1), 0%R. set (m := off). pose proof off_built as B. fold m in B. destruct off_body as [EM EL]. fold m in EM, EL.
  assert (V : validModel m) by (intros i Hi; change (m_njoints m) with 2 in Hi; replace i with 1 by lia; split; [cbn; auto | apply isRotation_id]).
  assert (N : noMimic m) by (intros i Hi; change (m_njoints m) with 2 in Hi; replace i with 1 by lia; reflexivity).
  assert (S1 : tl (support m 1) = [1]) by reflexivity. assert (I0 : idx_v m 1 = 0) by reflexivity. assert (N2 : m_njoints m = 2) by reflexivity.
  assert (HM : forall j, j < m_njoints m -> subtreeMass m j = 1%R).
  { intros j Hj. unfold subtreeMass, subBodies, bodies. rewrite N2 in *. cbn [Nat.sub sumN]. rewrite EM. destruct j as [|[|j]]; [| |lia]; cbn; ring. }
  assert (Hq : forall s, validState m (offQ s)) by exact off_state.
  assert (Hm : moves m offQ (unitv 1) 0%R).
  { intros i k Hi Hk. rewrite N2 in Hi. replace i with 1 in * by lia. change (jm_type (joint m 1)) with (JSimple JSphericalZYX). change (idx_q m 1) with 0. rewrite I0. cbn [configRate configRate1]. unfold shift, offQ, unitv. cbn [Nat.add].
    destruct k as [|[|k]]; cbn [Nat.eqb]; [apply deriv_const | apply dl_id | apply deriv_const]. }
  repeat (split; [assumption|]). intros d d0 sub res d1 c vel E1 EV H.
  pose proof (Built_wf _ _ B) as W. pose proof (Built_tree _ _ B) as T.
  assert (HM0 : subtreeMass m 0 <> 0%R) by (rewrite HM by (rewrite N2; lia); lra).
  assert (HMs : forall j, 0 < j < m_njoints m -> subtreeMass m j <> 0%R) by (intros j Hj; rewrite HM by lia; lra).
  destruct (com1_ready (1/1000) m B V HM0 d (offQ 0%R) (unitv 0) (Hq 0%R)) as (d1' & E1' & HD). rewrite E1 in E1'. injection E1' as <- _.
  assert (SA : forall x, jS (jointAt m (offQ x) noVel 1) = [mkV6 v3zero (mkV3 (- sin x) 0 (cos x)); mkV6 v3zero (mkV3 0 1 0); mkV6 v3zero (mkV3 1 0 0)]).
  { intros x. unfold jointAt. change (jm_type (joint m 1)) with (JSimple JSphericalZYX). change (idx_q m 1) with 0. cbn [jcalc jS calcS1]. unfold shift, offQ, angCol. cbn [Nat.add Nat.eqb]. rewrite sin_0, cos_0. repeat f_equal; ring. }
  assert (PW : forall x, worldPl m (offQ x) 1 = mkSE3 (mkM3 (cos x) 0 (sin x) 0 1 0 (- sin x) 0 (cos x)) v3zero).
  { intros x. unfold worldPl. rewrite S1. cbn [Spec_Kin.product]. unfold relPl, jointAt. change (placementOf m 1) with se3_Identity. change (jm_type (joint m 1)) with (JSimple JSphericalZYX). change (idx_q m 1) with 0. cbn [jcalc jM]. unfold calcM1, shift, offQ. cbn [Nat.add Nat.eqb]. rewrite sin_0, cos_0. apply se3_ext; [apply m3_ext|apply v3_ext]; cbn; ring. }
  assert (BV : forall x u, bodyVel m (offQ x) u 1 = jointTwist m (offQ x) u 1).
  { intros x u. unfold bodyVel. rewrite S1. cbn [map sumV6]. rewrite motion_actInv_act by (apply (worldPl_rot m W T V); [apply Hq | rewrite N2; lia]). apply v6add_0_r. }
  assert (CV : forall x, comVel m (offQ x) (unitv 0) 1 = mkV3 (-1) 0 0).
  { intros x. unfold comVel. rewrite BV, PW, EL. unfold jointTwist. rewrite SA, I0. cbn [Smul]. unfold shift, unitv. cbn [Nat.add Nat.eqb]. pose proof (sin2_cos2 x) as SC. unfold Rsqr in SC. apply v3_ext; cbn; nra. }
  assert (SV : forall x r, r < m_njoints m -> subtreeVel m (offQ x) (unitv 0) r = mkV3 (-1) 0 0).
  { intros x r Hr. unfold subtreeVel. rewrite (HM r Hr). unfold subBodies3, subBodies, bodies. rewrite N2 in *. cbn [Nat.sub sumN]. rewrite CV, EM. destruct r as [|[|r]]; [| |lia]; apply v3_ext; cbn; field. }
  (* the velocity of the centre of mass has no vertical part *)
  assert (VZ : forall s, vel s = mkV3 (-1) 0 0).
  { intros s. destruct (EV s) as (d' & c' & E & <-). destruct (com1_vel (1/1000) m B V HM0 d0 (offQ s) (unitv 0) sub (Hq s)) as (d2 & E2 & F2). rewrite E in E2. injection E2 as <- _. rewrite F2. apply SV. rewrite N2. lia. }
  (* but the matrix gives one *)
  assert (EJ : cols3Mul (m_nv m) (getCenterOfMassVelocityDerivatives m d1 res) (unitv 1) = mkV3 0 0 1).
  { rewrite cols3_unit by (change (m_nv m) with 3; lia). unfold getCenterOfMassVelocityDerivatives, upward. rewrite N2. cbn [Nat.sub seq fold_left].
    rewrite (step_cols (1/1000) m B V N (offQ 0%R) (unitv 0) d1 res 1 1 (Hq 0%R) HMs HD ltac:(rewrite N2; lia)), I0. change (within 0 (nvOf m 1) 1) with true. cbv iota.
    unfold colF, F, worldCol. change (parent m 1) with 0. rewrite (worldVel_0 m W T), !HM, SV, PW, SA by (rewrite N2; lia). cbn [nth Nat.sub]. generalize (subtreeCom m (offQ 0) 1). intros cc. rewrite sin_0, cos_0. unfold world3, motion_act. apply v3_ext; cbn; field. }
  rewrite EJ in H. destruct H as (_ & _ & H). cbn [vz] in H.
  assert (HZ : deriv (fun s => vz (vel s)) 0%R 0%R) by (apply (deriv_ext _ (fun _ => 0%R)); [intros s; rewrite VZ; reflexivity | apply deriv_const]).
  pose proof (deriv_unique _ _ _ _ HZ H). lra.
Qed.
