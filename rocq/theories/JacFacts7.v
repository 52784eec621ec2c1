(* Jacobians: examples and counterexamples. *)
Require Import Reals String List Arith ZArith Lia Lra Bool FunctionalExtensionality.
From Verif Require Import Vec3 Spatial Inertia SpatialFacts Deriv Joints JointFacts JointFacts2 Spec_Joints Model Spec_Model ModelFacts ModelTree ModelFacts2 ModelFacts3 Data Kinematics Spec_Kin KinFacts KinFacts2 KinFacts3 Sums DynFacts TreeSums Spec_Mass MassFacts Crba Jacobian Spec_Jac JacFacts JacFacts2 JacFacts3 JacFacts4 JacFacts5 JacFacts6.
Import ListNotations.
Local Open Scope nat_scope.
Local Open Scope bool_scope.

Lemma fixedAxes_simple j : j <> JSphericalZYX -> (forall a b, j <> JUniversal a b) -> fixedAxes (JSimple j).
Proof. intros H1 H2 q q' v v'. destruct j; try reflexivity; [now elim H1 | now elim (H2 a1 a2)]. Qed.
Lemma fixedAxes_mimic j s o : fixedAxes (JMimic j s o).
Proof. intros q q' v v'. destruct j; reflexivity. Qed.
Lemma exTree_norigid eps : noRigidJoint (exTree eps).
Proof. intros i Hi. change (m_njoints (exTree eps)) with 5 in Hi. destruct i as [|[|[|[|[|i]]]]]; try lia; apply Nat.leb_le; vm_compute; reflexivity. Qed.
Lemma exTree_fixed eps : forall i, 0 < i < m_njoints (exTree eps) -> fixedAxes (jm_type (joint (exTree eps) i)).
Proof.
  intros i Hi. change (m_njoints (exTree eps)) with 5 in Hi. destruct (exTree_types eps i Hi) as (-> & _).
  destruct i as [|[|[|[|[|i]]]]]; try lia; cbn [nth]; first [apply fixedAxes_mimic | apply fixedAxes_simple; discriminate].
Qed.
(* ---- a joint whose axes move: the term with the derivative of the motion subspace is missing ---- *)
Definition zyxModel : Model := okModel (addJoint emptyModel 0 (freshJoint (JSimple JSphericalZYX)) se3_Identity "a" (exLim 3 3)) emptyModel.
Definition zyxQ (s : R) : vec := fun k => match k with 1 => s | _ => 0%R end.
Definition zyxV : vec := fun k => match k with 1 => 1%R | _ => 0%R end.
Definition zyxW : vec := fun k => match k with 0 => 1%R | _ => 0%R end.
Lemma zyx_built eps : Built eps zyxModel.
Proof. exists []. apply (H_step eps emptyModel _ [] None); [constructor|]. apply (S_joint eps emptyModel _ 0 (JSimple JSphericalZYX) se3_Identity "a"%string (exLim 3 3) 1); [exact I|reflexivity]. Qed.
Lemma zyx_valid : validModel zyxModel.
Proof. intros i Hi. change (m_njoints zyxModel) with 2 in Hi. replace i with 1 by lia. split; [cbn; auto | apply isRotation_id]. Qed.
Lemma zyx_norigid : noRigidJoint zyxModel.
Proof. intros i Hi. change (m_njoints zyxModel) with 2 in Hi. replace i with 1 by lia. cbn. lia. Qed.
Lemma zyx_state s : validState zyxModel (zyxQ s).
Proof. intros i Hi. change (m_njoints zyxModel) with 2 in Hi. replace i with 1 by lia. cbn. auto. Qed.
Lemma zyx_moves t : moves zyxModel zyxQ zyxV t.
Proof.
  intros i k Hi Hk. change (m_njoints zyxModel) with 2 in Hi. replace i with 1 in * by lia. cbn in Hk. 
  destruct k as [|[|[|k]]]; try lia; cbn; [apply deriv_const | apply derivable_pt_lim_id | apply deriv_const].
Qed.
Lemma zyx_wv s w : worldVel zyxModel (zyxQ s) w 1 = motion_act (worldPl zyxModel (zyxQ s) 1) (jointTwist zyxModel (zyxQ s) w 1).
Proof.
  rewrite (worldVel_sum zyxModel (Built_wf 0 _ (zyx_built 0)) (Built_tree 0 _ (zyx_built 0)) zyx_valid (zyxQ s) w 1 (zyx_state s)) by (cbn; lia).
  change (tl (support zyxModel 1)) with [1]. unfold sumF. cbn [map sumV6]. apply v6add_0_r.
Qed.
Lemma zyx_axis s : worldVel zyxModel (zyxQ s) zyxW 1 = mkV6 v3zero (mkV3 0 0 1).
Proof.
  rewrite zyx_wv. pose proof (sin2_cos2 s) as H. unfold Rsqr in H. unfold worldPl, jointTwist, relPl, jointAt. change (tl (support zyxModel 1)) with [1]. cbn [product].
  unfold relPl, jointAt. change (placementOf zyxModel 1) with se3_Identity. change (jm_type (joint zyxModel 1)) with (JSimple JSphericalZYX). change (idx_q zyxModel 1) with 0. change (idx_v zyxModel 1) with 0.
  unfold shift. cbn. rewrite ?sin_0, ?cos_0. unfold motion_act, se3_mul, se3_Identity. apply v6_ext; [cbn; vring|]. apply v3_ext; cbn; try ring. transitivity (sin s * sin s + cos s * cos s)%R; [ring | exact H].
Qed.
Lemma zyx_rate : worldVel zyxModel (zyxQ 0) zyxV 1 = mkV6 v3zero (mkV3 0 1 0).
Proof.
  rewrite zyx_wv. unfold worldPl, jointTwist, relPl, jointAt. change (tl (support zyxModel 1)) with [1]. cbn [product].
  unfold relPl, jointAt. change (placementOf zyxModel 1) with se3_Identity. change (jm_type (joint zyxModel 1)) with (JSimple JSphericalZYX). change (idx_q zyxModel 1) with 0. change (idx_v zyxModel 1) with 0.
  unfold shift. cbn. rewrite ?sin_0, ?cos_0. unfold motion_act, se3_mul, se3_Identity. apply v6_ext; [cbn; vring|]. apply v3_ext; cbn; ring.
Qed.
Lemma zyx_refuted eps d d0 : Built eps zyxModel /\ validModel zyxModel /\ noRigidJoint zyxModel /\ noMimic zyxModel /\ (forall s, validState zyxModel (zyxQ s)) /\ moves zyxModel zyxQ zyxV 0 /\
  let dJw := colsMul 3 (getJointJacobianTimeVariation zyxModel (computeJointJacobiansTimeVariation zyxModel d0 (zyxQ 0) zyxV) 1 WORLD zeroJ) zyxW in
  deriv6 (fun s => colsMul 3 (getJointJacobian zyxModel (computeJointJacobians zyxModel d (zyxQ s)) 1 WORLD zeroJ) zyxW) v6zero 0 /\ dJw = mkV6 v3zero (mkV3 1 0 0).
Proof.
  pose proof (Built_wf eps _ (zyx_built eps)) as W. pose proof (Built_tree eps _ (zyx_built eps)) as T. assert (Hj : 0 < 1 < m_njoints zyxModel) by (cbn; lia).
  split; [apply zyx_built|]. split; [apply zyx_valid|]. split; [apply zyx_norigid|]. split; [intros i Hi; change (m_njoints zyxModel) with 2 in Hi; replace i with 1 by lia; reflexivity|].
  split; [apply zyx_state|]. split; [apply zyx_moves|]. cbv zeta. change 3 with (m_nv zyxModel). split.
  - eapply deriv6_ext; [|apply (deriv6_const (mkV6 v3zero (mkV3 0 0 1)))]. intros s. cbv beta. unfold getJointJacobian.
    rewrite (translate_mul zyxModel W T zyx_valid zyx_norigid _ (zyxQ s) 1 WORLD _ zyxW (joints_cols zyxModel W T d (zyxQ s)) (zyx_state s) Hj). cbn [toFrame]. apply zyx_axis.
  - rewrite (colsMul_ext _ _ _ _ (fun k _ => jointTV_at zyxModel W T zyx_valid zyx_norigid _ (zyxQ 0) zyxV 1 WORLD zeroJ k (jointsTV_varied zyxModel W T zyx_valid d0 (zyxQ 0) zyxV (zyx_state 0)) Hj)).
    rewrite (dForm_mul zyxModel W T zyx_valid) by (cbn; lia). change (tl (support zyxModel 1)) with [1]. unfold sumF. cbn [map sumV6 toFrame dFrame_corr]. rewrite <- zyx_wv, zyx_axis, zyx_rate. sring.
Qed.

(* ---- frames on a model with a mimic joint: the correction for the motion of the frame is not applied ---- *)
Definition exW : vec := fun k => match k with 7 => 1%R | _ => 0%R end.
Lemma ex_sup eps : tl (support (exTree eps) 4) = [1; 3; 4]. Proof. reflexivity. Qed.
Section ExTree.
Variable eps : R.
Let m := exTree eps.
Lemma ex_n : m_njoints m = 5. Proof. reflexivity. Qed.
Let W := Built_wf eps m (exTree_built eps).
Let T := Built_tree eps m (exTree_built eps).
Let Vm := exTree_valid eps.
Let Pos := exTree_norigid eps.
Lemma ex_wv q w : validState m q -> worldVel m q w 4 = v6add (motion_act (worldPl m q 1) (jointTwist m q w 1)) (v6add (motion_act (worldPl m q 3) (jointTwist m q w 3)) (motion_act (worldPl m q 4) (jointTwist m q w 4))).
Proof. intros Hq. rewrite (worldVel_sum m W T Vm q w 4 Hq) by (rewrite ex_n; lia). unfold m. rewrite ex_sup. unfold sumF. cbn [map sumV6]. now rewrite v6add_0_r. Qed.
Lemma ex_ang : ang (worldVel m (exQ 1) (exV 1) 4) = mkV3 0 0 3 /\ ang (worldVel m (exQ 1) exW 4) = mkV3 (cos (1 / 2)) (sin (1 / 2)) 0.
Proof.
  rewrite !ex_wv by apply exQ_valid. 
  assert (P1 : rot (worldPl m (exQ 1) 1) = mkM3 (cos (1/2)) (- sin (1/2)) 0 (sin (1/2)) (cos (1/2)) 0 0 0 1).
  { rewrite (worldPl_step m W T (exQ 1) 1) by (rewrite ex_n; lia). change (parent m 1) with 0. rewrite (worldPl_0 m W T), se3_mul_1_l. unfold relPl, jointAt.
    change (jm_type (joint m 1)) with (JSimple (JRevolute 2)). change (placementOf m 1) with se3_Identity. change (idx_q m 1) with 0. change (idx_v m 1) with 0.
    unfold shift. cbn [Nat.add exQ]. rewrite se3_mul_1_l. cbn. replace (1 * 1 / 2)%R with (1 / 2)%R by field. f_equal; ring. }
  assert (P3 : rot (worldPl m (exQ 1) 3) = rot (worldPl m (exQ 1) 1)).
  { rewrite (worldPl_step m W T (exQ 1) 3) by (rewrite ex_n; lia). change (parent m 3) with 1. unfold relPl, jointAt.
    change (jm_type (joint m 3)) with (JSimple JSpherical). change (placementOf m 3) with (mkSE3 m3id (mkV3 0 1 0)). change (idx_q m 3) with 8. change (idx_v m 3) with 7.
    generalize (worldPl m (exQ 1) 1). intros M. apply m3_ext; cbn; ring. }
  set (t4 := jointTwist m (exQ 1) (exV 1) 4). assert (E4 : exists c s, rot (worldPl m (exQ 1) 4) = m3mul (rot (worldPl m (exQ 1) 3)) (mkM3 c (-s)%R 0 s c 0 0 0 1)).
  { rewrite (worldPl_step m W T (exQ 1) 4) by (rewrite ex_n; lia). change (parent m 4) with 3. unfold relPl, jointAt.
    change (jm_type (joint m 4)) with (JMimic (JRevolute 2) 2 1). change (placementOf m 4) with (mkSE3 m3id (mkV3 0 0 1)). change (idx_q m 4) with 0. change (idx_v m 4) with 0.
    exists (cos (2 * exQ 1 0 + 1)), (sin (2 * exQ 1 0 + 1)). generalize (worldPl m (exQ 1) 3). intros M. unfold se3_mul. cbn [rot]. f_equal. cbn [jcalc jM]. apply m3_ext; cbn; unfold shift; cbn; ring. }
  destruct E4 as (c & s & E4). cbn [v6add motion_act lin ang]. rewrite E4, P3, P1.
  assert (T1 : forall w, ang (jointTwist m (exQ 1) w 1) = mkV3 0 0 (w 0)) by (intros w; unfold jointTwist, jointAt; change (jm_type (joint m 1)) with (JSimple (JRevolute 2)); change (idx_q m 1) with 0; change (idx_v m 1) with 0; generalize (exQ 1); intros qq; apply v3_ext; cbn; unfold shift; cbn; ring).
  assert (T3 : forall w, ang (jointTwist m (exQ 1) w 3) = mkV3 (w 7) (w 8) (w 9)) by (intros w; unfold jointTwist, jointAt; change (jm_type (joint m 3)) with (JSimple JSpherical); change (idx_q m 3) with 8; change (idx_v m 3) with 7; generalize (exQ 1); intros qq; apply v3_ext; cbn; unfold shift; cbn; ring).
  assert (T4 : forall w, ang (jointTwist m (exQ 1) w 4) = mkV3 0 0 (2 * w 0)) by (intros w; unfold jointTwist, jointAt; change (jm_type (joint m 4)) with (JMimic (JRevolute 2) 2 1); change (idx_q m 4) with 0; change (idx_v m 4) with 0; generalize (exQ 1); intros qq; apply v3_ext; cbn; unfold shift; cbn; ring).
  unfold t4. rewrite !T1, !T3, !T4. split; apply v3_ext; cbn; ring.
Qed.
Lemma ex_frame_refuted d d0 : let P := fr_placement (frameAt m 1) in
  ~ deriv6 (fun s => colsMul (m_nv m) (getFrameJacobian m (computeJointJacobians m d (exQ s)) 4 P LOCAL zeroJ) exW)
      (colsMul (m_nv m) (snd (getFrameJacobianTimeVariation m (computeJointJacobiansTimeVariation m d0 (exQ 1) (exV 1)) 1 LOCAL zeroJ)) exW) 1.
Proof.
  intros P HD. assert (Hj : 0 < 4 < m_njoints m) by (rewrite ex_n; lia). assert (HP : isRotation (rot P)) by apply isRotation_id.
  assert (Hq : forall s, validState m (exQ s)) by (intros s; apply exQ_valid).
  pose proof (deriv_jac m W T Vm (exTree_fixed eps) LOCAL P exQ (exV 1) exW 1 4 Hq (exQ_moves eps 1) Hj HP) as D.
  rewrite (dForm_mul m W T Vm) in D by lia. rewrite <- (worldVel_sum m W T Vm (exQ 1) exW 4 (Hq 1%R)) in D by lia.
  set (A := se3_mul (worldPl m (exQ 1) 4) P) in *.
  destruct (jointsTV_varied m W T Vm d0 (exQ 1) (exV 1) (Hq 1%R)) as (V1 & V2 & V3). destruct (V3 4 Hj) as (E1 & E2 & E3).
  set (dd := computeJointJacobiansTimeVariation m d0 (exQ 1) (exV 1)) in *.
  assert (E : colsMul (m_nv m) (snd (getFrameJacobianTimeVariation m dd 1 LOCAL zeroJ)) exW =
    toFrame LOCAL A (sumF (fun i => motion_cross (worldVel m (exQ 1) (exV 1) i) (motion_act (worldPl m (exQ 1) i) (jointTwist m (exQ 1) exW i))) (tl (support m 4)))).
  { unfold getFrameJacobianTimeVariation. cbv zeta. cbn [snd]. change (fr_parentJoint (frameAt m 1)) with 4. change (fr_placement (frameAt m 1)) with P.
    change (Z.of_nat (jnv (jm_type (joint m 4))) + Z.of_nat (jm_idx_v (joint m 4)) - 1)%Z with (-1)%Z. cbn [walk Z.ltb Z.compare fold_left].
    assert (EM : oMf (gl (updateFramePlacement m dd 1)) 1 = A) by (unfold updateFramePlacement; mem; rewrite putn_same; change (fr_parentJoint (frameAt m 1)) with 4; change (fr_placement (frameAt m 1)) with P; now rewrite E1).
    rewrite EM. unfold updateFramePlacement. mem. change (fr_parentJoint (frameAt m 1)) with 4.
    rewrite (colsMul_ext _ _ (jacForm m (fun i a => toFrame LOCAL A (motion_cross (worldVel m (exQ 1) (exV 1) i) (worldCol m (exQ 1) i a))) (tl (support m 4)) zeroJ)).
    2: { intros k _. rewrite (translate_at m W T Vm Pos) by exact Hj. apply (jacForm_ext m); [apply (tl_range m W T); lia|]. intros i a Hi Ha. now rewrite V2. }
    destruct (toFrame_lin LOCAL A) as (L0 & La & Ls).
    rewrite (jacForm_mul_i m W Vm (fun i x => toFrame LOCAL A (motion_cross (worldVel m (exQ 1) (exV 1) i) x))); [|apply (tl_range m W T); lia|].
    - now apply sumF_map.
    - intros i. split; [|split].
      + replace (motion_cross (worldVel m (exQ 1) (exV 1) i) v6zero) with v6zero by sring. exact L0.
      + intros a b. rewrite <- La. f_equal. sring.
      + intros c a. rewrite <- Ls. f_equal. sring. }
  rewrite E in HD. clear E. revert HD D. generalize (toFrame LOCAL A (sumF (fun i => motion_cross (worldVel m (exQ 1) (exV 1) i) (motion_act (worldPl m (exQ 1) i) (jointTwist m (exQ 1) exW i))) (tl (support m 4)))).
  intros X HD D.
  assert (D' : deriv6 (fun s => colsMul (m_nv m) (getFrameJacobian m (computeJointJacobians m d (exQ s)) 4 P LOCAL zeroJ) exW)
    (v6sub X (dFrame_corr LOCAL A (motion_actInv P (bodyVel m (exQ 1) (exV 1) 4)) (worldVel m (exQ 1) (exV 1) 4) (worldVel m (exQ 1) exW 4))) 1).
  { eapply deriv6_ext; [|exact D]. intros s. cbv beta. unfold getFrameJacobian.
    rewrite (oMi_joints eps m (exTree_built eps) d (exQ s) 4 Hj). now rewrite (translate_mul m W T Vm Pos _ (exQ s) 4 LOCAL (se3_mul (worldPl m (exQ s) 4) P) exW (joints_cols m W T d (exQ s)) (Hq s) Hj). }
  pose proof (deriv6_unique _ _ _ _ HD D') as Eq. clear D D' HD.
  assert (Z : ang (dFrame_corr LOCAL A (motion_actInv P (bodyVel m (exQ 1) (exV 1) 4)) (worldVel m (exQ 1) (exV 1) 4) (worldVel m (exQ 1) exW 4)) = v3zero).
  { revert Eq. generalize (dFrame_corr LOCAL A (motion_actInv P (bodyVel m (exQ 1) (exV 1) 4)) (worldVel m (exQ 1) (exV 1) 4) (worldVel m (exQ 1) exW 4)). intros Y Eq.
    apply (f_equal ang) in Eq. destruct X as [xl [xa xb xc]], Y as [yl [ya yb yc]]. unfold v6sub, v3sub in Eq. cbn in Eq. inversion Eq as [[Q1 Q2 Q3]]. cbn [ang]. unfold v3zero. f_equal; lra. }
  pose proof (worldPl_rot m W T Vm (exQ 1) 4 (Hq 1%R) ltac:(lia)) as HR. destruct ex_ang as [A1 A2].
  cbn [dFrame_corr] in Z. assert (HA : isRotation (rot A)) by (apply isRotation_se3_mul; assumption).
  assert (EV : motion_actInv P (bodyVel m (exQ 1) (exV 1) 4) = motion_actInv A (worldVel m (exQ 1) (exV 1) 4)).
  { unfold A, worldVel. rewrite motion_actInv_mul by assumption. now rewrite motion_actInv_act by apply HR. }
  rewrite EV in Z. unfold motion_cross, motion_actInv in Z. cbn [ang] in Z. rewrite A1, A2 in Z.
  pose proof (rotation_cross (m3tr (rot A)) (mkV3 0 0 3) (mkV3 (cos (1/2)) (sin (1/2)) 0) (isRotation_tr _ HA)) as C. rewrite <- C in Z.
  apply (f_equal (m3vec (rot A))) in Z. rewrite <- m3vec_mul, (orthogonal_right _ (proj1 HA)), m3vec_1, m3vec_0 in Z. unfold v3cross, v3zero in Z. cbn in Z. inversion Z as [[Z1 Z2]].
  pose proof (sin2_cos2 (1/2)) as S2. unfold Rsqr in S2. nra.
Qed.
End ExTree.

(* a model without mimic joints, with a frame *)
Definition exF (eps : R) : Model := okModel (addFrame eps ex3 (mkFrame "tool" 3 0 (mkSE3 m3id (mkV3 0 0 1)) OP_FRAME exY1) true) ex3.
Lemma exF_types eps : forall i, 0 < i < 4 -> jm_type (joint (exF eps) i) = nth i [JSimple (JRevolute 2); JSimple (JRevolute 2); JSimple JFreeFlyer; JSimple JSpherical] (JSimple (JRevolute 2)) /\
  idx_q (exF eps) i = nth i [0; 0; 1; 8] 0 /\ idx_v (exF eps) i = nth i [0; 0; 1; 7] 0.
Proof. intros i Hi. destruct i as [|[|[|[|i]]]]; try lia; split; try split; reflexivity. Qed.
Lemma exF_all eps t : Built eps (exF eps) /\ validModel (exF eps) /\ noRigidJoint (exF eps) /\ noMimic (exF eps) /\ (forall i, 0 < i < m_njoints (exF eps) -> fixedAxes (jm_type (joint (exF eps) i))) /\
  (forall s, validState (exF eps) (exQ s)) /\ moves (exF eps) exQ (exV t) t /\ fr_parentJoint (frameAt (exF eps) 1) = 3 /\ m_njoints (exF eps) = 4 /\ isRotation (rot (fr_placement (frameAt (exF eps) 1))).
Proof.
  split; [|split; [|split; [|split; [|split; [|split; [|split; [|split; [reflexivity|split; [reflexivity | apply isRotation_id]]]]]]]]].
  - exists [(3, mkSE3 m3id (mkV3 0 0 1), exY1)].
    assert (H1 : History eps ex1 []).
    { apply (H_step eps emptyModel _ [] None); [constructor|]. apply (S_joint eps emptyModel _ 0 (JSimple (JRevolute 2)) se3_Identity "a"%string (exLim 1 1) 1); [exact I|reflexivity]. }
    assert (H2 : History eps ex2 []).
    { apply (H_step eps ex1 _ [] None); [exact H1|]. apply (S_joint eps ex1 _ 1 (JSimple JFreeFlyer) (mkSE3 m3id (mkV3 1 2 3)) "b"%string (exLim 7 6) 2); [exact I|reflexivity]. }
    assert (H3 : History eps ex3 []).
    { apply (H_step eps ex2 _ [] None); [exact H2|]. apply (S_joint eps ex2 _ 1 (JSimple JSpherical) (mkSE3 m3id (mkV3 0 1 0)) "c"%string (exLim 4 3) 3); [exact I|reflexivity]. }
    apply (H_step eps ex3 _ [] (Some (3, mkSE3 m3id (mkV3 0 0 1), exY1))); [exact H3|].
    apply (S_frame eps ex3 (exF eps) (mkFrame "tool" 3 0 (mkSE3 m3id (mkV3 0 0 1)) OP_FRAME exY1) 1); reflexivity.
  - intros i Hi. change (m_njoints (exF eps)) with 4 in Hi.
    destruct i as [|[|[|[|i]]]]; try lia; cbn; (split; [repeat split; auto; try lia; tauto | apply isRotation_id]).
  - intros i Hi. change (m_njoints (exF eps)) with 4 in Hi. destruct i as [|[|[|[|i]]]]; try lia; apply Nat.leb_le; vm_compute; reflexivity.
  - intros i Hi. change (m_njoints (exF eps)) with 4 in Hi. destruct i as [|[|[|[|i]]]]; try lia; reflexivity.
  - intros i Hi. change (m_njoints (exF eps)) with 4 in Hi. destruct (exF_types eps i Hi) as (-> & _).
    destruct i as [|[|[|[|i]]]]; try lia; apply fixedAxes_simple; discriminate.
  - intros s i Hi. change (m_njoints (exF eps)) with 4 in Hi. destruct (exF_types eps i Hi) as (-> & -> & _).
    destruct (exTree_types eps i ltac:(lia)) as (E1 & E2 & _). pose proof (exQ_valid eps s i ltac:(rewrite ex_n; lia)) as H. rewrite E1, E2 in H.
    destruct i as [|[|[|[|i]]]]; try lia; exact H.
  - intros i k Hi Hk. change (m_njoints (exF eps)) with 4 in Hi. destruct (exF_types eps i Hi) as (E1 & E2 & E3). rewrite E1, E2, E3 in *.
    destruct (exTree_types eps i ltac:(lia)) as (F1 & F2 & F3). pose proof (exQ_moves eps t i k ltac:(rewrite ex_n; lia)) as H. rewrite F1, F2, F3 in H.
    destruct i as [|[|[|[|i]]]]; try lia; apply H; exact Hk.
Qed.
