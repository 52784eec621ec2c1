(* The kinematic regressors as called by the user, and examples. *)
Require Import Reals List Arith ZArith Lia Lra Bool.
From Verif Require Import Vec3 Spatial Inertia InertiaFacts Joints Spec_Joints Deriv JointFacts JointFacts2 Model Spec_Model ModelFacts ModelTree ModelFacts2 ModelFacts3 Sums Data Kinematics Spec_Kin Spec_Mass KinFacts KinFacts2 KinFacts3 Spec_Dyn Rnea DynFacts DynFacts2 TreeSums MassFacts Crba CrbaFacts Spec_Com Com ComFacts ComFacts2 Aba Spec_Jac Regressor Spec_Reg RegFacts RegFacts2 RegFacts3.
Import ListNotations.
Local Open Scope nat_scope.

Lemma withPl_wf m P : wellFormed m -> wellFormed (withPlacements m P).
Proof.
  intros W. destruct W. constructor; try assumption. cbn [withPlacements m_inertias m_placements m_joints m_idx_qs m_nqs m_idx_vs m_nvs m_idx_vEs m_nvEs m_parents m_children m_names m_supports m_mimic_supports m_subtrees m_njoints].
  rewrite map_length, seq_length. tauto.
Qed.
Lemma withPl_path m P j l : path m j l -> path (withPlacements m P) j l.
Proof. induction 1; constructor; assumption. Qed.
Lemma withPl_tree m P : treeInv m -> treeInv (withPlacements m P).
Proof. intros T. destruct T. constructor; try assumption. intros j Hj. apply withPl_path, ti_path, Hj. Qed.

Section Kin.
Variable m : Model.
Hypothesis W : wellFormed m.
Hypothesis T : treeInv m.
Hypothesis Vm : validModel m.
Variables (q : vec) (P : R -> nat -> SE3) (tau : nat -> V6) (t : R).
Hypothesis Hq : validState m q.
Hypothesis HP : forall i, 0 < i < m_njoints m -> P t i = placementOf m i /\ hasTwist (fun s => P s i) (tau i) t.

Lemma kin_velocity d d0 j F rf : j < m_njoints m -> isRotation (rot F) -> pl (rows d 0) F_oMi = se3_Identity ->
  pl (rows d0 0) F_oMi = se3_Identity ->
  velocityIn rf (fun s => se3_mul (oMiOf (forwardKinematics0 (withPlacements m (P s)) d0 q) j) F)
    (colsMul (6 * (m_njoints m - 1)) (kinRegressorGeneric m (forwardKinematics0 m d q) j rf (se3_mul (worldPl m q j) F)) (stack6 tau)) t.
Proof.
  intros Hj HF H0 H0'. destruct (kin_regressor m W T Vm d q tau j F Hq Hj HF H0) as (KL & KW & KA).
  destruct (placements_twist m W T Vm q P tau t j Hq HP Hj) as [E0 HT].
  assert (EO : forall s, oMiOf (forwardKinematics0 (withPlacements m (P s)) d0 q) j = worldPl (withPlacements m (P s)) q j).
  { intros s. destruct (Nat.eq_dec j 0) as [->|Hn].
    - rewrite (withPl_0 m W T). unfold oMiOf, forwardKinematics0. destruct (upward_rows (withPlacements m (P s)) (fk0Row (withPlacements m (P s)) q) d0 (withPl_wf _ _ W)) as (_ & E & _).
      cbv zeta in E. rewrite E. exact H0'.
    - apply (fk0_placed (withPlacements m (P s)) (withPl_wf _ _ W) (withPl_tree _ _ T) d0 q j). cbn [withPlacements m_njoints]. lia. }
  set (V := motion_actInv F (placeVel m q tau j)) in *. set (G := se3_mul (worldPl m q j) F) in *.
  set (M := fun s => se3_mul (oMiOf (forwardKinematics0 (withPlacements m (P s)) d0 q) j) F).
  assert (HM : hasTwist M V t).
  { unfold M. apply (hasTwist_ext _ (fun s => se3_mul (worldPl (withPlacements m (P s)) q j) F)); [intros s; now rewrite EO|].
    eapply hasTwist_eq; [apply hasTwist_mul; [exact HF | exact HT | apply hasTwist_const]|]. apply v6add_0_r. }
  assert (EM : M t = G) by (unfold M, G; now rewrite EO, E0).
  assert (HG : isRotation (rot G)) by (apply isRotation_se3_mul; [apply (worldPl_rot m W T Vm q j Hq Hj) | exact HF]).
  destruct rf; cbv zeta in KL, KW, KA; unfold velocityIn.
  - rewrite KW, EM. rewrite motion_actInv_act by apply HG. exact HM.
  - rewrite KL. exact HM.
  - rewrite KA. cbn [lin ang]. rewrite EM, !(orthogonal_tr_vec _ _ (proj1 HG)). split.
    + destruct HM as [_ HM]. rewrite EM in HM. exact HM.
    + destruct V; exact HM.
Qed.
End Kin.

Lemma ex_placements (m : Model) (t : R) : exists (P : R -> nat -> SE3) (tau : nat -> V6),
  tau 1 <> v6zero /\ forall i, 0 < i < m_njoints m -> P t i = placementOf m i /\ hasTwist (fun s => P s i) (tau i) t.
Proof.
  exists (fun s i => se3_mul (placementOf m i) (mkSE3 m3id (mkV3 ((s - t) * INR i)%R 0 0))), (fun i => mkV6 (mkV3 (INR i) 0 0) v3zero).
  split; [intros E; injection E; cbn; lra|]. intros i Hi. split.
  - replace ((t - t) * INR i)%R with 0%R by ring. apply se3_mul_1_r.
  - eapply hasTwist_eq; [apply (hasTwist_mul (fun _ => placementOf m i) (fun s => mkSE3 m3id (mkV3 ((s - t) * INR i) 0 0)) v6zero (mkV6 (mkV3 (INR i) 0 0) v3zero) t); [apply isRotation_id | apply hasTwist_const |]|].
    + split; cbn [rot trans lin ang].
      * eapply derivM3_eq; [apply derivM3_const | sring].
      * split; [|split]; cbn [vx vy vz]; try (eapply deriv_eq; [apply deriv_const | cbn; ring]).
        eapply deriv_eq; [apply deriv_mult; [apply deriv_minus; [apply dl_id | apply deriv_const] | apply deriv_const] | cbn; ring].
    + rewrite motion_actInv_0. apply v6add_0_l.
Qed.
Section Kin2.
Variable m : Model.
Hypothesis W : wellFormed m.
Hypothesis T : treeInv m.
Hypothesis Vm : validModel m.
Theorem kinetic_regressor_energy (NM : noMimic m) d d' q v : validState m q ->
  (dotv (10 * (m_njoints m - 1)) (computeKineticEnergyRegressor m d q v) (params m) + / 2 * armaturePower m v v)%R = computeKineticEnergy m d' q v.
Proof.
  intros Hq. rewrite (kinetic_regressor m W T Vm d q v Hq), (kinetic_energy m W T Vm d' q v Hq).
  rewrite (armSum_power m W Vm v (noMimic_plain m NM)). ring.
Qed.
Variables (q : vec) (P : R -> nat -> SE3) (tau : nat -> V6) (t : R).
Hypothesis Hq : validState m q.
Hypothesis HP : forall i, 0 < i < m_njoints m -> P t i = placementOf m i /\ hasTwist (fun s => P s i) (tau i) t.
Theorem kin_joint d d0 j F rf : 0 < j < m_njoints m -> isRotation (rot F) -> oMiOf d 0 = se3_Identity -> oMiOf d0 0 = se3_Identity ->
  let d1 := forwardKinematics0 m d q in
  let oMi := fun s => oMiOf (forwardKinematics0 (withPlacements m (P s)) d0 q) j in
  exists K KF, computeJointKinematicRegressor m d1 j rf = Ok d1 K /\ computeJointKinematicRegressorAt m d1 j rf F = Ok d1 KF /\
    velocityIn rf (fun s => se3_mul (oMi s) se3_Identity) (colsMul (6 * (m_njoints m - 1)) K (stack6 tau)) t /\
    velocityIn rf (fun s => se3_mul (oMi s) F) (colsMul (6 * (m_njoints m - 1)) KF (stack6 tau)) t.
Proof.
  intros Hj HF H0 H0' d1 oMi. unfold computeJointKinematicRegressor, computeJointKinematicRegressorAt.
  rewrite (proj2 (Nat.ltb_lt 0 j) (proj1 Hj)), (proj2 (Nat.ltb_lt j _) (proj2 Hj)). cbn [andb].
  eexists. eexists. split; [reflexivity|]. split; [reflexivity|].
  assert (E : pl (rows d1 j) F_oMi = worldPl m q j) by (apply (fk0_placed m W T d q j Hj)). rewrite E. split.
  - pose proof (kin_velocity m W T Vm q P tau t Hq HP d d0 j se3_Identity rf (proj2 Hj) isRotation_id H0 H0') as K.
    rewrite se3_mul_1_r in K. exact K.
  - exact (kin_velocity m W T Vm q P tau t Hq HP d d0 j F rf (proj2 Hj) HF H0 H0').
Qed.
Theorem kin_frame d d0 f rf : 0 < f < m_nframes m -> isRotation (rot (fr_placement (frameAt m f))) -> oMiOf d 0 = se3_Identity -> oMiOf d0 0 = se3_Identity ->
  let d1 := forwardKinematics0 m d q in let j := fr_parentJoint (frameAt m f) in
  let oMi := fun s => oMiOf (forwardKinematics0 (withPlacements m (P s)) d0 q) j in
  exists K, computeFrameKinematicRegressor m d1 f rf = Ok (updateFramePlacement m d1 f) K /\
    velocityIn rf (fun s => se3_mul (oMi s) (fr_placement (frameAt m f))) (colsMul (6 * (m_njoints m - 1)) K (stack6 tau)) t.
Proof.
  intros Hf HF H0 H0' d1 j oMi. unfold computeFrameKinematicRegressor.
  rewrite (proj2 (Nat.ltb_lt 0 f) (proj1 Hf)), (proj2 (Nat.ltb_lt f _) (proj2 Hf)). cbn [andb]. cbv zeta.
  eexists. split; [reflexivity|].
  destruct (wf_frames _ W) as [EF HFr].
  assert (Hj : j < m_njoints m) by (apply HFr; unfold frameAt; apply nth_In; lia).
  assert (E : pl (rows d1 j) F_oMi = worldPl m q j).
  { destruct (Nat.eq_dec j 0) as [->|Hn].
    - rewrite (worldPl_0 m W T). unfold d1, forwardKinematics0. destruct (upward_rows m (fk0Row m q) d W) as (_ & E & _). cbv zeta in E. rewrite E. exact H0.
    - apply (fk0_placed m W T d q j). lia. }
  unfold updateFramePlacement at 2. mem. rewrite putn_same. fold j. rewrite E.
  exact (kin_velocity m W T Vm q P tau t Hq HP d d0 j (fr_placement (frameAt m f)) rf Hj HF H0 H0').
Qed.
End Kin2.
Lemma kin_range m d j rf F :
  (j = 0 \/ m_njoints m <= j -> computeJointKinematicRegressor m d j rf = Throw d /\ computeJointKinematicRegressorAt m d j rf F = Throw d) /\
  (j = 0 \/ m_nframes m <= j -> computeFrameKinematicRegressor m d j rf = Throw d).
Proof.
  unfold computeJointKinematicRegressor, computeJointKinematicRegressorAt, computeFrameKinematicRegressor.
  split; (intros [->|H]; [now auto|]); rewrite (proj2 (Nat.ltb_ge j _) H), andb_false_r; auto.
Qed.

Lemma exTree_frameP eps : let m := exTree eps in 0 < 1 < m_nframes m /\ fr_parentJoint (frameAt m 1) < m_njoints m /\ isRotation (rot (fr_placement (frameAt m 1))).
Proof. cbv zeta. split; [cbn; lia|]. split; [cbn; lia|]. exact isRotation_id. Qed.
