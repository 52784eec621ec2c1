(* Jacobians: the universe, models built by the API, examples and counterexamples. *)
Require Import Reals String List Arith ZArith Lia Lra Bool FunctionalExtensionality.
From Verif Require Import Vec3 Spatial Inertia SpatialFacts Deriv Joints JointFacts JointFacts2 Spec_Joints Model Spec_Model ModelFacts ModelTree ModelFacts2 ModelFacts3 Data Kinematics Spec_Kin KinFacts KinFacts2 KinFacts3 Sums DynFacts TreeSums Spec_Mass MassFacts Crba Jacobian Spec_Jac JacFacts JacFacts2 JacFacts3 JacFacts4 JacFacts5.
Import ListNotations.
Local Open Scope nat_scope.
Local Open Scope bool_scope.

Lemma idx_vE_0 eps m : Built eps m -> idx_vE m 0 = 0.
Proof.
  intros [l H]. induction H as [|m m' l b H IH Hs]; [reflexivity|].
  assert (W : wellFormed m) by (apply (Built_wf eps); exists l; exact H).
  inversion Hs as [p j pl nm lim id Hn Ha | p j k s o pl nm lim id Hk Hm Hi Hq Hv Ha | j Y pl Ha | f id Ha Hi | f b' id Ha Hi | f id Ha | g arm Hl Ha].
  1, 2: destruct (addJoint_inv _ _ _ _ _ _ _ _ Ha) as (jm' & anc & sup & msup & _ & _ & _ & _ & _ & ->); unfold idx_vE; cbn [m_idx_vEs]; destruct (wf_lengths _ W) as (_&_&_&_&_&_&_&L8&_); pose proof (wf_n _ W); rewrite app_nth1 by lia; exact IH.
  - unfold appendBodyToJoint in Ha. destruct (_ <? _); [|discriminate]. inversion Ha. exact IH.
  - destruct (addFrame_cases _ _ _ _ _ _ Ha) as (Hj & [(_ & -> & _) | (_ & _ & [(_ & ->) | (_ & Hl & ->)])]); exact IH.
  - destruct (addFrame_cases _ _ _ _ _ _ Ha) as (Hj & [(_ & -> & _) | (_ & _ & [(_ & ->) | (_ & Hl & ->)])]); exact IH.
  - destruct (addFrame_cases _ _ _ _ _ _ Ha) as (Hj & [(_ & -> & _) | (_ & _ & [(_ & ->) | (_ & Hl & ->)])]); exact IH.
  - subst. exact IH.
Qed.
Lemma translate_universe eps m rf P Jin J0 : Built eps m -> noRigidJoint m -> 1 < m_njoints m -> translateJointJacobian m 0 rf P Jin J0 = J0.
Proof.
  intros B Pos Hn. pose proof (Built_wf eps m B) as W. pose proof (Built_tree eps m B) as T. unfold translateJointJacobian. cbv zeta. rewrite (ti_mimic _ T) by lia. rewrite (support_0 m W T). cbn [tl filter last Nat.eqb].
  rewrite (idx_vE_0 eps m B). rewrite (proj2 (proj2 (wf_zero _ W))).
  assert (E1 : idx_vE m 1 = 0) by (rewrite (wf_rangeE _ W) by lia; pose proof (proj2 (proj2 (wf_zero _ W))) as Z; unfold nvEOf in Z; destruct (m_nvEs m) as [|x l]; [reflexivity|]; cbn in *; lia).
  destruct (tables_inv m W Pos) as (_ & T2 & _). 
  assert (E : t_non (rowTables m) 0 = (-1)%Z).
  { pose proof (T2 1 0 ltac:(lia) ltac:(lia) (Pos 1 ltac:(lia))) as E. rewrite E1 in E. cbn [Nat.add Nat.eqb] in E. rewrite E.
    pose proof (wf_parent _ W 1 ltac:(lia)) as Hp. replace (parent m 1) with 0 by lia. reflexivity. }
  rewrite E. reflexivity.
Qed.
Lemma frames_universe m d q f rf J0 : wellFormed m -> treeInv m -> fr_parentJoint (frameAt m f) = 0 -> snd (computeFrameJacobian m d q f rf J0) = J0.
Proof.
  intros W T E. pose proof (wf_n _ W). destruct rf; cbn [computeFrameJacobian]; rewrite ?E.
  - unfold jacobianWorld. rewrite (support_0 m W T), (ti_mimic _ T) by lia. rewrite (support_0 m W T). reflexivity.
  - unfold jacobianLocal. rewrite (ti_mimic _ T) by lia. rewrite (support_0 m W T). reflexivity.
  - unfold jacobianAligned. rewrite E, (support_0 m W T). reflexivity.
Qed.

(* ---- statements for the models built by the API ---- *)
Section B.
Variable eps : R.
Variable m : Model.
Hypothesis B : Built eps m.
Hypothesis Vm : validModel m.
Hypothesis Pos : noRigidJoint m.
Let W := Built_wf eps m B.
Let T := Built_tree eps m B.
Lemma oMi_joints d q i : 0 < i < m_njoints m -> pl (rows (computeJointJacobians m d q) i) F_oMi = worldPl m q i.
Proof. intros Hi. apply (joints_rows m W T d q i Hi). Qed.
Lemma jac_velocity d d0 q w j rf : validState m q -> 0 < j < m_njoints m ->
  colsMul (m_nv m) (getJointJacobian m (computeJointJacobians m d0 q) j rf zeroJ) w = getVelocity (forwardKinematics1 m d q w) j rf.
Proof.
  intros Hq Hj. unfold getJointJacobian. rewrite (oMi_joints d0 q j Hj), (translate_mul m W T Vm Pos _ q j rf (worldPl m q j) w (joints_cols m W T d0 q) Hq Hj). apply (velocity_frame m W T Vm); assumption.
Qed.
Lemma jacFK_velocity d d0 q v a w j rf : validState m q -> 0 < j < m_njoints m ->
  colsMul (m_nv m) (getJointJacobian m (computeJointJacobiansFK m (forwardKinematics0 m d0 q)) j rf zeroJ) w = getVelocity (forwardKinematics1 m d q w) j rf /\
  colsMul (m_nv m) (getJointJacobian m (computeJointJacobiansFK m (forwardKinematics1 m d0 q v)) j rf zeroJ) w = getVelocity (forwardKinematics1 m d q w) j rf /\
  colsMul (m_nv m) (getJointJacobian m (computeJointJacobiansFK m (forwardKinematics2 m d0 q v a)) j rf zeroJ) w = getVelocity (forwardKinematics1 m d q w) j rf.
Proof.
  intros Hq Hj.
  assert (G : forall d1, (forall i, 0 < i < m_njoints m -> pl (rows d1 i) F_oMi = worldPl m q i /\ jS (jd (rows d1 i)) = jS (jointAt m q noVel i)) ->
    colsMul (m_nv m) (getJointJacobian m (computeJointJacobiansFK m d1) j rf zeroJ) w = getVelocity (forwardKinematics1 m d q w) j rf).
  { intros d1 H. unfold getJointJacobian. destruct (jointsFK_cols m W d1 q H) as [C _].
    assert (E : pl (rows (computeJointJacobiansFK m d1) j) F_oMi = worldPl m q j).
    { destruct (upward_rowsG m (fun _ r _ => r) (crbaWCols m) d1 W) as (_ & H1 & _). unfold computeJointJacobiansFK. rewrite (H1 j Hj). apply (H j Hj). }
    rewrite E, (translate_mul m W T Vm Pos _ q j rf (worldPl m q j) w C Hq Hj). apply (velocity_frame m W T Vm); assumption. }
  split; [|split]; apply G; intros i Hi.
  - split; [apply (fk_placement eps m B d0 q v a i Hi)|].
    apply (fk0_jd m W d0 q i Hi).
  - split; [apply (fk_placement eps m B d0 q v a i Hi)|].
    rewrite (proj2 (proj2 (fk1_vel m W d0 q v)) i Hi). symmetry. apply (jointAt_S m).
  - split; [apply (fk_placement eps m B d0 q v a i Hi)|].
    destruct (upward_rows m (fk2Row m q v a) (setRow d0 0 (setMo (setMo (rows d0 0) F_v v6zero) F_a v6zero)) W) as (_ & _ & H1). unfold forwardKinematics2. cbv zeta. rewrite (H1 i Hi).
    match goal with |- jS (jd (fk2Row m q v a i ?r ?rp)) = _ => destruct (fk2Row_eq m W q v a i r rp Hi) as (-> & _) end. symmetry. apply (jointAt_S m).
Qed.
Lemma tail_onPath i j : j < m_njoints m -> In i (tl (support m j)) <-> 0 < i /\ onPath m i j.
Proof.
  intros Hj. assert (H : forall j, j < m_njoints m -> support m j = 0 :: tl (support m j)).
  { refine (tree_ind m _ W _ _); [now rewrite (support_0 m W T)|]. intros k Hk E. rewrite (tail_step m W T k Hk), (support_step m W T k Hk). rewrite E at 1. reflexivity. }
  rewrite <- (anc_onPath m T i j Hj). unfold anc. rewrite inb_In. rewrite (H j Hj) at 2. cbn [In]. split.
  - intros Hi. split; [apply (tl_range m W T j Hj i Hi) | now right].
  - intros [Hi [<-|H']]; [lia | exact H'].
Qed.
Lemma form_untouched F J0 j k : j < m_njoints m -> (forall i, 0 < i -> onPath m i j -> ~ readsV m i k) -> jacForm m F (tl (support m j)) J0 k = J0 k.
Proof.
  intros Hj H. assert (Off : forall i, In i (tl (support m j)) -> within (idx_v m i) (nvEOf m i) k = false).
  { intros i Hi. apply (tail_onPath i j Hj) in Hi. destruct (within (idx_v m i) (nvEOf m i) k) eqn:E; [|reflexivity]. exfalso. apply (H i); try apply Hi. apply within_true in E. exact E. }
  unfold jacForm. rewrite sumF_zero by (intros i Hi; unfold contrib; now rewrite Off). replace (owned m (tl (support m j)) k) with false; [sring|].
  symmetry. unfold owned. apply not_true_is_false. intros E. apply existsb_exists in E. destruct E as (i & Hi & E). rewrite (Off i Hi), andb_false_r in E. discriminate.
Qed.
Lemma form_written F J0 J1 j k i : j < m_njoints m -> 0 < i -> onPath m i j -> isMimic (joint m i) = false -> readsV m i k ->
  jacForm m F (tl (support m j)) J0 k = jacForm m F (tl (support m j)) J1 k.
Proof.
  intros Hj H0 Hi Ni Hk. unfold jacForm. replace (owned m (tl (support m j)) k) with true; [reflexivity|]. symmetry. apply existsb_exists. exists i.
  split; [apply (tail_onPath i j Hj); auto|]. rewrite Ni. cbn [negb andb]. apply within_true. exact Hk.
Qed.
Lemma joint_form d q j rf J0 k : 0 < j < m_njoints m ->
  getJointJacobian m (computeJointJacobians m d q) j rf J0 k = jacForm m (fun i a => toFrame rf (worldPl m q j) (worldCol m q i a)) (tl (support m j)) J0 k.
Proof. intros Hj. unfold getJointJacobian. rewrite (oMi_joints d q j Hj). apply (translate_cols m W T Vm Pos _ q j rf _ J0 k (joints_cols m W T d q) Hj). Qed.
Lemma frame_form d q j P rf J0 k : 0 < j < m_njoints m ->
  getFrameJacobian m (computeJointJacobians m d q) j P rf J0 k = jacForm m (fun i a => toFrame rf (se3_mul (worldPl m q j) P) (worldCol m q i a)) (tl (support m j)) J0 k.
Proof. intros Hj. unfold getFrameJacobian. rewrite (oMi_joints d q j Hj). apply (translate_cols m W T Vm Pos _ q j rf _ J0 k (joints_cols m W T d q) Hj). Qed.
Lemma jac_columns d q j rf J0 J1 k : 0 < j < m_njoints m ->
  ((forall i, 0 < i -> onPath m i j -> ~ readsV m i k) -> getJointJacobian m (computeJointJacobians m d q) j rf J0 k = J0 k) /\
  (forall i, 0 < i -> onPath m i j -> isMimic (joint m i) = false -> readsV m i k ->
     getJointJacobian m (computeJointJacobians m d q) j rf J0 k = getJointJacobian m (computeJointJacobians m d q) j rf J1 k).
Proof.
  intros Hj. split; [intros H; rewrite joint_form by exact Hj; apply form_untouched; [lia | exact H]|].
  intros i H0 Hi Ni Hk. rewrite !joint_form by exact Hj. apply (form_written _ _ _ j k i); auto; lia.
Qed.
Lemma jac_single d d0 q j J0 k : validState m q -> 0 < j < m_njoints m ->
  snd (computeJointJacobian m d q j J0) k = getJointJacobian m (computeJointJacobians m d0 q) j LOCAL J0 k.
Proof.
  intros Hq Hj. rewrite joint_form by exact Hj. unfold computeJointJacobian. rewrite (jacobianLocal_at m W T Vm q d J0 j se3_Identity k Hq isRotation_id) by lia.
  rewrite se3_mul_1_r. reflexivity.
Qed.
Lemma frame_jac_velocity d d0 q w j P rf : validState m q -> 0 < j < m_njoints m -> isRotation (rot P) ->
  colsMul (m_nv m) (getFrameJacobian m (computeJointJacobians m d0 q) j P rf zeroJ) w = getFrameVelocity (forwardKinematics1 m d q w) j P rf.
Proof.
  intros Hq Hj HP. unfold getFrameJacobian. rewrite (oMi_joints d0 q j Hj), (translate_mul m W T Vm Pos _ q j rf (se3_mul (worldPl m q j) P) w (joints_cols m W T d0 q) Hq Hj). apply (frame_frame m W T Vm); assumption.
Qed.
Lemma frame_jac_columns d q j P rf J0 J1 k : 0 < j < m_njoints m ->
  ((forall i, 0 < i -> onPath m i j -> ~ readsV m i k) -> getFrameJacobian m (computeJointJacobians m d q) j P rf J0 k = J0 k) /\
  (forall i, 0 < i -> onPath m i j -> isMimic (joint m i) = false -> readsV m i k ->
     getFrameJacobian m (computeJointJacobians m d q) j P rf J0 k = getFrameJacobian m (computeJointJacobians m d q) j P rf J1 k).
Proof.
  intros Hj. split; [intros H; rewrite frame_form by exact Hj; apply form_untouched; [lia | exact H]|].
  intros i H0 Hi Ni Hk. rewrite !frame_form by exact Hj. apply (form_written _ _ _ j k i); auto; lia.
Qed.
Lemma frame_jac_single d d0 q f rf J0 k : let j := fr_parentJoint (frameAt m f) in let P := fr_placement (frameAt m f) in
  validState m q -> 0 < j < m_njoints m -> isRotation (rot P) ->
  snd (computeFrameJacobian m d q f rf J0) k = getFrameJacobian m (computeJointJacobians m d0 q) j P rf J0 k.
Proof.
  intros j P Hq Hj HP. rewrite frame_form by exact Hj. destruct rf; cbn [computeFrameJacobian].
  - apply (jacobianWorld_at m W T Vm q d J0 j k). lia.
  - apply (jacobianLocal_at m W T Vm q d J0 j P k Hq HP). lia.
  - apply (jacobianAligned_at m W T Vm q d J0 f k Hj).
Qed.

(* ---- time variation ---- *)
Lemma joint_variation d d0 (q : R -> vec) v w t j rf : (forall i, 0 < i < m_njoints m -> fixedAxes (jm_type (joint m i))) ->
  (forall s, validState m (q s)) -> moves m q v t -> 0 < j < m_njoints m ->
  deriv6 (fun s => colsMul (m_nv m) (getJointJacobian m (computeJointJacobians m d (q s)) j rf zeroJ) w)
    (colsMul (m_nv m) (getJointJacobianTimeVariation m (computeJointJacobiansTimeVariation m d0 (q t) v) j rf zeroJ) w) t.
Proof.
  intros FA Hq Hm Hj. pose proof (deriv_jac m W T Vm FA rf se3_Identity q v w t j Hq Hm Hj isRotation_id) as D.
  rewrite (colsMul_ext _ _ _ _ (fun k _ => jointTV_at m W T Vm Pos _ (q t) v j rf zeroJ k (jointsTV_varied m W T Vm d0 (q t) v (Hq t)) Hj)).
  rewrite se3_mul_1_r, motion_actInv_1 in D. eapply deriv6_ext; [|exact D]. intros s. cbv beta. rewrite se3_mul_1_r. unfold getJointJacobian.
  rewrite (oMi_joints d (q s) j Hj). now rewrite (translate_mul m W T Vm Pos _ (q s) j rf (worldPl m (q s) j) w (joints_cols m W T d (q s)) (Hq s) Hj).
Qed.
Lemma frame_variation d d0 (q : R -> vec) v w t f rf : let j := fr_parentJoint (frameAt m f) in let P := fr_placement (frameAt m f) in
  noMimic m -> (forall i, 0 < i < m_njoints m -> fixedAxes (jm_type (joint m i))) ->
  (forall s, validState m (q s)) -> moves m q v t -> 0 < j < m_njoints m -> isRotation (rot P) ->
  deriv6 (fun s => colsMul (m_nv m) (getFrameJacobian m (computeJointJacobians m d (q s)) j P rf zeroJ) w)
    (colsMul (m_nv m) (snd (getFrameJacobianTimeVariation m (computeJointJacobiansTimeVariation m d0 (q t) v) f rf zeroJ)) w) t.
Proof.
  intros j P NM FA Hq Hm Hj HP. pose proof (deriv_jac m W T Vm FA rf P q v w t j Hq Hm Hj HP) as D.
  rewrite (colsMul_ext _ _ _ _ (fun k _ => frameTV_at m W T Vm Pos _ (q t) v f rf zeroJ k NM (jointsTV_varied m W T Vm d0 (q t) v (Hq t)) Hj)).
  eapply deriv6_ext; [|exact D]. intros s. cbv beta. unfold getFrameJacobian.
  rewrite (oMi_joints d (q s) j Hj). now rewrite (translate_mul m W T Vm Pos _ (q s) j rf (se3_mul (worldPl m (q s) j) P) w (joints_cols m W T d (q s)) (Hq s) Hj).
Qed.
End B.
