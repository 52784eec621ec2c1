(* computeAllTerms against the algorithms it gathers. *)
Require Import Reals List Arith ZArith Lia Lra Bool.
From Verif Require Import Vec3 Spatial Inertia InertiaFacts SpatialFacts Joints Spec_Joints Deriv JointFacts JointFacts2 Model Spec_Model ModelFacts ModelTree ModelFacts2 ModelFacts3 Sums Data Kinematics Spec_Kin Spec_Mass KinFacts KinFacts2 KinFacts3 Spec_Dyn Rnea DynFacts DynFacts2 TreeSums MassFacts Crba CrbaFacts CrbaFacts2 CrbaFacts3 CrbaFacts4 Spec_Jac Jacobian JacFacts JacFacts5 Spec_Com Com ComFacts ComFacts2 ComFacts3 ComFacts4 Centroidal CentFacts CentFacts2 Dccrba DccrbaFacts DccrbaFacts2 DccrbaFacts3 AllTerms AllTermsFacts AllTermsFacts2.
Import ListNotations.
Local Open Scope nat_scope.

Lemma col3_unit n J k : k < n -> cols3Mul n J (unitv k) = J k.
Proof.
  intros Hk. apply v3_dot_ext. intros e. rewrite cols3_dot. rewrite <- (dotv_unit n k (fun i => v3dot e (J i)) Hk). unfold dotv. apply sumN_ext. intros i _. ring.
Qed.

Section S.
Variable eps : R.
Variable m : Model.
Hypothesis Bt : Built eps m.
Hypothesis Vm : validModel m.
Hypothesis NM : noMimic m.
Hypothesis RM : regularMasses eps m.
Hypothesis DF : depthFirst m.
Hypothesis HM : subtreeMass m 0 <> 0%R.
Let W := Built_wf _ _ Bt.
Let T := Built_tree _ _ Bt.

Lemma cat_kin d d0 q v : validState m q -> let e := computeAllTerms eps m d q v in let f := forwardKinematics2 m d0 q v (fun _ => 0%R) in
  forall i, 0 < i < m_njoints m -> pl (rows e i) F_liMi = pl (rows f i) F_liMi /\ pl (rows e i) F_oMi = pl (rows f i) F_oMi /\ mo (rows e i) F_v = mo (rows f i) F_v /\ mo (rows e i) F_a = mo (rows f i) F_a.
Proof.
  intros Hq e f i Hi. destruct (cat_all eps m W T Vm NM RM DF HM q v d Hq) as (K & _). fold e in K. destruct (K i Hi) as (_ & -> & -> & -> & -> & _).
  destruct (fk2_all m W T d0 q v (fun _ => 0%R)) as (P & V0 & A0 & VE & AE). fold f in P, V0, A0, VE, AE. destruct (P i Hi) as [-> ->].
  rewrite (vel_body m W T Vm q v f Hq V0 VE i) by lia. rewrite (acc_body m W T Vm q v _ f Hq V0 VE A0 AE i) by lia. repeat split.
Qed.
Lemma cat_jac d d0 q v : validState m q -> let e := computeAllTerms eps m d q v in let f := computeJointJacobiansTimeVariation m d0 q v in
  forall k, k < m_nv m -> co (gl e) F_J k = co (gl f) F_J k /\ co (gl e) F_dJ k = co (gl f) F_dJ k.
Proof.
  intros Hq e f k Hk. destruct (dof_owner m W k Hk) as (i & a & Hi & Ha & ->). destruct (cat_all eps m W T Vm NM RM DF HM q v d Hq) as (_ & K & _).
  fold e in K. destruct (K i a Hi Ha) as [-> ->]. destruct (jointsTV_varied m W T Vm d0 q v Hq) as (C & D & _). fold f in C, D.
  assert (E1 : nvEOf m i = nvOf m i) by (apply (nvE_nv m W Vm i (NM i Hi) Hi)). assert (E2 : idx_vE m i = idx_v m i) by (apply (idx_vE_v m W Vm NM i Hi)).
  specialize (D i a Hi). rewrite E1, E2 in D. rewrite (D Ha). specialize (C i a Hi). rewrite E1, E2 in C. rewrite (C Ha). split; reflexivity.
Qed.
Lemma cat_dyn d d0 q v : validState m q -> let e := computeAllTerms eps m d q v in
  upperIsMass m q d e /\ (forall k, k < m_nv m -> ve (gl e) F_nle k = nonLinearEffects m d0 q v k).
Proof.
  intros Hq. cbv zeta. destruct (cat_all eps m W T Vm NM RM DF HM q v d Hq) as (_ & _ & _ & _ & K & M & _). split.
  - apply (upper_from m W T Vm NM); [exact Hq | exact M].
  - intros k Hk. now apply K.
Qed.
Lemma cat_com d d0 q v : validState m q -> let e := computeAllTerms eps m d q v in
  exists f, centerOfMass1 m d0 q v true = Ok f (p3 (rows e 0) F_com) /\
  (forall j, j < m_njoints m -> sc (rows e j) F_mass = sc (rows f j) F_mass) /\
  (forall j, j < m_njoints m -> subtreeMass m j <> 0%R -> p3 (rows e j) F_com = p3 (rows f j) F_com /\ p3 (rows e j) F_vcom = p3 (rows f j) F_vcom) /\
  (forall k, k < m_nv m -> jcom (gl e) k = jcom (gl (jacobianCenterOfMass m d0 q true)) k).
Proof.
  intros Hq. cbv zeta. destruct (cat_all eps m W T Vm NM RM DF HM q v d Hq) as (_ & _ & KM & KC & K & _).
  unfold centerOfMass1. destruct (fk1_vel m W d0 q v) as (V0 & V1 & _). pose proof (fk1_placed m W T d0 q v) as HP.
  pose proof (vel_body m W T Vm q v _ Hq V0 V1) as HV. set (d1 := forwardKinematics1 m d0 q v) in *. clearbody d1.
  destruct (com_spec m W T 1 true q d1 ltac:(lia) HP HM) as (f & E & C1 & C2 & C3 & _). exists f. 
  assert (HC : forall j, j < m_njoints m -> subtreeMass m j <> 0%R -> p3 (rows (computeAllTerms eps m d q v) j) F_com = p3 (rows f j) F_com /\ p3 (rows (computeAllTerms eps m d q v) j) F_vcom = p3 (rows f j) F_vcom).
  { intros j Hj Hne. destruct (KC j Hj Hne) as [A1 A2]. pose proof (worldPl_rot m W T Vm q j Hq Hj) as HR. split.
    - rewrite <- (se3_actInvPoint_act (worldPl m q j) (p3 (rows f j) F_com)) by apply HR. rewrite (C2 j Hj Hne (or_intror eq_refl)), <- A1. symmetry. apply se3_actInvPoint_act. apply HR.
    - pose proof (C3 v j (le_n _) (fun i Hi => HV i (proj2 Hi)) Hj (or_intror eq_refl)) as A3. rewrite <- A2 in A3.
      apply (f_equal (m3vec (m3tr (rot (worldPl m q j))))) in A3. rewrite !orthogonal_tr_vec in A3 by apply HR. symmetry. exact A3. }
  split; [|split; [|split; [exact HC|]]].
  - rewrite E. f_equal. destruct (KC 0 (wf_n _ W) HM) as [<- _]. rewrite (worldPl_0 m W T). apply v3_ext; cbn; ring.
  - intros j Hj. now rewrite KM, C1.
  - intros k Hk. destruct (K k Hk) as (_ & _ & _ & -> & _). rewrite <- (col3_unit _ _ _ Hk). symmetry. apply (jcom_spec m W T Vm q d0 true Hq).
Qed.
Lemma cat_cent d d0 q v : validState m q -> let e := computeAllTerms eps m d q v in let f := dccrba eps m d0 q v in
  (forall k, k < m_nv m -> co (gl e) F_Ag k = co (gl f) F_Ag k /\ co (gl e) F_dAg k = co (gl f) F_dAg k) /\ gv (gl e) F_hg = gv (gl f) F_hg /\ ig (gl e) = ig (gl f).
Proof.
  intros Hq. cbv zeta. destruct (cat_all eps m W T Vm NM RM DF HM q v d Hq) as (_ & _ & _ & _ & K & _ & H & _ & I1 & I2 & I3).
  destruct (dccrba_spec eps m W T Vm NM RM HM q v d0 Hq) as (A1 & A2 & A3 & _ & A5 & A6). split; [|split].
  - intros k Hk. destruct (K k Hk) as (-> & -> & _). rewrite <- A1, <- A6. split; apply (dot_unit_col _ _ _ Hk).
  - now rewrite H, A2.
  - apply centred_det; [exact I2 | reflexivity | |].
    + destruct (ends eps m W T Vm NM RM HM q v d0 Hq) as (_ & _ & E3 & E4 & _). rewrite I1. rewrite <- E4. reflexivity.
    + intros V. apply v6_dot_ext. intros A. rewrite I3, A5. reflexivity.
Qed.
Lemma cat_energy d d0 q v : validState m q -> let e := computeAllTerms eps m d q v in
  gs (gl e) F_kinetic = computeKineticEnergy m d0 q v /\ gs (gl e) F_potential = computePotentialEnergy m d0 q /\ gs (gl e) F_mechanical = computeMechanicalEnergy m d0 q v.
Proof.
  intros Hq. cbv zeta. destruct (cat_all eps m W T Vm NM RM DF HM q v d Hq) as (K & _). 
  assert (EK : gs (gl (computeAllTerms eps m d q v)) F_kinetic = computeKineticEnergy m d0 q v /\ gs (gl (computeAllTerms eps m d q v)) F_potential = computePotentialEnergy m d0 q /\
    gs (gl (computeAllTerms eps m d q v)) F_mechanical = (gs (gl (computeAllTerms eps m d q v)) F_kinetic + gs (gl (computeAllTerms eps m d q v)) F_potential)%R).
  { unfold computeAllTerms in *. set (t := catEnd m _) in *. clearbody t. rewrite (proj1 (mech_frame m (jointV m v) t)) in K.
    rewrite (kinetic_energy m W T Vm d0 q v Hq), (potential_energy m W T d0 q). unfold mechanicalData.
    set (d1 := onGs (onGs t F_kinetic _) F_potential _). destruct (mechanical_loop m v d1) as [E1 E2]. cbv zeta in E1, E2. set (d2 := upward m _ d1) in *.
    unfold onGs. mem. rewrite E1, E2. pose proof (kinetic_loop m W v d1) as A1. pose proof (potential_loop m W d1) as A2. cbv zeta in A1, A2. rewrite A1, A2.
    assert (Z1 : gs (gl d1) F_kinetic = 0%R) by reflexivity. assert (Z2 : gs (gl d1) F_potential = 0%R) by reflexivity. rewrite Z1, Z2.
    assert (RE : rows d1 = rows t) by reflexivity. split; [|split].
    - unfold kineticForm, bodies. rewrite (sumN_ext (m_njoints m - 1) (fun k => inertia_vtiv (inertiaOf m (S k)) (mo (rows d1 (S k)) F_v))
        (fun k => v6dot (bodyVel m q v (S k)) (inertia_mul (inertiaOf m (S k)) (bodyVel m q v (S k))))); [lra|].
      intros k Hk. rewrite inertia_vtiv_spec, RE. destruct (K (S k) ltac:(lia)) as (_ & _ & _ & -> & _). reflexivity.
    - unfold bodies. rewrite (sumN_ext (m_njoints m - 1) _ (fun k => mass (inertiaOf m (S k)) * v3dot (lin (m_gravity m)) (bodyCom m q (S k)))%R); [ring|].
      intros k Hk. rewrite RE. destruct (K (S k) ltac:(lia)) as (_ & _ & -> & _). unfold bodyCom. f_equal. unfold v3dot. ring.
    - reflexivity. }
  destruct EK as (E1 & E2 & E3). split; [exact E1|]. split; [exact E2|]. rewrite E3, E1, E2. symmetry. apply (mechanical_energy m W T).
Qed.
(* ---- gravity ---- *)
Lemma cat_gravity d d0 q v k : ang (m_gravity m) = v3zero -> validState m q -> k < m_nv m ->
  ve (gl (computeAllTerms eps m d q v)) F_g k = computeGeneralizedGravity m d0 q k.
Proof.
  intros G0 Hq Hk. destruct (cat_all eps m W T Vm NM RM DF HM q v d Hq) as (_ & _ & _ & _ & K & _). destruct (K k Hk) as (_ & _ & _ & _ & ->).
  rewrite <- (dotv_unit (m_nv m) k (computeGeneralizedGravity m d0 q) Hk), (gravity_power m W T Vm d0 q _ Hq).
  unfold power, totalMomentum, subBodies6. cbn [lin]. rewrite v3dot_comm, subBodies3_dot, (subBodies_root m W T). unfold bodies. rewrite <- (Rmult_1_l (sumN _ _)), <- Ropp_mult_distr_l_reverse, <- sumN_scale. apply sumN_ext. intros b Hb.
  unfold weight. replace (v6opp (gravityAt m q (S b))) with (v6scale (-1) (gravityAt m q (S b))) by (generalize (gravityAt m q (S b)); clear; sring).
  rewrite inertia_mul_scale, v6dot_scale_r, (weight_power m G0 q (unitv k) (S b) Hq ltac:(lia)), lin_momentum.
  rewrite v3dot_scale_r. reflexivity.
Qed.
(* ---- dhg ---- *)
Lemma cat_f0 d q v : validState m q -> mo (rows (computeAllTerms eps m d q v) 0) F_f = v6add (mo (rows d 0) F_f) (worldForces m q v).
Proof.
  intros Hq. destruct (cat_pass eps m W T Vm NM RM DF q v d Hq) as (_ & _ & _ & P4 & _). unfold computeAllTerms. rewrite (proj1 (mech_frame m (jointV m v) _)).
  rewrite <- P4. reflexivity.
Qed.
Lemma cat_dhg d q v : validState m q -> gv (gl (computeAllTerms eps m d q v)) F_dhg = atPoint (subtreeCom m q 0) (v6add (mo (rows d 0) F_f) (worldForces m q v)).
Proof. intros Hq. apply (cat_all eps m W T Vm NM RM DF HM q v d Hq). Qed.
Lemma cat_rate d d0 q v : m_gravity m = v6zero -> mo (rows d 0) F_f = v6zero -> validState m q ->
  gv (gl (computeAllTerms eps m d q v)) F_dhg = gv (gl (computeCentroidalMomentumTimeVariation m d0 q v (fun _ => 0%R))) F_dhg.
Proof.
  intros G0 F0 Hq. rewrite (cat_dhg d q v Hq), F0. destruct (variation_spec m W T Vm q v (fun _ => 0%R) d0 Hq HM) as (_ & _ & _ & ->). f_equal.
  apply v6_dot_ext. intros A. rewrite v6dot_add_r, v6dot_0_r, Rplus_0_l. unfold worldForces. rewrite !subBodies6_dot. apply subBodies_ext. intros b Hb _. unfold bodyForce, gravityAt. rewrite G0.
  replace (v6sub (bodyAcc m q v (fun _ => 0%R) b) (motion_actInv (worldPl m q b) v6zero)) with (bodyAcc m q v (fun _ => 0%R) b); [reflexivity|].
  generalize (worldPl m q b) (bodyAcc m q v (fun _ => 0%R) b). clear. intros M [[a1 a2 a3] [b1 b2 b3]]. apply v6_ext; apply v3_ext; cbn; ring.
Qed.
Lemma rest_forces q : ang (m_gravity m) = v3zero -> validState m q -> lin (worldForces m q (fun _ => 0%R)) = v3scale (- subtreeMass m 0) (lin (m_gravity m)).
Proof.
  intros G0 Hq. apply v3_dot_ext. intros e. unfold worldForces, subBodies6. cbn [lin]. rewrite subBodies3_dot, v3dot_scale_r. unfold subtreeMass. rewrite !(subBodies_root m W T). unfold bodies.
  rewrite <- (Rmult_1_l (sumN _ (fun k => mass _))), <- Ropp_mult_distr_l_reverse, <- sumN_scale, Rmult_comm, <- sumN_scale. apply sumN_ext. intros k Hk.
  rewrite (bodyForce_rest m W T Vm q (S k)) by lia. pose proof (worldPl_rot m W T Vm q (S k) Hq ltac:(lia)) as [HR _]. unfold weight, gravityAt.
  destruct (m_gravity m) as [g g']. cbn [ang] in G0. subst g'. cbn [lin].
  assert (E : lin (force_act (worldPl m q (S k)) (inertia_mul (inertiaOf m (S k)) (v6opp (motion_actInv (worldPl m q (S k)) (mkV6 g v3zero))))) = v3scale (- mass (inertiaOf m (S k))) (m3vec (rot (worldPl m q (S k))) (m3vec (m3tr (rot (worldPl m q (S k)))) g))).
  { generalize (worldPl m q (S k)) (inertiaOf m (S k)). clear. intros [A t] [mm [c1 c2 c3] Sy]. destruct A, g. apply v3_ext; cbn; ring. }
  rewrite E, orthogonal_vec_tr by exact HR. rewrite v3dot_scale_r. ring.
Qed.
Lemma cat_twice d q : ang (m_gravity m) = v3zero -> validState m q -> let e := computeAllTerms eps m d q (fun _ => 0%R) in
  lin (gv (gl (computeAllTerms eps m e q (fun _ => 0%R))) F_dhg) = v3sub (lin (gv (gl e) F_dhg)) (v3scale (subtreeMass m 0) (lin (m_gravity m))).
Proof.
  intros G0 Hq. cbv zeta. rewrite !cat_dhg by exact Hq. rewrite (cat_f0 d q _ Hq). unfold atPoint. cbn [lin v6add]. rewrite (rest_forces q G0 Hq). apply v3_ext; cbn; ring.
Qed.
End S.
