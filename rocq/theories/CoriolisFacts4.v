(* The Coriolis matrix: its product with the velocity, and the rate of the mass matrix. *)
Require Import Reals List Arith ZArith Lia Lra Bool.
From Verif Require Import Vec3 Spatial Inertia InertiaFacts SpatialFacts Joints Spec_Joints Deriv JointFacts JointFacts2 Model Spec_Model ModelFacts ModelTree ModelFacts2 Sums Data Kinematics Spec_Kin Spec_Mass KinFacts KinFacts2 Spec_Dyn Rnea DynFacts DynFacts2 TreeSums MassFacts Crba CrbaFacts CrbaFacts2 CrbaFacts3 AbaFacts AbaFacts3 Jacobian Spec_Jac JacFacts JacFacts2 JacFacts3 JacFacts5 Spec_Chol CholFacts4 Com ComFacts2 Dccrba DccrbaFacts DccrbaFacts2 DccrbaFacts3 DataX Coriolis DerSums CoriolisFacts CoriolisFacts2 CoriolisFacts3.
Import ListNotations.
Local Open Scope nat_scope.
Local Open Scope bool_scope.

Section Whole.
Variable eps : R.
Variable m : Model.
Hypothesis Bt : Built eps m.
Let W : wellFormed m := Built_wf eps m Bt.
Let T : treeInv m := Built_tree eps m Bt.
Hypothesis Vm : validModel m.
Hypothesis NM : noMimic m.
Hypothesis Pos : noRigidJoint m.
Hypothesis DF : depthFirst m.

(* C is the Coriolis matrix at (q,v) *)
Definition isCor (q v : vec) (C : nat -> nat -> R) : Prop :=
  forall i a j c, 0 < i < m_njoints m -> a < nvOf m i -> 0 < j < m_njoints m -> c < nvOf m j -> C (idx_v m i + a) (idx_v m j + c) = cEntry m q v i a j c.
Lemma sameBranch_or i a j c : 0 < i < m_njoints m -> a < nvOf m i -> 0 < j < m_njoints m -> c < nvOf m j ->
  anc m i j || anc m j i = false -> ~ sameBranch m (idx_v m i + a) (idx_v m j + c).
Proof.
  intros Hi Ha Hj Hc E S. apply orb_false_iff in E as [E1 E2]. destruct (le_ge_dec (idx_v m i + a) (idx_v m j + c)) as [L|L].
  - apply (sameBranch_anc m W T NM i a j c Hi Ha Hj Hc L) in S. congruence.
  - apply branch_sym in S. apply (sameBranch_anc m W T NM j c i a Hj Hc Hi Ha L) in S. congruence.
Qed.
Lemma branch_or i a j c : 0 < i < m_njoints m -> a < nvOf m i -> 0 < j < m_njoints m -> c < nvOf m j ->
  ~ sameBranch m (idx_v m i + a) (idx_v m j + c) -> anc m i j || anc m j i = false.
Proof.
  intros Hi Ha Hj Hc S. apply orb_false_iff. split.
  - destruct (anc m i j) eqn:A; [|reflexivity]. destruct S. destruct (le_ge_dec (idx_v m i + a) (idx_v m j + c)) as [L|L]; [now apply (sameBranch_anc m W T NM i a j c)|].
    apply branch_sym. apply (sameBranch_anc m W T NM j c i a Hj Hc Hi Ha L). destruct (Nat.eq_dec i j) as [<-|N]; [exact A|].
    pose proof (anc_le m W T i j (proj2 Hj) A). pose proof (idx_v_mono m W NM i j ltac:(lia) ltac:(lia) ltac:(lia)). lia.
  - destruct (anc m j i) eqn:A; [|reflexivity]. destruct S. destruct (le_ge_dec (idx_v m i + a) (idx_v m j + c)) as [L|L].
    + apply (sameBranch_anc m W T NM i a j c Hi Ha Hj Hc L). destruct (Nat.eq_dec j i) as [<-|N]; [exact A|].
      pose proof (anc_le m W T j i (proj2 Hi) A). pose proof (idx_v_mono m W NM j i ltac:(lia) ltac:(lia) ltac:(lia)). lia.
    + apply branch_sym. now apply (sameBranch_anc m W T NM j c i a Hj Hc Hi Ha L).
Qed.
Lemma isCor_if q v C C0 : treeSparse m C0 ->
  (forall i a j c, 0 < i < m_njoints m -> a < nvOf m i -> 0 < j < m_njoints m -> c < nvOf m j ->
     C (idx_v m i + a) (idx_v m j + c) = if anc m i j || anc m j i then cEntry m q v i a j c else C0 (idx_v m i + a) (idx_v m j + c)) -> isCor q v C /\ treeSparse m C.
Proof.
  intros S H. split.
  - intros i a j c Hi Ha Hj Hc. rewrite H by assumption. destruct (anc m i j || anc m j i) eqn:E; [reflexivity|].
    rewrite S; [|apply (Nat.lt_le_trans _ _ _ (proj1 (Nat.add_lt_mono_l _ _ _) Ha) (idx_v_bound m W NM i Hi))|apply (Nat.lt_le_trans _ _ _ (proj1 (Nat.add_lt_mono_l _ _ _) Hc) (idx_v_bound m W NM j Hj))|now apply sameBranch_or].
    unfold cEntry. symmetry. apply orb_false_iff in E as [E1 E2]. now apply (common_off m W T).
  - intros k l Hk Hl NB. destruct (dof_owner m W k Hk) as (i & a & Hi & Ha & ->). destruct (dof_owner m W l Hl) as (j & c & Hj & Hc & ->).
    rewrite H by assumption. rewrite (branch_or i a j c) by assumption. now apply S.
Qed.
Hypothesis RM : regularMasses eps m.
Theorem coriolis_isCor s q v : validState m q -> treeSparse m (ma (gl (bs s)) F_C) ->
  let C := ma (gl (bs (computeCoriolisMatrix eps m s q v))) F_C in isCor q v C /\ treeSparse m C.
Proof. intros Hq S C. apply (isCor_if q v C _ S). intros. now apply (coriolis_entries eps m Bt Vm NM Pos DF RM). Qed.
Theorem getCoriolis_isCor d q v : corReady m q v d -> treeSparse m (ma (gl d) F_C) ->
  let C := ma (gl (getCoriolisMatrix m d)) F_C in isCor q v C /\ treeSparse m C.
Proof. intros RD S C. apply (isCor_if q v C _ S). intros. now apply (getCoriolis_entries eps m Bt Vm NM Pos DF). Qed.

(* ---- the product with the velocity ---- *)
Lemma matForm_unit C w k : k < m_nv m -> matForm m C (unitv k) w = dotv (m_nv m) (C k) w.
Proof. intros Hk. unfold matForm. exact (dotv_unit _ k (fun k => sumN (m_nv m) (fun l => C k l * w l)%R) Hk). Qed.
Lemma cor_product_gap C q v d d' k : validState m q -> isCor q v C -> k < m_nv m ->
  (nonLinearEffects m d q v k - computeGeneralizedGravity m d' q k)%R =
  (dotv (m_nv m) (C k) v + bodies m (fun b => v6dot (worldVel m q (unitv k) b) (inertia_mul (worldInertia m q b) (biasSum m q v b))))%R.
Proof.
  intros Hq HC Hk. rewrite <- (dotv_unit _ k (nonLinearEffects m d q v) Hk), <- (dotv_unit _ k (computeGeneralizedGravity m d' q) Hk).
  rewrite (cor_gap eps m Bt Vm q v (unitv k) d d' Hq), <- (cor_form eps m Bt Vm NM C q v (unitv k) v Hq HC), (matForm_unit C v k Hk). reflexivity.
Qed.
Lemma fixed_biasSum q v b : (forall i, 0 < i < m_njoints m -> fixedAxes (jm_type (joint m i))) -> validState m q -> b < m_njoints m -> biasSum m q v b = v6zero.
Proof.
  intros FA Hq Hb. unfold biasSum. apply sumF_zero. intros i Hi. pose proof (tl_range m W T b Hb i Hi) as Hir.
  assert (EC : jc (jointAt m q v i) = v6zero) by (apply fixed_bias; [apply Vm, Hir | apply Hq, Hir | apply FA, Hir]). rewrite EC. apply motion_act_0.
Qed.
Theorem cor_product C q v d d' k : (forall i, 0 < i < m_njoints m -> fixedAxes (jm_type (joint m i))) -> validState m q -> isCor q v C -> k < m_nv m ->
  dotv (m_nv m) (C k) v = (nonLinearEffects m d q v k - computeGeneralizedGravity m d' q k)%R.
Proof.
  intros FA Hq HC Hk. rewrite (cor_product_gap C q v d d' k Hq HC Hk). 
  assert (Z : bodies m (fun b => v6dot (worldVel m q (unitv k) b) (inertia_mul (worldInertia m q b) (biasSum m q v b))) = 0%R).
  { apply sumN_zero. intros b Hb. rewrite fixed_biasSum, inertia_mul_0 by (assumption || lia). apply v6dot_0_r. }
  rewrite Z. ring.
Qed.

(* ---- the rate of the mass matrix ---- *)
Lemma corB_sym q v b x y : (v6dot x (m6vec (corB m q v b) y) + v6dot y (m6vec (corB m q v b) x))%R = v6dot x (m6vec (inertia_variation (worldInertia m q b) (worldVel m q v b)) y).
Proof.
  unfold corB. rewrite !addForceCross_vec, !variation_half, !v6dot_add_r, !v6dot_scale_r.
  rewrite (variation_sym (worldInertia m q b) (worldVel m q v b) y x), !cross_dot_swap.
  assert (E : forall a b f, v6dot (motion_cross a b) f = (- v6dot (motion_cross b a) f)%R) by (intros; ssimp; ring). rewrite (E y x). field.
Qed.
Theorem cor_rate C (q : R -> vec) v t k l : (forall i, 0 < i < m_njoints m -> fixedAxes (jm_type (joint m i))) -> (forall s, validState m (q s)) -> moves m q v t -> isCor (q t) v C -> k < m_nv m -> l < m_nv m ->
  deriv (fun s => massMatrix m (q s) k l) (C k l + C l k)%R t.
Proof.
  intros FA Hq Hm HC Hk Hl. unfold massMatrix.
  eapply deriv_eq; [apply deriv_plus; [|apply deriv_const]|].
  - eapply deriv_ext; [intros s; apply (kineticForm_world m W T Vm (q s) (unitv k) (unitv l) (Hq s))|].
    unfold bodies. apply (deriv_sumN _ (fun b s => v6dot (worldVel m (q s) (unitv k) (S b)) (inertia_mul (worldInertia m (q s) (S b)) (worldVel m (q s) (unitv l) (S b))))
      (fun b => v6dot (dWorldVel m (q t) v (unitv k) (S b)) (inertia_mul (worldInertia m (q t) (S b)) (worldVel m (q t) (unitv l) (S b))) + v6dot (worldVel m (q t) (unitv k) (S b)) (dMom m (q t) v (unitv l) (S b)))%R).
    intros b Hb. eapply deriv_eq.
    + apply (deriv_dot6 (fun s => worldVel m (q s) (unitv k) (S b)) (fun s => inertia_mul (worldInertia m (q s) (S b)) (worldVel m (q s) (unitv l) (S b)))); [apply (worldVel_deriv m W T Vm FA); [exact Hq | exact Hm | lia]|].
      eapply deriv6_ext; [|apply (mom_deriv m W T Vm FA q v (unitv l) t (S b) Hq Hm); lia]. intros s. unfold worldMomentum, worldInertia, worldVel. apply inertia_act_mul.
      apply (worldPl_rot m W T Vm); [apply Hq | lia].
    + reflexivity.
  - cbv beta. rewrite Rplus_0_r.
    assert (EF : forall k l, k < m_nv m -> l < m_nv m -> C k l = corForm m (q t) v (unitv k) (unitv l)).
    { clear k l Hk Hl. intros k l Hk Hl. rewrite <- (cor_form eps m Bt Vm NM C (q t) v _ _ (Hq t) HC), (matForm_unit C _ k Hk), (dotv_unit _ l (C k) Hl). reflexivity. }
    rewrite (EF k l Hk Hl), (EF l k Hl Hk). unfold corForm. rewrite (bodies_add m). unfold bodies. apply sumN_ext. intros b Hb. unfold dMom. rewrite !v6dot_add_r, <- (corB_sym (q t) v (S b) (worldVel m (q t) (unitv k) (S b)) (worldVel m (q t) (unitv l) (S b))).
    rewrite (inertia_mul_sym (worldInertia m (q t) (S b)) (dWorldVel m (q t) v (unitv k) (S b)) (worldVel m (q t) (unitv l) (S b))). ring.
Qed.
End Whole.

(* ---- joints whose axes move ---- *)
Lemma cor_zyx_refuted : exists m q v k, Built (1/1000) m /\ validModel m /\ noMimic m /\ noRigidJoint m /\ depthFirst m /\ regularMasses (1/1000) m /\ validState m q /\ k < m_nv m /\
  forall s d d', treeSparse m (ma (gl (bs s)) F_C) ->
  dotv (m_nv m) (ma (gl (bs (computeCoriolisMatrix (1/1000) m s q v))) F_C k) v <> (nonLinearEffects m d q v k - computeGeneralizedGravity m d' q k)%R.
Proof.
  destruct (one_all JSphericalZYX (or_introl eq_refl)) as (B & V & N & RM & Q & HM & N2 & E & P & J & I0 & N3 & S1). set (m := one JSphericalZYX) in *.
  exists m, zeroV, zyV, 2. assert (H2 : 2 < m_nv m) by (rewrite N3; lia).
  assert (PS : noRigidJoint m) by (intros i Hi; rewrite N2 in Hi; replace i with 1 by lia; cbn; lia).
  assert (D : depthFirst m). { intros i b c Hi Hc OP Hb. rewrite N2 in Hc. assert (i = 1 /\ b = 1 /\ c = 1) as (-> & -> & ->) by lia. exact OP. }
  repeat (split; [assumption|]). intros s d d' S H.
  destruct (coriolis_isCor (1/1000) m B V N PS D RM s zeroV zyV Q S) as (HC & _).
  rewrite (cor_product_gap (1/1000) m B V N _ zeroV zyV d d' 2 Q HC H2) in H.
  assert (H3 : bodies m (fun b => v6dot (worldVel m zeroV (unitv 2) b) (inertia_mul (worldInertia m zeroV b) (biasSum m zeroV zyV b))) = 0%R) by lra. clear H.
  unfold bodies in H3. rewrite N2 in H3. cbn [Nat.sub sumN] in H3. unfold worldVel, worldInertia, biasSum in H3. rewrite S1 in H3. unfold sumF in H3. cbn [map sumV6] in H3. rewrite J, P, E in H3.
  assert (BV : bodyVel m zeroV (unitv 2) 1 = mkV6 v3zero (mkV3 1 0 0)).
  { unfold bodyVel. rewrite S1. cbn [map sumV6]. rewrite P. unfold jointTwist. rewrite I0. unfold jointAt. change (jm_type (joint m 1)) with (JSimple JSphericalZYX). cbn [jcalc jS calcS1].
    unfold zeroV, shift, unitv, angCol. rewrite sin_0, cos_0. apply v6_ext; apply v3_ext; cbn; ring. }
  rewrite BV in H3. cbn [jcalc jc calcc1] in H3. unfold zeroV, zyV, angCol in H3. rewrite sin_0, cos_0 in H3. unfold v6dot, v3dot, oneBody, inertia_act, motion_act, se3_Identity, inertia_mul in H3. cbn in H3. lra.
Qed.
