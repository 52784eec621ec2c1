(* dccrba against ccrba, and two models on which the variation of the centroidal map is wrong. *)
Require Import Reals List Arith ZArith Lia Lra Bool String.
From Verif Require Import Vec3 Spatial Inertia InertiaFacts SpatialFacts Joints Spec_Joints Deriv JointFacts JointFacts2 Model Spec_Model ModelFacts ModelTree ModelFacts2 ModelFacts3 Sums Data Kinematics Spec_Kin Spec_Mass KinFacts KinFacts2 KinFacts3 Spec_Dyn Rnea DynFacts DynFacts2 TreeSums MassFacts Crba CrbaFacts CrbaFacts2 CrbaFacts3 AbaFacts Jacobian Spec_Jac JacFacts JacFacts2 JacFacts3 JacFacts4 JacFacts5 JacFacts7 Spec_Com Com ComFacts ComFacts2 ComFacts3 ComFacts4 ComFacts5 ComFacts6 Centroidal CentFacts CentFacts2 Dccrba DccrbaFacts DccrbaFacts2.
Import ListNotations.
Local Open Scope nat_scope.

Lemma sym3_det S S' : (forall x, sym3_vec S x = sym3_vec S' x) -> S = S'.
Proof.
  intros H. pose proof (H (mkV3 1 0 0)) as H1. pose proof (H (mkV3 0 1 0)) as H2. pose proof (H (mkV3 0 0 1)) as H3. destruct S, S'. cbn in H1, H2, H3.
  injection H1 as A1 A2 A3. injection H2 as B1 B2 B3. injection H3 as C1 C2 C3. f_equal; lra.
Qed.
Lemma centred_det Y Y' : lever Y = v3zero -> lever Y' = v3zero -> mass Y = mass Y' -> (forall V, inertia_mul Y V = inertia_mul Y' V) -> Y = Y'.
Proof.
  destruct Y as [a l S], Y' as [a' l' S']. cbn. intros -> -> -> H. f_equal. apply sym3_det. intros x. pose proof (H (mkV6 v3zero x)) as E. apply (f_equal ang) in E. unfold inertia_mul in E. cbn [lin ang lever mass inertia] in E.
  pose proof (f_equal vx E) as E1. pose proof (f_equal vy E) as E2. pose proof (f_equal vz E) as E3. cbn in E1, E2, E3. apply v3_ext; cbn; lra.
Qed.
Section S.
Variable eps : R.
Variable m : Model.
Hypothesis B : Built eps m.
Hypothesis Vm : validModel m.
Hypothesis NM : noMimic m.
Hypothesis RM : regularMasses eps m.
Hypothesis HM : subtreeMass m 0 <> 0%R.
Let W := Built_wf _ _ B.
Let T := Built_tree _ _ B.
Lemma d_same d d0 q v : validState m q -> let x := dccrba eps m d q v in let y := ccrba eps m d0 q v in
  (forall k, k < m_nv m -> co (gl x) F_Ag k = co (gl y) F_Ag k) /\ p3 (rows x 0) F_com = p3 (rows y 0) F_com /\ gv (gl x) F_hg = gv (gl y) F_hg /\ ig (gl x) = ig (gl y).
Proof.
  intros Hq. cbv zeta. destruct (dccrba_spec eps m W T Vm NM RM HM q v d Hq) as (A1 & A2 & A3 & _ & A5 & _).
  destruct (map_spec eps m W T Vm RM q d0 v Hq HM) as (_ & B2 & B3 & _ & B5 & B6). 
  split; [|split; [|split]].
  - intros k Hk. rewrite <- (dot_unit_col _ _ _ Hk), A1, <- B2. apply (dot_unit_col _ _ _ Hk).
  - rewrite A3, B5. reflexivity.
  - rewrite A2, B3. reflexivity.
  - apply centred_det; [reflexivity | reflexivity | |].
    + destruct (ends eps m W T Vm NM RM HM q v d Hq) as (_ & _ & E3 & E4 & _). destruct (ccrba_end eps m W T Vm RM q d0 Hq HM) as (_ & _ & E5 & _).
      transitivity (subtreeMass m 0); [rewrite <- E4; reflexivity | symmetry; exact E5].
    + intros V. apply v6_dot_ext. intros A. rewrite A5, B6. reflexivity.
Qed.
Lemma d_mapTV d d0 q v : validState m q -> p3 (rows d 0) F_vcom = p3 (rows (dccrba eps m d0 q v) 0) F_vcom ->
  forall k, k < m_nv m -> co (gl (computeCentroidalMapTimeVariation eps m d q v)) F_dAg k = co (gl (dccrba eps m d0 q v)) F_dAg k.
Proof.
  intros Hq E k Hk. destruct (dccrba_spec eps m W T Vm NM RM HM q v d0 Hq) as (_ & _ & _ & A4 & _ & A6).
  rewrite <- (dot_unit_col _ _ _ Hk), (mapTV_spec eps m W T Vm NM RM HM q v d (unitv k) Hq), E, A4, <- A6. apply (dot_unit_col _ _ _ Hk).
Qed.
End S.
(* one joint and one body with unit inertia at its origin *)
Definition oneBody : Inertia := mkInertia 1 v3zero (mkSym3 1 0 1 0 0 1).
Definition one0 (j : Joint1) : Model := okModel (addJoint emptyModel 0 (freshJoint (JSimple j)) se3_Identity "a" (exLim (nq1 j) (nv1 j))) emptyModel.
Definition one (j : Joint1) : Model := okModel (appendBodyToJoint (1/1000) (one0 j) 1 oneBody se3_Identity) (one0 j).
Lemma one_zyx_built : Built (1/1000) (one JSphericalZYX).
Proof.
  assert (H1 : History (1/1000) (one0 JSphericalZYX) []).
  { apply (H_step (1/1000) emptyModel _ [] None); [constructor|]. apply (S_joint (1/1000) emptyModel _ 0 (JSimple JSphericalZYX) se3_Identity "a"%string (exLim 3 3) 1); [exact I|reflexivity]. }
  eexists. exact (H_step (1/1000) (one0 JSphericalZYX) (one JSphericalZYX) _ _ H1 (S_body (1/1000) (one0 JSphericalZYX) (one JSphericalZYX) 1 oneBody se3_Identity eq_refl)).
Qed.
Lemma one_tr_built : Built (1/1000) (one JTranslation).
Proof.
  assert (H1 : History (1/1000) (one0 JTranslation) []).
  { apply (H_step (1/1000) emptyModel _ [] None); [constructor|]. apply (S_joint (1/1000) emptyModel _ 0 (JSimple JTranslation) se3_Identity "a"%string (exLim 3 3) 1); [exact I|reflexivity]. }
  eexists. exact (H_step (1/1000) (one0 JTranslation) (one JTranslation) _ _ H1 (S_body (1/1000) (one0 JTranslation) (one JTranslation) 1 oneBody se3_Identity eq_refl)).
Qed.
Lemma one_inertia_zyx : inertiaOf (one JSphericalZYX) 1 = oneBody.
Proof.
  unfold inertiaOf, one, one0. cbn [okModel appendBodyToJoint]. cbn. unfold inertia_pequ, inertia_act, oneBody, inertia_Zero. cbn. 
  assert (E : Rmax (0 + 1) (1/1000) = 1%R) by (unfold Rmax; destruct (Rle_dec (0 + 1) (1 / 1000)); lra). rewrite E.
  f_equal; [ring | apply v3_ext; cbn; field | unfold sym3_add, sym3_subAlphaSkewSquare, sym3_rotate; cbn; f_equal; field].
Qed.
Lemma one_inertia_tr : inertiaOf (one JTranslation) 1 = oneBody.
Proof. exact one_inertia_zyx. Qed.
Definition zeroV : vec := fun _ => 0%R.
Definition zyV : vec := fun k => match k with 0 | 1 => 1%R | _ => 0%R end.
Lemma one_all j : j = JSphericalZYX \/ j = JTranslation -> Built (1/1000) (one j) /\ validModel (one j) /\ noMimic (one j) /\ regularMasses (1/1000) (one j) /\ validState (one j) zeroV /\ subtreeMass (one j) 0 = 1%R /\
  m_njoints (one j) = 2 /\ inertiaOf (one j) 1 = oneBody /\ worldPl (one j) zeroV 1 = se3_Identity /\ jointAt (one j) zeroV zyV 1 = jcalc (JSimple j) zeroV zyV /\ idx_v (one j) 1 = 0 /\ m_nv (one j) = 3 /\ tl (support (one j) 1) = [1].
Proof.
  intros Hj.
  assert (E : inertiaOf (one j) 1 = oneBody) by (destruct Hj; subst; [exact one_inertia_zyx | exact one_inertia_tr]).
  assert (N2 : m_njoints (one j) = 2) by (destruct Hj; subst; reflexivity).
  assert (S1 : tl (support (one j) 1) = [1]) by (destruct Hj; subst; reflexivity).
  split; [destruct Hj; subst; [exact one_zyx_built | exact one_tr_built]|].
  split; [intros i Hi; rewrite N2 in Hi; replace i with 1 by lia; destruct Hj; subst; (split; [cbn; auto | apply isRotation_id])|].
  split; [intros i Hi; rewrite N2 in Hi; replace i with 1 by lia; destruct Hj; subst; reflexivity|].
  split; [split; [lra|]; intros i Hi; rewrite N2 in Hi; replace i with 1 by lia; rewrite E; right; cbn; lra|].
  split; [intros i Hi; rewrite N2 in Hi; replace i with 1 by lia; destruct Hj; subst; cbn; auto|].
  split; [|split; [exact N2|split; [exact E|split; [|split; [|split; [|split; [|exact S1]]]]]]].
  - unfold subtreeMass, subBodies, bodies. rewrite N2. cbn [Nat.sub sumN]. rewrite E. destruct Hj; subst; cbn; ring.
  - unfold worldPl. rewrite S1. cbn [product]. unfold relPl, jointAt. destruct Hj; subst.
    + change (placementOf (one JSphericalZYX) 1) with se3_Identity. change (jm_type (joint (one JSphericalZYX) 1)) with (JSimple JSphericalZYX).
      cbn [jcalc jM]. unfold calcM1, shift, zeroV. rewrite sin_0, cos_0. apply se3_ext; [apply m3_ext|apply v3_ext]; cbn; ring.
    + change (placementOf (one JTranslation) 1) with se3_Identity. change (jm_type (joint (one JTranslation) 1)) with (JSimple JTranslation).
      cbn [jcalc jM]. unfold calcM1, shift, zeroV. apply se3_ext; [apply m3_ext|apply v3_ext]; cbn; ring.
  - destruct Hj; subst; reflexivity.
  - destruct Hj; subst; reflexivity.
  - destruct Hj; subst; reflexivity.
Qed.
Lemma zyx_gap d d' : let m := one JSphericalZYX in
  gv (gl (computeCentroidalMomentumTimeVariation m d' zeroV zyV zeroV)) F_dhg <>
  v6add (colsMul (m_nv m) (co (gl (dccrba (1/1000) m d zeroV zyV)) F_Ag) zeroV) (colsMul (m_nv m) (co (gl (dccrba (1/1000) m d zeroV zyV)) F_dAg) zyV).
Proof.
  intros m. destruct (one_all JSphericalZYX (or_introl eq_refl)) as (B & V & N & RM & Q & HM & N2 & E & P & J & _ & _ & S1). fold m in B, V, N, RM, Q, HM, N2, E, P, J, S1.
  assert (HM0 : subtreeMass m 0 <> 0%R) by (rewrite HM; lra).
  rewrite (dccrba_gap (1/1000) m (Built_wf _ _ B) (Built_tree _ _ B) V N RM HM0 zeroV zyV zeroV d d' Q).
  set (X := v6add (colsMul _ _ zeroV) _). intros H.
  assert (H2 : atPoint (subtreeCom m zeroV 0) (subBodies6 m 0 (fun b => inertia_mul (worldInertia m zeroV b) (biasSum m zeroV zyV b))) = v6zero).
  { revert H. generalize (atPoint (subtreeCom m zeroV 0) (subBodies6 m 0 (fun b => inertia_mul (worldInertia m zeroV b) (biasSum m zeroV zyV b)))). clearbody X. intros y H.
    replace y with (v6sub (v6add X y) X) by sring. rewrite H. sring. }
  clear H X. apply (f_equal (v6dot (mkV6 v3zero (mkV3 1 0 0)))) in H2. rewrite atPoint_dot, v6dot_0_r, subBodies6_dot, (subBodies_root m (Built_wf _ _ B) (Built_tree _ _ B)) in H2.
  unfold bodies in H2. rewrite N2 in H2. cbn [Nat.sub sumN] in H2.
  unfold worldInertia, biasSum in H2. rewrite S1 in H2. unfold sumF in H2. cbn [map sumV6] in H2. rewrite J, P, E in H2.
  assert (C0 : subtreeCom m zeroV 0 = v3zero).
  { unfold subtreeCom. rewrite HM. unfold subBodies3, subBodies, bodies. rewrite N2. cbn [Nat.sub sumN]. unfold bodyCom. rewrite P, E. destruct (inSubtree m 0 1); apply v3_ext; cbn; field. }
  rewrite C0 in H2. cbn [jcalc jc calcc1] in H2. unfold zeroV, zyV, angCol in H2. rewrite sin_0, cos_0 in H2. unfold v6dot, v3dot, oneBody, inertia_act, motion_act, se3_Identity, inertia_mul in H2. cbn in H2. lra.
Qed.
(* a fresh Data holds a zero velocity of the centre of mass *)
Lemma stale_gap : let m := one JTranslation in exists k, k < m_nv m /\
  co (gl (computeCentroidalMapTimeVariation (1/1000) m (newData m) zeroV zyV)) F_dAg k <> co (gl (dccrba (1/1000) m (newData m) zeroV zyV)) F_dAg k.
Proof.
  intros m. destruct (one_all JTranslation (or_intror eq_refl)) as (B & V & N & RM & Q & HM & N2 & E & P & J & I0 & N3 & S1). fold m in B, V, N, RM, Q, HM, N2, E, P, J, I0, N3, S1.
  assert (HM0 : subtreeMass m 0 <> 0%R) by (rewrite HM; lra). pose proof (Built_wf _ _ B) as W. pose proof (Built_tree _ _ B) as T.
  exists 2. assert (H2 : 2 < m_nv m) by (rewrite N3; lia). split; [exact H2|]. rewrite <- !(dot_unit_col _ _ _ H2).
  rewrite (mapTV_spec (1/1000) m W T V N RM HM0 zeroV zyV (newData m) (unitv 2) Q). destruct (dccrba_spec (1/1000) m W T V N RM HM0 zeroV zyV (newData m) Q) as (_ & _ & _ & _ & _ & ->).
  intros H.
  assert (H3 : linCross (p3 (rows (newData m) 0) F_vcom) (totalMomentum m zeroV (unitv 2)) = linCross (subtreeVel m zeroV zyV 0) (totalMomentum m zeroV (unitv 2))).
  { revert H. generalize (atPoint (subtreeCom m zeroV 0) (dTotal m zeroV zyV (unitv 2))) (linCross (p3 (rows (newData m) 0) F_vcom) (totalMomentum m zeroV (unitv 2))) (linCross (subtreeVel m zeroV zyV 0) (totalMomentum m zeroV (unitv 2))).
    intros x y z H. replace y with (v6sub (v6add x y) x) by sring. rewrite H. sring. }
  clear H. apply (f_equal ang) in H3. cbn [linCross ang] in H3. change (p3 (rows (newData m) 0) F_vcom) with v3zero in H3.
  rewrite (lin_total m zeroV (unitv 2) HM0) in H3.
  assert (BV : forall w, bodyVel m zeroV w 1 = mkV6 (mkV3 (w 0) (w 1) (w 2)) v3zero).
  { intros w. unfold bodyVel. rewrite S1. cbn [map sumV6]. rewrite P. unfold jointTwist. rewrite I0. unfold jointAt. change (jm_type (joint m 1)) with (JSimple JTranslation). cbn [jcalc jS calcS1]. 
    apply v6_ext; apply v3_ext; cbn; unfold shift; cbn; ring. }
  assert (SV : forall w, subtreeVel m zeroV w 0 = mkV3 (w 0) (w 1) (w 2)).
  { intros w. unfold subtreeVel. rewrite HM. unfold subBodies3, subBodies, bodies. rewrite N2. cbn [Nat.sub sumN]. unfold comVel. rewrite P, E, BV. replace (inSubtree m 0 1) with true by reflexivity. apply v3_ext; cbn; field. }
  rewrite !SV in H3. apply (f_equal vx) in H3. unfold unitv, zyV in H3. rewrite HM in H3. cbn in H3. lra.
Qed.
(* the tree of the examples has fixed axes *)
Lemma exD_fixed eps : forall i, 0 < i < m_njoints (exD eps) -> fixedAxes (jm_type (joint (exD eps) i)).
Proof.
  intros i Hi. change (m_njoints (exD eps)) with 4 in Hi. destruct (exD_types eps i Hi) as (-> & _).
  destruct i as [|[|[|[|i]]]]; try lia; cbn [nth]; apply fixedAxes_simple; discriminate.
Qed.
Lemma zyx_refuted d d' : exists m q v, Built (1/1000) m /\ validModel m /\ noMimic m /\ regularMasses (1/1000) m /\ subtreeMass m 0 = 1%R /\ validState m q /\
  gv (gl (computeCentroidalMomentumTimeVariation m d' q v zeroV)) F_dhg <>
  v6add (colsMul (m_nv m) (co (gl (dccrba (1/1000) m d q v)) F_Ag) zeroV) (colsMul (m_nv m) (co (gl (dccrba (1/1000) m d q v)) F_dAg) v).
Proof.
  destruct (one_all JSphericalZYX (or_introl eq_refl)) as (B & V & N & RM & Q & HM & _).
  exact (ex_intro _ (one JSphericalZYX) (ex_intro _ zeroV (ex_intro _ zyV (conj B (conj V (conj N (conj RM (conj HM (conj Q (zyx_gap d d')))))))))).
Qed.
Lemma stale_refuted : exists m q v k, Built (1/1000) m /\ validModel m /\ noMimic m /\ regularMasses (1/1000) m /\ subtreeMass m 0 = 1%R /\ validState m q /\ k < m_nv m /\
  co (gl (computeCentroidalMapTimeVariation (1/1000) m (newData m) q v)) F_dAg k <> co (gl (dccrba (1/1000) m (newData m) q v)) F_dAg k.
Proof.
  destruct (one_all JTranslation (or_intror eq_refl)) as (B & V & N & RM & Q & HM & _). destruct stale_gap as (k & Hk & E).
  exact (ex_intro _ (one JTranslation) (ex_intro _ zeroV (ex_intro _ zyV (ex_intro _ k (conj B (conj V (conj N (conj RM (conj HM (conj Q (conj Hk E))))))))))).
Qed.
