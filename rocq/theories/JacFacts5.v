(* The time variation of the Jacobians. *)
Require Import Reals List Arith ZArith Lia Bool FunctionalExtensionality.
From Verif Require Import Vec3 Spatial Inertia SpatialFacts Deriv Joints JointFacts JointFacts2 Model Spec_Model ModelFacts ModelTree ModelFacts2 Data Kinematics Spec_Kin KinFacts KinFacts2 Sums DynFacts TreeSums Spec_Mass MassFacts Crba Jacobian Spec_Jac JacFacts JacFacts2 JacFacts3 JacFacts4.
Import ListNotations.
Local Open Scope nat_scope.
Local Open Scope bool_scope.

Lemma deriv_act (M : R -> SE3) Vb x t : isRotation (rot (M t)) -> hasTwist M Vb t -> deriv6 (fun s => motion_act (M s) x) (motion_act (M t) (motion_cross Vb x)) t.
Proof.
  intros HR [H1 H2].
  assert (Ra : forall u, deriv3 (fun s => m3vec (rot (M s)) u) (m3vec (rot (M t)) (v3cross (ang Vb) u)) t).
  { intros u. eapply deriv3_eq; [apply (deriv3_vec (fun s => rot (M s)) (fun _ => u)); [exact H1 | apply deriv3_const]|]. generalize (rot (M t)). intros A. sring. }
  assert (D : deriv3 (fun s => lin (motion_act (M s) x)) (lin (motion_act (M t) (motion_cross Vb x))) t).
  { change (fun s => lin (motion_act (M s) x)) with (fun s => v3add (m3vec (rot (M s)) (lin x)) (v3cross (trans (M s)) (m3vec (rot (M s)) (ang x)))).
    eapply deriv3_eq; [apply deriv3_add; [apply Ra | apply deriv3_cross; [exact H2 | apply Ra]]|].
    pose proof (rotation_cross (rot (M t)) (lin Vb) (ang x) HR) as C. unfold motion_act, motion_cross. cbn [lin ang]. rewrite m3vec_add_r, C. sring. }
  assert (D' : deriv3 (fun s => ang (motion_act (M s) x)) (ang (motion_act (M t) (motion_cross Vb x))) t) by (apply (Ra (ang x))).
  split; assumption.
Qed.
Lemma deriv6_sumF (f : R -> nat -> V6) g l t : (forall i, In i l -> deriv6 (fun s => f s i) (g i) t) -> deriv6 (fun s => sumF (f s) l) (sumF g l) t.
Proof.
  unfold sumF. induction l as [|i l IH]; intros H; [exact (deriv6_const v6zero t)|]. cbn [map sumV6]. apply deriv6_add; [apply H; now left|]. apply IH. intros j Hj. apply H. now right.
Qed.
(* a moving column y seen from the moving frame A *)
Lemma deriv_toFrame rf (A : R -> SE3) Vb vo y dy t : isRotation (rot (A t)) -> hasTwist A Vb t -> deriv6 y dy t ->
  (v3add (lin vo) (v3cross (ang vo) (trans (A t))) = m3vec (rot (A t)) (lin Vb)) ->
  deriv6 (fun s => toFrame rf (A s) (y s)) (v6sub (toFrame rf (A t) dy) (dFrame_corr rf (A t) Vb vo (y t))) t.
Proof.
  intros HR HT Hy Hv. destruct rf; cbn [toFrame dFrame_corr].
  - eapply deriv6_eq; [exact Hy|]. sring.
  - eapply deriv6_eq; [exact (deriv_actInv A y Vb dy t HR HT Hy)|]. sring.
  - rewrite Hv. destruct HT as [_ HP]. destruct Hy as [Hl Ha]. split; cbn [lin ang].
    + apply (deriv3_ext _ (fun s => v3add (lin (y s)) (v3scale (-1) (v3cross (trans (A s)) (ang (y s)))))); [intros s; sring|].
      eapply deriv3_eq; [apply deriv3_add; [exact Hl | apply deriv3_scale; [apply deriv_const | apply deriv3_cross; [exact HP | exact Ha]]]|]. sring.
    + eapply deriv3_eq; [exact Ha|]. sring.
Qed.
Lemma corr_lin rf A vl vo : dFrame_corr rf A vl vo v6zero = v6zero /\ (forall a b, dFrame_corr rf A vl vo (v6add a b) = v6add (dFrame_corr rf A vl vo a) (dFrame_corr rf A vl vo b)) /\
  (forall c a, dFrame_corr rf A vl vo (v6scale c a) = v6scale c (dFrame_corr rf A vl vo a)).
Proof.
  destruct rf; cbn [dFrame_corr].
  - split; [reflexivity|]. split; intros; sring.
  - split; [rewrite motion_actInv_0; sring|]. split; intros; [rewrite motion_actInv_add | rewrite motion_actInv_scale]; sring.
  - split; [sring|]. split; intros; sring.
Qed.

Section Var.
Variable m : Model.
Hypothesis W : wellFormed m.
Hypothesis T : treeInv m.
Hypothesis Vm : validModel m.
Hypothesis Pos : noRigidJoint m.

(* what computeJointJacobiansTimeVariation leaves *)
Definition varied q v (d : Data) : Prop := colsAre m q d /\
  (forall i a, 0 < i < m_njoints m -> a < nvEOf m i -> co (gl d) F_dJ (idx_vE m i + a) = motion_cross (worldVel m q v i) (worldCol m q i a)) /\
  (forall i, 0 < i < m_njoints m -> pl (rows d i) F_oMi = worldPl m q i /\ mo (rows d i) F_v = bodyVel m q v i /\ mo (rows d i) F_ov = worldVel m q v i).
Lemma jointsTV_rows d q v : validState m q -> forall i, 0 < i < m_njoints m -> let d' := computeJointJacobiansTimeVariation m d q v in
  pl (rows d' i) F_oMi = worldPl m q i /\ mo (rows d' i) F_v = bodyVel m q v i /\ mo (rows d' i) F_ov = worldVel m q v i /\ jS (jd (rows d' i)) = jS (jointAt m q noVel i).
Proof.
  intros Hq. destruct (upward_rowsG m (dJRow m q v) (dJCols m) d W) as (H0 & H1 & H2). fold (computeJointJacobiansTimeVariation m d q v) in *. cbv zeta.
  set (d' := computeJointJacobiansTimeVariation m d q v) in *.
  assert (E : forall i r rp, 0 < i < m_njoints m -> jS (jd (dJRow m q v i r rp)) = jS (jointAt m q noVel i) /\
    pl (dJRow m q v i r rp) F_oMi = (if 0 <? parent m i then se3_mul (pl rp F_oMi) (relPl m q i) else relPl m q i) /\
    mo (dJRow m q v i r rp) F_v = (if 0 <? parent m i then v6add (jv (jointAt m q v i)) (motion_actInv (relPl m q i) (mo rp F_v)) else jv (jointAt m q v i)) /\
    mo (dJRow m q v i r rp) F_ov = motion_act (pl (dJRow m q v i r rp) F_oMi) (mo (dJRow m q v i r rp) F_v)).
  { intros i r rp Hi. destruct (fk1Row_eq m W q v i r rp Hi) as (E1 & _ & E3 & E4). unfold dJRow. set (r1 := fk1Row m q v i r rp) in *. mem.
    rewrite E1. split; [symmetry; apply (jointAt_S m)|]. auto. }
  assert (G : forall i, i < m_njoints m -> 0 < i -> pl (rows d' i) F_oMi = worldPl m q i /\ mo (rows d' i) F_v = bodyVel m q v i).
  { refine (tree_ind m _ W _ _); [lia|]. intros i Hi IH _. rewrite (H1 i Hi). destruct (E i (rows d i) (rows d' (parent m i)) Hi) as (_ & -> & -> & _).
    rewrite (worldPl_step m W T q i Hi), (bodyVel_step m W T Vm q v i Hq Hi), (jv_twist m Vm q v i Hi).
    destruct (Nat.ltb_spec 0 (parent m i)) as [Hp|]; [destruct (IH Hp) as [-> ->]; auto|].
    replace (parent m i) with 0 by lia. rewrite (worldPl_0 m W T), (bodyVel_0 m W T), motion_actInv_0, v6add_0_r. split; [symmetry; apply se3_mul_1_l | reflexivity]. }
  intros i Hi. destruct (G i ltac:(lia) ltac:(lia)) as [G1 G2]. split; [exact G1|]. split; [exact G2|]. rewrite (H1 i Hi) in *.
  destruct (E i (rows d i) (rows d' (parent m i)) Hi) as (E1 & _ & _ & E4). split; [|exact E1]. rewrite E4, G1, G2. reflexivity.
Qed.
Lemma jointsTV_varied d q v : validState m q -> varied q v (computeJointJacobiansTimeVariation m d q v).
Proof.
  intros Hq. pose proof (jointsTV_rows d q v Hq) as RW. cbv zeta in RW. destruct (upward_rowsG m (dJRow m q v) (dJCols m) d W) as (_ & _ & H2). 
  fold (computeJointJacobiansTimeVariation m d q v) in *. set (d' := computeJointJacobiansTimeVariation m d q v) in *.
  pose (Inv := fun n (g : Glob) => forall i a, 0 < i < n -> i < m_njoints m -> a < nvEOf m i -> co g F_J (idx_vE m i + a) = worldCol m q i a /\ co g F_dJ (idx_vE m i + a) = motion_cross (worldVel m q v i) (worldCol m q i a)).
  assert (HI : Inv (m_njoints m) (gl d')).
  { rewrite H2. apply upward_inv; [apply (wf_n _ W) | intros i a Hi; lia |]. intros i g Hi IH j a Hj Hj' Ha. unfold dJCols, crbaWCols. mem. unfold setCols.
    destruct (jmE m W i Hi) as (-> & -> & _). rewrite (within_ownE m W i j a Hi ltac:(lia) Ha). destruct (RW i Hi) as (E1 & _ & E3 & E4). destruct (Nat.eqb_spec i j) as [<-|Hn]; [|apply IH; lia].
    rewrite E1, E3, E4. replace (idx_vE m i + (idx_vE m i + a - idx_vE m i)) with (idx_vE m i + a) by lia. rewrite (within_ownE m W i i a Hi Hi Ha), Nat.eqb_refl.
    replace (idx_vE m i + a - idx_vE m i) with a by lia. split; reflexivity. }
  split; [intros i a Hi Ha; apply HI; lia|]. split; [intros i a Hi Ha; apply HI; lia|]. intros i Hi. destruct (RW i Hi) as (E1 & E2 & E3 & _). auto.
Qed.

Definition dForm rf A vl vo q v (i a : nat) : V6 :=
  v6sub (toFrame rf A (motion_cross (worldVel m q v i) (worldCol m q i a))) (dFrame_corr rf A vl vo (worldCol m q i a)).
Lemma jacForm_sub F G l J0 k : jacForm m (fun i a => v6sub (F i a) (G i a)) l J0 k = v6add (jacForm m F l J0 k) (sumF (contrib m (fun i a => v6opp (G i a)) k) l).
Proof.
  unfold jacForm. rewrite (sumF_ext (contrib m (fun i a => v6sub (F i a) (G i a)) k) (fun i => v6add (contrib m F k i) (contrib m (fun i a => v6opp (G i a)) k i))).
  - unfold sumF. induction l as [|i l IH]; cbn [map sumV6]; [sring|]. assert (E : forall x y z w : V6, v6add x (v6add y z) = v6add (v6add x z) y) by (intros; sring).
    clear IH. generalize (owned m (i :: l) k). intros b. set (X := if b then v6zero else J0 k). clearbody X.
    assert (S : sumV6 (map (fun i => v6add (contrib m F k i) (contrib m (fun i a => v6opp (G i a)) k i)) l) = v6add (sumV6 (map (contrib m F k) l)) (sumV6 (map (contrib m (fun i a => v6opp (G i a)) k) l))).
    { clear. induction l as [|i l IH]; cbn [map sumV6]; [sring|]. rewrite IH. sring. }
    rewrite S. sring.
  - intros i _. unfold contrib. destruct (within (idx_v m i) (nvEOf m i) k); sring.
Qed.
Lemma sub_all F l J k : updAll m v6sub F l J k = v6add (J k) (sumF (contrib m (fun i a => v6opp (F i a)) k) l).
Proof.
  revert J. induction l as [|i l IH]; intros J; [unfold sumF; cbn; sring|]. cbn [updAll fold_left]. fold (updAll m v6sub F l (updCols v6sub (idx_v m i) (nvEOf m i) (F i) J)).
  rewrite IH. change (sumF (contrib m (fun i a => v6opp (F i a)) k) (i :: l)) with (v6add (contrib m (fun i a => v6opp (F i a)) k i) (sumF (contrib m (fun i a => v6opp (F i a)) k) l)).
  generalize (sumF (contrib m (fun i a => v6opp (F i a)) k) l). intros X. unfold updCols, contrib. destruct (within (idx_v m i) (nvEOf m i) k); sring.
Qed.
Lemma filter_true l : filter (fun _ : nat => true) l = l.
Proof. induction l as [|x l IH]; [reflexivity|]. cbn. now rewrite IH. Qed.
Lemma walk_par j : 0 < j < m_njoints m -> walk (t_par (rowTables m)) (S (m_nvE m)) (Z.of_nat (nvEOf m j) + Z.of_nat (idx_vE m j) - 1)%Z = concat (map (colsDesc m) (rev (tl (support m j)))).
Proof.
  intros Hj. destruct (tables_inv m W Pos) as (T1 & _).
  assert (LC : (Z.of_nat (nvEOf m j) + Z.of_nat (idx_vE m j) - 1)%Z = lastCol m (ancestorWith m (fun _ => true) j j)).
  { rewrite (ancestor_eq m W) by lia. destruct (Nat.eqb_spec j 0); [lia|]. unfold lastCol. destruct (Nat.ltb_spec 0 j); [|lia]. destruct (jmE m W j Hj) as (-> & -> & _). lia. }
  rewrite LC, (walk_support m W T Pos _ _ T1 j ltac:(lia)), filter_true; [reflexivity|]. rewrite <- LC. pose proof (idx_vE_bound m W j Hj). lia.
Qed.
(* getJointJacobianTimeVariation *)
Lemma jointTV_at d q v j rf J0 k : varied q v d -> 0 < j < m_njoints m ->
  getJointJacobianTimeVariation m d j rf J0 k = jacForm m (dForm rf (worldPl m q j) (bodyVel m q v j) (worldVel m q v j) q v) (tl (support m j)) J0 k.
Proof.
  intros (V1 & V2 & V3) Hj. unfold getJointJacobianTimeVariation. destruct (V3 j Hj) as (E1 & E2 & E3). cbv zeta. rewrite E1, E2, E3.
  rewrite (walk_par j Hj). rewrite (upd_walk m W Pos v6sub (fun e => dFrame_corr rf (worldPl m q j) (bodyVel m q v j) (worldVel m q v j) (co (gl d) F_J e))).
  2: { intros i Hi. apply in_rev in Hi. apply (tl_range m W T j); [lia | exact Hi]. }
  rewrite sub_all, sumF_rev, (translate_at m W T Vm Pos) by exact Hj. unfold dForm. rewrite jacForm_sub. f_equal.
  - apply (jacForm_ext m); [apply (tl_range m W T); lia|]. intros i a Hi Ha. now rewrite V2.
  - apply sumF_ext. intros i Hi. unfold contrib. destruct (within (idx_v m i) (nvEOf m i) k) eqn:E; [|reflexivity]. apply within_true in E.
    rewrite V1; [reflexivity | apply (tl_range m W T j ltac:(lia)), Hi | lia].
Qed.
(* getFrameJacobianTimeVariation *)
Lemma frameTV_at d q v f rf J0 k : let j := fr_parentJoint (frameAt m f) in let P := fr_placement (frameAt m f) in noMimic m -> varied q v d -> 0 < j < m_njoints m ->
  snd (getFrameJacobianTimeVariation m d f rf J0) k = jacForm m (dForm rf (se3_mul (worldPl m q j) P) (motion_actInv P (bodyVel m q v j)) (worldVel m q v j) q v) (tl (support m j)) J0 k.
Proof.
  intros j P NM (V1 & V2 & V3) Hj. unfold getFrameJacobianTimeVariation. cbv zeta. cbn [snd]. fold j P. destruct (V3 j Hj) as (E1 & E2 & E3).
  assert (EM : oMf (gl (updateFramePlacement m d f)) f = se3_mul (worldPl m q j) P) by (unfold updateFramePlacement; mem; rewrite putn_same; fold j P; now rewrite E1).
  rewrite EM. unfold updateFramePlacement. mem. rewrite E2, E3.
  destruct (tables_inv m W Pos) as (_ & _ & _ & TR & _).
  assert (RD : forall i a, 0 < i < m_njoints m -> a < nvEOf m i -> t_red (rowTables m) (idx_vE m i + a) = idx_vE m i + a) by (intros i a Hi Ha; rewrite TR by assumption; now rewrite (idx_vE_v m W Vm NM i Hi)).
  destruct (wf_joint _ W j Hj) as (_ & _ & F1 & _ & _ & F2 & _). rewrite F1, F2, <- (idx_vE_v m W Vm NM j Hj), <- (nvE_nv m W Vm j (NM j Hj) Hj).
  rewrite (walk_par j Hj).
  assert (FE : forall g : nat -> V6, forall l J, inRange m l ->
    fold_left (fun J e => putn J e (v6sub (J e) (g e))) (concat (map (colsDesc m) l)) J =
    fold_left (fun J e => putn J (t_red (rowTables m) e) (v6sub (J (t_red (rowTables m) e)) (g e))) (concat (map (colsDesc m) l)) J).
  { intros g l J HR. assert (HL : forall e, In e (concat (map (colsDesc m) l)) -> t_red (rowTables m) e = e).
    { intros e He. apply in_concat in He. destruct He as (c & Hc & He). apply in_map_iff in Hc. destruct Hc as (i & <- & Hi). unfold colsDesc in He. apply in_rev in He. apply in_seq in He.
      replace e with (idx_vE m i + (e - idx_vE m i)) by lia. apply RD; [apply HR, Hi | lia]. }
    revert J HL. generalize (concat (map (colsDesc m) l)). intros es. induction es as [|e es IH]; intros J HL; [reflexivity|]. cbn [fold_left]. rewrite (HL e (or_introl eq_refl)). apply IH. intros x Hx. apply HL. now right. }
  assert (HR : inRange m (rev (tl (support m j)))) by (intros i Hi; apply in_rev in Hi; apply (tl_range m W T j); [lia | exact Hi]).
  rewrite (FE _ _ _ HR). rewrite (upd_walk m W Pos v6sub (fun e => dFrame_corr rf (se3_mul (worldPl m q j) P) (motion_actInv P (bodyVel m q v j)) (worldVel m q v j) (co (gl d) F_J e)) _ HR).
  rewrite sub_all, sumF_rev, (translate_at m W T Vm Pos) by exact Hj. unfold dForm. rewrite jacForm_sub. f_equal.
  - apply (jacForm_ext m); [apply (tl_range m W T); lia|]. intros i a Hi Ha. now rewrite V2.
  - apply sumF_ext. intros i Hi. unfold contrib. destruct (within (idx_v m i) (nvEOf m i) k) eqn:E; [|reflexivity]. apply within_true in E.
    rewrite V1; [reflexivity | apply (tl_range m W T j ltac:(lia)), Hi | lia].
Qed.
(* products *)
Lemma jacForm_mul_i (g : nat -> V6 -> V6) q l w : inRange m l ->
  (forall i, g i v6zero = v6zero /\ (forall a b, g i (v6add a b) = v6add (g i a) (g i b)) /\ (forall c a, g i (v6scale c a) = v6scale c (g i a))) ->
  colsMul (m_nv m) (jacForm m (fun i a => g i (worldCol m q i a)) l zeroJ) w = sumF (fun i => g i (motion_act (worldPl m q i) (jointTwist m q w i))) l.
Proof.
  intros HR HL. unfold jacForm. rewrite (colsMul_ext _ _ (fun k => sumF (contrib m (fun i a => g i (worldCol m q i a)) k) l)).
  2: { intros k Hk. unfold zeroJ. destruct (owned m l k); sring. }
  rewrite colsMul_sumF. apply sumF_ext. intros i Hi. unfold contrib. destruct (HL i) as (H0 & Ha & Hs).
  rewrite (colsMul_seg _ _ _ (fun a => g i (worldCol m q i a))) by (apply (idx_v_boundE m W Vm); apply HR, Hi).
  rewrite (colsMul_map (g i)) by assumption. f_equal. unfold worldCol. rewrite (colsMul_map (motion_act (worldPl m q i))) by (intros; apply motion_act_0 || apply motion_act_add || apply motion_act_scale).
  f_equal. rewrite <- (jS_lenE m W Vm q noVel i (HR i Hi)). unfold jointTwist. apply colsMul_Smul.
Qed.
Lemma dForm_mul rf A vl vo q v w j : j < m_njoints m ->
  colsMul (m_nv m) (jacForm m (dForm rf A vl vo q v) (tl (support m j)) zeroJ) w =
  v6sub (toFrame rf A (sumF (fun i => motion_cross (worldVel m q v i) (motion_act (worldPl m q i) (jointTwist m q w i))) (tl (support m j))))
        (dFrame_corr rf A vl vo (sumF (fun i => motion_act (worldPl m q i) (jointTwist m q w i)) (tl (support m j)))).
Proof.
  intros Hj. destruct (toFrame_lin rf A) as (L0 & La & Ls). destruct (corr_lin rf A vl vo) as (C0 & Ca & Cs).
  unfold dForm. rewrite (jacForm_mul_i (fun i x => v6sub (toFrame rf A (motion_cross (worldVel m q v i) x)) (dFrame_corr rf A vl vo x))).
  - rewrite <- (sumF_map (toFrame rf A)) by assumption. rewrite <- (sumF_map (dFrame_corr rf A vl vo)) by assumption. unfold sumF.
    induction (tl (support m j)) as [|i l IH]; cbn [map sumV6]; [sring|]. rewrite IH. sring.
  - apply (tl_range m W T), Hj.
  - intros i. split; [|split].
    + replace (motion_cross (worldVel m q v i) v6zero) with v6zero by sring. rewrite L0, C0. sring.
    + intros a b. replace (motion_cross (worldVel m q v i) (v6add a b)) with (v6add (motion_cross (worldVel m q v i) a) (motion_cross (worldVel m q v i) b)) by sring. rewrite La, Ca. sring.
    + intros c a. replace (motion_cross (worldVel m q v i) (v6scale c a)) with (v6scale c (motion_cross (worldVel m q v i) a)) by sring. rewrite Ls, Cs. sring.
Qed.

Hypothesis FA : forall i, 0 < i < m_njoints m -> fixedAxes (jm_type (joint m i)).
Lemma twist_fixed q q' w i : 0 < i < m_njoints m -> jointTwist m q w i = jointTwist m q' w i.
Proof. intros Hi. unfold jointTwist, jointAt. now rewrite (FA i Hi (shift (idx_q m i) q) (shift (idx_q m i) q') (shift (idx_v m i) noVel) (shift (idx_v m i) noVel)). Qed.
Lemma deriv_jac rf P (q : R -> vec) v w t j : (forall s, validState m (q s)) -> moves m q v t -> 0 < j < m_njoints m -> isRotation (rot P) ->
  deriv6 (fun s => toFrame rf (se3_mul (worldPl m (q s) j) P) (worldVel m (q s) w j))
    (colsMul (m_nv m) (jacForm m (dForm rf (se3_mul (worldPl m (q t) j) P) (motion_actInv P (bodyVel m (q t) v j)) (worldVel m (q t) v j) (q t) v) (tl (support m j)) zeroJ) w) t.
Proof.
  intros Hq Hm Hj HP. rewrite dForm_mul by lia. rewrite <- (worldVel_sum m W T Vm (q t) w j (Hq t)) by lia.
  pose proof (worldPl_rot m W T Vm (q t) j (Hq t) ltac:(lia)) as HR.
  apply (deriv_toFrame rf (fun s => se3_mul (worldPl m (q s) j) P) _ _ (fun s => worldVel m (q s) w j)).
  - apply isRotation_se3_mul; assumption.
  - apply frame_twist; [exact HP|]. apply (worldPl_twist m W T Vm); [apply Hq | exact Hm | lia].
  - apply (deriv6_ext _ (fun s => sumF (fun i => motion_act (worldPl m (q s) i) (jointTwist m (q t) w i)) (tl (support m j)))).
    + intros s. rewrite (worldVel_sum m W T Vm (q s) w j (Hq s)) by lia. apply sumF_ext. intros i Hi. now rewrite (twist_fixed (q s) (q t) w i (tl_range m W T j ltac:(lia) i Hi)).
    + apply deriv6_sumF. intros i Hi. pose proof (tl_range m W T j ltac:(lia) i Hi) as Hir. pose proof (worldPl_rot m W T Vm (q t) i (Hq t) ltac:(lia)) as HRi.
      eapply deriv6_eq; [apply (deriv_act (fun s => worldPl m (q s) i) (bodyVel m (q t) v i)); [exact HRi | apply (worldPl_twist m W T Vm); [apply Hq | exact Hm | lia]]|].
      unfold worldVel. apply motion_act_cross, HRi.
  - unfold worldVel. pose proof (rotation_cross (rot (worldPl m (q t) j)) (ang (bodyVel m (q t) v j)) (trans P) HR) as C.
    unfold motion_actInv, se3_mul, motion_act. cbn [lin ang rot trans]. rewrite m3vec_mul, <- (m3vec_mul (rot P)). rewrite (orthogonal_right _ (proj1 HP)). rewrite m3vec_1.
    revert C. generalize (worldPl m (q t) j) (bodyVel m (q t) v j). intros M x C.
    rewrite m3vec_sub_r. replace (m3vec (rot M) (v3cross (trans P) (ang x))) with (v3opp (m3vec (rot M) (v3cross (ang x) (trans P)))) by sring. rewrite C. sring.
Qed.
End Var.
