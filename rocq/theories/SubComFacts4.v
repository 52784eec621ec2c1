(* getJacobianSubtreeCenterOfMass. *)
Require Import Reals List Arith ZArith Lia Lra Bool.
From Verif Require Import Vec3 Spatial Inertia InertiaFacts Joints Spec_Joints Deriv JointFacts JointFacts2 Model Spec_Model ModelFacts ModelTree ModelFacts2 ModelFacts3 Sums Data Kinematics Spec_Kin Spec_Mass KinFacts KinFacts2 KinFacts3 Spec_Dyn Rnea DynFacts DynFacts2 TreeSums MassFacts Crba CrbaFacts CrbaFacts2 CrbaFacts3 CrbaFacts4 Spec_Jac JacFacts JacFacts3 Spec_Com Com ComFacts ComFacts2 ComFacts3 ComFacts4 ComFacts5 Jacobian Coriolis CoriolisFacts SubCom SubComFacts SubComFacts2 SubComFacts3.
Import ListNotations.
Local Open Scope nat_scope.

Lemma fold_put {V} (g : nat -> V) l : forall J k, fold_left (fun J e => putn J e (g e)) l J k = if inb k l then g k else J k.
Proof.
  induction l as [|e l IH]; intros J k; [reflexivity|]. cbn [fold_left]. rewrite IH. unfold inb. cbn [existsb]. fold (inb k l). unfold putn.
  destruct (inb k l); [now rewrite orb_true_r|]. rewrite orb_false_r. destruct (Nat.eqb_spec e k) as [->|]; reflexivity.
Qed.
Lemma upto_single m f i : 0 < i < m_njoints m -> (forall j, 0 < j < m_njoints m -> j <> i -> f j = v3zero) -> upto m 1 f = f i.
Proof.
  intros Hi H. apply v3_dot_ext. intros e. rewrite upto_dot. rewrite <- (sumN_delta (m_njoints m) i (fun j => v3dot e (f j))) by lia. apply sumN_ext. intros j Hj.
  destruct (Nat.leb_spec 1 j), (Nat.ltb_spec 0 j), (Nat.eqb_spec i j) as [<-|]; try lia; cbn [andb]; try reflexivity. rewrite (H j) by lia. unfold v3dot. cbn. ring.
Qed.

Section Get.
Variable eps : R.
Variable m : Model.
Hypothesis B : Built eps m.
Let W : wellFormed m := Built_wf eps m B.
Let T : treeInv m := Built_tree eps m B.
Hypothesis Vm : validModel m.
Hypothesis NM : noMimic m.
Hypothesis Pos : noRigidJoint m.
Hypothesis DF : depthFirst m.

(* data.J after jacobianCenterOfMass *)
Lemma jcom_cols q d sub : let d' := jacobianCenterOfMass m d q sub in forall i c, 0 < i < m_njoints m -> c < nvOf m i -> co (gl d') F_J (idx_v m i + c) = worldCol m q i c.
Proof.
  cbv zeta. unfold jacobianCenterOfMass, jacobianCenterOfMassFK. set (d0 := forwardKinematics0 m d q).
  assert (HP : placed m q d0) by apply (fk0_placed m W T d q).
  assert (HS : forall i, 0 < i < m_njoints m -> jS (jd (rows d0 i)) = jS (jointAt m q noVel i)) by (intros i Hi; apply (fk0_jd m W d q i Hi)).
  clearbody d0. change (setGl (upward m _ (onRow d0 0 (comZero 0))) _) with (jcomStart m d0).
  destruct (jcomStart_rows m W q d0 HP HS) as (_ & _ & R1). set (s0 := jcomStart m d0) in *. clearbody s0. cbv zeta. cbn [gl setGl].
  change (co (setJcom ?g ?x) F_J) with (co g F_J). change (co (gl (onRow ?x 0 (comDiv 0))) F_J) with (co (gl x) F_J).
  pose (Inv := fun k (s : Data) => (forall i, 0 < i < m_njoints m -> pl (rows s i) F_oMi = worldPl m q i /\ jS (jd (rows s i)) = jS (jointAt m q noVel i)) /\
    forall i c, 0 < i < m_njoints m -> k <= i -> c < nvOf m i -> co (gl s) F_J (idx_v m i + c) = worldCol m q i c).
  assert (H : Inv 1 (downward m (jcomBack sub m) s0)); [|intros i c Hi Hc; apply H; lia].
  apply downward_inv; [apply (wf_n _ W) | |].
  - split; [intros i Hi; destruct (R1 i Hi) as (_ & _ & A & A2); auto | intros; lia].
  - intros i s Hi [I0 I1]. pose proof (wf_parent _ W i Hi) as Hp. destruct (I0 i Hi) as [HO HJ].
    assert (ER : forall k, pl (rows (jcomBack sub m s i) k) F_oMi = pl (rows s k) F_oMi /\ jd (rows (jcomBack sub m s i) k) = jd (rows s k)).
    { intros k. unfold jcomBack. cbv zeta. set (d1 := onRow s (parent m i) _).
      assert (E1 : pl (rows d1 k) F_oMi = pl (rows s k) F_oMi /\ jd (rows d1 k) = jd (rows s k)) by (unfold d1; rewrite onRow_at; destruct (Nat.eqb_spec (parent m i) k) as [<-|]; [unfold jcomAdd, addMass; mem|]; auto).
      destruct sub; cbn [rows setGl onCo]; [|exact E1]. rewrite onRow_at. cbn [rows setGl onCo]. destruct (Nat.eqb_spec i k) as [<-|]; [|exact E1]. unfold comDiv. mem. exact E1. }
    split; [intros k Hk; destruct (ER k) as [-> ->]; apply I0, Hk|].
    intros k c Hk Hki Hc. 
    assert (EJ : co (gl (jcomBack sub m s i)) F_J = setCols (idx_v m i) (nvOf m i) (fun c => worldCol m q i c) (co (gl s) F_J)).
    { unfold jcomBack. cbv zeta. destruct (jm_v m W Vm NM i Hi) as (E1 & E2 & E3 & E4). rewrite E2, E4. set (d1 := onRow s (parent m i) _).
      assert (Er : rows d1 i = rows s i) by (unfold d1; rewrite onRow_at; destruct (Nat.eqb_spec (parent m i) i); [lia | reflexivity]).
      assert (Eg : gl d1 = gl s) by reflexivity.
      transitivity (setCols (idx_v m i) (nvOf m i) (fun k => motion_act (pl (rows d1 i) F_oMi) (colOf (jS (jd (rows d1 i))) k)) (co (gl d1) F_J)); [destruct sub; reflexivity|].
      rewrite Er, Eg, HO, HJ. reflexivity. }
    rewrite EJ. unfold setCols. rewrite (within_own m W NM i k c Hi Hk Hc). destruct (Nat.eqb_spec i k) as [->|]; [f_equal; lia | apply I1; lia || assumption].
Qed.

Lemma unit_twist q i c j : 0 < i < m_njoints m -> c < nvOf m i -> 0 < j < m_njoints m ->
  U m q (unitv (idx_v m i + c)) j = if j =? i then worldCol m q i c else v6zero.
Proof.
  intros Hi Hc Hj. unfold U, jointTwist, worldCol. destruct (Nat.eqb_spec j i) as [->|Hn].
  - rewrite <- Smul_delta. f_equal. apply Smul_ext. intros k Hk. unfold shift, unitv. destruct (Nat.eqb_spec (idx_v m i + c) (idx_v m i + k)), (Nat.eqb_spec c k); try lia; reflexivity.
  - rewrite (Smul_ext _ _ (fun _ => 0%R)), Smul_0; [apply motion_act_0|]. intros k Hk. rewrite (jS_lenE m W Vm q noVel j Hj), (nvE_nv m W Vm j (NM j Hj) Hj) in Hk.
    unfold shift, unitv. destruct (Nat.eqb_spec (idx_v m i + c) (idx_v m j + k)) as [E|]; [|reflexivity]. destruct (dof_unique m W NM i c j k Hi Hj Hc Hk E). lia.
Qed.
Lemma jcomCol_0 M c : jcomCol M c v6zero = v3zero.
Proof. apply v3_ext; cbn; ring. Qed.
Lemma colTerm_unit q i c j : 0 < i < m_njoints m -> c < nvOf m i -> 0 < j < m_njoints m ->
  colTerm m q (unitv (idx_v m i + c)) j = if j =? i then jcomCol (subtreeMass m i) (sumsC m q i) (worldCol m q i c) else v3zero.
Proof.
  intros Hi Hc Hj. unfold colTerm. fold (U m q (unitv (idx_v m i + c)) j). rewrite (unit_twist q i c j Hi Hc Hj). destruct (Nat.eqb_spec j i) as [->|]; [reflexivity | apply jcomCol_0].
Qed.
Lemma vel_col0 q i c : validState m q -> 0 < i < m_njoints m -> c < nvOf m i ->
  subtreeVel m q (unitv (idx_v m i + c)) 0 = v3scale (/ subtreeMass m 0) (jcomCol (subtreeMass m i) (sumsC m q i) (worldCol m q i c)).
Proof.
  intros Hq Hi Hc. unfold subtreeVel. rewrite <- (colTerm_sum m W T Vm q _ Hq). f_equal. rewrite (upto_single m _ i Hi).
  - rewrite (colTerm_unit q i c i Hi Hc Hi), Nat.eqb_refl. reflexivity.
  - intros j Hj Hn. rewrite (colTerm_unit q i c j Hi Hc Hj). destruct (Nat.eqb_spec j i); [contradiction | reflexivity].
Qed.
Lemma vel_col q r i c : validState m q -> 0 < r < m_njoints m -> subtreeMass m r <> 0%R -> 0 < i < m_njoints m -> c < nvOf m i ->
  subtreeVel m q (unitv (idx_v m i + c)) r =
  if anc m r i then v3scale (/ subtreeMass m r) (jcomCol (subtreeMass m i) (sumsC m q i) (worldCol m q i c))
  else if anc m i (parent m r) then jcomCol 1 (subtreeCom m q r) (worldCol m q i c) else v3zero.
Proof.
  intros Hq Hr HM Hi Hc. pose proof (wf_parent _ W r Hr) as Hp. rewrite <- (sub_vel m W T Vm q r ltac:(lia) _ ltac:(lia) Hq HM).
  rewrite (upto_single m (masked m q r _) i Hi), (upto_single m (above _ _ _ _ _) i Hi).
  - unfold masked, above. rewrite (colTerm_unit q i c i Hi Hc Hi), (unit_twist q i c i Hi Hc Hi), Nat.eqb_refl. destruct (anc m r i) eqn:A1.
    + destruct (anc m i (parent m r)) eqn:A2; [|apply v3_ext; cbn; ring]. apply (anc_le m W T) in A1; [|lia]. apply (anc_le m W T) in A2; lia.
    + destruct (anc m i (parent m r)); [|apply v3_ext; cbn; ring]. generalize (jcomCol 1 (subtreeCom m q r) (worldCol m q i c)). intros x. apply v3_ext; cbn; ring.
  - intros j Hj Hn. unfold above. rewrite (unit_twist q i c j Hi Hc Hj). destruct (Nat.eqb_spec j i); [contradiction|]. rewrite jcomCol_0. destruct (anc _ _ _); reflexivity.
  - intros j Hj Hn. unfold masked. rewrite (colTerm_unit q i c j Hi Hc Hj). destruct (Nat.eqb_spec j i); [contradiction|]. destruct (anc _ _ _); reflexivity.
Qed.

(* after jacobianCenterOfMass(q, true): each column is the one of the velocity of the centre of mass of the subtree, or is left alone *)
Theorem get_cols q r d res : validState m q -> r < m_njoints m -> subtreeMass m 0 <> 0%R -> subtreeMass m r <> 0%R ->
  exists J, getJacobianSubtreeCenterOfMass m (jacobianCenterOfMass m d q true) r res = Ok tt J /\
  forall i c, 0 < i < m_njoints m -> c < nvOf m i ->
    J (idx_v m i + c) = if (r =? 0) || anc m r i || anc m i (parent m r) then subtreeVel m q (unitv (idx_v m i + c)) r else res (idx_v m i + c).
Proof.
  intros Hq Hr H0 HM. destruct (jcom_spec m W T Vm q d true Hq) as (C1 & C2 & C3). pose proof (jcom_cols q d true) as CJ. cbv zeta in CJ. set (d' := jacobianCenterOfMass m d q true) in *. clearbody d'.
  assert (CC : forall k, k < m_nv m -> jcom (gl d') k = subtreeVel m q (unitv k) 0) by (intros k Hk; rewrite <- C1; symmetry; apply cols3_unit, Hk).
  assert (IR : forall i c, 0 < i < m_njoints m -> c < nvOf m i -> idx_v m i + c < m_nv m) by (intros i c Hi Hc; apply (inRange m W Vm i c Hi); rewrite (nvE_nv m W Vm i (NM i Hi) Hi); exact Hc).
  unfold getJacobianSubtreeCenterOfMass. destruct (Nat.ltb_spec r (m_njoints m)); [|lia]. cbn [negb]. destruct (Nat.eqb_spec r 0) as [E|E].
  - eexists. split; [reflexivity|]. intros i c Hi Hc. cbn [orb]. rewrite E. apply CC, IR; assumption.
  - eexists. split; [reflexivity|]. intros i c Hi Hc. cbv zeta. cbn [orb]. rewrite fold_put.
    change (walk (t_par (rowTables m)) (S (m_nvE m)) (t_par (rowTables m) (jm_idx_v (joint m r)))) with (aboveRows m r).
    rewrite (above_in eps m B Vm NM Pos r i c ltac:(lia) Hi Hc), (vel_col q r i c Hq ltac:(lia) HM Hi Hc), (CJ i c Hi Hc), (C2 0 (wf_n _ W)), (C2 r Hr), (C3 r Hr (or_intror eq_refl)), (CC _ (IR i c Hi Hc)), (vel_col0 q i c Hq Hi Hc).
    destruct (jm_v m W Vm NM r ltac:(lia)) as (-> & _). rewrite (within_subtree m W T Vm NM DF r i c ltac:(lia) Hi Hc).
    pose proof (wf_parent _ W r ltac:(lia)) as Hp.
    assert (EA : anc m i r && negb (i =? r) = anc m i (parent m r)).
    { rewrite (anc_step m W T i r) by lia. destruct (Nat.eqb_spec i r) as [->|]; cbn [orb negb]; [|apply andb_true_r]. cbn [andb].
      destruct (anc m r (parent m r)) eqn:E'; [apply (anc_le m W T) in E'; lia | reflexivity]. }
    rewrite EA. destruct (anc m i (parent m r)) eqn:A1, (anc m r i) eqn:A2; cbn [orb]; try reflexivity.
    + apply (anc_le m W T) in A1; [|lia]. apply (anc_le m W T) in A2; lia.
    + generalize (worldCol m q i c) (subtreeCom m q r). intros x y. apply v3_ext; cbn; ring.
    + generalize (jcomCol (subtreeMass m i) (sumsC m q i) (worldCol m q i c)). intros x. apply v3_ext; cbn; field; auto.
Qed.
Theorem get_jac (q : R -> vec) v t r d : (forall s, validState m (q s)) -> moves m q v t -> r < m_njoints m -> subtreeMass m 0 <> 0%R -> (0 < subtreeMass m r)%R ->
  exists J, getJacobianSubtreeCenterOfMass m (jacobianCenterOfMass m d (q t) true) r (fun _ => v3zero) = Ok tt J /\ deriv3 (fun s => subtreeCom m (q s) r) (cols3Mul (m_nv m) J v) t.
Proof.
  intros Hq Hm Hr H0 HP. assert (HM : subtreeMass m r <> 0%R) by lra. destruct (get_cols (q t) r d (fun _ => v3zero) (Hq t) Hr H0 HM) as (J & E & EJ). exists J. split; [exact E|].
  eapply deriv3_eq; [apply (subtreeCom_deriv m W T Vm q v t r (Hq t) Hm)|].
  assert (EV : forall k, k < m_nv m -> J k = subtreeVel m (q t) (unitv k) r).
  { intros k Hk. destruct (dof_owner m W k Hk) as (i & c & Hi & Hc & ->). rewrite (EJ i c Hi Hc). destruct (Nat.eqb_spec r 0) as [Er|Er]; [reflexivity|]. cbn [orb].
    rewrite (vel_col (q t) r i c (Hq t) ltac:(lia) HM Hi Hc). destruct (anc m r i), (anc m i (parent m r)); reflexivity. }
  rewrite (cols3_ext _ _ _ _ EV).
  assert (L : exists J0, forall w, cols3Mul (m_nv m) J0 w = subtreeVel m (q t) w r).
  { destruct (Nat.eq_dec r 0) as [->|Er]; [exists (jcom (gl (jacobianCenterOfMass m d (q t) true))); apply (jcom_spec m W T Vm (q t) d true (Hq t))|].
    pose proof (subcom_spec m W T Vm NM (q t) r d (fun _ => v3zero) (Hq t) Hr) as H. destruct (Rlt_dec 0 (subtreeMass m r)); [|contradiction]. destruct H as (d' & J' & _ & _ & EJ'). exists J'. intros w. rewrite EJ', (cols3_ext _ (kept m r _) (fun _ => v3zero)).
    - rewrite cols3_zero. generalize (subtreeVel m (q t) w r). intros x. apply v3_ext; cbn; ring.
    - intros k _. unfold kept. destruct (divided m r k); [apply v3_ext; cbn; ring | reflexivity]. }
  destruct L as (J0 & L). rewrite <- (L v). apply cols3_ext. intros k Hk. rewrite <- L. symmetry. apply cols3_unit, Hk.
Qed.
End Get.
