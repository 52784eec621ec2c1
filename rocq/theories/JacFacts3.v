(* Jacobians against velocities. *)
Require Import Reals List Arith ZArith Lia Bool FunctionalExtensionality.
From Verif Require Import Vec3 Spatial Inertia SpatialFacts Joints JointFacts JointFacts2 Model Spec_Model ModelFacts ModelTree ModelFacts2 Data Kinematics Spec_Kin KinFacts KinFacts2 Sums DynFacts TreeSums Spec_Mass MassFacts Crba Jacobian Spec_Jac JacFacts JacFacts2.
Import ListNotations.
Local Open Scope nat_scope.
Local Open Scope bool_scope.

Lemma colsMul_ext n J J' w : (forall k, k < n -> J k = J' k) -> colsMul n J w = colsMul n J' w.
Proof. induction n as [|n IH]; intros H; [reflexivity|]. cbn. rewrite IH, H; auto. Qed.
Lemma colsMul_extw n J w w' : (forall k, k < n -> w k = w' k) -> colsMul n J w = colsMul n J w'.
Proof. induction n as [|n IH]; intros H; [reflexivity|]. cbn. rewrite IH, H; auto. Qed.
Lemma colsMul_zero n J w : (forall k, k < n -> J k = v6zero) -> colsMul n J w = v6zero.
Proof. induction n as [|n IH]; intros H; [reflexivity|]. cbn. rewrite IH, H; auto. sring. Qed.
Lemma colsMul_add n J J' w : colsMul n (fun k => v6add (J k) (J' k)) w = v6add (colsMul n J w) (colsMul n J' w).
Proof. induction n as [|n IH]; cbn; [sring|]. rewrite IH. sring. Qed.
Lemma colsMul_split n p J w : colsMul (n + p) J w = v6add (colsMul n J w) (colsMul p (fun k => J (n + k)) (shift n w)).
Proof. induction p as [|p IH]; [rewrite Nat.add_0_r; cbn; sring|]. rewrite Nat.add_succ_r. cbn [colsMul]. rewrite IH. unfold shift. sring. Qed.
Lemma colsMul_seg n b l f w : b + l <= n -> colsMul n (fun k => if within b l k then f (k - b) else v6zero) w = colsMul l f (shift b w).
Proof.
  intros H. replace n with (b + (l + (n - b - l))) by lia. rewrite !colsMul_split.
  rewrite (colsMul_zero b), (colsMul_zero (n - b - l)).
  - rewrite (colsMul_ext l _ f); [sring|]. intros k Hk. rewrite (proj2 (within_true _ _ _)) by lia. f_equal. lia.
  - intros k Hk. rewrite (proj2 (within_false _ _ _)) by lia. reflexivity.
  - intros k Hk. rewrite (proj2 (within_false _ _ _)) by lia. reflexivity.
Qed.
Lemma colsMul_map (g : V6 -> V6) n J w : g v6zero = v6zero -> (forall a b, g (v6add a b) = v6add (g a) (g b)) -> (forall c a, g (v6scale c a) = v6scale c (g a)) ->
  colsMul n (fun k => g (J k)) w = g (colsMul n J w).
Proof. intros H0 Ha Hs. induction n as [|n IH]; cbn; [congruence|]. now rewrite IH, Ha, Hs. Qed.
Lemma colsMul_sumF n (f : nat -> nat -> V6) l w : colsMul n (fun k => sumF (f k) l) w = sumF (fun i => colsMul n (fun k => f k i) w) l.
Proof.
  unfold sumF. induction l as [|i l IH]; cbn [map sumV6]; [apply colsMul_zero; reflexivity|]. rewrite colsMul_add, IH. reflexivity.
Qed.
Lemma colsMul_Smul S : forall x, colsMul (length S) (fun k => nth k S v6zero) x = Smul S x.
Proof.
  induction S as [|c S IH]; intros x; [reflexivity|]. cbn [length Smul]. change (Datatypes.S (length S)) with (1 + length S). rewrite colsMul_split. cbn [colsMul nth plus].
  rewrite IH. sring.
Qed.
Lemma toFrame_lin rf P : toFrame rf P v6zero = v6zero /\ (forall a b, toFrame rf P (v6add a b) = v6add (toFrame rf P a) (toFrame rf P b)) /\
  (forall c a, toFrame rf P (v6scale c a) = v6scale c (toFrame rf P a)).
Proof.
  destruct rf; cbn [toFrame].
  - split; [reflexivity|]. split; reflexivity.
  - split; [apply motion_actInv_0|]. split; intros; [apply motion_actInv_add | apply motion_actInv_scale].
  - split; [sring|]. split; intros; sring.
Qed.

Section Jac.
Variable m : Model.
Hypothesis W : wellFormed m.
Hypothesis T : treeInv m.
Hypothesis Vm : validModel m.
Hypothesis Pos : noRigidJoint m.

Lemma jS_lenE q v i : 0 < i < m_njoints m -> length (jS (jointAt m q v i)) = nvEOf m i.
Proof.
  intros Hi. unfold jointAt. destruct (Vm i Hi) as [Vj _]. rewrite (jS_lengthE _ _ _ Vj).
  destruct (wf_joint _ W i Hi) as (_ & _ & _ & _ & _ & _ & ->). reflexivity.
Qed.
(* product by a matrix of the canonical form *)
Lemma jacForm_mul (g : V6 -> V6) q l w : inRange m l -> g v6zero = v6zero -> (forall a b, g (v6add a b) = v6add (g a) (g b)) -> (forall c a, g (v6scale c a) = v6scale c (g a)) ->
  colsMul (m_nv m) (jacForm m (fun i a => g (worldCol m q i a)) l zeroJ) w = g (sumF (fun i => motion_act (worldPl m q i) (jointTwist m q w i)) l).
Proof.
  intros HR H0 Ha Hs. unfold jacForm. rewrite (colsMul_ext _ _ (fun k => sumF (contrib m (fun i a => g (worldCol m q i a)) k) l)).
  2: { intros k Hk. unfold zeroJ. destruct (owned m l k); sring. }
  rewrite colsMul_sumF. rewrite <- (sumF_map g) by assumption. apply sumF_ext. intros i Hi. unfold contrib.
  rewrite (colsMul_seg _ _ _ (fun a => g (worldCol m q i a))) by (apply (idx_v_boundE m W Vm); apply HR, Hi).
  rewrite (colsMul_map g) by assumption. f_equal. unfold worldCol. rewrite (colsMul_map (motion_act (worldPl m q i))) by (intros; apply motion_act_0 || apply motion_act_add || apply motion_act_scale).
  f_equal. rewrite <- (jS_lenE q noVel i (HR i Hi)). unfold jointTwist. apply colsMul_Smul.
Qed.
Lemma worldVel_sum q w j : validState m q -> j < m_njoints m -> worldVel m q w j = sumF (fun i => motion_act (worldPl m q i) (jointTwist m q w i)) (tl (support m j)).
Proof.
  intros Hq. revert j. refine (tree_ind m _ W _ _).
  - rewrite (worldVel_0 m W T), (support_0 m W T). reflexivity.
  - intros j Hj IH. rewrite (worldVel_step m W T Vm q w j Hq Hj), IH, (tail_step m W T j Hj), sumF_app. f_equal. unfold sumF. cbn. sring.
Qed.

(* ---- computeJointJacobians ---- *)
Definition colsAre q (d : Data) : Prop := forall i a, 0 < i < m_njoints m -> a < nvEOf m i -> co (gl d) F_J (idx_vE m i + a) = worldCol m q i a.
Lemma within_ownE i j a : 0 < i < m_njoints m -> 0 < j < m_njoints m -> a < nvEOf m j -> within (idx_vE m i) (nvEOf m i) (idx_vE m j + a) = (i =? j).
Proof.
  intros Hi Hj Ha. destruct (Nat.eqb_spec i j) as [<-|Hn]; [apply within_true; lia|].
  destruct (within (idx_vE m i) (nvEOf m i) (idx_vE m j + a)) eqn:E; [|reflexivity]. apply within_true in E.
  destruct (colE_unique m W i j (idx_vE m j + a - idx_vE m i) a Hi Hj ltac:(lia) Ha ltac:(lia)). lia.
Qed.
Lemma cols_pass F d q : (forall i, 0 < i < m_njoints m -> let d' := upward m (rowStepG m F (crbaWCols m)) d in
    pl (rows d' i) F_oMi = worldPl m q i /\ jS (jd (rows d' i)) = jS (jointAt m q noVel i)) -> colsAre q (upward m (rowStepG m F (crbaWCols m)) d).
Proof.
  intros H. destruct (upward_rowsG m F (crbaWCols m) d W) as (_ & _ & H2). cbv zeta in H. set (d' := upward m _ d) in *. unfold colsAre. rewrite H2.
  pose (Inv := fun n (g : Glob) => forall i a, 0 < i < n -> i < m_njoints m -> a < nvEOf m i -> co g F_J (idx_vE m i + a) = worldCol m q i a).
  assert (HI : Inv (m_njoints m) (upward m (fun g i => crbaWCols m i (rows d' i) g) (gl d))).
  { apply upward_inv; [apply (wf_n _ W) | intros i a Hi; lia |]. intros i g Hi IH j a Hj Hj' Ha. unfold crbaWCols. mem. unfold setCols.
    destruct (jmE m W i Hi) as (-> & -> & _). rewrite (within_ownE i j a Hi ltac:(lia) Ha). destruct (Nat.eqb_spec i j) as [<-|Hn]; [|apply IH; lia].
    replace (idx_vE m i + a - idx_vE m i) with a by lia. destruct (H i Hi) as [-> ->]. reflexivity. }
  intros i a Hi Ha. apply HI; lia.
Qed.
Lemma joints_rows d q i : 0 < i < m_njoints m -> let d' := computeJointJacobians m d q in
  pl (rows d' i) F_oMi = worldPl m q i /\ jS (jd (rows d' i)) = jS (jointAt m q noVel i).
Proof.
  destruct (upward_rowsG m (fk0Row m q) (crbaWCols m) d W) as (H0 & H1 & H2). fold (computeJointJacobians m d q) in *. cbv zeta. set (d' := computeJointJacobians m d q) in *.
  assert (E : forall i r rp, 0 < i < m_njoints m -> jS (jd (fk0Row m q i r rp)) = jS (jointAt m q noVel i) /\
       pl (fk0Row m q i r rp) F_oMi = if 0 <? parent m i then se3_mul (pl rp F_oMi) (relPl m q i) else relPl m q i).
  { intros k r rp Hk. unfold fk0Row, place. destruct (calcJoint0_at m W k (jd r) q Hk) as (E1 & E2). mem. rewrite E1, E2. auto. }
  assert (G : forall i, i < m_njoints m -> 0 < i -> pl (rows d' i) F_oMi = worldPl m q i).
  { refine (tree_ind m _ W _ _); [lia|]. intros k Hk IH _. rewrite (H1 k Hk). destruct (E k (rows d k) (rows d' (parent m k)) Hk) as (_ & ->).
    rewrite (worldPl_step m W T q k Hk). destruct (Nat.ltb_spec 0 (parent m k)); [now rewrite IH|].
    replace (parent m k) with 0 by lia. rewrite (worldPl_0 m W T). symmetry. apply se3_mul_1_l. }
  intros Hi. split; [apply G; lia|]. rewrite (H1 i Hi). apply E, Hi.
Qed.
Lemma joints_cols d q : colsAre q (computeJointJacobians m d q).
Proof. apply cols_pass. intros i Hi. apply (joints_rows d q i Hi). Qed.
Lemma jointsFK_cols d q : (forall i, 0 < i < m_njoints m -> pl (rows d i) F_oMi = worldPl m q i /\ jS (jd (rows d i)) = jS (jointAt m q noVel i)) ->
  let d' := computeJointJacobiansFK m d in colsAre q d' /\ forall i, 0 < i < m_njoints m -> pl (rows d' i) F_oMi = worldPl m q i.
Proof.
  intros H. cbv zeta. destruct (upward_rowsG m (fun _ r _ => r) (crbaWCols m) d W) as (H0 & H1 & H2). fold (computeJointJacobiansFK m d) in *.
  split; [|intros i Hi; rewrite (H1 i Hi); apply H, Hi]. apply cols_pass. intros i Hi. fold (computeJointJacobiansFK m d). cbv zeta. rewrite (H1 i Hi). apply H, Hi.
Qed.

(* ---- get*Jacobian ---- *)
Lemma jacForm_ext F F' l J k : inRange m l -> (forall i a, 0 < i < m_njoints m -> a < nvEOf m i -> F i a = F' i a) -> jacForm m F l J k = jacForm m F' l J k.
Proof.
  intros HR H. unfold jacForm. f_equal. apply sumF_ext. intros i Hi. unfold contrib. destruct (within (idx_v m i) (nvEOf m i) k) eqn:E; [|reflexivity].
  apply within_true in E. apply H; [apply HR, Hi | lia].
Qed.
Lemma translate_cols d q j rf P J0 k : colsAre q d -> 0 < j < m_njoints m ->
  translateJointJacobian m j rf P (co (gl d) F_J) J0 k = jacForm m (fun i a => toFrame rf P (worldCol m q i a)) (tl (support m j)) J0 k.
Proof.
  intros HC Hj. rewrite (translate_at m W T Vm Pos) by exact Hj. apply jacForm_ext; [apply (tl_range m W T); lia|]. intros i a Hi Ha. now rewrite HC.
Qed.
Lemma translate_mul d q j rf P w : colsAre q d -> validState m q -> 0 < j < m_njoints m ->
  colsMul (m_nv m) (translateJointJacobian m j rf P (co (gl d) F_J) zeroJ) w = toFrame rf P (worldVel m q w j).
Proof.
  intros HC Hq Hj. rewrite (colsMul_ext _ _ _ _ (fun k _ => translate_cols d q j rf P zeroJ k HC Hj)).
  destruct (toFrame_lin rf P) as (L0 & La & Ls). rewrite (jacForm_mul (toFrame rf P)); [|apply (tl_range m W T); lia | assumption | assumption | assumption].
  f_equal. symmetry. apply worldVel_sum; [exact Hq | lia].
Qed.
Lemma velocity_frame d q v j rf : validState m q -> 0 < j < m_njoints m -> 
  toFrame rf (worldPl m q j) (worldVel m q v j) = getVelocity (forwardKinematics1 m d q v) j rf.
Proof.
  intros Hq Hj. pose proof (worldPl_rot m W T Vm q j Hq ltac:(lia)) as HR.
  assert (EP : pl (rows (forwardKinematics1 m d q v) j) F_oMi = worldPl m q j) by (apply (fk1_placed m W T d q v j Hj)).
  assert (EV : mo (rows (forwardKinematics1 m d q v) j) F_v = bodyVel m q v j).
  { destruct (fk1_vel m W d q v) as (H0 & H1 & _). apply (vel_body m W T Vm q v); auto. lia. }
  unfold getVelocity, worldVel. rewrite EP, EV. destruct rf; cbn [toFrame].
  - reflexivity.
  - apply motion_actInv_act, HR.
  - unfold rotateBoth. generalize (worldPl m q j) (bodyVel m q v j). intros M x. sring.
Qed.
Lemma frame_frame d q v j P rf : validState m q -> 0 < j < m_njoints m -> isRotation (rot P) ->
  toFrame rf (se3_mul (worldPl m q j) P) (worldVel m q v j) = getFrameVelocity (forwardKinematics1 m d q v) j P rf.
Proof.
  intros Hq Hj HP. pose proof (worldPl_rot m W T Vm q j Hq ltac:(lia)) as HR.
  assert (EP : pl (rows (forwardKinematics1 m d q v) j) F_oMi = worldPl m q j) by (apply (fk1_placed m W T d q v j Hj)).
  assert (EV : mo (rows (forwardKinematics1 m d q v) j) F_v = bodyVel m q v j).
  { destruct (fk1_vel m W d q v) as (H0 & H1 & _). apply (vel_body m W T Vm q v); auto. lia. }
  unfold getFrameVelocity, worldVel. rewrite EP, EV. destruct rf; cbn [toFrame].
  - reflexivity.
  - rewrite motion_actInv_mul by assumption. f_equal. apply motion_actInv_act, HR.
  - pose proof (rot_cross_tr (m3tr (rot (worldPl m q j))) (ang (bodyVel m q v j)) (trans P)) as C. rewrite m3tr_tr in C.
    specialize (C ltac:(apply isRotation_tr; exact HR)). revert C HR. generalize (worldPl m q j) (bodyVel m q v j). intros M x C _.
    rewrite m3vec_add_r, <- C. sring.
Qed.
End Jac.
