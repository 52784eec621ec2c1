(* The algorithms computing one Jacobian at a time. *)
Require Import Reals List Arith ZArith Lia Bool FunctionalExtensionality.
From Verif Require Import Vec3 Spatial Inertia SpatialFacts Joints JointFacts JointFacts2 Model Spec_Model ModelFacts ModelTree ModelFacts2 Data Kinematics Spec_Kin KinFacts KinFacts2 Sums DynFacts TreeSums Spec_Mass MassFacts Crba Jacobian Spec_Jac JacFacts JacFacts2 JacFacts3.
Import ListNotations.
Local Open Scope nat_scope.
Local Open Scope bool_scope.

Section One.
Variable m : Model.
Hypothesis W : wellFormed m.
Hypothesis T : treeInv m.
Hypothesis Vm : validModel m.

Notation ord := (fun i => negb (isMimic (joint m i))).
Lemma colCount_at i : 0 < i < m_njoints m -> colCount m i = nvEOf m i /\ jm_idx_v (joint m i) = idx_v m i.
Proof.
  intros Hi. destruct (wf_joint _ W i Hi) as (_ & _ & E1 & _ & _ & E2 & E3). unfold colCount. split; [|exact E1].
  destruct (isMimic (joint m i)) eqn:E; [exact E3|]. rewrite E2. symmetry. now apply (nvE_nv m W Vm).
Qed.
Lemma assign_upd i f S J : 0 < i < m_njoints m -> assignCols m i f S J = updCols (fun _ x => x) (idx_v m i) (nvEOf m i) (fun k => f (colOf S k)) J.
Proof. intros Hi. unfold assignCols. destruct (colCount_at i Hi) as [-> ->]. reflexivity. Qed.
Lemma add_upd i f S J : 0 < i < m_njoints m -> addCols m i f S J = updCols v6add (idx_v m i) (nvEOf m i) (fun k => f (colOf S k)) J.
Proof. intros Hi. unfold addCols. destruct (colCount_at i Hi) as [-> ->]. reflexivity. Qed.

(* kinematics along the support of a joint *)
Definition placedOn q (d : Data) (l : list nat) : Prop := forall i, In i l -> pl (rows d i) F_oMi = worldPl m q i /\ jS (jd (rows d i)) = jS (jointAt m q noVel i).
Lemma parent_on j : 0 < j < m_njoints m -> 0 < parent m j -> In (parent m j) (tl (support m (parent m j))).
Proof. intros Hj Hp. pose proof (wf_parent _ W j Hj). rewrite (tail_step m W T (parent m j)) by lia. apply in_or_app. right. now left. Qed.
Lemma placed_step q d j : 0 < j < m_njoints m -> placedOn q d (tl (support m (parent m j))) -> placedOn q (rowStep m (fk0Row m q) d j) (tl (support m j)).
Proof.
  intros Hj H i Hi. pose proof (wf_parent _ W j Hj) as Hp. rewrite (tail_step m W T j Hj) in Hi. apply in_app_or in Hi. destruct Hi as [Hi|[<-|[]]].
  - pose proof (tl_le m W T (parent m j) ltac:(lia) i Hi). unfold rowStep. mem. rewrite putn_other by lia. now apply H.
  - unfold rowStep. mem. rewrite putn_same. unfold fk0Row, place. destruct (calcJoint0_at m W j (jd (rows d j)) q Hj) as (E1 & E2). mem. rewrite E1, E2.
    split; [|reflexivity]. rewrite (worldPl_step m W T q j Hj). fold (relPl m q j). destruct (Nat.ltb_spec 0 (parent m j)) as [Hq|].
    + destruct (H (parent m j) (parent_on j Hj Hq)) as [-> _]. reflexivity.
    + replace (parent m j) with 0 by lia. rewrite (worldPl_0 m W T). symmetry. apply se3_mul_1_l.
Qed.
Lemma placed_all q d j : j < m_njoints m -> placedOn q (fold_left (rowStep m (fk0Row m q)) (tl (support m j)) d) (tl (support m j)).
Proof.
  revert j. refine (tree_ind m _ W _ _).
  - rewrite (support_0 m W T). intros i [].
  - intros j Hj IH. rewrite (tail_step m W T j Hj) at 1. rewrite fold_left_app. cbn [fold_left]. now apply placed_step.
Qed.

(* ---- WORLD ---- *)
Notation worldF q := (fun i a => worldCol m q i a).
Lemma world_pass q d J0 j : j < m_njoints m -> let s := fold_left (jacWorldStep m q) (tl (support m j)) (d, J0) in
  placedOn q (fst s) (tl (support m j)) /\ snd s = updAll m (fun _ x => x) (worldF q) (filter ord (tl (support m j))) J0.
Proof.
  revert j. refine (tree_ind m _ W _ _).
  - rewrite (support_0 m W T). split; [intros i [] | reflexivity].
  - intros j Hj [I1 I2]. cbv zeta in *. pose proof (placed_step q _ j Hj I1) as PS. rewrite (tail_step m W T j Hj) at 1 3 4. rewrite !fold_left_app, filter_app. cbn [fold_left].
    set (s := fold_left (jacWorldStep m q) (tl (support m (parent m j))) (d, J0)) in *. unfold jacWorldStep at 1 2. cbn [fst snd]. split; [exact PS|].
    unfold updAll. rewrite fold_left_app. fold (updAll m (fun _ x => x) (worldF q) (filter ord (tl (support m (parent m j)))) J0). rewrite <- I2. cbn [filter].
    destruct (isMimic (joint m j)) eqn:E; cbn [negb fold_left]; [reflexivity|]. rewrite assign_upd by exact Hj.
    destruct (PS j) as [-> ->]; [rewrite (tail_step m W T j Hj); apply in_or_app; right; now left|]. reflexivity.
Qed.
Lemma mimic_tail j : j < m_njoints m -> tl (nth j (m_mimic_supports m) []) = filter (fun k => isMimic (joint m k)) (tl (support m j)).
Proof. intros Hj. rewrite (ti_mimic _ T) by exact Hj. reflexivity. Qed.
Lemma mimic_pass (step : Jac -> nat -> Jac) F l J : (forall J i, In i l -> step J i = updCols v6add (idx_v m i) (nvEOf m i) (F i) J) -> fold_left step l J = updAll m v6add F l J.
Proof.
  revert J. induction l as [|i l IH]; intros J H; [reflexivity|]. cbn [fold_left updAll]. rewrite (H J i (or_introl eq_refl)). apply IH. intros J' k Hk. apply H. now right.
Qed.
Lemma jacobianWorld_at q d J0 j k : j < m_njoints m -> snd (jacobianWorld m d q j J0) k = jacForm m (worldF q) (tl (support m j)) J0 k.
Proof.
  intros Hj. destruct (world_pass q d J0 j Hj) as [P E]. unfold jacobianWorld. cbv zeta in *. set (s := fold_left _ _ _) in *. cbn [snd]. rewrite (mimic_tail j Hj), E.
  rewrite (mimic_pass _ (worldF q)).
  - apply (two_pass m W Vm); [apply (tl_nodup m W T), Hj | apply (tl_range m W T), Hj | now left | now left].
  - intros J i Hi. apply filter_In in Hi. destruct Hi as [Hi _]. rewrite add_upd by (apply (tl_range m W T j Hj i Hi)). destruct (P i Hi) as [-> ->]. reflexivity.
Qed.

(* ---- LOCAL ---- *)
Lemma climb_support : forall j, j < m_njoints m -> forall f, j <= f -> climbList m f j = rev (tl (support m j)).
Proof.
  refine (tree_ind m _ W _ _).
  - intros f _. rewrite (support_0 m W T). destruct f; reflexivity.
  - intros j Hj IH f Hf. rewrite (tail_step m W T j Hj), rev_app_distr. destruct f as [|f]; [lia|]. cbn [climbList rev app].
    destruct (Nat.ltb_spec 0 j); [|lia]. f_equal. apply IH. pose proof (wf_parent _ W j Hj). lia.
Qed.
Lemma local_pass q : validState m q -> forall j, j < m_njoints m -> forall d J0 X, isRotation (rot X) -> pl (rows d j) F_iMf = X ->
  let s := fold_left (jacLocalStep m q) (rev (tl (support m j))) (d, J0) in
  (forall k, j < k -> rows (fst s) k = rows d k) /\ (pl (rows (fst s) j) F_iMf = X) /\
  (forall i, In i (tl (support m j)) -> (forall x, motion_actInv (pl (rows (fst s) i) F_iMf) x = motion_actInv (se3_mul (worldPl m q j) X) (motion_act (worldPl m q i) x)) /\ jS (jd (rows (fst s) i)) = jS (jointAt m q noVel i)) /\
  snd s = updAll m (fun _ x => x) (fun i a => motion_actInv (se3_mul (worldPl m q j) X) (worldCol m q i a)) (rev (filter ord (tl (support m j)))) J0.
Proof.
  intros Hq. refine (tree_ind m _ W _ _).
  - intros d J0 X HX HE. rewrite (support_0 m W T). cbn. split; [reflexivity|]. split; [exact HE|]. split; [intros i []|reflexivity].
  - intros j Hj IH d J0 X HX HE. pose proof (wf_parent _ W j Hj) as Hp. rewrite (tail_step m W T j Hj), rev_app_distr, filter_app, rev_app_distr. cbn [rev app fold_left].
    pose proof (relPl_rot m Vm q j Hq Hj) as HR. pose proof (worldPl_rot m W T Vm q j Hq ltac:(lia)) as HRw. pose proof (worldPl_rot m W T Vm q (parent m j) Hq ltac:(lia)) as HRp.
    pose (d1 := setRow (setRow d j (setPl (setJd (rows d j) (calcJoint0 m j (jd (rows d j)) q)) F_liMi (relPl m q j))) (parent m j)
               (setPl (rows d (parent m j)) F_iMf (se3_mul (relPl m q j) X))).
    assert (ES : jacLocalStep m q (d, J0) j = (d1, if isMimic (joint m j) then J0 else updCols (fun _ x => x) (idx_v m j) (nvEOf m j) (fun a => motion_actInv X (nth a (jS (jointAt m q noVel j)) v6zero)) J0)).
    { destruct (calcJoint0_at m W j (jd (rows d j)) q Hj) as (E1 & E2). unfold jacLocalStep. cbv zeta. cbn [fst snd]. mem. rewrite E1. fold (relPl m q j).
      rewrite !putn_same, (putn_other (rows d) j (parent m j)) by lia. mem. rewrite HE. f_equal. destruct (isMimic (joint m j)) eqn:E; [reflexivity|].
      rewrite assign_upd by exact Hj. rewrite putn_other by lia. rewrite putn_same. mem. rewrite HE, E2. reflexivity. }
    rewrite ES. clear ES. set (J1 := if isMimic (joint m j) then J0 else _).
    assert (HX1 : isRotation (rot (se3_mul (relPl m q j) X))) by (apply isRotation_se3_mul; assumption).
    assert (EA : se3_mul (worldPl m q (parent m j)) (se3_mul (relPl m q j) X) = se3_mul (worldPl m q j) X) by (rewrite (worldPl_step m W T q j Hj); apply se3_mul_assoc).
    destruct (IH d1 J1 (se3_mul (relPl m q j) X) HX1) as (I1 & I2 & I3 & I4).
    { unfold d1. mem. rewrite putn_same. mem. reflexivity. }
    cbv zeta in *. set (s := fold_left _ _ (d1, J1)) in *.
    assert (Ej : rows (fst s) j = setPl (setJd (rows d j) (calcJoint0 m j (jd (rows d j)) q)) F_liMi (relPl m q j)).
    { rewrite I1 by lia. unfold d1. mem. rewrite putn_other by lia. apply putn_same. }
    rewrite EA in *. split; [|split; [|split]].
    + intros k Hk. rewrite I1 by lia. unfold d1. mem. rewrite !putn_other by lia. reflexivity.
    + rewrite Ej. mem. exact HE.
    + intros i Hi. apply in_app_or in Hi. destruct Hi as [Hi|[<-|[]]]; [now apply I3|]. rewrite Ej. mem. rewrite HE. split; [|apply (calcJoint0_at m W j (jd (rows d j)) q Hj)].
      intros x. rewrite motion_actInv_mul by assumption. f_equal. symmetry. apply motion_actInv_act, HRw.
    + rewrite I4. unfold J1. cbn [filter]. destruct (isMimic (joint m j)) eqn:E; cbn [negb rev app]; [reflexivity|].
      unfold updAll. cbn [fold_left]. f_equal. unfold updCols. apply functional_extensionality. intros k. destruct (within (idx_v m j) (nvEOf m j) k); [|reflexivity].
      unfold worldCol. rewrite motion_actInv_mul by assumption. f_equal. symmetry. apply motion_actInv_act, HRw.
Qed.
Lemma jacobianLocal_at q d J0 j P k : validState m q -> isRotation (rot P) -> j < m_njoints m ->
  snd (jacobianLocal m d q j P J0) k = jacForm m (fun i a => motion_actInv (se3_mul (worldPl m q j) P) (worldCol m q i a)) (tl (support m j)) J0 k.
Proof.
  intros Hq HP Hj. unfold jacobianLocal. rewrite (climb_support j Hj j ltac:(lia)).
  destruct (local_pass q Hq j Hj (setRow d j (setPl (rows d j) F_iMf P)) J0 P HP) as (_ & _ & I3 & I4); [mem; rewrite putn_same; mem; reflexivity|].
  cbv zeta in *. set (s := fold_left _ _ _) in *. cbn [snd]. rewrite (mimic_tail j Hj), I4.
  rewrite (mimic_pass _ (fun i a => motion_actInv (se3_mul (worldPl m q j) P) (worldCol m q i a))).
  - apply (two_pass m W Vm); [apply (tl_nodup m W T), Hj | apply (tl_range m W T), Hj | now right | now left].
  - intros J i Hi. apply filter_In in Hi. destruct Hi as [Hi _]. unfold jacLocalMimic. rewrite add_upd by (apply (tl_range m W T j Hj i Hi)). destruct (I3 i Hi) as [H ->].
    unfold updCols. apply functional_extensionality. intros c. destruct (within (idx_v m i) (nvEOf m i) c); [|reflexivity]. rewrite H. reflexivity.
Qed.

(* ---- LOCAL_WORLD_ALIGNED ---- *)
Lemma owned_reads F l j k : inRange m l -> 0 < j < m_njoints m -> isMimic (joint m j) = false -> (forall i, In i l -> i < j) ->
  within (idx_v m j) (nvEOf m j) k = true -> sumF (contrib m F k) l = v6zero.
Proof.
  intros HR Hj Nj HL E. apply sumF_zero. intros i Hi. unfold contrib. destruct (within (idx_v m i) (nvEOf m i) k) eqn:E'; [|reflexivity]. exfalso.
  destruct (isMimic (joint m i)) eqn:Mi.
  - destruct (mimic_range m W Vm i (HR i Hi) Mi) as (r & Hr & Nr & Ev & En). rewrite Ev, En in E'. pose proof (HL i Hi).
    pose proof (within_free m W Vm j r k Hj ltac:(pose proof (HR i Hi); lia) Nj Nr E E'). lia.
  - pose proof (within_free m W Vm j i k Hj (HR i Hi) Nj Mi E E'). pose proof (HL i Hi). lia.
Qed.
Lemma aligned_pass F q d P J0 : (forall i a, 0 < i < m_njoints m -> F i a = toFrame LOCAL_WORLD_ALIGNED P (worldCol m q i a)) -> forall j, j < m_njoints m ->
  placedOn q d (tl (support m j)) -> forall k, fold_left (jacAlignedStep m d P) (tl (support m j)) J0 k = jacForm m F (tl (support m j)) J0 k.
Proof.
  intros HF. refine (tree_ind m _ W _ _).
  - intros _ k. rewrite (support_0 m W T). cbn. unfold jacForm, sumF. cbn. sring.
  - intros j Hj IH HP k. rewrite (tail_step m W T j Hj) in *. rewrite fold_left_app. cbn [fold_left]. set (l := tl (support m (parent m j))) in *. pose proof (wf_parent _ W j Hj) as Hp.
    assert (IHk : forall k, fold_left (jacAlignedStep m d P) l J0 k = jacForm m F l J0 k) by (apply IH; intros i Hi; apply HP; apply in_or_app; now left).
    destruct (HP j ltac:(apply in_or_app; right; now left)) as [EP ES].
    assert (EF : forall a, F j a = motion_act (mkSE3 (rot (worldPl m q j)) (v3sub (trans (worldPl m q j)) (trans P))) (nth a (jS (jointAt m q noVel j)) v6zero)).
    { intros a. rewrite HF by exact Hj. unfold worldCol. generalize (worldPl m q j) (nth a (jS (jointAt m q noVel j)) v6zero). intros M x. cbn [toFrame]. sring. }
    unfold jacAlignedStep at 1. cbv zeta. rewrite EP, ES. unfold jacForm. rewrite owned_app, sumF_app.
    replace (sumF (contrib m F k) [j]) with (contrib m F k j) by (unfold sumF; cbn; sring). unfold owned at 2. cbn [existsb].
    destruct (isMimic (joint m j)) eqn:E; cbn [negb andb orb].
    + rewrite add_upd by exact Hj. rewrite orb_false_r. unfold updCols, contrib at 2. rewrite IHk. unfold jacForm. destruct (within (idx_v m j) (nvEOf m j) k); [rewrite EF; unfold colOf|]; sring.
    + rewrite assign_upd by exact Hj. rewrite orb_false_r. unfold updCols, contrib at 2. rewrite IHk. unfold jacForm. destruct (within (idx_v m j) (nvEOf m j) k) eqn:Ew; [|rewrite orb_false_r; sring].
      rewrite orb_true_r. rewrite (owned_reads F l j k); [rewrite EF; unfold colOf; sring | apply (tl_range m W T); lia | exact Hj | exact E | | exact Ew].
      intros i Hi. pose proof (tl_le m W T (parent m j) ltac:(lia) i Hi). lia.
Qed.
Lemma jacobianAligned_at q d J0 f k : let j := fr_parentJoint (frameAt m f) in 0 < j < m_njoints m ->
  snd (jacobianAligned m d q f J0) k = jacForm m (fun i a => toFrame LOCAL_WORLD_ALIGNED (se3_mul (worldPl m q j) (fr_placement (frameAt m f))) (worldCol m q i a)) (tl (support m j)) J0 k.
Proof.
  intros j Hj. unfold jacobianAligned. fold j. cbv zeta. cbn [snd]. set (d1 := fold_left _ _ d).
  pose proof (placed_all q d j ltac:(lia)) as HP. fold d1 in HP.
  assert (EM : oMf (gl (updateFramePlacement m d1 f)) f = se3_mul (worldPl m q j) (fr_placement (frameAt m f))).
  { unfold updateFramePlacement. mem. rewrite putn_same. fold j. destruct (HP j) as [-> _]; [|reflexivity]. rewrite (tail_step m W T j Hj). apply in_or_app. right. now left. }
  rewrite EM. apply (aligned_pass _ q); [reflexivity | lia |]. exact HP.
Qed.
End One.
