Require Import Reals List Arith Lia Lra.
From Verif Require Import Vec3 Spatial Inertia InertiaFacts Joints Spec_Joints Deriv JointFacts JointFacts2 Model Spec_Model ModelTree Data Kinematics Spec_Kin.
Import ListNotations.
Local Open Scope nat_scope.

(* ---- lists ---- *)
Lemma sumV6_app a b : sumV6 (a ++ b) = v6add (sumV6 a) (sumV6 b).
Proof. induction a as [|x a IH]; cbn [app sumV6]; [now rewrite v6add_0_l | now rewrite IH, v6add_assoc]. Qed.
Lemma sumV6_map_lin {A} (f : V6 -> V6) (g : A -> V6) l :
  f v6zero = v6zero -> (forall a b, f (v6add a b) = v6add (f a) (f b)) -> f (sumV6 (map g l)) = sumV6 (map (fun x => f (g x)) l).
Proof. intros H0 Ha. induction l as [|x l IH]; cbn [map sumV6]; [exact H0 | now rewrite Ha, IH]. Qed.
Lemma product_app m q a b : product m q (a ++ b) = se3_mul (product m q a) (product m q b).
Proof.
  induction a as [|x a IH]; cbn [app product]; [now rewrite se3_mul_1_l | now rewrite IH, se3_mul_assoc].
Qed.

Section Tree.
Variable m : Model.
Hypothesis W : wellFormed m.
Hypothesis T : treeInv m.

Lemma support_0 : support m 0 = [0].
Proof. eapply path_fun; [apply (ti_path _ T); pose proof (wf_n _ W); lia | constructor]. Qed.
Lemma support_step i : 0 < i < m_njoints m -> support m i = support m (parent m i) ++ [i].
Proof.
  intros Hi. eapply path_fun; [apply (ti_path _ T); lia|].
  constructor; [exact Hi|]. apply (ti_path _ T). pose proof (wf_parent _ W i Hi). lia.
Qed.
Lemma support_cons i : i < m_njoints m -> exists l, support m i = 0 :: l.
Proof. intros Hi. exact (path_hd _ _ _ (ti_path _ T i Hi)). Qed.
Lemma tail_step i : 0 < i < m_njoints m -> tl (support m i) = tl (support m (parent m i)) ++ [i].
Proof.
  intros Hi. rewrite (support_step i Hi). pose proof (wf_parent _ W i Hi).
  destruct (support_cons (parent m i) ltac:(lia)) as [l ->]. reflexivity.
Qed.
Lemma tail_range i j : i < m_njoints m -> In j (tl (support m i)) -> 0 < j <= i.
Proof.
  revert i. refine (tree_ind m _ W _ _).
  - rewrite support_0. cbn [tl In]. tauto.
  - intros i Hi IH. rewrite (tail_step i Hi). intros H. apply in_app_or in H.
    pose proof (wf_parent _ W i Hi). destruct H as [H|[<-|[]]]; [specialize (IH H)|]; lia.
Qed.

Lemma calcJoint_at i q v : 0 < i < m_njoints m -> calcJoint m i q v = jointAt m q v i.
Proof.
  intros Hi. destruct (wf_joint _ W i Hi) as (_ & E1 & E2 & _). unfold calcJoint, jointAt. now rewrite E1, E2.
Qed.
Lemma velSel_at i a : 0 < i < m_njoints m -> velSel m i a = shift (idx_v m i) a.
Proof. intros Hi. destruct (wf_joint _ W i Hi) as (_ & _ & E2 & _). unfold velSel. now rewrite E2. Qed.
Lemma jointAt_M q v w i : jM (jointAt m q v i) = jM (jointAt m q w i).
Proof. unfold jointAt. apply jcalc_qM. Qed.
Lemma jointAt_S q v w i : jS (jointAt m q v i) = jS (jointAt m q w i).
Proof. unfold jointAt. apply jcalc_qM. Qed.
Lemma calcJoint0_at i d q : 0 < i < m_njoints m ->
  jM (calcJoint0 m i d q) = jM (jointAt m q noVel i) /\ jS (calcJoint0 m i d q) = jS (jointAt m q noVel i).
Proof.
  intros Hi. destruct (wf_joint _ W i Hi) as (_ & E1 & _). unfold calcJoint0, jcalc0, jointAt. cbn [jM jS].
  rewrite E1. split; apply jcalc_qM.
Qed.

Lemma worldPl_0 q : worldPl m q 0 = se3_Identity.
Proof. unfold worldPl. now rewrite support_0. Qed.
Lemma worldPl_step q i : 0 < i < m_njoints m -> worldPl m q i = se3_mul (worldPl m q (parent m i)) (relPl m q i).
Proof.
  intros Hi. unfold worldPl. rewrite (tail_step i Hi), product_app. cbn [product]. now rewrite se3_mul_1_r.
Qed.

(* ---- placements ---- *)
Definition placed (q : vec) (d : Data) : Prop :=
  forall i, 0 < i < m_njoints m -> pl (rows d i) F_liMi = relPl m q i /\ pl (rows d i) F_oMi = worldPl m q i.

Lemma placed_intro q d :
  (forall i, 0 < i < m_njoints m -> pl (rows d i) F_liMi = relPl m q i) ->
  (forall i, 0 < i < m_njoints m -> pl (rows d i) F_oMi =
     if 0 <? parent m i then se3_mul (pl (rows d (parent m i)) F_oMi) (relPl m q i) else relPl m q i) ->
  placed q d.
Proof.
  intros H1 H2 i Hi. split; [now apply H1|].
  assert (G : forall i, i < m_njoints m -> 0 < i -> pl (rows d i) F_oMi = worldPl m q i).
  { refine (tree_ind m _ W _ _); [lia|]. clear i Hi. intros i Hi IH _.
    rewrite (H2 i Hi), (worldPl_step q i Hi).
    destruct (Nat.ltb_spec 0 (parent m i)) as [Hp|Hp].
    - now rewrite (IH Hp).
    - replace (parent m i) with 0 by lia. now rewrite worldPl_0, se3_mul_1_l. }
  apply G; lia.
Qed.

Lemma place_oMi i r rp : pl (place m i r rp) F_oMi = if 0 <? parent m i then se3_mul (pl rp F_oMi) (pl r F_liMi) else pl r F_liMi.
Proof. reflexivity. Qed.

Lemma fk0_placed d q : placed q (forwardKinematics0 m d q).
Proof.
  destruct (upward_rows m (fk0Row m q) d W) as (_ & _ & H). fold (forwardKinematics0 m d q) in H. cbv zeta in H.
  apply placed_intro; intros i Hi; rewrite (H i Hi); unfold fk0Row; mem; unfold place; mem;
    rewrite (proj1 (calcJoint0_at i _ q Hi)); reflexivity.
Qed.
Lemma fk0_jd d q i : 0 < i < m_njoints m -> jS (jd (rows (forwardKinematics0 m d q) i)) = jS (jointAt m q noVel i).
Proof.
  intros Hi. destruct (upward_rows m (fk0Row m q) d W) as (_ & _ & H).
  unfold forwardKinematics0. rewrite (H i Hi). unfold fk0Row, place. mem. apply (calcJoint0_at i _ q Hi).
Qed.

Lemma updateGlobal_placed d q : (forall i, 0 < i < m_njoints m -> pl (rows d i) F_liMi = relPl m q i) ->
  placed q (updateGlobalPlacements m d).
Proof.
  intros HL. destruct (upward_rows m (place m) d W) as (_ & _ & H).
  apply placed_intro; intros i Hi; unfold updateGlobalPlacements; rewrite (H i Hi).
  - unfold place. mem. now apply HL.
  - unfold place at 1. mem. rewrite <- !(HL i Hi).
    destruct (0 <? parent m i); reflexivity.
Qed.

(* the rows after the first-order pass *)
Lemma fk1Row_eq q v i r rp : 0 < i < m_njoints m ->
  jd (fk1Row m q v i r rp) = jointAt m q v i /\
  pl (fk1Row m q v i r rp) F_liMi = relPl m q i /\
  pl (fk1Row m q v i r rp) F_oMi = (if 0 <? parent m i then se3_mul (pl rp F_oMi) (relPl m q i) else relPl m q i) /\
  mo (fk1Row m q v i r rp) F_v =
    (if 0 <? parent m i then v6add (jv (jointAt m q v i)) (motion_actInv (relPl m q i) (mo rp F_v)) else jv (jointAt m q v i)).
Proof.
  intros Hi. unfold fk1Row. rewrite (calcJoint_at i q v Hi). unfold relPl. rewrite (jointAt_M q noVel v i).
  destruct (0 <? parent m i); mem; auto.
Qed.

Lemma fk1_placed d q v : placed q (forwardKinematics1 m d q v).
Proof.
  unfold forwardKinematics1. cbv zeta.
  set (d0 := setRow d 0 _). destruct (upward_rows m (fk1Row m q v) d0 W) as (_ & _ & H).
  apply placed_intro; intros i Hi; rewrite (H i Hi);
    destruct (fk1Row_eq q v i (rows d0 i) (rows (upward m (rowStep m (fk1Row m q v)) d0) (parent m i)) Hi) as (E1 & E2 & E3 & E4).
  - exact E2.
  - exact E3.
Qed.

(* velocities: recursive equation *)
Definition velEq (q v : vec) (d : Data) : Prop :=
  forall i, 0 < i < m_njoints m ->
    mo (rows d i) F_v = v6add (jv (jointAt m q v i)) (motion_actInv (relPl m q i) (mo (rows d (parent m i)) F_v)).
Lemma fk1_vel d q v : let d' := forwardKinematics1 m d q v in
  mo (rows d' 0) F_v = v6zero /\ velEq q v d' /\ (forall i, 0 < i < m_njoints m -> jd (rows d' i) = jointAt m q v i).
Proof.
  unfold forwardKinematics1. cbv zeta.
  set (d0 := setRow d 0 _). destruct (upward_rows m (fk1Row m q v) d0 W) as (_ & H0 & H).
  assert (E0 : mo (rows (upward m (rowStep m (fk1Row m q v)) d0) 0) F_v = v6zero).
  { rewrite H0. unfold d0. reflexivity. }
  split; [exact E0|]. split.
  - intros i Hi. rewrite (H i Hi) at 1.
    destruct (fk1Row_eq q v i (rows d0 i) (rows (upward m (rowStep m (fk1Row m q v)) d0) (parent m i)) Hi) as (_ & _ & _ & E4).
    rewrite E4. destruct (Nat.ltb_spec 0 (parent m i)) as [Hp|Hp]; [reflexivity|].
    replace (parent m i) with 0 by lia. now rewrite E0, motion_actInv_0, v6add_0_r.
  - intros i Hi. rewrite (H i Hi). apply fk1Row_eq. exact Hi.
Qed.

Definition accEq (q v a : vec) (d : Data) : Prop :=
  forall i, 0 < i < m_njoints m ->
    mo (rows d i) F_a = v6add (v6add (v6add (Smul (jS (jointAt m q v i)) (shift (idx_v m i) a)) (jc (jointAt m q v i)))
                                     (motion_cross (mo (rows d i) F_v) (jv (jointAt m q v i))))
                              (motion_actInv (relPl m q i) (mo (rows d (parent m i)) F_a)).
Lemma fk2Row_eq q v a i r rp : 0 < i < m_njoints m ->
  jd (fk2Row m q v a i r rp) = jointAt m q v i /\
  pl (fk2Row m q v a i r rp) F_liMi = relPl m q i /\
  pl (fk2Row m q v a i r rp) F_oMi = (if 0 <? parent m i then se3_mul (pl rp F_oMi) (relPl m q i) else relPl m q i) /\
  mo (fk2Row m q v a i r rp) F_v =
    (if 0 <? parent m i then v6add (jv (jointAt m q v i)) (motion_actInv (relPl m q i) (mo rp F_v)) else jv (jointAt m q v i)) /\
  mo (fk2Row m q v a i r rp) F_a =
    v6add (v6add (v6add (Smul (jS (jointAt m q v i)) (shift (idx_v m i) a)) (jc (jointAt m q v i)))
                                     (motion_cross (mo (fk2Row m q v a i r rp) F_v) (jv (jointAt m q v i))))
                              (motion_actInv (relPl m q i) (mo rp F_a)).
Proof.
  intros Hi. destruct (fk1Row_eq q v i r rp Hi) as (E1 & E2 & E3 & E4).
  unfold fk2Row. rewrite (velSel_at i a Hi).
  set (r1 := fk1Row m q v i r rp) in *. clearbody r1. mem.
  split; [exact E1|]. split; [exact E2|]. split; [exact E3|]. split; [exact E4|]. now rewrite E1, E2.
Qed.

Lemma fk2_all d q v a : let d' := forwardKinematics2 m d q v a in
  placed q d' /\ mo (rows d' 0) F_v = v6zero /\ mo (rows d' 0) F_a = v6zero /\ velEq q v d' /\ accEq q v a d'.
Proof.
  unfold forwardKinematics2. cbv zeta.
  set (d0 := setRow d 0 _). destruct (upward_rows m (fk2Row m q v a) d0 W) as (_ & H0 & H).
  set (d' := upward m (rowStep m (fk2Row m q v a)) d0) in *.
  assert (E0 : mo (rows d' 0) F_v = v6zero). { rewrite H0. unfold d0. reflexivity. }
  assert (E0' : mo (rows d' 0) F_a = v6zero). { rewrite H0. unfold d0. reflexivity. }
  assert (G := fun i Hi => fk2Row_eq q v a i (rows d0 i) (rows d' (parent m i)) Hi).
  split; [|split; [exact E0|split; [exact E0'|split]]].
  - apply placed_intro; intros i Hi; rewrite (H i Hi); apply (G i Hi).
  - intros i Hi. rewrite (H i Hi) at 1. destruct (G i Hi) as (_ & _ & _ & E4 & _).
    rewrite E4. destruct (Nat.ltb_spec 0 (parent m i)) as [Hp|Hp]; [reflexivity|].
    replace (parent m i) with 0 by lia. now rewrite E0, motion_actInv_0, v6add_0_r.
  - intros i Hi. destruct (G i Hi) as (_ & _ & _ & _ & E5). rewrite <- (H i Hi) in E5. exact E5.
Qed.

(* ---- rotations ---- *)
Section Valid.
Hypothesis V : validModel m.
Lemma relPl_rot q i : validState m q -> 0 < i < m_njoints m -> isRotation (rot (relPl m q i)).
Proof.
  intros Hq Hi. destruct (V i Hi) as [Vj Vp]. unfold relPl. apply isRotation_se3_mul; [exact Vp|].
  unfold jointAt. apply jM_rotation; [exact Vj | exact (Hq i Hi)].
Qed.
Lemma worldPl_rot q i : validState m q -> i < m_njoints m -> isRotation (rot (worldPl m q i)).
Proof.
  intros Hq. revert i. refine (tree_ind m _ W _ _).
  - rewrite worldPl_0. exact isRotation_id.
  - intros i Hi IH. rewrite (worldPl_step q i Hi). apply isRotation_se3_mul; [exact IH | now apply relPl_rot].
Qed.

Lemma bodyVel_0 q w : bodyVel m q w 0 = v6zero.
Proof. unfold bodyVel. now rewrite support_0. Qed.
Lemma bodyVel_step q w i : validState m q -> 0 < i < m_njoints m ->
  bodyVel m q w i = v6add (jointTwist m q w i) (motion_actInv (relPl m q i) (bodyVel m q w (parent m i))).
Proof.
  intros Hq Hi. unfold bodyVel. pose proof (wf_parent _ W i Hi) as Hp.
  rewrite (tail_step i Hi), map_app, sumV6_app. cbn [map sumV6]. rewrite v6add_0_r.
  rewrite (motion_actInv_act _ _ (proj1 (worldPl_rot q i Hq ltac:(lia)))).
  rewrite v6add_comm. f_equal.
  rewrite (sumV6_map_lin (motion_actInv (relPl m q i))) by first [apply motion_actInv_0 | apply motion_actInv_add].
  f_equal. apply map_ext. intros j. rewrite (worldPl_step q i Hi).
  rewrite motion_actInv_mul; [reflexivity | apply worldPl_rot; [exact Hq | lia] | now apply relPl_rot].
Qed.

Lemma jv_twist q w i : 0 < i < m_njoints m -> jv (jointAt m q w i) = jointTwist m q w i.
Proof.
  intros Hi. destruct (V i Hi) as [Vj _]. unfold jointTwist. rewrite (jointAt_S q noVel w i). unfold jointAt.
  apply jv_S. exact Vj.
Qed.
Lemma vel_body q w d : validState m q -> mo (rows d 0) F_v = v6zero -> velEq q w d ->
  forall i, i < m_njoints m -> mo (rows d i) F_v = bodyVel m q w i.
Proof.
  intros Hq H0 He. refine (tree_ind m _ W _ _).
  - now rewrite H0, bodyVel_0.
  - intros i Hi IH. rewrite (He i Hi), IH, (jv_twist q w i Hi). symmetry. now apply bodyVel_step.
Qed.

(* ---- body velocities are the derivatives of placements ---- *)
Lemma relPl_twist (q : R -> vec) w t i : validState m (q t) -> moves m q w t -> 0 < i < m_njoints m ->
  hasTwist (fun s => relPl m (q s) i) (jointTwist m (q t) w i) t.
Proof.
  intros Hq Hm Hi. destruct (V i Hi) as [Vj Vp]. unfold relPl.
  apply hasTwist_left.
  - unfold jointTwist. unfold jointAt.
    rewrite (proj2 (jcalc_qM (jm_type (joint m i)) (shift (idx_q m i) (q t)) (shift (idx_v m i) noVel) (shift (idx_v m i) w))).
    apply (jM_twist_S (jm_type (joint m i)) (fun s => shift (idx_q m i) (q s)) (fun _ => shift (idx_v m i) noVel)
             (shift (idx_v m i) w) t Vj (Hq i Hi)).
    intros k Hk. exact (Hm i k Hi Hk).
  - unfold jointAt. apply jM_rotation; [exact Vj | exact (Hq i Hi)].
Qed.
Lemma worldPl_twist (q : R -> vec) w t i : validState m (q t) -> moves m q w t -> i < m_njoints m ->
  hasTwist (fun s => worldPl m (q s) i) (bodyVel m (q t) w i) t.
Proof.
  intros Hq Hm. revert i. refine (tree_ind m _ W _ _).
  - rewrite bodyVel_0. eapply hasTwist_ext; [intros s; apply worldPl_0 | apply hasTwist_const].
  - intros i Hi IH. eapply hasTwist_ext; [intros s; apply (worldPl_step (q s) i Hi)|].
    eapply hasTwist_eq; [apply (hasTwist_mul (fun s => worldPl m (q s) (parent m i)) (fun s => relPl m (q s) i)); [now apply relPl_rot | exact IH | exact (relPl_twist q w t i Hq Hm Hi)]|].
    rewrite (bodyVel_step (q t) w i Hq Hi). apply v6add_comm.
Qed.

(* the wf_inrange facts needed for accelerations *)
Hypothesis IR : forall i k, 0 < i < m_njoints m -> k < nvEOf m i -> idx_v m i + k < m_nv m.

Lemma jv_deriv (q v : R -> vec) a t i : validState m (q t) -> moves m q (v t) t -> accelerates m v a t ->
  0 < i < m_njoints m ->
  deriv6 (fun s => jv (jointAt m (q s) (v s) i))
    (v6add (Smul (jS (jointAt m (q t) (v t) i)) (shift (idx_v m i) a)) (jc (jointAt m (q t) (v t) i))) t.
Proof.
  intros Hq Hm Ha Hi. destruct (V i Hi) as [Vj _]. unfold jointAt.
  apply (jv_biasE (jm_type (joint m i)) (fun s => shift (idx_q m i) (q s)) (fun s => shift (idx_v m i) (v s))
           (shift (idx_v m i) a) t Vj (Hq i Hi)).
  - intros k Hk. exact (Hm i k Hi Hk).
  - intros k Hk. apply Ha. apply IR; [exact Hi|].
    destruct (wf_joint _ W i Hi) as (_ & _ & _ & _ & _ & _ & E). lia.
Qed.

Lemma deriv6_add' f g a b t : deriv6 f a t -> deriv6 g b t -> deriv6 (fun s => v6add (f s) (g s)) (v6add a b) t.
Proof. apply deriv6_add. Qed.

(* accelerations are the time derivatives of velocities *)
Lemma bodyVel_deriv (q v : R -> vec) a t (d : Data) :
  (forall s, validState m (q s)) -> moves m q (v t) t -> accelerates m v a t ->
  (forall i, i < m_njoints m -> mo (rows d i) F_v = bodyVel m (q t) (v t) i) ->
  mo (rows d 0) F_a = v6zero -> accEq (q t) (v t) a d ->
  forall i, i < m_njoints m -> deriv6 (fun s => bodyVel m (q s) (v s) i) (mo (rows d i) F_a) t.
Proof.
  intros Hq Hm Ha Hv H0 He. refine (tree_ind m _ W _ _).
  - rewrite H0. eapply deriv6_ext; [intros s; apply bodyVel_0 | apply deriv6_const].
  - intros i Hi IH. pose proof (wf_parent _ W i Hi) as Hp.
    eapply deriv6_ext; [intros s; rewrite (bodyVel_step (q s) (v s) i (Hq s) Hi), <- (jv_twist (q s) (v s) i Hi); reflexivity|].
    eapply deriv6_eq.
    + apply deriv6_add'; [exact (jv_deriv q v a t i (Hq t) Hm Ha Hi)|].
      apply (deriv_actInv (fun s => relPl m (q s) i) (fun s => bodyVel m (q s) (v s) (parent m i))).
      * apply relPl_rot; [apply Hq | exact Hi].
      * apply relPl_twist; [apply Hq | exact Hm | exact Hi].
      * exact IH.
    + cbv beta. rewrite (He i Hi), (Hv i ltac:(lia)), (bodyVel_step (q t) (v t) i (Hq t) Hi).
      rewrite (jv_twist (q t) (v t) i Hi).
      set (tw := jointTwist m (q t) (v t) i). set (X := motion_actInv (relPl m (q t) i) (bodyVel m (q t) (v t) (parent m i))).
      set (Y := motion_actInv (relPl m (q t) i) (mo (rows d (parent m i)) F_a)).
      rewrite v6sub_add, <- !v6add_assoc. f_equal. f_equal. rewrite v6add_comm. f_equal.
      rewrite motion_cross_add_l, motion_cross_self, v6add_0_l. symmetry. apply motion_cross_anti.
Qed.
End Valid.
End Tree.
