Require Import Reals String List Arith Lia Lra.
From Verif Require Import Vec3 Spatial Inertia InertiaFacts Spec_Spatial SpatialFacts Joints Spec_Joints Deriv JointFacts JointFacts2 Model Spec_Model ModelFacts ModelTree ModelFacts2 ModelFacts3 Data Kinematics Spec_Kin KinFacts.
Import ListNotations.
Local Open Scope nat_scope.

Lemma inRange m : wellFormed m -> validModel m -> forall i k, 0 < i < m_njoints m -> k < nvEOf m i -> idx_v m i + k < m_nv m.
Proof.
  intros W V i k Hi Hk. destruct (wf_inrange m W i Hi) as [_ H]. destruct (wf_joint _ W i Hi) as (_ & _ & _ & _ & _ & E1 & E2).
  destruct (V i Hi) as [Vj _]. pose proof (rnv_jnvE _ Vj) as E. unfold rnv in E.
  destruct (jm_type (joint m i)) as [j|j s o|l] eqn:Ej; lia.
Qed.

Section Facts.
Variables (eps : R) (m : Model).
Hypothesis B : Built eps m.
Let W : wellFormed m := Built_wf eps m B.
Let T : treeInv m := Built_tree eps m B.

Definition oMiOf (d : Data) (i : nat) : SE3 := pl (rows d i) F_oMi.

Lemma fk_placement (d : Data) (q v a : vec) i : 0 < i < m_njoints m ->
  oMiOf (forwardKinematics0 m d q) i = worldPl m q i /\
  oMiOf (forwardKinematics1 m d q v) i = worldPl m q i /\
  oMiOf (forwardKinematics2 m d q v a) i = worldPl m q i.
Proof.
  intros Hi. split; [|split].
  - apply (fk0_placed m W T d q i Hi).
  - apply (fk1_placed m W T d q v i Hi).
  - apply (fk2_all m W T d q v a). exact Hi.
Qed.

Lemma fk_vel (d : Data) (q v a : vec) i : validModel m -> validState m q -> i < m_njoints m ->
  getVelocity (forwardKinematics1 m d q v) i LOCAL = bodyVel m q v i /\
  getVelocity (forwardKinematics2 m d q v a) i LOCAL = bodyVel m q v i.
Proof.
  intros V Hq Hi. split; cbn [getVelocity].
  - destruct (fk1_vel m W d q v) as (H0 & H & _). exact (vel_body m W T V q v _ Hq H0 H i Hi).
  - destruct (fk2_all m W T d q v a) as (_ & H0 & _ & H & _). exact (vel_body m W T V q v _ Hq H0 H i Hi).
Qed.

Lemma fk_twist (d d0 : Data) (q : R -> vec) (w a : vec) t i : validModel m -> validState m (q t) -> moves m q w t ->
  0 < i < m_njoints m ->
  hasTwist (fun s => oMiOf (forwardKinematics0 m d0 (q s)) i) (getVelocity (forwardKinematics1 m d (q t) w) i LOCAL) t /\
  hasTwist (fun s => oMiOf (forwardKinematics0 m d0 (q s)) i) (getVelocity (forwardKinematics2 m d (q t) w a) i LOCAL) t.
Proof.
  intros V Hq Hm Hi. destruct (fk_vel d (q t) w a i V Hq ltac:(lia)) as [-> ->].
  assert (H : hasTwist (fun s => oMiOf (forwardKinematics0 m d0 (q s)) i) (bodyVel m (q t) w i) t); [|now split].
  eapply hasTwist_ext; [intros s; apply (fk_placement d0 (q s) (q s) (q s) i Hi)|].
  apply worldPl_twist; auto. lia.
Qed.

Lemma fk_acc (d d0 : Data) (q v : R -> vec) (a : vec) t i : validModel m -> (forall s, validState m (q s)) ->
  moves m q (v t) t -> accelerates m v a t -> i < m_njoints m ->
  deriv6 (fun s => getVelocity (forwardKinematics1 m d0 (q s) (v s)) i LOCAL)
         (getAcceleration (forwardKinematics2 m d (q t) (v t) a) i LOCAL) t.
Proof.
  intros V Hq Hm Ha Hi.
  eapply deriv6_ext; [intros s; apply (fk_vel d0 (q s) (v s) (v s) i V (Hq s) Hi)|].
  destruct (fk2_all m W T d (q t) (v t) a) as (_ & H0 & H0a & H & Hacc).
  apply (bodyVel_deriv m W T V (inRange m W V) q v a t (forwardKinematics2 m d (q t) (v t) a)); auto.
  intros j Hj. exact (vel_body m W T V (q t) (v t) _ (Hq t) H0 H j Hj).
Qed.

(* ---- moving points ---- *)
Lemma point_vel (M : R -> SE3) Vb t p : hasTwist M Vb t ->
  deriv3 (fun s => se3_actPoint (M s) p) (m3vec (rot (M t)) (v3add (lin Vb) (v3cross (ang Vb) p))) t.
Proof.
  intros [H1 H2]. unfold se3_actPoint. eapply deriv3_eq.
  - apply deriv3_add; [apply (deriv3_vec (fun s => rot (M s)) (fun _ => p)); [exact H1 | apply deriv3_const] | exact H2].
  - rewrite m3vec_0, v3add_0_r, m3vec_mul, skew_vec, m3vec_add_r. apply v3add_comm.
Qed.

Lemma point_acc (M : R -> SE3) (Vb : R -> V6) A t p : hasTwist M (Vb t) t -> deriv6 Vb A t ->
  deriv3 (fun s => m3vec (rot (M s)) (v3add (lin (Vb s)) (v3cross (ang (Vb s)) p)))
    (m3vec (rot (M t)) (v3add (v3add (lin A) (v3cross (ang A) p))
        (v3cross (ang (Vb t)) (v3add (lin (Vb t)) (v3cross (ang (Vb t)) p))))) t.
Proof.
  intros [H1 _] [H3 H4]. eapply deriv3_eq.
  - apply deriv3_vec; [exact H1|]. apply deriv3_add; [exact H3|].
    apply (deriv3_cross (fun s => ang (Vb s)) (fun _ => p)); [exact H4 | apply deriv3_const].
  - cbv beta. rewrite m3vec_mul, skew_vec, v3cross_0_r, v3add_0_r, <- m3vec_add_r. f_equal. apply v3add_comm.
Qed.

(* ---- frames ---- *)
Lemma frame_twist (M : R -> SE3) Vb t P : isRotation (rot P) -> hasTwist M Vb t ->
  hasTwist (fun s => se3_mul (M s) P) (motion_actInv P Vb) t.
Proof.
  intros HP H. eapply hasTwist_eq; [apply (hasTwist_mul M (fun _ => P)); [exact HP | exact H | apply hasTwist_const]|].
  apply v6add_0_r.
Qed.

Lemma rot_cross_tr A u v : isRotation A -> v3cross (m3vec (m3tr A) u) (m3vec (m3tr A) v) = m3vec (m3tr A) (v3cross u v).
Proof. intros H. symmetry. apply rotation_cross. now apply isRotation_tr. Qed.

Lemma lwa_world Om (vv : V6) p : isRotation (rot Om) ->
  velocityAt (motion_act Om vv) (se3_actPoint Om p) = m3vec (rot Om) (velocityAt vv p).
Proof. intros H. now apply motion_act_field. Qed.

(* ---- relative placements ---- *)
Lemma chainBack_product (d : Data) (q : vec) s k :
  (forall j, In j (skipn (S k) s) -> pl (rows d j) F_liMi = relPl m q j) ->
  chainBack m d s k = product m q (skipn (S k) s).
Proof.
  intros H. unfold chainBack. generalize dependent (skipn (S k) s). intros l H.
  rewrite <- fold_left_rev_right. rewrite rev_involutive.
  induction l as [|x l IH]; [reflexivity|]. cbn [fold_right product]. rewrite IH by (intros; apply H; now right).
  now rewrite (H x (or_introl eq_refl)).
Qed.

Lemma support_split i k a : i < m_njoints m -> nth_error (support m i) k = Some a -> support m i = support m a ++ skipn (S k) (support m i).
Proof.
  intros Hi Hk. pose proof (ti_path _ T i Hi) as P.
  destruct (path_prefix _ _ _ a P (nth_error_In _ _ Hk)) as (l1 & l2 & H1 & E).
  assert (Ha : a < m_njoints m) by exact (path_lt _ _ _ W H1).
  pose proof (path_fun _ _ _ _ H1 (ti_path _ T a Ha)) as E1. subst l1.
  rewrite E. f_equal.
  pose proof (path_sorted _ _ _ W P) as S1. apply sorted_NoDup in S1.
  destruct (path_last _ _ _ H1) as [r Hr].
  assert (k = length r).
  { apply (NoDup_nth_error (support m i)); [exact S1 | apply nth_error_Some; congruence |].
    rewrite Hk. rewrite E at 1. rewrite Hr, <- app_assoc, nth_error_app2 by lia. now rewrite Nat.sub_diag. }
  subst k. rewrite Hr. rewrite <- app_assoc. cbn [app].
  rewrite skipn_app, skipn_all2 by lia. replace (S (length r) - length r) with 1 by lia. reflexivity.
Qed.

Lemma worldPl_split q i k a : i < m_njoints m -> nth_error (support m i) k = Some a ->
  worldPl m q i = se3_mul (worldPl m q a) (product m q (skipn (S k) (support m i))).
Proof.
  intros Hi Hk. unfold worldPl. rewrite (support_split i k a Hi Hk) at 1.
  assert (Ha : a < m_njoints m).
  { destruct (path_prefix _ _ _ a (ti_path _ T i Hi) (nth_error_In _ _ Hk)) as (l1 & l2 & H1 & _). exact (path_lt _ _ _ W H1). }
  destruct (support_cons m T a Ha) as [l El]. rewrite El at 1. cbn [app tl].
  rewrite product_app. f_equal. now rewrite El.
Qed.

Lemma actInv_prod A X Y : isRotation (rot A) -> se3_actInv_se3 (se3_mul A X) (se3_mul A Y) = se3_actInv_se3 X Y.
Proof.
  intros HA. unfold se3_actInv_se3, se3_mul. cbn [rot trans].
  assert (HO : m3mul (m3tr (rot A)) (rot A) = m3id) by apply HA.
  rewrite m3tr_mul. f_equal.
  - rewrite <- !m3mul_assoc. f_equal. rewrite m3mul_assoc, HO. apply m3mul_1_l.
  - rewrite m3vec_mul. f_equal.
    replace (v3sub (v3add (trans A) (m3vec (rot A) (trans Y))) (v3add (trans A) (m3vec (rot A) (trans X))))
      with (m3vec (rot A) (v3sub (trans Y) (trans X))) by (rewrite m3vec_sub_r; sring).
    rewrite <- m3vec_mul, HO. apply m3vec_1.
Qed.

Lemma relative_placement (d : Data) (q : vec) i j :
  validModel m -> validState m q -> placed m q d -> pl (rows d 0) F_oMi = se3_Identity ->
  i < m_njoints m -> j < m_njoints m ->
  exists M, getRelativePlacement m d i j C_LOCAL = Ok tt M /\ getRelativePlacement m d i j C_WORLD = Ok tt M /\
            M = se3_actInv_se3 (worldPl m q i) (worldPl m q j).
Proof.
  intros V Hq Hpl H0 Hi Hj. eexists. split; [|split; [|reflexivity]].
  - cbn [getRelativePlacement].
    destruct (commonAncestor_spec m i j W T Hi Hj) as (a & k1 & k2 & -> & N1 & N2 & _).
    fold (support m i) (support m j).
    assert (Hin : forall i k x, i < m_njoints m -> In x (skipn (S k) (support m i)) -> 0 < x < m_njoints m).
    { clear - W T. intros i k x Hi Hx. destruct (support_cons m T i Hi) as [l El].
      assert (In x (tl (support m i))).
      { rewrite El in *. cbn [skipn tl] in *. rewrite <- (firstn_skipn k l). apply in_or_app. now right. }
      pose proof (tail_range m W T i x Hi H). lia. }
    rewrite !(chainBack_product d q) by (intros x Hx; apply Hpl; eapply Hin; [|exact Hx]; assumption).
    rewrite (worldPl_split q i k1 a Hi N1), (worldPl_split q j k2 a Hj N2).
    rewrite actInv_prod; [reflexivity|]. apply (worldPl_rot m W T V q a Hq).
    destruct (path_prefix _ _ _ a (ti_path _ T i Hi) (nth_error_In _ _ N1)) as (l1 & l2 & H1 & _). exact (path_lt _ _ _ W H1).
  - cbn [getRelativePlacement].
    assert (E : forall i, i < m_njoints m -> pl (rows d i) F_oMi = worldPl m q i).
    { clear - W T Hpl H0. intros i Hi. destruct (Nat.eq_dec i 0) as [->|Hn].
      - now rewrite H0, (worldPl_0 m W T q).
      - apply Hpl. lia. }
    now rewrite !E.
Qed.

(* ---- frame loops ---- *)
Lemma frames_loop (d : Data) f : 0 < f < m_nframes m ->
  oMf (gl (updateFramePlacements m d)) f = se3_mul (pl (rows d (fr_parentJoint (frameAt m f))) F_oMi) (fr_placement (frameAt m f)).
Proof.
  intros Hf. unfold updateFramePlacements.
  assert (G : forall l s, (forall i, rows s i = rows d i) -> (In f l \/ oMf (gl s) f = se3_mul (pl (rows d (fr_parentJoint (frameAt m f))) F_oMi) (fr_placement (frameAt m f))) ->
     let s' := fold_left (fun d f => setGl d (setOMf (gl d) (putn (oMf (gl d)) f
      (se3_mul (pl (rows d (fr_parentJoint (frameAt m f))) F_oMi) (fr_placement (frameAt m f)))))) l s in
     oMf (gl s') f = se3_mul (pl (rows d (fr_parentJoint (frameAt m f))) F_oMi) (fr_placement (frameAt m f))).
  { induction l as [|x l IH]; intros s Hs Hor; cbv zeta; cbn [fold_left].
    - destruct Hor as [[]|H]. exact H.
    - apply IH.
      + intros i. mem. apply Hs.
      + destruct (Nat.eq_dec x f) as [->|Hne].
        * right. mem. rewrite putn_same. now rewrite Hs.
        * destruct Hor as [[Hx|Hl]|Ho]; [congruence | now left |].
          right. mem. rewrite putn_other by assumption. exact Ho. }
  apply G; [reflexivity|]. left. apply in_seq. lia.
Qed.
End Facts.
