(* What computeForwardKinematicsDerivatives leaves in the data; the derivatives of velocity and acceleration in the world, column by column. *)
Require Import Reals List Arith ZArith Lia Lra Bool.
From Verif Require Import Vec3 Spatial Inertia InertiaFacts SpatialFacts Joints Spec_Joints Deriv JointFacts JointFacts2 Model Spec_Model ModelFacts ModelTree ModelFacts2 Sums Data Kinematics Spec_Kin Spec_Mass KinFacts KinFacts2 KinFacts3 Spec_Dyn Rnea DynFacts DynFacts2 TreeSums MassFacts Crba CrbaFacts CrbaFacts2 Jacobian Spec_Jac JacFacts JacFacts2 JacFacts3 JacFacts4 JacFacts5 CholFacts4 Com ComFacts2 ComFacts3 Dccrba DccrbaFacts DccrbaFacts2 DataX Coriolis DerSums CoriolisFacts CoriolisFacts2 CoriolisFacts3 CoriolisFacts4 RneaDer DerPass RneaDerFacts RneaDerFacts2 RneaDerFacts3 KinDer.
Import ListNotations.
Local Open Scope nat_scope.
Local Open Scope bool_scope.

Section KD.
Variable eps : R.
Variable m : Model.
Hypothesis Bt : Built eps m.
Let W : wellFormed m := Built_wf eps m Bt.
Let T : treeInv m := Built_tree eps m Bt.
Hypothesis Vm : validModel m.
Hypothesis NM : noMimic m.

(* spatial acceleration of body b, in the world *)
Definition wAcc q v a b : V6 := motion_act (worldPl m q b) (bodyAcc m q v a b).
Definition kdOk q v a (d : Data) : Prop := forall i, 0 < i < m_njoints m ->
  (pl (rows d i) F_oMi = worldPl m q i /\ mo (rows d i) F_v = bodyVel m q v i /\ mo (rows d i) F_ov = worldVel m q v i /\ mo (rows d i) F_oa = wAcc q v a i) /\
  forall c, c < nvOf m i -> co (gl d) F_J (idx_v m i + c) = worldCol m q i c /\ co (gl d) F_dJ (idx_v m i + c) = dCol m q v i c.

Lemma fkdRow_eq q v a i r rp : 0 < i < m_njoints m -> let r' := fkdRow m q v a i r rp in
  jS (jd r') = jS (jointAt m q noVel i) /\
  pl r' F_oMi = (if 0 <? parent m i then se3_mul (pl rp F_oMi) (relPl m q i) else relPl m q i) /\
  mo r' F_v = (if 0 <? parent m i then v6add (jointTwist m q v i) (motion_actInv (relPl m q i) (mo rp F_v)) else jointTwist m q v i) /\
  mo r' F_a = (let x := v6add (v6add (Smul (jS (jointAt m q v i)) (shift (idx_v m i) a)) (jc (jointAt m q v i))) (motion_cross (mo r' F_v) (jv (jointAt m q v i))) in
               if 0 <? parent m i then v6add x (motion_actInv (relPl m q i) (mo rp F_a)) else x) /\
  mo r' F_ov = motion_act (pl r' F_oMi) (mo r' F_v) /\ mo r' F_oa = motion_act (pl r' F_oMi) (mo r' F_a).
Proof.
  intros Hi. assert (EL : se3_mul (placementOf m i) (jM (jointAt m q v i)) = relPl m q i) by (unfold relPl; now rewrite (jointAt_M m q v noVel)).
  pose proof (jv_twist m Vm q v i Hi) as EJ. rewrite <- EL, <- EJ. cbv zeta. unfold fkdRow. rewrite (calcJoint_at m W i q v Hi), (velSel_at m W i a Hi).
  destruct (0 <? parent m i); mem; (split; [symmetry; apply (jointAt_S m)|auto]).
Qed.
Lemma fkd_ok d q v a : validState m q -> kdOk q v a (computeForwardKinematicsDerivatives m d q v a).
Proof.
  intros Hq. unfold computeForwardKinematicsDerivatives. set (d0 := setRow d 0 _).
  destruct (upward_rowsG m (fkdRow m q v a) (fkdCols m) d0 W) as (H0 & H1 & H2). set (d' := upward m (rowStepG m (fkdRow m q v a) (fkdCols m)) d0) in *.
  assert (G : forall i, i < m_njoints m -> 0 < i -> pl (rows d' i) F_oMi = worldPl m q i /\ mo (rows d' i) F_v = bodyVel m q v i /\ mo (rows d' i) F_a = bodyAcc m q v a i).
  { refine (tree_ind m _ W _ _); [lia|]. intros i Hi IH _. pose proof (fkdRow_eq q v a i (rows d0 i) (rows d' (parent m i)) Hi) as E. cbv zeta in E. rewrite <- (H1 i Hi) in E.
    destruct E as (_ & E1 & E2 & E3 & _).
    assert (EA : v6add (v6add (Smul (jS (jointAt m q v i)) (shift (idx_v m i) a)) (jc (jointAt m q v i))) (motion_cross (bodyVel m q v i) (jv (jointAt m q v i))) = jointAcc m q v a i).
    { unfold jointAcc. rewrite (jv_twist m Vm q v i Hi), (jointAt_S m q v noVel). reflexivity. }
    pose proof (worldPl_step m W T q i Hi) as S1. pose proof (bodyVel_step m W T Vm q v i Hq Hi) as S2. pose proof (bodyAcc_step m W T Vm q v a i Hq Hi) as S3.
    destruct (Nat.ltb_spec 0 (parent m i)) as [Hp|Hp].
    - destruct (IH Hp) as (P1 & P2 & P3). rewrite P1 in E1. rewrite P2 in E2. rewrite P3 in E3. rewrite <- S1 in E1. rewrite <- S2 in E2. rewrite E2, EA, <- S3 in E3. auto.
    - assert (P0 : parent m i = 0) by lia. rewrite P0 in S1, S2, S3. rewrite (worldPl_0 m W T), se3_mul_1_l in S1. rewrite (bodyVel_0 m W T), motion_actInv_0, v6add_0_r in S2. rewrite (bodyAcc_0 m W T), motion_actInv_0, v6add_0_r in S3.
      rewrite <- S1 in E1. rewrite <- S2 in E2. rewrite E2, EA, <- S3 in E3. auto. }
  assert (RW : forall i, 0 < i < m_njoints m -> pl (rows d' i) F_oMi = worldPl m q i /\ mo (rows d' i) F_v = bodyVel m q v i /\ mo (rows d' i) F_ov = worldVel m q v i /\ mo (rows d' i) F_oa = wAcc q v a i /\ jS (jd (rows d' i)) = jS (jointAt m q noVel i)).
  { intros i Hi. destruct (G i ltac:(lia) ltac:(lia)) as (G1 & G2 & G3). pose proof (fkdRow_eq q v a i (rows d0 i) (rows d' (parent m i)) Hi) as E. cbv zeta in E. rewrite <- (H1 i Hi) in E.
    destruct E as (E1 & _ & _ & _ & E5 & E6). rewrite G1, G2 in E5. rewrite G1, G3 in E6. auto 6. }
  pose (Inv := fun n (g : Glob) => forall i c, 0 < i < n -> i < m_njoints m -> c < nvOf m i -> co g F_J (idx_v m i + c) = worldCol m q i c /\ co g F_dJ (idx_v m i + c) = dCol m q v i c).
  assert (HI : Inv (m_njoints m) (gl d')).
  { rewrite H2. apply upward_inv; [apply (wf_n _ W) | intros i c Hi; lia |]. intros i g Hi IH j c Hj Hj' Hc. unfold fkdCols. mem. unfold setCols.
    destruct (jm_v m W Vm NM i Hi) as (-> & _ & -> & _). rewrite (within_own m W NM i j c Hi ltac:(lia) Hc). destruct (RW i Hi) as (E1 & _ & E3 & _ & E4). destruct (Nat.eqb_spec i j) as [<-|Hn]; [|apply IH; lia].
    rewrite E1, E3, E4. replace (idx_v m i + (idx_v m i + c - idx_v m i)) with (idx_v m i + c) by lia. rewrite (within_own m W NM i i c Hi Hi Hc), Nat.eqb_refl.
    replace (idx_v m i + c - idx_v m i) with c by lia. split; reflexivity. }
  intros i Hi. destruct (RW i Hi) as (E1 & E2 & E3 & E4 & _). split; [auto|]. intros c Hc. apply HI; lia.
Qed.

(* ---- the derivatives in the world ---- *)
Hypothesis FA : forall i, 0 < i < m_njoints m -> fixedAxes (jm_type (joint m i)).
(* the contribution of joint i, whose share of the variation is x *)
Definition vqT q v b i (x : V6) : V6 := motion_cross (v6sub (worldVel m q v (parent m i)) (worldVel m q v b)) x.
Definition avT q v b i (x : V6) : V6 := v6add (vqT q v b i x) (motion_cross (worldVel m q v i) x).
Definition aqT q v a b i (x : V6) : V6 := v6add (motion_cross (v6sub (wAcc q v a (parent m i)) (wAcc q v a b)) x) (motion_cross (v6sub (worldVel m q v (parent m i)) (worldVel m q v b)) (motion_cross (worldVel m q v (parent m i)) x)).

Lemma sumF_crossL z f l : sumF (fun i => motion_cross z (f i)) l = motion_cross z (sumF f l).
Proof. apply (sumF_map (motion_cross z)); intros; sring. Qed.
Lemma sumF_crossR z f l : sumF (fun i => motion_cross (f i) z) l = motion_cross (sumF f l) z.
Proof. apply (sumF_map (fun x => motion_cross x z)); intros; sring. Qed.
Lemma sumF_sub f g l : sumF (fun i => v6sub (f i) (g i)) l = v6sub (sumF f l) (sumF g l).
Proof. unfold sumF. induction l as [|i l IH]; cbn [map sumV6]; [sring|]. rewrite IH. sring. Qed.
Lemma vq_sum q w v b : validState m q -> b < m_njoints m -> dWorldVel m q w v b = sumF (fun i => vqT q v b i (share m q w i)) (tl (support m b)).
Proof.
  intros Hq Hb. rewrite (sumF_ext _ (fun i => v6sub (motion_cross (worldVel m q v (parent m i)) (share m q w i)) (motion_cross (worldVel m q v b) (share m q w i)))) by (intros; unfold vqT; sring).
  rewrite sumF_sub, sumF_crossL, <- (worldVel_share m W T Vm q w b Hq Hb). change (sumF _ (tl (support m b))) with (DVw m q w v b). rewrite <- (DVw_eq eps m Bt Vm q w v b Hq Hb). sring.
Qed.
Section Var.
Variables (q v a : R -> vec) (w v' a' : vec) (t : R).
Hypothesis Hq : forall s, validState m (q s).
Hypothesis Hm : moves m q w t.
Hypothesis Hv : accelerates m v v' t.
Hypothesis Ha : accelerates m a a' t.
Definition sumT (F : nat -> V6 -> V6) (u : vec) b : V6 := sumF (fun i => F i (share m (q t) u i)) (tl (support m b)).

Lemma vel_world b : b < m_njoints m -> deriv6 (fun s => worldVel m (q s) (v s) b) (v6add (sumT (vqT (q t) (v t) b) w b) (sumT (fun _ x => x) v' b)) t.
Proof.
  intros Hb. eapply deriv6_eq; [exact (worldVel_var eps m Bt Vm NM FA q w t Hq Hm v v' b Hv Hb)|].
  unfold sumT. rewrite (vq_sum (q t) w (v t) b (Hq t) Hb), (worldVel_share m W T Vm (q t) v' b (Hq t) Hb). reflexivity.
Qed.
Lemma acc_world_deriv b : b < m_njoints m ->
  deriv6 (fun s => wAcc (q s) (v s) (a s) b) (v6add (v6add (sumT (aqT (q t) (v t) (a t) b) w b) (sumT (avT (q t) (v t) b) v' b)) (sumT (fun _ x => x) a' b)) t.
Proof.
  intros Hb.
  set (S1 := sumF (fun i => v6add (motion_cross (dWorldVel m (q t) w (v t) i) (share m (q t) (v t) i)) (motion_cross (worldVel m (q t) (v t) i) (motion_cross (worldVel m (q t) w i) (share m (q t) (v t) i)))) (tl (support m b))).
  set (S2 := sumF (fun i => v6add (motion_cross (worldVel m (q t) v' i) (share m (q t) (v t) i)) (motion_cross (worldVel m (q t) (v t) i) (share m (q t) v' i))) (tl (support m b))).
  assert (D : deriv6 (fun s => wAcc (q s) (v s) (a s) b) (v6add (v6add (dWorldVel m (q t) w (a t) b) (worldVel m (q t) a' b)) (v6add S1 S2)) t).
  { apply (deriv6_ext _ (fun s => v6add (worldVel m (q s) (a s) b) (sumF (fun i => motion_cross (worldVel m (q s) (v s) i) (share m (q s) (v s) i)) (tl (support m b))))).
    + intros s. unfold wAcc. now rewrite (acc_world eps m Bt Vm FA).
    + apply deriv6_add; [exact (worldVel_var eps m Bt Vm NM FA q w t Hq Hm a a' b Ha Hb)|].
      unfold S1, S2. rewrite <- sumF_add. apply (deriv6_sumF (fun s i => motion_cross (worldVel m (q s) (v s) i) (share m (q s) (v s) i))).
      intros i Hi. pose proof (tl_range m W T b Hb i Hi) as Hir.
      eapply deriv6_eq; [apply deriv6_cross; [exact (worldVel_var eps m Bt Vm NM FA q w t Hq Hm v v' i Hv ltac:(lia)) | exact (share_var eps m Bt Vm NM FA q w t Hq Hm v v' i Hv Hir)]|]. cbv beta. unfold dShare.
      generalize (dWorldVel m (q t) w (v t) i) (worldVel m (q t) v' i) (share m (q t) (v t) i) (worldVel m (q t) (v t) i) (worldVel m (q t) w i) (share m (q t) v' i). sring. }
  eapply deriv6_eq; [exact D|].
  assert (EQ : v6add (dWorldVel m (q t) w (a t) b) S1 = sumT (aqT (q t) (v t) (a t) b) w b).
  { pose proof (DAw_eq eps m Bt Vm FA (q t) w (v t) (a t) b (Hq t) Hb) as E. unfold dAcc in E. fold S1 in E. rewrite <- (DVw_eq eps m Bt Vm (q t) w (v t) b (Hq t) Hb) in E.
    assert (E' : v6add (dWorldVel m (q t) w (a t) b) S1 = v6sub (v6add (DAw m (q t) w (v t) (a t) b) (motion_cross (worldVel m (q t) w b) (wAgf m (q t) (v t) (a t) b))) (motion_cross (worldVel m (q t) (v t) b) (DVw m (q t) w (v t) b))).
    { rewrite <- E, <- (DVw_eq eps m Bt Vm (q t) w (v t) b (Hq t) Hb). sring. }
    rewrite E'. unfold sumT, DAw, DVw. rewrite (worldVel_share m W T Vm (q t) w b (Hq t) Hb).
    rewrite <- sumF_crossR, <- sumF_crossL, <- sumF_add, <- sumF_sub. apply sumF_ext. intros i _. unfold aqT, wAgf. fold (wAcc (q t) (v t) (a t) b). fold (wAcc (q t) (v t) (a t) (parent m i)).
    generalize (wAcc (q t) (v t) (a t) b) (wAcc (q t) (v t) (a t) (parent m i)) (m_gravity m) (worldVel m (q t) (v t) (parent m i)) (worldVel m (q t) (v t) b) (share m (q t) w i). clear. sring. }
  assert (EV : S2 = sumT (avT (q t) (v t) b) v' b).
  { pose proof (DVv_eq eps m Bt Vm (q t) (v t) v' b (Hq t) Hb) as E. fold S2 in E.
    assert (E' : S2 = v6sub (DVv m (q t) (v t) v' b) (motion_cross (worldVel m (q t) (v t) b) (worldVel m (q t) v' b))) by (rewrite <- E; sring).
    rewrite E'. unfold sumT, DVv. rewrite (worldVel_share m W T Vm (q t) v' b (Hq t) Hb), <- sumF_crossL, <- sumF_sub. apply sumF_ext. intros i _. unfold avT, vqT. sring. }
  rewrite <- EQ, <- EV. change (sumT (fun _ x => x) a' b) with (sumF (share m (q t) a') (tl (support m b))). rewrite <- (worldVel_share m W T Vm (q t) a' b (Hq t) Hb). sring.
Qed.

(* seen by the body *)
Definition vqL q0 v0 i (x : V6) : V6 := motion_cross (worldVel m q0 v0 (parent m i)) x.
Definition aqL q0 v0 a0 b i (x : V6) : V6 := v6add (motion_cross (wAcc q0 v0 a0 (parent m i)) x) (motion_cross (v6sub (worldVel m q0 v0 (parent m i)) (worldVel m q0 v0 b)) (motion_cross (worldVel m q0 v0 (parent m i)) x)).
Lemma vel_body_deriv b : b < m_njoints m -> deriv6 (fun s => bodyVel m (q s) (v s) b) (motion_actInv (worldPl m (q t) b) (v6add (sumT (vqL (q t) (v t)) w b) (sumT (fun _ x => x) v' b))) t.
Proof.
  intros Hb. eapply deriv6_eq; [exact (vel_deriv eps m Bt Vm NM FA q w t Hq Hm v v' b Hv Hb)|]. unfold sumT. rewrite (worldVel_share m W T Vm (q t) v' b (Hq t) Hb). reflexivity.
Qed.
Lemma acc_body_deriv b : b < m_njoints m -> deriv6 (fun s => bodyAcc m (q s) (v s) (a s) b)
  (motion_actInv (worldPl m (q t) b) (v6add (v6add (sumT (aqL (q t) (v t) (a t) b) w b) (sumT (avT (q t) (v t) b) v' b)) (sumT (fun _ x => x) a' b))) t.
Proof.
  intros Hb. eapply deriv6_ext; [|eapply deriv6_eq; [exact (local_deriv eps m Bt Vm q w t b _ _ Hq Hm Hb (acc_world_deriv b Hb))|]].
  - intros s. unfold wAcc. rewrite motion_actInv_act by (apply (worldPl_rot m W T Vm); [apply Hq | exact Hb]). reflexivity.
  - f_equal. rewrite (worldVel_share m W T Vm (q t) w b (Hq t) Hb).
    assert (E : v6sub (sumT (aqT (q t) (v t) (a t) b) w b) (motion_cross (sumF (share m (q t) w) (tl (support m b))) (wAcc (q t) (v t) (a t) b)) = sumT (aqL (q t) (v t) (a t) b) w b).
    { unfold sumT. generalize (tl (support m b)). intros l. unfold sumF. induction l as [|i l IH]; cbn [map sumV6]; [sring|]. rewrite <- IH. unfold aqT, aqL. sring. }
    rewrite <- E. sring.
Qed.
End Var.
End KD.
