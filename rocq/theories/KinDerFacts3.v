(* getJointVelocityDerivatives and getJointAccelerationDerivatives return the derivatives. *)
Require Import Reals List Arith ZArith Lia Lra Bool.
From Verif Require Import Vec3 Spatial Inertia InertiaFacts SpatialFacts Joints Spec_Joints Deriv JointFacts JointFacts2 Model Spec_Model ModelFacts ModelTree ModelFacts2 Sums Data Kinematics Spec_Kin Spec_Mass KinFacts KinFacts2 KinFacts3 Spec_Dyn Rnea DynFacts DynFacts2 TreeSums MassFacts Crba CrbaFacts CrbaFacts2 Jacobian Spec_Jac JacFacts JacFacts2 JacFacts3 JacFacts4 JacFacts5 CholFacts4 Com ComFacts2 ComFacts3 Dccrba DccrbaFacts DccrbaFacts2 DataX CoriolisFacts2 RneaDerFacts3 KinDer KinDerFacts KinDerFacts2 Spec_KinDer.
Import ListNotations.
Local Open Scope nat_scope.
Local Open Scope bool_scope.

Section KD.
Variable eps : R.
Variable m : Model.
Hypothesis Bt : Built eps m.
Let W : wellFormed m := Built_wf eps m Bt.
Let T : treeInv m := Built_tree eps m Bt.
Hypothesis Vm : validModel m.
Hypothesis NM : noMimic m.

Section Mat.
Variables (q v a : vec) (d : Data) (j : nat) (rf : RefFrame).
Hypothesis Hq : validState m q.
Hypothesis KO : kdOk m q v a d.
Hypothesis Hj : 0 < j < m_njoints m.
Let P := worldPl m q j.
Let l := climbList m j j.
Let ND := path_nodup eps m Bt j Hj.
Let RG := path_range eps m Bt j Hj.
Definition offPath k : Prop := forall i, In i (tl (support m j)) -> within (idx_v m i) (nvOf m i) k = false.
Lemma path_in i : In i l <-> In i (tl (support m j)).
Proof. unfold l. rewrite (path_eq eps m Bt j Hj). symmetry. apply in_rev. Qed.

Lemma jvd_cols Vq Vv : exists Dq Dv, getJointVelocityDerivatives m d j rf Vq Vv = Ok tt (Dq, Dv) /\
  (forall i c, In i (tl (support m j)) -> c < nvOf m i -> Dq (idx_v m i + c) = (if wr m rf i then toFrame rf P (vqR m rf q v j i (worldCol m q i c)) else Vq (idx_v m i + c)) /\ Dv (idx_v m i + c) = toFrame rf P (worldCol m q i c)) /\
  (forall k, offPath k -> Dq k = Vq k /\ Dv k = Vv k).
Proof.
  unfold getJointVelocityDerivatives. replace (j <? m_njoints m) with true by (symmetry; apply Nat.ltb_lt; lia).
  set (V := fold_left (jvdStep m d j rf) (climbList m j j) (Vq, Vv)). exists (fst V), (snd V). split; [now destruct V|].
  destruct (pass_cols eps m Bt NM (@fst Jac Jac) (jvdStep m d j rf) (wr m rf) (fun i c => toFrame rf P (vqR m rf q v j i (worldCol m q i c))) l ND RG) with (x0 := (Vq, Vv)) as [A1 A2].
  { intros x i k Hi. exact (proj1 (jvd_step eps m Bt Vm NM q v a d j rf Hq KO Hj x i k Hi)). }
  destruct (pass_cols eps m Bt NM (@snd Jac Jac) (jvdStep m d j rf) (fun _ => true) (fun i c => toFrame rf P (worldCol m q i c)) l ND RG) with (x0 := (Vq, Vv)) as [B1 B2].
  { intros x i k Hi. exact (proj2 (jvd_step eps m Bt Vm NM q v a d j rf Hq KO Hj x i k Hi)). }
  split.
  - intros i c Hi Hc. apply path_in in Hi. split; [exact (A1 i c Hi Hc) | exact (B1 i c Hi Hc)].
  - intros k Hk. split; [apply A2 | apply B2]; intros i Hi; apply Hk, path_in, Hi.
Qed.
Lemma jad_cols A : exists D, getJointAccelerationDerivatives m d j rf A = Ok tt D /\
  (forall i c, In i (tl (support m j)) -> c < nvOf m i -> let x := worldCol m q i c in let k := idx_v m i + c in
     ad_vq D k = (if wr m rf i then toFrame rf P (vqR m rf q v j i x) else ad_vq A k) /\ ad_aq D k = (if wr m rf i then toFrame rf P (aqR m rf q v a j i x) else ad_aq A k) /\
     ad_av D k = toFrame rf P (avT m q v j i x) /\ ad_aa D k = toFrame rf P x) /\
  (forall k, offPath k -> ad_vq D k = ad_vq A k /\ ad_aq D k = ad_aq A k /\ ad_av D k = ad_av A k /\ ad_aa D k = ad_aa A k).
Proof.
  unfold getJointAccelerationDerivatives. replace (j <? m_njoints m) with true by (symmetry; apply Nat.ltb_lt; lia).
  eexists. split; [reflexivity|]. pose proof (fun x i k Hi => jad_step eps m Bt Vm NM q v a d j rf Hq KO Hj x i k Hi) as St. cbv zeta in St.
  destruct (pass_cols eps m Bt NM ad_vq (jadStep m d j rf) (wr m rf) (fun i c => toFrame rf P (vqR m rf q v j i (worldCol m q i c))) l ND RG) with (x0 := A) as [A1 A2].
  { intros x i k Hi. exact (proj1 (St x i k Hi)). }
  destruct (pass_cols eps m Bt NM ad_aq (jadStep m d j rf) (wr m rf) (fun i c => toFrame rf P (aqR m rf q v a j i (worldCol m q i c))) l ND RG) with (x0 := A) as [B1 B2].
  { intros x i k Hi. exact (proj1 (proj2 (St x i k Hi))). }
  destruct (pass_cols eps m Bt NM ad_av (jadStep m d j rf) (fun _ => true) (fun i c => toFrame rf P (avT m q v j i (worldCol m q i c))) l ND RG) with (x0 := A) as [C1 C2].
  { intros x i k Hi. exact (proj1 (proj2 (proj2 (St x i k Hi)))). }
  destruct (pass_cols eps m Bt NM ad_aa (jadStep m d j rf) (fun _ => true) (fun i c => toFrame rf P (worldCol m q i c)) l ND RG) with (x0 := A) as [D1 D2].
  { intros x i k Hi. exact (proj2 (proj2 (proj2 (St x i k Hi)))). }
  split.
  - intros i c Hi Hc. apply path_in in Hi. exact (conj (A1 i c Hi Hc) (conj (B1 i c Hi Hc) (conj (C1 i c Hi Hc) (D1 i c Hi Hc)))).
  - intros k Hk. assert (Hk' : forall i, In i l -> within (idx_v m i) (nvOf m i) k = false) by (intros i Hi; apply Hk, path_in, Hi). exact (conj (A2 k Hk') (conj (B2 k Hk') (conj (C2 k Hk') (D2 k Hk')))).
Qed.
(* from zero matrices *)
Lemma wr_zero (L : nat -> V6 -> V6) (i : nat) (y : V6) : (wr m rf i = false -> L i y = v6zero) -> (if wr m rf i then toFrame rf P (L i y) else zeroJ 0) = toFrame rf P (L i y).
Proof. intros H. destruct (wr m rf i) eqn:E; [reflexivity|]. rewrite (H eq_refl). symmetry. apply (toFrame_lin rf P). Qed.
Lemma wr_false i : wr m rf i = false -> rf = LOCAL /\ parent m i = 0.
Proof. destruct rf; cbn [wr]; try discriminate. intros E. apply Nat.ltb_ge in E. split; [reflexivity | lia]. Qed.
Lemma vqR_zero i y : wr m rf i = false -> vqR m rf q v j i y = v6zero.
Proof. intros H. apply wr_false in H as [-> H]. cbn [vqR]. unfold vqL. rewrite H, (worldVel_0 m W T). apply motion_cross_0_l. Qed.
Lemma aqR_zero i y : wr m rf i = false -> aqR m rf q v a j i y = v6zero.
Proof. intros H. apply wr_false in H as [-> H]. cbn [aqR]. unfold aqL. rewrite H, (worldVel_0 m W T), (wAcc_0 eps m Bt). generalize (worldVel m q v j). sring. Qed.
Let ND' := tl_nodup m W T j (proj2 Hj).
Let RG' := tl_range m W T j (proj2 Hj).
Lemma path_product (L : nat -> V6 -> V6) (X : Jac) w : (forall i, lin6 (L i)) ->
  (forall i c, In i (tl (support m j)) -> c < nvOf m i -> X (idx_v m i + c) = toFrame rf P (L i (worldCol m q i c))) -> (forall k, offPath k -> X k = v6zero) ->
  colsMul (m_nv m) X w = toFrame rf P (sumF (fun i => L i (share m q w i)) (tl (support m j))).
Proof.
  intros HL H1 H0. rewrite (cols_product eps m Bt Vm NM (fun i x => toFrame rf P (L i x)) q (tl (support m j)) X w ND' RG'); [apply (sumF_lin (toFrame rf P)), toFrame_lin | | exact H1 | exact H0].
  intros i. apply (lin6_comp (toFrame rf P) (L i)); [apply toFrame_lin | apply HL].
Qed.
Lemma jvd_mul : exists Dq Dv, getJointVelocityDerivatives m d j rf zeroJ zeroJ = Ok tt (Dq, Dv) /\ forall w,
  colsMul (m_nv m) Dq w = toFrame rf P (sumF (fun i => vqR m rf q v j i (share m q w i)) (tl (support m j))) /\
  colsMul (m_nv m) Dv w = toFrame rf P (sumF (share m q w) (tl (support m j))).
Proof.
  destruct (jvd_cols zeroJ zeroJ) as (Dq & Dv & E & C & O). exists Dq, Dv. split; [exact E|]. intros w. split.
  - apply path_product; [apply lin6_vqR | | intros k Hk; exact (proj1 (O k Hk))]. intros i c Hi Hc. rewrite (proj1 (C i c Hi Hc)). apply (wr_zero (vqR m rf q v j)). apply vqR_zero.
  - apply (path_product (fun _ x => x)); [intros _; apply lin6_id | intros i c Hi Hc; exact (proj2 (C i c Hi Hc)) | intros k Hk; exact (proj2 (O k Hk))].
Qed.
Definition zeroAD : AccDer := mkAD zeroJ zeroJ zeroJ zeroJ.
Lemma jad_mul : exists D, getJointAccelerationDerivatives m d j rf zeroAD = Ok tt D /\ forall w,
  colsMul (m_nv m) (ad_vq D) w = toFrame rf P (sumF (fun i => vqR m rf q v j i (share m q w i)) (tl (support m j))) /\
  colsMul (m_nv m) (ad_aq D) w = toFrame rf P (sumF (fun i => aqR m rf q v a j i (share m q w i)) (tl (support m j))) /\
  colsMul (m_nv m) (ad_av D) w = toFrame rf P (sumF (fun i => avT m q v j i (share m q w i)) (tl (support m j))) /\
  colsMul (m_nv m) (ad_aa D) w = toFrame rf P (sumF (share m q w) (tl (support m j))).
Proof.
  destruct (jad_cols zeroAD) as (D & E & C & O). exists D. split; [exact E|]. intros w. repeat split.
  - apply path_product; [apply lin6_vqR | | intros k Hk; exact (proj1 (O k Hk))]. intros i c Hi Hc. destruct (C i c Hi Hc) as (-> & _). apply (wr_zero (vqR m rf q v j)). apply vqR_zero.
  - apply path_product; [apply lin6_aqR | | intros k Hk; exact (proj1 (proj2 (O k Hk)))]. intros i c Hi Hc. destruct (C i c Hi Hc) as (_ & -> & _). apply (wr_zero (aqR m rf q v a j)). apply aqR_zero.
  - apply path_product; [apply lin6_avT | intros i c Hi Hc; now destruct (C i c Hi Hc) as (_ & _ & -> & _) | intros k Hk; exact (proj1 (proj2 (proj2 (O k Hk))))].
  - apply (path_product (fun _ x => x)); [intros _; apply lin6_id | intros i c Hi Hc; now destruct (C i c Hi Hc) as (_ & _ & _ & ->) | intros k Hk; exact (proj2 (proj2 (proj2 (O k Hk))))].
Qed.
End Mat.

(* the code's term for the accelerations is the right one when the axes commute *)
Lemma aqC_ok q v a b i w : commutingAxes m q -> validState m q -> 0 < i < m_njoints m -> aqC m q v a b i (share m q w i) = aqT m q v a b i (share m q w i).
Proof.
  intros C Hq Hi. unfold aqC, aqT. destruct (Nat.ltb_spec 0 (parent m i)) as [H|H].
  - f_equal. f_equal. rewrite (worldVel_step m W T Vm q v i Hq Hi), motion_cross_add_l. fold (share m q v i).
    assert (E : motion_cross (share m q v i) (share m q w i) = v6zero).
    { unfold share. rewrite <- motion_act_cross by (apply (worldPl_rot m W T Vm q i Hq); lia). rewrite (C i Hi H). apply motion_act_0. }
    rewrite E. apply v6add_0_r.
  - replace (parent m i) with 0 by lia. rewrite (worldVel_0 m W T), motion_cross_0_l. f_equal. symmetry. apply motion_cross_0_r.
Qed.
Lemma one_dof_commute q : (forall i, 0 < i < m_njoints m -> 0 < parent m i -> nvOf m i = 1) -> validState m q -> commutingAxes m q.
Proof.
  intros H Hq i Hi Hp x y. unfold jointTwist. pose proof (jS_lenE m W Vm q noVel i Hi) as L. rewrite (nvE_nv m W Vm i (NM i Hi) Hi), (H i Hi Hp) in L.
  destruct (jS (jointAt m q noVel i)) as [|c [|c' r]]; try discriminate. cbn [Smul]. generalize c. intros. sring.
Qed.

Section Var.
Hypothesis FA : forall i, 0 < i < m_njoints m -> fixedAxes (jm_type (joint m i)).
Variables (q v a : R -> vec) (w v' a' : vec) (t : R).
Hypothesis Hq : forall s, validState m (q s).
Hypothesis Hm : moves m q w t.
Hypothesis Hv : accelerates m v v' t.
Hypothesis Ha : accelerates m a a' t.
Variable j : nat.
Hypothesis Hj : 0 < j < m_njoints m.
Let P := worldPl m (q t) j.
Lemma vel_fk d s rf : getVelocity (forwardKinematics1 m d (q s) (v s)) j rf = toFrame rf (worldPl m (q s) j) (worldVel m (q s) (v s) j).
Proof. symmetry. apply (velocity_frame m W T Vm); [apply Hq | exact Hj]. Qed.
Lemma deriv3_sub f g x y : deriv3 f x t -> deriv3 g y t -> deriv3 (fun s => v3sub (f s) (g s)) (v3sub x y) t.
Proof. intros (A & B & C) (D & E & F). repeat split; cbn [vx vy vz v3sub]; apply deriv_minus; assumption. Qed.
Lemma deriv6_seen p f f' : deriv6 f f' t -> deriv6 (fun s => seenAt p (f s)) (seenAt p f') t.
Proof. intros [D1 D2]. split; [|exact D2]. apply deriv3_sub; [exact D1|]. eapply deriv3_eq; [apply deriv3_cross; [apply (deriv3_const p) | exact D2]|]. vring. Qed.
Theorem velocity_derivative d d0 rf a0 : exists Dq Dv, getJointVelocityDerivatives m (computeForwardKinematicsDerivatives m d (q t) (v t) a0) j rf zeroJ zeroJ = Ok tt (Dq, Dv) /\
  deriv6 (fun s => jointVelocityAt (trans P) (forwardKinematics1 m d0 (q s) (v s)) j rf) (v6add (colsMul (m_nv m) Dq w) (colsMul (m_nv m) Dv v')) t.
Proof.
  destruct (jvd_mul (q t) (v t) a0 _ j rf (Hq t) (fkd_ok eps m Bt Vm NM d (q t) (v t) a0 (Hq t)) Hj) as (Dq & Dv & E & M). exists Dq, Dv. split; [exact E|].
  rewrite (proj1 (M w)), (proj2 (M v')). fold P. destruct (toFrame_lin rf P) as (_ & TA & _). rewrite <- TA.
  destruct rf; cbn [jointVelocityAt vqR].
  - eapply deriv6_ext; [intros s; exact (vel_fk d0 s WORLD)|]. exact (vel_world eps m Bt Vm NM FA q v w v' t Hq Hm Hv j (proj2 Hj)).
  - eapply deriv6_ext; [intros s; exact (vel_fk d0 s LOCAL)|]. cbn [toFrame].
    eapply deriv6_ext; [|exact (vel_body_deriv eps m Bt Vm NM FA q v w v' t Hq Hm Hv j (proj2 Hj))].
    intros s. unfold worldVel. apply motion_actInv_act, (worldPl_rot m W T Vm); [apply Hq | lia].
  - eapply deriv6_ext; [intros s; rewrite (vel_fk d0 s WORLD); reflexivity|]. cbn [toFrame].
    exact (deriv6_seen (trans P) _ _ (vel_world eps m Bt Vm NM FA q v w v' t Hq Hm Hv j (proj2 Hj))).
Qed.
Lemma acc_fk d s : mo (rows (forwardKinematics2 m d (q s) (v s) (a s)) j) F_a = bodyAcc m (q s) (v s) (a s) j /\ pl (rows (forwardKinematics2 m d (q s) (v s) (a s)) j) F_oMi = worldPl m (q s) j.
Proof.
  destruct (fk2_all m W T d (q s) (v s) (a s)) as (H1 & H2 & H3 & H4 & H5). split.
  - apply (acc_body m W T Vm (q s) (v s) (a s)); auto. lia.
  - apply H1. exact Hj.
Qed.
Theorem acceleration_derivative d d0 rf : rf = LOCAL \/ commutingAxes m (q t) ->
  exists D, getJointAccelerationDerivatives m (computeForwardKinematicsDerivatives m d (q t) (v t) (a t)) j rf zeroAD = Ok tt D /\
  deriv6 (fun s => jointAccelerationAt (trans P) (forwardKinematics2 m d0 (q s) (v s) (a s)) j rf) (v6add (v6add (colsMul (m_nv m) (ad_aq D) w) (colsMul (m_nv m) (ad_av D) v')) (colsMul (m_nv m) (ad_aa D) a')) t /\
  deriv6 (fun s => jointVelocityAt (trans P) (forwardKinematics1 m d0 (q s) (v s)) j rf) (v6add (colsMul (m_nv m) (ad_vq D) w) (colsMul (m_nv m) (ad_aa D) v')) t.
Proof.
  intros HC. pose proof (fkd_ok eps m Bt Vm NM d (q t) (v t) (a t) (Hq t)) as KO.
  destruct (jad_mul (q t) (v t) (a t) _ j rf (Hq t) KO Hj) as (D & E & M). exists D. split; [exact E|].
  pose proof (M w) as (M1 & M2 & _). pose proof (M v') as (_ & _ & M3 & M3'). pose proof (M a') as (_ & _ & _ & M4). fold P in M1, M2, M3, M3', M4. split.
  2:{ destruct (velocity_derivative d d0 rf (a t)) as (Dq & Dv & E1 & E2). destruct (jvd_mul (q t) (v t) (a t) _ j rf (Hq t) KO Hj) as (Dq' & Dv' & E1' & M').
      rewrite E1 in E1'. injection E1' as <- <-. destruct (M' w) as [Mw _]. destruct (M' v') as [_ Mv]. fold P in Mw, Mv. rewrite M1, M3', <- Mw, <- Mv. exact E2. }
  rewrite M2, M3, M4. destruct (toFrame_lin rf P) as (_ & TA & _). rewrite <- !TA.
  assert (EC : rf <> LOCAL -> sumF (fun i => aqR m rf (q t) (v t) (a t) j i (share m (q t) w i)) (tl (support m j)) = sumT m q t (aqT m (q t) (v t) (a t) j) w j).
  { intros Hn. destruct HC as [HC|HC]; [contradiction|]. apply sumF_ext. intros i Hi. rewrite <- (aqC_ok _ _ _ _ _ _ HC (Hq t) (tl_range m W T j (proj2 Hj) i Hi)). now destruct rf. }
  pose proof (acc_world_deriv eps m Bt Vm NM FA q v a w v' a' t Hq Hm Hv Ha j (proj2 Hj)) as AW.
  destruct rf; cbn [jointAccelerationAt]; try (rewrite EC by discriminate).
  - eapply deriv6_ext; [|exact AW]. intros s. cbn [getAcceleration]. destruct (acc_fk d0 s) as [-> ->]. reflexivity.
  - cbn [toFrame aqR]. eapply deriv6_ext; [|exact (acc_body_deriv eps m Bt Vm NM FA q v a w v' a' t Hq Hm Hv Ha j (proj2 Hj))]. intros s. cbn [getAcceleration]. now destruct (acc_fk d0 s) as [-> _].
  - eapply deriv6_ext; [|exact (deriv6_seen (trans P) _ _ AW)]. intros s. cbn [getAcceleration]. destruct (acc_fk d0 s) as [-> ->]. reflexivity.
Qed.
End Var.
End KD.
