(* getFrameVelocityDerivatives and getFrameAccelerationDerivatives return the derivatives. *)
Require Import Reals List Arith ZArith Lia Lra Bool.
From Verif Require Import Vec3 Spatial Inertia InertiaFacts SpatialFacts Joints Spec_Joints Deriv JointFacts JointFacts2 Model Spec_Model ModelFacts ModelTree ModelFacts2 Sums Data Kinematics Spec_Kin Spec_Mass KinFacts KinFacts2 KinFacts3 Spec_Dyn Rnea DynFacts DynFacts2 TreeSums MassFacts Crba CrbaFacts CrbaFacts2 Jacobian Spec_Jac JacFacts JacFacts2 JacFacts3 JacFacts4 JacFacts5 CholFacts4 Com ComFacts2 ComFacts3 Dccrba DccrbaFacts DccrbaFacts2 DataX CoriolisFacts2 RneaDerFacts3 KinDer KinDerFacts KinDerFacts2 KinDerFacts3 KinDerFacts6 Spec_KinDer.
Import ListNotations.
Local Open Scope nat_scope.
Local Open Scope bool_scope.

Lemma fold_putn_map {V : Type} (f : V -> V) : forall es (X : nat -> V) k, NoDup es -> fold_left (fun X e => putn X e (f (X e))) es X k = if existsb (Nat.eqb k) es then f (X k) else X k.
Proof.
  induction es as [|e es IH]; intros X k ND; [reflexivity|]. apply NoDup_cons_iff in ND as [N1 N2]. cbn [fold_left existsb]. rewrite (IH _ k N2). unfold putn.
  rewrite (Nat.eqb_sym e k). destruct (Nat.eqb_spec k e) as [->|]; cbn [orb]; [|reflexivity].
  destruct (existsb (Nat.eqb e) es) eqn:E; [|reflexivity]. apply existsb_exists in E as (x & Hx & Ex). apply Nat.eqb_eq in Ex as <-. contradiction.
Qed.
Lemma nodup_app {A} : forall l l' : list A, NoDup l -> NoDup l' -> (forall x, In x l -> ~ In x l') -> NoDup (l ++ l').
Proof.
  induction l as [|x l IH]; intros l' H H' D; [exact H'|]. apply NoDup_cons_iff in H as [H1 H2]. cbn [app]. constructor.
  - intros Hx. apply in_app_or in Hx as [Hx|Hx]; [contradiction | exact (D x (or_introl eq_refl) Hx)].
  - apply IH; [exact H2 | exact H' | intros y Hy; apply D; now right].
Qed.
Section KD.
Variable eps : R.
Variable m : Model.
Hypothesis Bt : Built eps m.
Let W : wellFormed m := Built_wf eps m Bt.
Let T : treeInv m := Built_tree eps m Bt.
Hypothesis Vm : validModel m.
Hypothesis NM : noMimic m.
Hypothesis Pos : noRigidJoint m.

Lemma cols_in l k : inRange m l -> (In k (concat (map (colsDesc m) l)) <-> exists i, In i l /\ within (idx_v m i) (nvOf m i) k = true).
Proof.
  intros HR. rewrite in_concat. split.
  - intros (c & Hc & Hk). apply in_map_iff in Hc as (i & <- & Hi). exists i. split; [exact Hi|]. unfold colsDesc in Hk. apply in_rev, in_seq in Hk.
    rewrite (idx_vE_v m W Vm NM i (HR i Hi)), (nvE_nv m W Vm i (NM i (HR i Hi)) (HR i Hi)) in Hk. apply within_true. lia.
  - intros (i & Hi & Hk). exists (colsDesc m i). split; [now apply in_map|]. unfold colsDesc. apply -> in_rev. apply in_seq.
    rewrite (idx_vE_v m W Vm NM i (HR i Hi)), (nvE_nv m W Vm i (NM i (HR i Hi)) (HR i Hi)). apply within_true in Hk. lia.
Qed.
Lemma cols_nodup l : NoDup l -> inRange m l -> NoDup (concat (map (colsDesc m) l)).
Proof.
  induction l as [|i l IH]; intros ND HR; [constructor|]. apply NoDup_cons_iff in ND as [N1 N2]. cbn [map concat]. apply nodup_app.
  - unfold colsDesc. apply NoDup_rev, seq_NoDup.
  - apply IH; [exact N2 | intros x Hx; apply HR; now right].
  - intros k Hk Hk'. apply (cols_in l k (fun x Hx => HR x (or_intror Hx))) in Hk' as (i' & Hi' & Hw). pose proof (HR i (or_introl eq_refl)) as Ri.
    unfold colsDesc in Hk. apply in_rev, in_seq in Hk. rewrite (idx_vE_v m W Vm NM i Ri), (nvE_nv m W Vm i (NM i Ri) Ri) in Hk.
    pose proof (within_own m W NM i' i (k - idx_v m i) (HR i' (or_intror Hi')) Ri ltac:(lia)) as E. replace (idx_v m i + (k - idx_v m i)) with k in E by lia. rewrite Hw in E. symmetry in E. apply Nat.eqb_eq in E as ->. contradiction.
Qed.
Section Mat.
Variables (j : nat) (M : SE3) (rf : RefFrame) (d : Data).
Hypothesis Hj : 0 < j < m_njoints m.
Let f := reframe rf (pl (rows d j) F_oMi) M.
Lemma reframe_cols X : (forall i c, In i (tl (support m j)) -> c < nvOf m i -> reframeCols m d j rf M X (idx_v m i + c) = f (X (idx_v m i + c))) /\ (forall k, offPath m j k -> reframeCols m d j rf M X k = X k).
Proof.
  set (es := walk (t_par (rowTables m)) (S (m_nvE m)) (Z.of_nat (jnv (jm_type (joint m j))) + Z.of_nat (jm_idx_v (joint m j)) - 1)%Z).
  assert (HR : inRange m (rev (tl (support m j)))) by (intros i Hi; apply (tl_range m W T j (proj2 Hj)); now apply in_rev).
  assert (EE : es = concat (map (colsDesc m) (rev (tl (support m j))))).
  { unfold es. destruct (wf_joint _ W j Hj) as (_ & _ & F1 & _ & _ & F2 & _). rewrite F1, F2, <- (idx_vE_v m W Vm NM j Hj), <- (nvE_nv m W Vm j (NM j Hj) Hj). exact (walk_par m W T Pos j Hj). }
  assert (ND : NoDup es) by (rewrite EE; apply cols_nodup; [apply NoDup_rev, (tl_nodup m W T); lia | exact HR]).
  assert (IN : forall k, existsb (Nat.eqb k) es = true <-> exists i, In i (tl (support m j)) /\ within (idx_v m i) (nvOf m i) k = true).
  { intros k. rewrite existsb_exists. split.
    - intros (x & Hx & E). apply Nat.eqb_eq in E as <-. rewrite EE in Hx. apply (cols_in _ _ HR) in Hx as (i & Hi & Hw). exists i. split; [now apply in_rev | exact Hw].
    - intros (i & Hi & Hw). exists k. split; [|apply Nat.eqb_refl]. rewrite EE. apply (cols_in _ _ HR). exists i. split; [now apply -> in_rev | exact Hw]. }
  assert (ON : forall i c, In i (tl (support m j)) -> c < nvOf m i -> existsb (Nat.eqb (idx_v m i + c)) es = true) by (intros i c Hi Hc; apply IN; exists i; split; [exact Hi | apply within_true; lia]).
  assert (OFF : forall k, offPath m j k -> existsb (Nat.eqb k) es = false).
  { intros k Hk. destruct (existsb (Nat.eqb k) es) eqn:E; [|reflexivity]. apply IN in E as (i & Hi & Hw). rewrite (Hk i Hi) in Hw. discriminate. }
  assert (G : forall k, rf <> WORLD -> reframeCols m d j rf M X k = if existsb (Nat.eqb k) es then f (X k) else X k).
  { intros k Hrf. unfold reframeCols. fold f es. destruct rf; [congruence| |]; exact (fold_putn_map f es X k ND). }
  destruct (match rf with WORLD => left eq_refl | LOCAL => right eq_refl | LOCAL_WORLD_ALIGNED => right eq_refl end : {match rf with WORLD => true | _ => false end = true} + {match rf with WORLD => true | _ => false end = false}) as [Ew|Ew].
  - unfold f. destruct rf; try discriminate. split; reflexivity.
  - assert (Hrf : rf <> WORLD) by (intros ->; discriminate). split; [intros i c Hi Hc; rewrite (G _ Hrf), (ON i c Hi Hc) | intros k Hk; rewrite (G _ Hrf), (OFF k Hk)]; reflexivity.
Qed.
Lemma reframe_toFrame P x : isRotation (rot P) -> isRotation (rot M) -> reframe rf P M (toFrame rf P x) = toFrame rf (se3_mul P M) x.
Proof.
  intros HP HM. destruct rf; cbn [reframe toFrame]; [reflexivity | symmetry; now apply motion_actInv_mul|]. generalize P x. clear. intros [A p] x. destruct M as [B r]. cbn [se3_mul trans rot lin ang]. generalize (m3vec A r). clear. sring.
Qed.
End Mat.
Section Mat2.
Variables (q v a : vec) (d : Data) (j : nat) (rf : RefFrame) (M : SE3).
Hypothesis Hq : validState m q.
Hypothesis KO : kdOk m q v a d.
Hypothesis Hj : 0 < j < m_njoints m.
Hypothesis HM : isRotation (rot M).
Let P := worldPl m q j.
Let HP : isRotation (rot P) := worldPl_rot m W T Vm q j Hq (proj2 Hj).
Let PM := se3_mul P M.
Lemma frame_col (L : nat -> V6 -> V6) X w : (forall i, lin6 (L i)) ->
  (forall i c, In i (tl (support m j)) -> c < nvOf m i -> X (idx_v m i + c) = toFrame rf P (L i (worldCol m q i c))) -> (forall k, offPath m j k -> X k = v6zero) ->
  colsMul (m_nv m) (reframeCols m d j rf M X) w = toFrame rf PM (sumF (fun i => L i (share m q w i)) (tl (support m j))).
Proof.
  intros HL H1 H0. destruct (reframe_cols j M rf d Hj X) as [R1 R2].
  rewrite (cols_product eps m Bt Vm NM (fun i x => toFrame rf PM (L i x)) q (tl (support m j)) _ w (tl_nodup m W T j (proj2 Hj)) (tl_range m W T j (proj2 Hj))).
  - apply (sumF_lin (toFrame rf PM)), toFrame_lin.
  - intros i. apply (lin6_comp (toFrame rf PM) (L i)); [apply toFrame_lin | apply HL].
  - intros i c Hi Hc. rewrite (R1 i c Hi Hc), (H1 i c Hi Hc). destruct (KO j Hj) as [(-> & _) _]. now apply reframe_toFrame.
  - intros k Hk. now rewrite (R2 k Hk), (H0 k Hk).
Qed.
Lemma fvd_mul : exists Dq Dv, getFrameVelocityDerivatives m d j M rf zeroJ zeroJ = Ok tt (Dq, Dv) /\ forall w,
  colsMul (m_nv m) Dq w = toFrame rf PM (sumF (fun i => vqR m rf q v j i (share m q w i)) (tl (support m j))) /\
  colsMul (m_nv m) Dv w = toFrame rf PM (sumF (share m q w) (tl (support m j))).
Proof.
  destruct (jvd_cols eps m Bt Vm NM q v a d j rf Hq KO Hj zeroJ zeroJ) as (Dq & Dv & E & C & O). unfold getFrameVelocityDerivatives. rewrite E. eexists _, _. split; [reflexivity|]. intros w. split.
  - apply frame_col; [apply lin6_vqR | | intros k Hk; exact (proj1 (O k Hk))]. intros i c Hi Hc. rewrite (proj1 (C i c Hi Hc)).
    apply (wr_zero m q j rf (vqR m rf q v j)). exact (vqR_zero eps m Bt q v j rf Hj i _).
  - apply (frame_col (fun _ x => x)); [intros _; apply lin6_id | intros i c Hi Hc; exact (proj2 (C i c Hi Hc)) | intros k Hk; exact (proj2 (O k Hk))].
Qed.
Lemma fad_mul : exists D, getFrameAccelerationDerivatives m d j M rf zeroAD = Ok tt D /\ forall w,
  colsMul (m_nv m) (ad_vq D) w = toFrame rf PM (sumF (fun i => vqR m rf q v j i (share m q w i)) (tl (support m j))) /\
  colsMul (m_nv m) (ad_aq D) w = toFrame rf PM (sumF (fun i => aqR m rf q v a j i (share m q w i)) (tl (support m j))) /\
  colsMul (m_nv m) (ad_av D) w = toFrame rf PM (sumF (fun i => avT m q v j i (share m q w i)) (tl (support m j))) /\
  colsMul (m_nv m) (ad_aa D) w = toFrame rf PM (sumF (share m q w) (tl (support m j))).
Proof.
  destruct (jad_cols eps m Bt Vm NM q v a d j rf Hq KO Hj zeroAD) as (D & E & C & O). unfold getFrameAccelerationDerivatives. rewrite E. eexists. split; [reflexivity|]. intros w. cbn [ad_vq ad_aq ad_av ad_aa]. repeat split.
  - apply frame_col; [apply lin6_vqR | | intros k Hk; exact (proj1 (O k Hk))]. intros i c Hi Hc. destruct (C i c Hi Hc) as (-> & _). apply (wr_zero m q j rf (vqR m rf q v j)). exact (vqR_zero eps m Bt q v j rf Hj i _).
  - apply frame_col; [apply lin6_aqR | | intros k Hk; exact (proj1 (proj2 (O k Hk)))]. intros i c Hi Hc. destruct (C i c Hi Hc) as (_ & -> & _). apply (wr_zero m q j rf (aqR m rf q v a j)). exact (aqR_zero eps m Bt q v a j rf Hj i _).
  - apply frame_col; [apply lin6_avT | intros i c Hi Hc; now destruct (C i c Hi Hc) as (_ & _ & -> & _) | intros k Hk; exact (proj1 (proj2 (proj2 (O k Hk))))].
  - apply (frame_col (fun _ x => x)); [intros _; apply lin6_id | intros i c Hi Hc; now destruct (C i c Hi Hc) as (_ & _ & _ & ->) | intros k Hk; exact (proj2 (proj2 (proj2 (O k Hk))))].
Qed.
End Mat2.
Section Var.
Hypothesis FA : forall i, 0 < i < m_njoints m -> fixedAxes (jm_type (joint m i)).
Variables (q v a : R -> vec) (w v' a' : vec) (t : R).
Hypothesis Hq : forall s, validState m (q s).
Hypothesis Hm : moves m q w t.
Hypothesis Hv : accelerates m v v' t.
Hypothesis Ha : accelerates m a a' t.
Variable j : nat.
Hypothesis Hj : 0 < j < m_njoints m.
Variable M : SE3.
Hypothesis HM : isRotation (rot M).
Let PM s := se3_mul (worldPl m (q s) j) M.
Let HRs s : isRotation (rot (worldPl m (q s) j)) := worldPl_rot m W T Vm (q s) j (Hq s) (proj2 Hj).
Lemma frame_velocity d0 rf D : deriv6 (fun s => match rf with LOCAL_WORLD_ALIGNED => seenAt (trans (PM t)) (worldVel m (q s) (v s) j) | _ => toFrame rf (PM s) (worldVel m (q s) (v s) j) end) D t ->
  deriv6 (fun s => frameVelocityAt (trans (PM t)) (forwardKinematics1 m d0 (q s) (v s)) j M rf) D t.
Proof.
  intros H. eapply deriv6_ext; [|exact H]. intros s. unfold frameVelocityAt. destruct rf; rewrite <- (frame_frame m W T Vm d0 (q s) (v s) j M _ (Hq s) Hj HM); reflexivity.
Qed.
Theorem frame_velocity_derivative d d0 rf a0 : exists Dq Dv, getFrameVelocityDerivatives m (computeForwardKinematicsDerivatives m d (q t) (v t) a0) j M rf zeroJ zeroJ = Ok tt (Dq, Dv) /\
  deriv6 (fun s => frameVelocityAt (trans (PM t)) (forwardKinematics1 m d0 (q s) (v s)) j M rf) (v6add (colsMul (m_nv m) Dq w) (colsMul (m_nv m) Dv v')) t.
Proof.
  destruct (fvd_mul (q t) (v t) a0 _ j rf M (Hq t) (fkd_ok eps m Bt Vm NM d (q t) (v t) a0 (Hq t)) Hj HM) as (Dq & Dv & E & Mu). exists Dq, Dv. split; [exact E|].
  destruct (Mu w) as [-> _]. destruct (Mu v') as [_ ->]. fold (PM t). destruct (toFrame_lin rf (PM t)) as (_ & TA & _). rewrite <- TA. apply frame_velocity.
  pose proof (vel_world eps m Bt Vm NM FA q v w v' t Hq Hm Hv j (proj2 Hj)) as VW. destruct rf; cbn [vqR].
  - exact VW.
  - cbn [toFrame]. eapply deriv6_eq; [exact (U_deriv eps m Bt Vm NM FA q v w v' t Hq Hm Hv j Hj M HM)|]. fold (PM t). rewrite <- motion_actInv_add. f_equal. f_equal. exact (worldVel_share m W T Vm (q t) v' j (Hq t) (proj2 Hj)).
  - exact (deriv6_seen t (trans (PM t)) _ _ VW).
Qed.
Theorem frame_acceleration_derivative d d0 rf : rf = LOCAL \/ commutingAxes m (q t) -> exists D, getFrameAccelerationDerivatives m (computeForwardKinematicsDerivatives m d (q t) (v t) (a t)) j M rf zeroAD = Ok tt D /\
  deriv6 (fun s => frameAccelerationAt (trans (PM t)) (forwardKinematics2 m d0 (q s) (v s) (a s)) j M rf) (v6add (v6add (colsMul (m_nv m) (ad_aq D) w) (colsMul (m_nv m) (ad_av D) v')) (colsMul (m_nv m) (ad_aa D) a')) t /\
  deriv6 (fun s => frameVelocityAt (trans (PM t)) (forwardKinematics1 m d0 (q s) (v s)) j M rf) (v6add (colsMul (m_nv m) (ad_vq D) w) (colsMul (m_nv m) (ad_aa D) v')) t.
Proof.
  intros HC. pose proof (fkd_ok eps m Bt Vm NM d (q t) (v t) (a t) (Hq t)) as KO.
  destruct (fad_mul (q t) (v t) (a t) _ j rf M (Hq t) KO Hj HM) as (D & E & Mu). exists D. split; [exact E|].
  pose proof (Mu w) as (M1 & M2 & _). pose proof (Mu v') as (_ & _ & M3 & M3'). pose proof (Mu a') as (_ & _ & _ & M4). fold (PM t) in M1, M2, M3, M3', M4. split.
  2:{ destruct (frame_velocity_derivative d d0 rf (a t)) as (Dq & Dv & E1 & E2). destruct (fvd_mul (q t) (v t) (a t) _ j rf M (Hq t) KO Hj HM) as (Dq' & Dv' & E1' & M').
      rewrite E1 in E1'. injection E1' as <- <-. destruct (M' w) as [Mw _]. destruct (M' v') as [_ Mv]. fold (PM t) in Mw, Mv. rewrite M1, M3', <- Mw, <- Mv. exact E2. }
  rewrite M2, M3, M4. destruct (toFrame_lin rf (PM t)) as (_ & TA & _). rewrite <- !TA.
  assert (EC : rf <> LOCAL -> sumF (fun i => aqR m rf (q t) (v t) (a t) j i (share m (q t) w i)) (tl (support m j)) = sumT m q t (aqT m (q t) (v t) (a t) j) w j).
  { intros Hn. destruct HC as [HC|HC]; [contradiction|]. apply sumF_ext. intros i Hi. rewrite <- (aqC_ok eps m Bt Vm _ _ _ _ _ _ HC (Hq t) (tl_range m W T j (proj2 Hj) i Hi)). now destruct rf. }
  pose proof (acc_world_deriv eps m Bt Vm NM FA q v a w v' a' t Hq Hm Hv Ha j (proj2 Hj)) as AW.
  destruct rf; cbn [frameAccelerationAt]; try (rewrite EC by discriminate).
  - eapply deriv6_ext; [|exact AW]. intros s. cbn [getFrameAcceleration]. destruct (acc_fk eps m Bt Vm q v a Hq j Hj d0 s) as [-> ->]. reflexivity.
  - cbn [toFrame aqR]. eapply deriv6_ext; [|eapply deriv6_eq; [exact (B_deriv eps m Bt Vm NM FA q v a w v' a' t Hq Hm Hv Ha j Hj M HM)|]].
    + intros s. cbn [getFrameAcceleration]. destruct (acc_fk eps m Bt Vm q v a Hq j Hj d0 s) as [-> _]. symmetry. exact (B_body eps m Bt Vm q v a Hq j Hj M HM s).
    + fold (PM t). rewrite !motion_actInv_add. f_equal. f_equal. exact (worldVel_share m W T Vm (q t) a' j (Hq t) (proj2 Hj)).
  - eapply deriv6_ext; [|exact (deriv6_seen t (trans (PM t)) _ _ AW)]. intros s. cbn [getFrameAcceleration]. destruct (acc_fk eps m Bt Vm q v a Hq j Hj d0 s) as [-> ->]. reflexivity.
Qed.
End Var.
End KD.
