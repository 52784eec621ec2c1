(* computeRNEADerivatives: the statements for its entry points, and where they fail. *)
Require Import Reals List Arith ZArith Lia Lra Bool.
From Verif Require Import Vec3 Spatial Inertia InertiaFacts SpatialFacts Joints Spec_Joints Deriv JointFacts JointFacts2 Model Spec_Model ModelFacts ModelTree ModelFacts2 ModelFacts3 Sums Data Kinematics Spec_Kin Spec_Mass KinFacts KinFacts2 KinFacts3 Spec_Dyn Rnea DynFacts DynFacts2 TreeSums MassFacts Crba CrbaFacts CrbaFacts2 CrbaFacts3 CrbaFacts4 Jacobian Spec_Jac JacFacts JacFacts2 JacFacts3 JacFacts5 Spec_Chol CholFacts4 Com ComFacts2 Dccrba DccrbaFacts DccrbaFacts2 DccrbaFacts3 DataX Coriolis DerSums CoriolisFacts CoriolisFacts2 CoriolisFacts3 CoriolisFacts4 RneaDer DerPass RneaDerFacts RneaDerFacts2 RneaDerFacts3 RneaDerFacts4 RneaDerFacts5 Spec_Deriv.
Import ListNotations.
Local Open Scope nat_scope.
Local Open Scope bool_scope.

Section Fin.
Variable eps : R.
Variable m : Model.
Hypothesis Bt : Built eps m.
Let W : wellFormed m := Built_wf eps m Bt.
Let T : treeInv m := Built_tree eps m Bt.
Hypothesis Vm : validModel m.
Hypothesis NM : noMimic m.
Hypothesis DF : depthFirst m.
Hypothesis RM : regularMasses eps m.
Definition sparse3 (s : DX) : Prop := treeSparse m (xma s P_dq) /\ treeSparse m (xma s P_dv) /\ treeSparse m (xma s P_da).

Section Diff.
Hypothesis FA : forall i, 0 < i < m_njoints m -> fixedAxes (jm_type (joint m i)).
Theorem rd_differential s d (q v a : R -> vec) w v' a' t k : (forall s, validState m (q s)) -> moves m q w t -> accelerates m v v' t -> accelerates m a a' t -> sparse3 s -> k < m_nv m ->
  let D := computeRNEADerivatives eps m s (q t) (v t) (a t) in
  deriv (fun x => rnea m d (q x) (v x) (a x) k) (dotv (m_nv m) (xma D P_dq k) w + dotv (m_nv m) (xma D P_dv k) v' + dotv (m_nv m) (symUpper (xma D P_da) k) a')%R t.
Proof.
  intros Hq Hm Hv Ha (S1 & S2 & S3) Hk D. exact (done_total eps m Bt Vm NM FA s _ d None q v a w v' a' t k Hq Hm Hv Ha Hk S1 S2 S3 (rdPasses_done eps m Bt Vm NM DF RM (q t) (v t) (a t) None s (Hq t))).
Qed.
Theorem rdExt_differential s d fext (q v a : R -> vec) w v' a' t k : (forall s, validState m (q s)) -> moves m q w t -> accelerates m v v' t -> accelerates m a a' t -> sparse3 s -> k < m_nv m ->
  let D := computeRNEADerivativesExtData eps m s (q t) (v t) (a t) fext in
  deriv (fun x => rneaExt m d (q x) (v x) (a x) fext k) (dotv (m_nv m) (xma D P_dq k) w + dotv (m_nv m) (xma D P_dv k) v' + dotv (m_nv m) (symUpper (xma D P_da) k) a')%R t.
Proof.
  intros Hq Hm Hv Ha (S1 & S2 & S3) Hk D. exact (done_total eps m Bt Vm NM FA s _ d (Some fext) q v a w v' a' t k Hq Hm Hv Ha Hk S1 S2 S3 (rdPasses_done eps m Bt Vm NM DF RM (q t) (v t) (a t) (Some fext) s (Hq t))).
Qed.
(* with the caller's own matrices the first two partial derivatives are the same *)
Theorem rdOwn_differential s d fext (q v : R -> vec) a w v' t k : (forall s, validState m (q s)) -> moves m q w t -> accelerates m v v' t -> treeSparse m (xma s P_dq) -> treeSparse m (xma s P_dv) -> k < m_nv m ->
  let D := computeRNEADerivativesExt eps m s (q t) (v t) a fext in
  deriv (fun x => rneaExt m d (q x) (v x) a fext k) (dotv (m_nv m) (xma D P_dq k) w + dotv (m_nv m) (xma D P_dv k) v')%R t.
Proof.
  intros Hq Hm Hv S1 S2 Hk D. pose proof (rdPasses_done eps m Bt Vm NM DF RM (q t) (v t) a (Some fext) s (Hq t)) as DD.
  assert (Ha : accelerates m (fun _ => a) (fun _ => 0%R) t) by (intros l _; apply deriv_const).
  eapply deriv_eq; [apply (invDyn_deriv eps m Bt Vm NM FA (xma D P_dq) (xma D P_dv) d (Some fext) q v (fun _ => a) w v' (fun _ => 0%R) t k Hq Hm Hv Ha Hk)|].
  - apply (fills_all eps m Bt NM _ _ _ S1); [|exact (done_q _ _ _ _ _ _ _ DD)]. intros i c j l Hi Hj A. now apply (qEntry_off eps m Bt).
  - apply (fills_all eps m Bt NM _ _ _ S2); [|exact (done_v _ _ _ _ _ _ _ DD)]. intros i c j l Hi Hj A. now apply (vEntry_off eps m Bt).
  - assert (Z : dotv (m_nv m) (massMatrix m (q t) k) (fun _ => 0%R) = 0%R) by (apply sumN_zero; intros; ring). rewrite Z. ring.
Qed.
End Diff.

Lemma rd_upper q v a fext s k l : validState m q -> treeSparse m (xma s P_da) -> k <= l < m_nv m -> xma (rdPasses eps m q v a fext s) P_da k l = kineticForm m q (unitv k) (unitv l).
Proof. intros Hq S Hkl. exact (upper_mass eps m Bt Vm NM q _ _ k l Hq S (done_a _ _ _ _ _ _ _ (rdPasses_done eps m Bt Vm NM DF RM q v a fext s Hq)) Hkl). Qed.
Theorem rd_mass q v a s k l : validState m q -> treeSparse m (xma s P_da) -> k <= l < m_nv m -> xma (computeRNEADerivatives eps m s q v a) P_da k l = massMatrix m q k l.
Proof. intros Hq S Hkl. apply (addDiag_mass m q); [|exact Hkl]. intros k1 l1 H1. now apply rd_upper. Qed.
Theorem rd_tau q v a s d k : validState m q -> k < m_nv m -> ve (gl (bs (computeRNEADerivatives eps m s q v a))) F_tau k = rnea m d q v a k.
Proof. intros Hq Hk. exact (done_tau _ _ _ _ _ _ _ (rdPasses_done eps m Bt Vm NM DF RM q v a None s Hq) d k Hk). Qed.
Theorem rdExt_tau q v a fext s d k : validState m q -> k < m_nv m -> ve (gl (bs (computeRNEADerivativesExt eps m s q v a fext))) F_tau k = rneaExt m d q v a fext k.
Proof. intros Hq Hk. exact (done_tau _ _ _ _ _ _ _ (rdPasses_done eps m Bt Vm NM DF RM q v a (Some fext) s Hq) d k Hk). Qed.
Lemma addDiag_sparse E : treeSparse m E -> treeSparse m (addDiag m E).
Proof.
  intros S k l Hk Hl NB. unfold addDiag. destruct (Nat.eqb_spec k l) as [<-|N]; cbn [andb]; [|now apply S]. exfalso. apply NB.
  destruct (dof_owner m W k Hk) as (i & c & Hi & Hc & ->). exists i, i. repeat split; try apply Hi; try (now apply NM); try lia. left. apply (anc_onPath m T); [lia|]. apply (anc_self m W T); lia.
Qed.
Theorem rd_sparse q v a s : validState m q -> sparse3 s -> sparse3 (computeRNEADerivatives eps m s q v a).
Proof.
  intros Hq (S1 & S2 & S3). pose proof (rdPasses_done eps m Bt Vm NM DF RM q v a None s Hq) as D. split; [|split].
  - exact (fills_sparse eps m Bt NM _ _ _ S1 (done_q _ _ _ _ _ _ _ D)).
  - exact (fills_sparse eps m Bt NM _ _ _ S2 (done_v _ _ _ _ _ _ _ D)).
  - apply addDiag_sparse. intros k l Hk Hl NB. destruct (dof_owner m W k Hk) as (i & a0 & Hi & Ha & ->). destruct (dof_owner m W l Hl) as (j & c & Hj & Hc & ->).
    rewrite (done_a _ _ _ _ _ _ _ D) by assumption. assert (A : anc m i j || anc m j i = false) by (now apply (branch_or eps m Bt NM i a0 j c)). apply orb_false_iff in A as [A _]. rewrite A. now apply S3.
Qed.
(* the Coriolis matrix afterwards *)
Theorem rd_coriolis (Pos : noRigidJoint m) q v a s : validState m q -> treeSparse m (ma (gl (bs s)) F_C) ->
  let C := ma (gl (getCoriolisMatrix m (bs (computeRNEADerivatives eps m s q v a)))) F_C in isCor m q v C /\ treeSparse m C.
Proof.
  intros Hq S. pose proof (rdPasses_done eps m Bt Vm NM DF RM q v a None s Hq) as D. apply (getCoriolis_isCor eps m Bt Vm NM Pos DF).
  - exact (done_ready _ _ _ _ _ _ _ D).
  - change (treeSparse m (ma (gl (bs (rdPasses eps m q v a None s))) F_C)). rewrite (done_ma _ _ _ _ _ _ _ D). exact S.
Qed.
End Fin.

Lemma rd_dq eps m q v a s : xma (computeRNEADerivatives eps m s q v a) P_dq = xma (rdPasses eps m q v a None s) P_dq.
Proof. reflexivity. Qed.
(* ---- joints whose axes move ---- *)
Lemma pow_zyx s : validState (one JSphericalZYX) (fun k => if k =? 1 then s else 0%R).
Proof. intros i Hi. change (m_njoints (one JSphericalZYX)) with 2 in Hi. replace i with 1 by lia. cbn. auto. Qed.
Lemma rd_zyx_refuted : exists m (q : R -> vec) v a w t k, Built (1/1000) m /\ validModel m /\ noMimic m /\ depthFirst m /\ regularMasses (1/1000) m /\ (forall s, validState m (q s)) /\ moves m q w t /\ k < m_nv m /\
  forall s d, sparse3 m s -> ~ deriv (fun x => rnea m d (q x) v a k) (dotv (m_nv m) (xma (computeRNEADerivatives (1/1000) m s (q t) v a) P_dq k) w) t.
Proof.
  destruct (one_all JSphericalZYX (or_introl eq_refl)) as (B & V & N & RM & Q & HM & N2 & E & P & J & I0 & N3 & S1). set (m := one JSphericalZYX) in *.
  pose (q := fun (s : R) (k : nat) => if k =? 1 then s else 0%R).
  exists m, q, zeroV, (unitv 2), (unitv 1), 0%R, 0. assert (H2 : 0 < m_nv m) by (rewrite N3; lia).
  assert (D : depthFirst m). { intros i b c Hi Hc OP Hb. rewrite N2 in Hc. assert (i = 1 /\ b = 1 /\ c = 1) as (-> & -> & ->) by lia. exact OP. }
  assert (Hq : forall s, validState m (q s)) by exact pow_zyx.
  assert (Hm : moves m q (unitv 1) 0%R).
  { intros i k Hi Hk. rewrite N2 in Hi. replace i with 1 in * by lia. change (jm_type (joint m 1)) with (JSimple JSphericalZYX). change (idx_q m 1) with 0. rewrite I0. cbn [configRate configRate1]. unfold shift, q, unitv. cbn [Nat.add].
    destruct k as [|[|k]]; cbn [Nat.eqb]; [apply deriv_const | apply dl_id | apply deriv_const]. }
  repeat (split; [assumption|]). intros s d (S1' & S2' & S3') H.
  pose proof (Built_wf _ _ B) as W. pose proof (Built_tree _ _ B) as T.
  (* the matrix *)
  pose proof (rdPasses_done (1/1000) m B V N D RM (q 0%R) zeroV (unitv 2) None s (Hq 0%R)) as DD.
  assert (QZ : forall k, q 0%R k = 0%R) by (intros k; unfold q; destruct (k =? 1); reflexivity).
  assert (SA : forall x, jS (jointAt m (q x) noVel 1) = [mkV6 v3zero (mkV3 (- sin x) 0 (cos x)); mkV6 v3zero (mkV3 0 1 0); mkV6 v3zero (mkV3 1 0 0)]).
  { intros x. unfold jointAt. change (jm_type (joint m 1)) with (JSimple JSphericalZYX). change (idx_q m 1) with 0. cbn [jcalc jS calcS1]. unfold shift, q, angCol. cbn [Nat.add Nat.eqb]. rewrite sin_0, cos_0.
    repeat f_equal; ring. }
  assert (PZ : dotv (m_nv m) (xma (computeRNEADerivatives (1/1000) m s (q 0%R) zeroV (unitv 2)) P_dq 0) (unitv 1) = 0%R).
  { rewrite dotv_unit by (rewrite N3; lia). rewrite rd_dq. pose proof (done_q _ _ _ _ _ _ _ DD 1 0 1 1) as DQ. rewrite I0 in DQ. cbn [Nat.add] in DQ. rewrite DQ by (try (rewrite N2; lia); change (nvOf m 1) with 3; lia). clear DQ.
    change (anc m 1 1 || anc m 1 1) with true. cbv iota. unfold qEntry, common. rewrite N2. cbn [sumN]. change (parent m 1) with 0. change (anc m 1 0) with false. change (anc m 1 1) with true. cbn [andb].
    unfold cVq, cAq, cVq, worldCol. change (parent m 1) with 0. rewrite (worldVel_0 m W T), (wAgf_0 (1/1000) m B), !SA, sin_0, cos_0. cbn [nth].
    unfold worldInertia. rewrite E. assert (PW : worldPl m (q 0%R) 1 = se3_Identity).
    { unfold worldPl. rewrite S1. cbn [product]. unfold relPl, jointAt. change (placementOf m 1) with se3_Identity. change (jm_type (joint m 1)) with (JSimple JSphericalZYX). change (idx_q m 1) with 0. cbn [jcalc jM]. unfold calcM1, shift, q. cbn [Nat.add Nat.eqb]. rewrite sin_0, cos_0. apply se3_ext; [apply m3_ext|apply v3_ext]; cbn; ring. }
    rewrite PW. replace (motion_cross v6zero (motion_act se3_Identity (mkV6 v3zero (mkV3 0 1 0)))) with v6zero by sring. rewrite m6vec_0_r.
    change (m_gravity m) with (mkV6 (mkV3 0 0 (-981/100)) v3zero). unfold oneBody, inertia_act, motion_act, se3_Identity, inertia_mul, v6dot, v3dot. cbn. ring. }
  rewrite PZ in H. clear PZ DD S1' S2' S3'.
  (* the torque *)
  assert (BV : forall x u, bodyVel m (q x) u 1 = jointTwist m (q x) u 1).
  { intros x u. unfold bodyVel. rewrite S1. cbn [map sumV6]. rewrite motion_actInv_act by (apply (worldPl_rot m W T V); [apply Hq | rewrite N2; lia]). apply v6add_0_r. }
  assert (TQ : forall x, rnea m d (q x) zeroV (unitv 2) 0 = (- sin x)%R).
  { intros x. rewrite <- (dotv_unit _ 0 (rnea m d (q x) zeroV (unitv 2)) H2), (rnea_power m W T V d (q x) zeroV (unitv 2) (unitv 0) (Hq x)).
    unfold armaturePower, power, bodies. rewrite N2, N3. cbn [Nat.sub sumN]. unfold bodyForce. change zeroV with (fun _ : nat => 0%R). rewrite BV, (bodyVel_zero m), inertia_mul_0, E.
    unfold bodyAcc. rewrite S1. cbn [map sumV6]. rewrite motion_actInv_act by (apply (worldPl_rot m W T V); [apply Hq | rewrite N2; lia]).
    unfold jointAcc, jointTwist. rewrite BV. unfold jointTwist. rewrite SA, I0. cbn [Smul].
    unfold jointAt. change (jm_type (joint m 1)) with (JSimple JSphericalZYX). cbn [jcalc jc calcc1]. unfold gravityAt. change (m_gravity m) with (mkV6 (mkV3 0 0 (-981/100)) v3zero).
    generalize (worldPl m (q x) 1). intros [R p]. unfold shift, unitv, angCol. cbn [Nat.add Nat.eqb]. unfold oneBody, inertia_mul, v6dot, v3dot, motion_actInv. cbn. rewrite ?sin_0, ?cos_0. ring. }
  assert (HD : deriv (fun x => rnea m d (q x) zeroV (unitv 2) 0) (-1)%R 0%R).
  { apply (deriv_ext _ (fun x => - sin x)%R); [exact TQ|]. eapply deriv_eq; [apply (deriv_opp (fun x => sin x)); apply (deriv_sin (fun x => x)); apply dl_id|]. cbv beta. rewrite cos_0. ring. }
  pose proof (deriv_unique _ _ _ _ HD H). lra.
Qed.

(* ---- the overload with external forces and the caller's matrix ---- *)
Definition arm1 : Model := setGravityArmature (one JTranslation) (m_gravity (one JTranslation)) [1; 1; 1]%R.
Lemma rdExt_da eps m q v a s fext : xma (computeRNEADerivativesExt eps m s q v a fext) P_da = xma (rdPasses eps m q v a (Some fext) s) P_da.
Proof. reflexivity. Qed.
Lemma rdExt_armature_refuted : exists m q k, Built (1/1000) m /\ validModel m /\ noMimic m /\ depthFirst m /\ regularMasses (1/1000) m /\ validState m q /\ k < m_nv m /\
  forall s v a fext, treeSparse m (xma s P_da) -> xma (computeRNEADerivativesExt (1/1000) m s q v a fext) P_da k k <> massMatrix m q k k.
Proof.
  destruct (one_all JTranslation (or_intror eq_refl)) as (B & V & N & RM & Q & HM & N2 & E & P & J & I0 & N3 & S1).
  exists arm1, zeroV, 0. assert (H2 : 0 < m_nv arm1) by (change (m_nv arm1) with 3; lia).
  assert (B' : Built (1/1000) arm1).
  { destruct B as [l H]. exists l. refine (H_step (1/1000) (one JTranslation) arm1 l None H _). apply (S_set (1/1000) (one JTranslation) arm1 (m_gravity (one JTranslation)) [1; 1; 1]%R); reflexivity. }
  assert (D : depthFirst arm1). { intros i b c Hi Hc OP Hb. change (m_njoints arm1) with 2 in Hc. assert (i = 1 /\ b = 1 /\ c = 1) as (-> & -> & ->) by lia. exact OP. }
  split; [exact B'|]. split; [exact V|]. split; [exact N|]. split; [exact D|]. split; [exact RM|]. split; [exact Q|]. split; [exact H2|].
  intros s v a fext S. rewrite rdExt_da, (rd_upper (1/1000) arm1 B' V N D RM zeroV v a (Some fext) s 0 0 Q S ltac:(lia)). unfold massMatrix. cbn [Nat.eqb].
  change (nth 0 (m_armature arm1) 0%R) with 1%R. intros H. lra.
Qed.
