(* The derivatives of the gravity torques and of the static torques: the statements for the entry points, and where they fail. *)
Require Import Reals List Arith ZArith Lia Lra Bool.
From Verif Require Import Vec3 Spatial Inertia InertiaFacts SpatialFacts Joints Spec_Joints Deriv JointFacts JointFacts2 Model Spec_Model ModelFacts ModelTree ModelFacts2 ModelFacts3 Sums Data Kinematics Spec_Kin Spec_Mass KinFacts KinFacts2 KinFacts3 Spec_Dyn Rnea DynFacts DynFacts2 TreeSums MassFacts Crba CrbaFacts CrbaFacts2 CrbaFacts3 CrbaFacts4 Jacobian Spec_Jac JacFacts JacFacts2 JacFacts3 JacFacts5 Spec_Chol CholFacts4 Com ComFacts2 Dccrba DccrbaFacts DccrbaFacts2 DccrbaFacts3 DataX Coriolis DerSums CoriolisFacts CoriolisFacts2 CoriolisFacts3 CoriolisFacts4 RneaDer DerPass RneaDerFacts RneaDerFacts2 RneaDerFacts3 RneaDerFacts4 RneaDerFacts5 Spec_Deriv RneaDerFacts6 RneaDerFacts7.
Import ListNotations.
Local Open Scope nat_scope.
Local Open Scope bool_scope.

Section Fin.
Variable eps : R.
Variable m : Model.
Hypothesis Bt : Built eps m.
Let W : wellFormed m := Built_wf eps m Bt.
Let T : treeInv m := Built_tree eps m Bt.
Hypothesis Vm : validModel m.
Hypothesis NM : noMimic m.
Hypothesis Pos : noRigidJoint m.
Hypothesis DF : depthFirst m.
Hypothesis RM : regularMasses eps m.
Let zero : vec := fun _ => 0%R.

(* torques at rest *)
Definition restDyn (d : Data) (q : vec) (fext : option (nat -> Force)) : vec := match fext with None => computeGeneralizedGravity m d q | Some f => computeStaticTorque m d q f end.
Lemma rest_power d q fext u : validState m q -> dotv (m_nv m) (restDyn d q fext) u = power m q (fun i => v6sub (bodyForce m q zero zero i) (extOf fext i)) u.
Proof.
  intros Hq. destruct fext as [f|]; cbn [restDyn extOf].
  - rewrite (static_power m W T Vm d q f u Hq). apply bodies_ext'. intros b Hb. unfold zero. now rewrite (bodyForce_rest m W T Vm q b) by lia.
  - rewrite (gravity_power m W T Vm d q u Hq). apply bodies_ext'. intros b Hb. unfold zero. rewrite (bodyForce_rest m W T Vm q b) by lia. now rewrite v6sub_0_r.
Qed.
Lemma rest_invDyn d d' q fext k : validState m q -> k < m_nv m -> restDyn d q fext k = invDyn m d' q zero zero fext k.
Proof.
  intros Hq Hk. rewrite <- (dotv_unit _ k (restDyn d q fext) Hk), <- (dotv_unit _ k (invDyn m d' q zero zero fext) Hk), rest_power by exact Hq.
  rewrite (invDyn_power eps m Bt Vm d' q zero zero fext _ Hq). assert (Z : armaturePower m zero (unitv k) = 0%R) by (apply sumN_zero; intros; unfold zero; ring). rewrite Z. ring.
Qed.
Definition gdPasses X q fext s := downward m (gdBack eps m X) (upward m (gdFwd m q fext) (rdStart m s)).
Lemma gd_tau X q fext s d k : validState m q -> k < m_nv m -> ve (gl (bs (gdPasses X q fext s))) X k = restDyn d q fext k.
Proof.
  intros Hq Hk. rewrite (rest_invDyn d d q fext k Hq Hk). destruct (dof_owner m W k Hk) as (i & c & Hi & Hc & ->).
  rewrite (tau_dof eps m Bt Vm NM d q zero zero fext i c Hq Hi Hc). destruct (gd_passes eps m Bt Vm NM Pos DF RM X q fext s Hq) as (H & _). unfold gdPasses. rewrite (H i c Hi Hc). unfold zero. ring.
Qed.
Lemma gd_sparse X q fext s : validState m q -> treeSparse m (xma s P_dq) -> treeSparse m (xma (gdPasses X q fext s) P_dq).
Proof. intros Hq S. destruct (gd_passes eps m Bt Vm NM Pos DF RM X q fext s Hq) as (_ & H). exact (fills_sparse eps m Bt NM _ _ _ S H). Qed.
Section Diff.
Hypothesis FA : forall i, 0 < i < m_njoints m -> fixedAxes (jm_type (joint m i)).
Lemma gd_differential X s d fext (q : R -> vec) w t k : (forall s, validState m (q s)) -> moves m q w t -> treeSparse m (xma s P_dq) -> k < m_nv m ->
  deriv (fun x => restDyn d (q x) fext k) (dotv (m_nv m) (xma (gdPasses X (q t) fext s) P_dq k) w) t.
Proof.
  intros Hq Hm S1 Hk. pose (s0 := mkDX (bs s) (xco s) (fun _ _ _ => 0%R)).
  assert (Hz : accelerates m (fun _ => zero) zero t) by (intros l _; apply deriv_const).
  apply (deriv_ext _ (fun x => invDyn m d (q x) zero zero fext k)); [intros x; now apply rest_invDyn|].
  pose proof (rdPasses_done eps m Bt Vm NM DF RM (q t) zero zero fext s0 (Hq t)) as DD.
  eapply deriv_eq; [apply (invDyn_deriv eps m Bt Vm NM FA (xma (gdPasses X (q t) fext s) P_dq) (xma (rdPasses eps m (q t) zero zero fext s0) P_dv) d fext q (fun _ => zero) (fun _ => zero) w zero zero t k Hq Hm Hz Hz Hk)|].
  - destruct (gd_passes eps m Bt Vm NM Pos DF RM X (q t) fext s (Hq t)) as (_ & H). apply (fills_all eps m Bt NM _ _ _ S1); [|exact H]. intros i c j l Hi Hj A. now apply (qEntry_off eps m Bt).
  - apply (fills_all eps m Bt NM _ _ (xma s0 P_dv)); [intros k1 l1 _ _ _; reflexivity| |exact (done_v _ _ _ _ _ _ _ DD)]. intros i c j l Hi Hj A. now apply (vEntry_off eps m Bt).
  - assert (Z : forall E, dotv (m_nv m) E zero = 0%R) by (intros; apply sumN_zero; intros; unfold zero; ring). rewrite !Z. ring.
Qed.
Theorem gravity_differential s d (q : R -> vec) w t k : (forall s, validState m (q s)) -> moves m q w t -> treeSparse m (xma s P_dq) -> k < m_nv m ->
  deriv (fun x => computeGeneralizedGravity m d (q x) k) (dotv (m_nv m) (xma (computeGeneralizedGravityDerivatives eps m s (q t)) P_dq k) w) t.
Proof. exact (gd_differential F_g s d None q w t k). Qed.
Theorem static_differential s d fext (q : R -> vec) w t k : (forall s, validState m (q s)) -> moves m q w t -> treeSparse m (xma s P_dq) -> k < m_nv m ->
  deriv (fun x => computeStaticTorque m d (q x) fext k) (dotv (m_nv m) (xma (computeStaticTorqueDerivatives eps m s (q t) fext) P_dq k) w) t.
Proof. exact (gd_differential F_tau s d (Some fext) q w t k). Qed.
End Diff.
Theorem gravity_value s d q k : validState m q -> k < m_nv m -> ve (gl (bs (computeGeneralizedGravityDerivatives eps m s q))) F_g k = computeGeneralizedGravity m d q k.
Proof. exact (gd_tau F_g q None s d k). Qed.
Theorem static_value s d fext q k : validState m q -> k < m_nv m -> ve (gl (bs (computeStaticTorqueDerivatives eps m s q fext))) F_tau k = computeStaticTorque m d q fext k.
Proof. exact (gd_tau F_tau q (Some fext) s d k). Qed.
Theorem gravity_sparse s q : validState m q -> treeSparse m (xma s P_dq) -> treeSparse m (xma (computeGeneralizedGravityDerivatives eps m s q) P_dq).
Proof. exact (gd_sparse F_g q None s). Qed.
Theorem static_sparse s fext q : validState m q -> treeSparse m (xma s P_dq) -> treeSparse m (xma (computeStaticTorqueDerivatives eps m s q fext) P_dq).
Proof. exact (gd_sparse F_tau q (Some fext) s). Qed.
End Fin.

Lemma std_dq eps m s q fext : xma (computeStaticTorqueDerivatives eps m s q fext) P_dq = xma (downward m (gdBack eps m F_tau) (upward m (gdFwd m q (Some fext)) (rdStart m s))) P_dq.
Proof. reflexivity. Qed.
(* ---- joints whose axes move ---- *)
Lemma static_zyx_refuted : exists m (q : R -> vec) fext w t k, Built (1/1000) m /\ validModel m /\ noMimic m /\ noRigidJoint m /\ depthFirst m /\ regularMasses (1/1000) m /\ (forall s, validState m (q s)) /\ moves m q w t /\ k < m_nv m /\
  forall s d, treeSparse m (xma s P_dq) -> ~ deriv (fun x => computeStaticTorque m d (q x) fext k) (dotv (m_nv m) (xma (computeStaticTorqueDerivatives (1/1000) m s (q t) fext) P_dq k) w) t.
Proof.
  destruct (one_all JSphericalZYX (or_introl eq_refl)) as (B & V & N & RM & Q & HM & N2 & E & P & J & I0 & N3 & S1). set (m := one JSphericalZYX) in *.
  pose (q := fun (s : R) (k : nat) => if k =? 1 then s else 0%R). pose (fext := (fun _ => mkV6 v3zero (mkV3 1 0 0)) : nat -> Force).
  exists m, q, fext, (unitv 1), 0%R, 0. assert (H2 : 0 < m_nv m) by (rewrite N3; lia).
  assert (D : depthFirst m). { intros i b c Hi Hc OP Hb. rewrite N2 in Hc. assert (i = 1 /\ b = 1 /\ c = 1) as (-> & -> & ->) by lia. exact OP. }
  assert (Pos : noRigidJoint m). { intros i Hi. rewrite N2 in Hi. replace i with 1 by lia. cbn. lia. }
  assert (Hq : forall s, validState m (q s)) by exact pow_zyx.
  assert (Hm : moves m q (unitv 1) 0%R).
  { intros i k Hi Hk. rewrite N2 in Hi. replace i with 1 in * by lia. change (jm_type (joint m 1)) with (JSimple JSphericalZYX). change (idx_q m 1) with 0. rewrite I0. cbn [configRate configRate1]. unfold shift, q, unitv. cbn [Nat.add].
    destruct k as [|[|k]]; cbn [Nat.eqb]; [apply deriv_const | apply dl_id | apply deriv_const]. }
  repeat (split; [assumption|]). intros s d S H. 
  pose proof (Built_wf _ _ B) as W. pose proof (Built_tree _ _ B) as T.
  assert (SA : forall x, jS (jointAt m (q x) noVel 1) = [mkV6 v3zero (mkV3 (- sin x) 0 (cos x)); mkV6 v3zero (mkV3 0 1 0); mkV6 v3zero (mkV3 1 0 0)]).
  { intros x. unfold jointAt. change (jm_type (joint m 1)) with (JSimple JSphericalZYX). change (idx_q m 1) with 0. cbn [jcalc jS calcS1]. unfold shift, q, angCol. cbn [Nat.add Nat.eqb]. rewrite sin_0, cos_0.
    repeat f_equal; ring. }
  assert (PZ : dotv (m_nv m) (xma (computeStaticTorqueDerivatives (1/1000) m s (q 0%R) fext) P_dq 0) (unitv 1) = 0%R).
  { rewrite dotv_unit by (rewrite N3; lia). destruct (gd_passes (1/1000) m B V N Pos D RM F_tau (q 0%R) (@Some (nat -> Force) fext) s (Hq 0%R)) as (_ & DQ0). pose proof (DQ0 1 0 1 1) as DQ. clear DQ0. rewrite I0 in DQ. cbn [Nat.add] in DQ.
    rewrite std_dq, DQ by (try (rewrite N2; lia); change (nvOf m 1) with 3; lia). clear DQ.
    change (anc m 1 1 || anc m 1 1) with true. cbv iota. unfold qEntry, common. rewrite N2. cbn [sumN]. change (parent m 1) with 0. change (anc m 1 0) with false. change (anc m 1 1) with true. cbn [andb].
    unfold cVq, cAq, cVq, worldCol. change (parent m 1) with 0. rewrite (worldVel_0 m W T), (wAgf_0 (1/1000) m B), !SA, sin_0, cos_0. cbn [nth].
    unfold worldInertia. rewrite E. assert (PW : worldPl m (q 0%R) 1 = se3_Identity).
    { unfold worldPl. rewrite S1. cbn [product]. unfold relPl, jointAt. change (placementOf m 1) with se3_Identity. change (jm_type (joint m 1)) with (JSimple JSphericalZYX). change (idx_q m 1) with 0. cbn [jcalc jM]. unfold calcM1, shift, q. cbn [Nat.add Nat.eqb]. rewrite sin_0, cos_0. apply se3_ext; [apply m3_ext|apply v3_ext]; cbn; ring. }
    rewrite PW. replace (motion_cross v6zero (motion_act se3_Identity (mkV6 v3zero (mkV3 0 1 0)))) with v6zero by sring. rewrite m6vec_0_r.
    change (m_gravity m) with (mkV6 (mkV3 0 0 (-981/100)) v3zero). unfold oneBody, inertia_act, motion_act, se3_Identity, inertia_mul, v6dot, v3dot. cbn. ring. }
  rewrite PZ in H. clear PZ S.
  assert (BV : forall x u, bodyVel m (q x) u 1 = jointTwist m (q x) u 1).
  { intros x u. unfold bodyVel. rewrite S1. cbn [map sumV6]. rewrite motion_actInv_act by (apply (worldPl_rot m W T V); [apply Hq | rewrite N2; lia]). apply v6add_0_r. }
  assert (TQ : forall x, computeStaticTorque m d (q x) fext 0 = (sin x)%R).
  { intros x. rewrite <- (dotv_unit _ 0 (computeStaticTorque m d (q x) fext) H2), (static_power m W T V d (q x) fext (unitv 0) (Hq x)).
    unfold power, bodies. rewrite N2. cbn [Nat.sub sumN]. rewrite BV. unfold jointTwist. rewrite SA, I0. cbn [Smul].
    unfold weight, gravityAt. rewrite E. change (m_gravity m) with (mkV6 (mkV3 0 0 (-981/100)) v3zero).
    generalize (worldPl m (q x) 1). intros [R p]. unfold shift, unitv, fext. cbn [Nat.add Nat.eqb]. unfold oneBody, inertia_mul, v6dot, v3dot, motion_actInv. cbn. ring. }
  assert (HD : deriv (fun x => computeStaticTorque m d (q x) fext 0) 1%R 0%R).
  { apply (deriv_ext _ (fun x => sin x)%R); [exact TQ|]. eapply deriv_eq; [apply (deriv_sin (fun x => x)); apply dl_id|]. cbv beta. rewrite cos_0. ring. }
  pose proof (deriv_unique _ _ _ _ HD H). lra.
Qed.

(* an example of a variation *)
Lemma linear_accelerates m (u : vec) s : accelerates m (fun x k => x * u k)%R u s.
Proof. intros l _. eapply deriv_eq; [apply deriv_mult; [apply dl_id | apply deriv_const]|]. cbv beta. ring. Qed.
