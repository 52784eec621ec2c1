(* The LOCAL_WORLD_ALIGNED correction, and the failure for joints with several axes. *)
Require Import Reals List Arith ZArith Lia Lra Bool.
From Verif Require Import Vec3 Spatial Inertia InertiaFacts SpatialFacts Joints Spec_Joints Deriv JointFacts JointFacts2 Model Spec_Model ModelFacts ModelTree ModelFacts2 Sums Data Kinematics Spec_Kin Spec_Mass KinFacts KinFacts2 KinFacts3 Spec_Dyn Rnea DynFacts DynFacts2 TreeSums MassFacts Crba CrbaFacts CrbaFacts2 CrbaFacts3 CrbaFacts4 Jacobian Spec_Jac JacFacts JacFacts2 JacFacts3 JacFacts4 JacFacts5 CholFacts4 Com ComFacts2 ComFacts3 ComFacts6 Dccrba DccrbaFacts DccrbaFacts2 DccrbaFacts3 DataX CoriolisFacts2 RneaDerFacts3 KinDer KinDerFacts KinDerFacts2 KinDerFacts3 Spec_KinDer.
Import ListNotations.
Local Open Scope nat_scope.
Local Open Scope bool_scope.

Section KD.
Variable eps : R.
Variable m : Model.
Hypothesis Bt : Built eps m.
Let W : wellFormed m := Built_wf eps m Bt.
Let T : treeInv m := Built_tree eps m Bt.
Hypothesis Vm : validModel m.
Hypothesis NM : noMimic m.
Hypothesis FA : forall i, 0 < i < m_njoints m -> fixedAxes (jm_type (joint m i)).
Variables (q v a : R -> vec) (w v' a' : vec) (t : R).
Hypothesis Hq : forall s, validState m (q s).
Hypothesis Hm : moves m q w t.
Hypothesis Hv : accelerates m v v' t.
Hypothesis Ha : accelerates m a a' t.
Variable j : nat.
Hypothesis Hj : 0 < j < m_njoints m.
Let P := worldPl m (q t) j.
(* a quantity x given at the origin of the world, seen at the moving point p *)
Lemma seen_moving (p : R -> V3) p' x x' : deriv3 p p' t -> deriv6 (fun s => seenAt (p t) (x s)) x' t -> deriv6 x (mkV6 (v3add (lin x') (v3cross (p t) (ang x'))) (ang x')) t ->
  deriv6 (fun s => seenAt (p s) (x s)) (v6add x' (mkV6 (v3cross (ang (x t)) p') v3zero)) t.
Proof.
  intros Dp _ [Dl Da]. split.
  - cbn [lin seenAt]. eapply deriv3_eq; [apply deriv3_sub; [exact Dl | apply deriv3_cross; [exact Dp | exact Da]]|]. unfold v6add. cbn [lin ang]. generalize (p t) (x t) p' x'. clear. intros. vring.
  - eapply deriv3_eq; [exact Da|]. unfold v6add. cbn [ang]. generalize x'. clear. intros. vring.
Qed.
Lemma unseen p x x' : deriv6 (fun s => seenAt p (x s)) x' t -> deriv6 x (mkV6 (v3add (lin x') (v3cross p (ang x'))) (ang x')) t.
Proof.
  intros [Dl Da]. cbn [seenAt lin ang] in Dl, Da. split; [|exact Da]. cbn [lin].
  apply (deriv3_ext _ (fun s => v3add (v3sub (lin (x s)) (v3cross p (ang (x s)))) (v3cross p (ang (x s))))); [intros s; generalize (x s); intros; vring|].
  eapply deriv3_eq; [apply deriv3_add; [exact Dl | apply deriv3_cross; [apply (deriv3_const p) | exact Da]]|]. vring.
Qed.
Lemma origin_moves d : deriv3 (fun s => trans (worldPl m (q s) j)) (lin (getVelocity (forwardKinematics1 m d (q t) w) j LOCAL_WORLD_ALIGNED)) t.
Proof.
  destruct (hasTwist_b eps m Bt Vm q w t j (Hq t) Hm (proj2 Hj)) as [_ D]. eapply deriv3_eq; [exact D|].
  cbn [getVelocity lin]. destruct (fk1_vel m W d (q t) w) as (H0 & H1 & _). rewrite (vel_body m W T Vm (q t) w _ (Hq t) H0 H1) by lia. destruct (fk1_placed m W T d (q t) w j Hj) as [_ ->]. reflexivity.
Qed.
Lemma getV_seen d s : getVelocity (forwardKinematics1 m d (q s) (v s)) j LOCAL_WORLD_ALIGNED = seenAt (trans (worldPl m (q s) j)) (getVelocity (forwardKinematics1 m d (q s) (v s)) j WORLD).
Proof.
  rewrite !(vel_fk eps m Bt Vm q v Hq j Hj). reflexivity.
Qed.
Theorem velocity_aligned d d0 a0 : exists Dq Dv, getJointVelocityDerivatives m (computeForwardKinematicsDerivatives m d (q t) (v t) a0) j LOCAL_WORLD_ALIGNED zeroJ zeroJ = Ok tt (Dq, Dv) /\
  deriv6 (fun s => getVelocity (forwardKinematics1 m d0 (q s) (v s)) j LOCAL_WORLD_ALIGNED)
    (v6add (v6add (colsMul (m_nv m) Dq w) (colsMul (m_nv m) Dv v'))
           (mkV6 (v3cross (ang (getVelocity (forwardKinematics1 m d0 (q t) (v t)) j WORLD)) (lin (getVelocity (forwardKinematics1 m d0 (q t) w) j LOCAL_WORLD_ALIGNED))) v3zero)) t.
Proof.
  destruct (velocity_derivative eps m Bt Vm NM FA q v w v' t Hq Hm Hv j Hj d d0 LOCAL_WORLD_ALIGNED a0) as (Dq & Dv & E & D). exists Dq, Dv. split; [exact E|].
  eapply deriv6_ext; [intros s; apply getV_seen|]. exact (seen_moving _ _ _ _ (origin_moves d0) D (unseen _ _ _ D)).
Qed.
Lemma getA_seen d s : getAcceleration (forwardKinematics2 m d (q s) (v s) (a s)) j LOCAL_WORLD_ALIGNED = seenAt (trans (worldPl m (q s) j)) (getAcceleration (forwardKinematics2 m d (q s) (v s) (a s)) j WORLD).
Proof.
  cbn [getAcceleration]. destruct (acc_fk eps m Bt Vm q v a Hq j Hj d s) as [-> ->].
  unfold seenAt, rotateBoth. generalize (worldPl m (q s) j) (bodyAcc m (q s) (v s) (a s) j). clear. intros M x. sring.
Qed.
Theorem acceleration_aligned d d0 : commutingAxes m (q t) -> exists D, getJointAccelerationDerivatives m (computeForwardKinematicsDerivatives m d (q t) (v t) (a t)) j LOCAL_WORLD_ALIGNED zeroAD = Ok tt D /\
  deriv6 (fun s => getAcceleration (forwardKinematics2 m d0 (q s) (v s) (a s)) j LOCAL_WORLD_ALIGNED)
    (v6add (v6add (v6add (colsMul (m_nv m) (ad_aq D) w) (colsMul (m_nv m) (ad_av D) v')) (colsMul (m_nv m) (ad_aa D) a'))
           (mkV6 (v3cross (ang (getAcceleration (forwardKinematics2 m d0 (q t) (v t) (a t)) j WORLD)) (lin (getVelocity (forwardKinematics1 m d0 (q t) w) j LOCAL_WORLD_ALIGNED))) v3zero)) t.
Proof.
  intros C. destruct (acceleration_derivative eps m Bt Vm NM FA q v a w v' a' t Hq Hm Hv Ha j Hj d d0 LOCAL_WORLD_ALIGNED (or_intror C)) as (D & E & DA & _). exists D. split; [exact E|].
  eapply deriv6_ext; [intros s; apply getA_seen|]. exact (seen_moving _ _ _ _ (origin_moves d0) DA (unseen _ _ _ DA)).
Qed.
(* the code's derivative with respect to q and the right one differ by a double cross product *)
Lemma aq_error : (exists d d0 D, getJointAccelerationDerivatives m (computeForwardKinematicsDerivatives m d (q t) (v t) (a t)) j WORLD zeroAD = Ok tt D /\
  deriv6 (fun s => getAcceleration (forwardKinematics2 m d0 (q s) (v s) (a s)) j WORLD) (v6add (v6add (colsMul (m_nv m) (ad_aq D) w) (colsMul (m_nv m) (ad_av D) v')) (colsMul (m_nv m) (ad_aa D) a')) t) ->
  sumF (fun i => if 0 <? parent m i then motion_cross (v6sub (worldVel m (q t) (v t) (parent m i)) (worldVel m (q t) (v t) j)) (motion_cross (share m (q t) (v t) i) (share m (q t) w i)) else v6zero) (tl (support m j)) = v6zero.
Proof.
  intros (d & d0 & D & E & DA). pose proof (fkd_ok eps m Bt Vm NM d (q t) (v t) (a t) (Hq t)) as KO.
  destruct (jad_mul eps m Bt Vm NM (q t) (v t) (a t) _ j WORLD (Hq t) KO Hj) as (D' & E' & M). rewrite E in E'. injection E' as <-.
  pose proof (M w) as (_ & M2 & _). pose proof (M v') as (_ & _ & M3 & _). pose proof (M a') as (_ & _ & _ & M4). cbn [toFrame aqR] in M2, M3, M4. rewrite M2, M3, M4 in DA.
  pose proof (acc_world_deriv eps m Bt Vm NM FA q v a w v' a' t Hq Hm Hv Ha j (proj2 Hj)) as AW.
  assert (AW' : deriv6 (fun s => getAcceleration (forwardKinematics2 m d0 (q s) (v s) (a s)) j WORLD) (v6add (v6add (sumT m q t (aqT m (q t) (v t) (a t) j) w j) (sumT m q t (avT m (q t) (v t) j) v' j)) (sumT m q t (fun _ x => x) a' j)) t).
  { eapply deriv6_ext; [|exact AW]. intros s. cbn [getAcceleration]. destruct (acc_fk eps m Bt Vm q v a Hq j Hj d0 s) as [-> ->]. reflexivity. }
  pose proof (deriv6_unique _ _ _ _ DA AW') as EQ. unfold sumT in EQ. change (fun i => share m (q t) a' i) with (share m (q t) a') in EQ.
  set (X := sumF (fun i => aqC m (q t) (v t) (a t) j i (share m (q t) w i)) (tl (support m j))) in *. set (Y := sumF (fun i => aqT m (q t) (v t) (a t) j i (share m (q t) w i)) (tl (support m j))) in *.
  assert (XY : X = Y).
  { revert EQ. generalize (sumF (fun i => avT m (q t) (v t) j i (share m (q t) v' i)) (tl (support m j))) (sumF (share m (q t) a') (tl (support m j))). clearbody X Y. intros z y EQ.
    assert (H : v6sub (v6sub (v6add (v6add X z) y) y) z = v6sub (v6sub (v6add (v6add Y z) y) y) z) by (rewrite EQ; reflexivity).
    replace X with (v6sub (v6sub (v6add (v6add X z) y) y) z) by (clear; sring). rewrite H. clear. sring. }
  transitivity (v6sub X Y); [|rewrite XY; clear; generalize Y; sring]. unfold X, Y. rewrite <- sumF_sub. apply sumF_ext. intros i Hi. pose proof (tl_range m W T j (proj2 Hj) i Hi) as Hr.
  unfold aqC, aqT. destruct (Nat.ltb_spec 0 (parent m i)) as [H|H].
  - rewrite (worldVel_step m W T Vm (q t) (v t) i (Hq t) Hr). fold (share m (q t) (v t) i). sring.
  - replace (parent m i) with 0 by lia. rewrite (worldVel_0 m W T). sring.
Qed.
End KD.

(* exD, joint 2: a free-flyer carried by a revolute joint *)
Definition kdV : vec := fun k => match k with 4 => 1%R | _ => 0%R end.
Lemma const_accelerates m (u : vec) t : accelerates m (fun _ => u) (fun _ => 0%R) t.
Proof. intros k _. exact (deriv_const (u k) t). Qed.
Lemma exD_twist s u : jointTwist (exD (1/1000)) (exQ s) u 2 = mkV6 (mkV3 (u 1) (u 2) (u 3)) (mkV3 (u 4) (u 5) (u 6)).
Proof.
  unfold jointTwist, jointAt. destruct (exD_types (1/1000) 2 ltac:(lia)) as (-> & _ & ->). cbn [nth]. unfold shift. cbn. unfold shift. cbn [Nat.add]. unfold angCol, linCol. sring.
Qed.
Theorem acceleration_refuted s d d0 : let m := exD (1/1000) in ~ exists D, getJointAccelerationDerivatives m (computeForwardKinematicsDerivatives m d (exQ s) kdV (fun _ => 0%R)) 2 WORLD zeroAD = Ok tt D /\
  deriv6 (fun x => getAcceleration (forwardKinematics2 m d0 (exQ x) kdV (fun _ => 0%R)) 2 WORLD) (v6add (v6add (colsMul (m_nv m) (ad_aq D) (exV s)) (colsMul (m_nv m) (ad_av D) (fun _ => 0%R))) (colsMul (m_nv m) (ad_aa D) (fun _ => 0%R))) s.
Proof.
  cbv zeta. set (m := exD (1/1000)). intros (D & E & H).
  pose proof (exD_built (1/1000)) as Bt. fold m in Bt. assert (H2 : 0 < 2 < m_njoints m) by (split; [lia | change (m_njoints m) with 4; lia]).
  pose proof (aq_error (1/1000) m Bt (exD_valid _) (exD_noMimic _) (exD_fixed _) exQ (fun _ => kdV) (fun _ _ => 0%R) (exV s) (fun _ => 0%R) (fun _ => 0%R) s (exD_validState _) (exD_moves s) (const_accelerates m kdV s) (const_accelerates m (fun _ => 0%R) s) 2 H2) as Er.
  specialize (Er (ex_intro _ d (ex_intro _ d0 (ex_intro _ D (conj E H))))). clear E H D.
  change (tl (support m 2)) with [1; 2] in Er. unfold sumF in Er. cbn [map sumV6] in Er. change (parent m 1) with 0 in Er. change (parent m 2) with 1 in Er. cbn [Nat.ltb Nat.leb] in Er. rewrite v6add_0_r, v6add_0_l in Er.
  rewrite (worldVel_step m (Built_wf _ m Bt) (Built_tree _ m Bt) (exD_valid _) (exQ s) kdV 2 (exD_validState _ s) H2) in Er. change (parent m 2) with 1 in Er. fold (share m (exQ s) kdV 2) in Er.
  pose proof (worldPl_rot m (Built_wf _ m Bt) (Built_tree _ m Bt) (exD_valid _) (exQ s) 2 (exD_validState _ s) (proj2 H2)) as HR.
  assert (E1 : motion_cross (share m (exQ s) kdV 2) (motion_cross (share m (exQ s) kdV 2) (share m (exQ s) (exV s) 2)) = v6zero).
  { revert Er. generalize (worldVel m (exQ s) kdV 1) (share m (exQ s) kdV 2) (share m (exQ s) (exV s) 2). clear. intros x y z Er. rewrite <- (v6opp_0). rewrite <- Er. sring. }
  unfold share in E1. rewrite <- !motion_act_cross in E1 by exact HR. apply (f_equal (motion_actInv (worldPl m (exQ s) 2))) in E1. rewrite motion_actInv_act, motion_actInv_0 in E1 by exact (proj1 HR).
  unfold m in E1. rewrite !exD_twist in E1. apply (f_equal (fun x => vz (ang x))) in E1. cbn in E1. lra.
Qed.
