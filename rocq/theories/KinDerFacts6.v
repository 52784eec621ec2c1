(* The derivatives of the velocity and of the classical acceleration of a point. *)
Require Import Reals List Arith ZArith Lia Lra Bool.
From Verif Require Import Vec3 Spatial Inertia InertiaFacts SpatialFacts Joints Spec_Joints Deriv JointFacts JointFacts2 Model Spec_Model ModelFacts ModelTree ModelFacts2 Sums Data Kinematics Spec_Kin Spec_Mass KinFacts KinFacts2 KinFacts3 Spec_Dyn Rnea DynFacts DynFacts2 TreeSums MassFacts Crba CrbaFacts CrbaFacts2 Jacobian Spec_Jac JacFacts JacFacts2 JacFacts3 JacFacts4 JacFacts5 CholFacts4 Com ComFacts2 ComFacts3 Dccrba DccrbaFacts DccrbaFacts2 DataX CoriolisFacts2 RneaDerFacts3 KinDer KinDerFacts KinDerFacts2 KinDerFacts3 KinDerFacts5 Spec_KinDer.
Import ListNotations.
Local Open Scope nat_scope.
Local Open Scope bool_scope.

Lemma aligned_rotates PM x : isRotation (rot PM) -> lin (toFrame LOCAL_WORLD_ALIGNED PM x) = m3vec (rot PM) (lin (motion_actInv PM x)).
Proof. intros HR. cbn [toFrame lin]. unfold motion_actInv. cbn [lin]. symmetry. apply orthogonal_vec_tr, HR. Qed.
Lemma aligned_rotates_ang PM x : isRotation (rot PM) -> ang (toFrame LOCAL_WORLD_ALIGNED PM x) = m3vec (rot PM) (ang (motion_actInv PM x)).
Proof. intros HR. cbn [toFrame ang]. unfold motion_actInv. cbn [ang]. symmetry. apply orthogonal_vec_tr, HR. Qed.
(* a quantity moved to the frame P of the body, from the frame R of the joint *)
Lemma frame_move Rm P x : isRotation (rot Rm) -> isRotation (rot P) ->
  mkV6 (m3vec (rot Rm) (v3add (lin x) (v3cross (ang x) (trans P)))) (m3vec (rot Rm) (ang x)) = toFrame LOCAL_WORLD_ALIGNED (se3_mul Rm P) (motion_act Rm x).
Proof.
  intros HR HP. cbn [toFrame]. pose proof (rotation_cross (rot Rm) (ang x) (trans P) HR) as C. revert C. clear. intros C. rewrite m3vec_add_r, C. sring.
Qed.
Lemma deriv6_actInv M f f' t : deriv6 f f' t -> deriv6 (fun s => motion_actInv M (f s)) (motion_actInv M f') t.
Proof.
  intros [D1 D2]. split; cbn [motion_actInv lin ang].
  - eapply deriv3_eq; [apply (deriv3_vec (fun _ => m3tr (rot M))); [apply derivM3_const|]; apply deriv3_sub; [exact D1 | apply (deriv3_cross (fun _ => trans M)); [apply deriv3_const | exact D2]]|]. generalize (lin (f t)) (ang (f t)) (lin f') (ang f'). intros. vring.
  - eapply deriv3_eq; [apply (deriv3_vec (fun _ => m3tr (rot M))); [apply derivM3_const | exact D2]|]. generalize (ang (f t)) (ang f'). intros. vring.
Qed.

Section KD.
Variable eps : R.
Variable m : Model.
Hypothesis Bt : Built eps m.
Let W : wellFormed m := Built_wf eps m Bt.
Let T : treeInv m := Built_tree eps m Bt.
Hypothesis Vm : validModel m.
Hypothesis NM : noMimic m.
Hypothesis FA : forall i, 0 < i < m_njoints m -> fixedAxes (jm_type (joint m i)).
Variables (q v a : R -> vec) (w v' a' : vec) (t : R).
Hypothesis Hq : forall s, validState m (q s).
Hypothesis Hm : moves m q w t.
Hypothesis Hv : accelerates m v v' t.
Hypothesis Ha : accelerates m a a' t.
Variable j : nat.
Hypothesis Hj : 0 < j < m_njoints m.
Variable M : SE3.
Hypothesis HM : isRotation (rot M).
Let PM s := se3_mul (worldPl m (q s) j) M.
Let U s := motion_actInv (PM s) (worldVel m (q s) (v s) j).
Let B s := motion_actInv (PM s) (wAcc m (q s) (v s) (a s) j).
Let C s := classicAcceleration (U s) (B s).
Let HRs s : isRotation (rot (worldPl m (q s) j)) := worldPl_rot m W T Vm (q s) j (Hq s) (proj2 Hj).
Let HPM s : isRotation (rot (PM s)) := isRotation_mul _ _ (HRs s) HM.
Lemma U_body s : U s = motion_actInv M (bodyVel m (q s) (v s) j).
Proof. unfold U, PM. rewrite motion_actInv_mul by (assumption || apply HRs). unfold worldVel. now rewrite motion_actInv_act by (apply HRs). Qed.
Lemma B_body s : B s = motion_actInv M (bodyAcc m (q s) (v s) (a s) j).
Proof. unfold B, PM. rewrite motion_actInv_mul by (assumption || apply HRs). unfold wAcc. now rewrite motion_actInv_act by (apply HRs). Qed.
Lemma twistPM : hasTwist PM (motion_actInv (PM t) (worldVel m (q t) w j)) t.
Proof.
  eapply hasTwist_eq; [exact (frame_twist _ _ t M HM (hasTwist_b eps m Bt Vm q w t j (Hq t) Hm (proj2 Hj)))|].
  unfold PM. rewrite motion_actInv_mul by (assumption || apply HRs). unfold worldVel. now rewrite motion_actInv_act by (apply HRs).
Qed.
Lemma U_deriv : deriv6 U (v6add (motion_actInv (PM t) (sumT m q t (vqL m (q t) (v t)) w j)) (motion_actInv (PM t) (worldVel m (q t) v' j))) t.
Proof.
  eapply deriv6_ext; [exact U_body|]. eapply deriv6_eq; [exact (deriv6_actInv M _ _ t (vel_body_deriv eps m Bt Vm NM FA q v w v' t Hq Hm Hv j (proj2 Hj)))|].
  rewrite <- motion_actInv_mul by (assumption || apply HRs). fold (PM t). rewrite motion_actInv_add. f_equal. f_equal. symmetry. exact (worldVel_share m W T Vm (q t) v' j (Hq t) (proj2 Hj)).
Qed.
Lemma B_deriv : deriv6 B (v6add (v6add (motion_actInv (PM t) (sumT m q t (aqL m (q t) (v t) (a t) j) w j)) (motion_actInv (PM t) (sumT m q t (avT m (q t) (v t) j) v' j))) (motion_actInv (PM t) (worldVel m (q t) a' j))) t.
Proof.
  eapply deriv6_ext; [exact B_body|]. eapply deriv6_eq; [exact (deriv6_actInv M _ _ t (acc_body_deriv eps m Bt Vm NM FA q v a w v' a' t Hq Hm Hv Ha j (proj2 Hj)))|].
  rewrite <- motion_actInv_mul by (assumption || apply HRs). fold (PM t). rewrite !motion_actInv_add. f_equal. f_equal. symmetry. exact (worldVel_share m W T Vm (q t) a' j (Hq t) (proj2 Hj)).
Qed.
Lemma C_deriv U' B' : deriv6 U U' t -> deriv6 B B' t -> deriv3 C (v3add (lin B') (wxv (U t) U')) t.
Proof.
  intros [U1 U2] [B1 _]. unfold C, classicAcceleration. eapply deriv3_eq; [apply deriv3_add; [exact B1 | apply deriv3_cross; [exact U2 | exact U1]]|]. unfold wxv. generalize (U t). intros z. generalize (lin z) (ang z) (lin U') (ang U') (lin B'). clear. intros. vring.
Qed.
(* turning with the body *)
Lemma turn_deriv rf (f : R -> V3) f1 f2 : rf <> WORLD -> deriv3 f (v3add f1 f2) t ->
  deriv3 (fun s => match rf with LOCAL_WORLD_ALIGNED => m3vec (rot (PM s)) (f s) | _ => f s end)
    (v3add (turn' m (q t) j M rf f1 (f t) (worldVel m (q t) w j)) (turn m (q t) j M rf f2)) t.
Proof.
  intros Hrf D. destruct rf; [congruence | exact D|]. cbn [turn turn']. destruct twistPM as [H1 _]. eapply deriv3_eq; [apply deriv3_vec; [exact H1 | exact D]|].
  fold (PM t). rewrite m3vec_mul, skew_vec. generalize (rot (PM t)) (ang (motion_actInv (PM t) (worldVel m (q t) w j))) (f t). clear. intros. vring.
Qed.
Lemma turn_add q0 rf x y : turn m q0 j M rf (v3add x y) = v3add (turn m q0 j M rf x) (turn m q0 j M rf y).
Proof. destruct rf; cbn [turn]; [reflexivity | reflexivity | apply m3vec_add_r]. Qed.
Lemma point_velocity d s rf : rf <> WORLD -> lin (getFrameVelocity (forwardKinematics1 m d (q s) (v s)) j M rf) = match rf with LOCAL_WORLD_ALIGNED => m3vec (rot (PM s)) (lin (U s)) | _ => lin (U s) end.
Proof.
  intros Hrf. rewrite <- (frame_frame m W T Vm d (q s) (v s) j M rf (Hq s) Hj HM). fold (PM s). destruct rf; [congruence | reflexivity|]. apply aligned_rotates, HPM.
Qed.
Lemma point_classic d s rf : rf <> WORLD -> lin (getFrameClassicalAcceleration (forwardKinematics2 m d (q s) (v s) (a s)) j M rf) = match rf with LOCAL_WORLD_ALIGNED => m3vec (rot (PM s)) (C s) | _ => C s end.
Proof.
  intros Hrf. destruct (fk2_all m W T d (q s) (v s) (a s)) as (H1 & H2 & H3 & H4 & H5). destruct (acc_fk eps m Bt Vm q v a Hq j Hj d s) as [EA EP].
  assert (EV : mo (rows (forwardKinematics2 m d (q s) (v s) (a s)) j) F_v = bodyVel m (q s) (v s) j) by (apply (vel_body m W T Vm (q s) (v s)); auto; lia).
  unfold getFrameClassicalAcceleration, getFrameVelocity, getFrameAcceleration. rewrite EA, EP, EV. cbn [lin].
  destruct rf; [congruence| |]; unfold C, classicAcceleration.
  - rewrite U_body, B_body. reflexivity.
  - rewrite !frame_move by (assumption || apply HRs). fold (PM s). fold (worldVel m (q s) (v s) j) (wAcc m (q s) (v s) (a s) j). rewrite !aligned_rotates, aligned_rotates_ang by (apply HPM).
    fold (U s) (B s). rewrite m3vec_add_r, rotation_cross by (apply HPM). reflexivity.
Qed.
Theorem point_velocity_derivative d d0 rf a0 : rf <> WORLD -> exists Dq Dv, getPointVelocityDerivatives m (computeForwardKinematicsDerivatives m d (q t) (v t) a0) j M rf zeroJ3 zeroJ3 = Ok tt (Dq, Dv) /\
  deriv3 (fun s => lin (getFrameVelocity (forwardKinematics1 m d0 (q s) (v s)) j M rf)) (v3add (colsMul3 (m_nv m) Dq w) (colsMul3 (m_nv m) Dv v')) t.
Proof.
  intros Hrf. destruct (pvd_mul eps m Bt Vm NM (q t) (v t) a0 _ j M (Hq t) (fkd_ok eps m Bt Vm NM d (q t) (v t) a0 (Hq t)) Hj HM rf Hrf) as (Dq & Dv & E & Mu). exists Dq, Dv. split; [exact E|].
  destruct (Mu w) as [-> _]. destruct (Mu v') as [_ ->]. eapply deriv3_ext; [intros s; exact (point_velocity d0 s rf Hrf)|].
  exact (turn_deriv rf (fun s => lin (U s)) _ _ Hrf (proj1 U_deriv)).
Qed.
Theorem point_acceleration_derivative d d0 rf : rf <> WORLD -> exists D, getPointClassicAccelerationDerivatives m (computeForwardKinematicsDerivatives m d (q t) (v t) (a t)) j M rf zeroPAD = Ok tt D /\
  deriv3 (fun s => lin (getFrameClassicalAcceleration (forwardKinematics2 m d0 (q s) (v s) (a s)) j M rf)) (v3add (v3add (colsMul3 (m_nv m) (pd_aq D) w) (colsMul3 (m_nv m) (pd_av D) v')) (colsMul3 (m_nv m) (pd_aa D) a')) t /\
  deriv3 (fun s => lin (getFrameVelocity (forwardKinematics1 m d0 (q s) (v s)) j M rf)) (v3add (colsMul3 (m_nv m) (pd_vq D) w) (colsMul3 (m_nv m) (pd_aa D) v')) t.
Proof.
  intros Hrf. destruct (pad_mul eps m Bt Vm NM (q t) (v t) (a t) _ j M (Hq t) (fkd_ok eps m Bt Vm NM d (q t) (v t) (a t) (Hq t)) Hj HM rf Hrf) as (D & E & Mu). exists D. split; [exact E|].
  pose proof (Mu w) as (M1 & M2 & _). pose proof (Mu v') as (_ & _ & M3 & M3'). pose proof (Mu a') as (_ & _ & _ & M4). rewrite M1, M2, M3, M3', M4. split.
  - eapply deriv3_ext; [intros s; exact (point_classic d0 s rf Hrf)|].
    eapply deriv3_eq; [apply (turn_deriv rf C (v3add (lin (motion_actInv (PM t) (sumT m q t (aqL m (q t) (v t) (a t) j) w j))) (wxv (U t) (motion_actInv (PM t) (sumT m q t (vqL m (q t) (v t)) w j))))
       (v3add (v3add (lin (motion_actInv (PM t) (sumT m q t (avT m (q t) (v t) j) v' j))) (wxv (U t) (motion_actInv (PM t) (worldVel m (q t) v' j)))) (lin (motion_actInv (PM t) (worldVel m (q t) a' j)))) Hrf)|].
    + eapply deriv3_eq; [exact (C_deriv _ _ U_deriv B_deriv)|].
      generalize (U t) (motion_actInv (PM t) (sumT m q t (vqL m (q t) (v t)) w j)) (motion_actInv (PM t) (sumT m q t (avT m (q t) (v t) j) v' j)) (motion_actInv (PM t) (worldVel m (q t) v' j)) (motion_actInv (PM t) (sumT m q t (aqL m (q t) (v t) (a t) j) w j)) (motion_actInv (PM t) (worldVel m (q t) a' j)).
      clear. intros. unfold wxv. sring.
    + rewrite turn_add, v3add_assoc. reflexivity.
  - eapply deriv3_ext; [intros s; exact (point_velocity d0 s rf Hrf)|]. exact (turn_deriv rf (fun s => lin (U s)) _ _ Hrf (proj1 U_deriv)).
Qed.
End KD.
