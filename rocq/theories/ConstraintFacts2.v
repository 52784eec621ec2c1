(* The Jacobian of a constraint as a derivative, several constraints, and the construction of a constraint. *)
Require Import Reals List Arith ZArith Lia Lra Bool.
From Verif Require Import Vec3 Spatial Inertia InertiaFacts SpatialFacts Joints Spec_Joints Deriv JointFacts JointFacts2 Model Spec_Model ModelFacts ModelTree ModelFacts2 ModelFacts3 Sums Data Kinematics Spec_Kin Spec_Mass KinFacts KinFacts2 KinFacts3 Spec_Dyn Rnea DynFacts DynFacts2 TreeSums MassFacts Crba CrbaFacts AbaFacts Jacobian Spec_Jac JacFacts JacFacts2 JacFacts3 DccrbaFacts DerSums Spec_Reg RneaDerFacts3 LieDerFacts4 CentFacts Constraint Spec_Constraint ConstraintFacts.
Import ListNotations.
Local Open Scope nat_scope.
Local Open Scope bool_scope.

Lemma lwa_local M x : isRotation (rot M) -> toFrame LOCAL_WORLD_ALIGNED M x = mkV6 (m3vec (rot M) (lin (motion_actInv M x))) (m3vec (rot M) (ang (motion_actInv M x))).
Proof.
  intros HR. unfold motion_actInv. cbn [toFrame lin ang]. rewrite <- !m3vec_mul. replace (m3mul (rot M) (m3tr (rot M))) with m3id by (symmetry; apply orthogonal_right, HR). generalize (rot M) (trans M). clear. sring.
Qed.

Section C2.
Variable eps : R.
Variable m : Model.
Hypothesis Bt : Built eps m.
Let W : wellFormed m := Built_wf eps m Bt.
Let T : treeInv m := Built_tree eps m Bt.
Hypothesis Vm : validModel m.
Hypothesis NM : noMimic m.

Lemma cjj_ready d q : pl (rows d 0) F_oMi = se3_Identity -> jacReady m q (computeJointJacobians m d q).
Proof.
  intros H0. split; [apply (joints_cols m W T d q)|]. intros i Hi. destruct (Nat.eq_dec i 0) as [->|Hn].
  - destruct (upward_rowsG m (fk0Row m q) (crbaWCols m) d W) as (E & _). fold (computeJointJacobians m d q) in E. rewrite E, H0, (worldPl_0 m W T). reflexivity.
  - apply (joints_rows m W T d q i ltac:(lia)).
Qed.
Definition cPl (q : vec) (j : nat) (p : SE3) : SE3 := se3_mul (worldPl m q j) p.
Lemma cPl_twist (q : R -> vec) w t j p : validState m (q t) -> moves m q w t -> j < m_njoints m -> isRotation (rot p) ->
  isRotation (rot (cPl (q t) j p)) /\ hasTwist (fun s => cPl (q s) j p) (motion_actInv (cPl (q t) j p) (worldVel m (q t) w j)) t.
Proof.
  intros Hq Hm Hj Hp. pose proof (worldPl_rot m W T Vm (q t) j Hq Hj) as HR. split; [apply isRotation_mul; assumption|].
  eapply hasTwist_eq; [apply (frame_twist (fun s => worldPl m (q s) j) (bodyVel m (q t) w j)); [exact Hp|]|].
  - exact (hasTwist_b eps m Bt Vm q w t j Hq Hm Hj).
  - unfold cPl. rewrite motion_actInv_mul by assumption. f_equal. unfold worldVel. symmetry. apply motion_actInv_act, HR.
Qed.
Section At.
Variables (t : ContactType) (j1 : nat) (p1 : SE3) (j2 : nat) (p2 : SE3) (rf : RefFrame).
Hypothesis Hrf : rf <> WORLD.
Hypothesis Hj1 : j1 < m_njoints m.
Hypothesis Hj2 : j2 < m_njoints m.
Hypothesis Hp1 : isRotation (rot p1).
Hypothesis Hp2 : isRotation (rot p2).
Variables (q : R -> vec) (w : vec) (s : R) (d : Data) (J : Mat) (b : nat).
Hypothesis Hq : validState m (q s).
Hypothesis Hm : moves m q w s.
Hypothesis HD : jacReady m (q s) d.
Let c := rcFill m t j1 p1 j2 p2 rf.
Hypothesis HJ : forall r k, r < rc_size c -> J (b + r) k = 0%R.

Lemma rows_mul r : r < rc_size c -> dotv (m_nv m) (getConstraintJacobian m d c b J (b + r)) w =
  comp6 (v6sub (side1 t rf (cPl (q s) j1 p1) (worldVel m (q s) w j1)) (side2 t rf (cPl (q s) j1 p1) (cPl (q s) j2 p2) (worldVel m (q s) w j2))) r.
Proof. intros Hr. apply (cj_mul eps m Bt Vm NM t j1 p1 j2 p2 rf d (q s) w J b r Hrf Hj1 Hj2 HD Hq Hr). intros k. apply HJ, Hr. Qed.
Lemma rows3_mul : rows3 (m_nv m) (getConstraintJacobian m d c b J) b w =
  lin (v6sub (side1 t rf (cPl (q s) j1 p1) (worldVel m (q s) w j1)) (side2 t rf (cPl (q s) j1 p1) (cPl (q s) j2 p2) (worldVel m (q s) w j2))).
Proof.
  assert (HS : 3 <= rc_size c) by (unfold rc_size; destruct (rc_type c); lia). unfold rows3. rewrite <- (Nat.add_0_r b) at 2. rewrite !rows_mul by lia. apply v3_ext; reflexivity.
Qed.
Lemma rows6_mul : t = CONTACT_6D -> rows6 (m_nv m) (getConstraintJacobian m d c b J) b w =
  v6sub (side1 t rf (cPl (q s) j1 p1) (worldVel m (q s) w j1)) (side2 t rf (cPl (q s) j1 p1) (cPl (q s) j2 p2) (worldVel m (q s) w j2)).
Proof.
  intros E. assert (HS : rc_size c = 6) by (unfold rc_size, c; rewrite E; reflexivity). unfold rows6. rewrite rows3_mul. unfold rows3. rewrite <- !Nat.add_assoc. cbn [Nat.add]. rewrite !rows_mul by lia. apply v6_ext; apply v3_ext; reflexivity.
Qed.
Theorem cj_points : t = CONTACT_3D -> pointsSlide rf (fun u => cPl (q u) j1 p1) (fun u => cPl (q u) j2 p2) (rows3 (m_nv m) (getConstraintJacobian m d c b J) b w) s.
Proof.
  intros E. destruct (cPl_twist q w s j1 p1 Hq Hm Hj1 Hp1) as [R1 [_ T1]]. destruct (cPl_twist q w s j2 p2 Hq Hm Hj2 Hp2) as [R2 [_ T2]].
  eexists. split; [apply CentFacts.deriv3_sub; [exact T1 | exact T2]|]. rewrite rows3_mul, E. set (M1 := cPl (q s) j1 p1) in *. set (M2 := cPl (q s) j2 p2) in *. clearbody M1 M2. cbn [side1 side2 v6sub lin].
  destruct rf; [contradiction| |]; cbn [lin].
  - replace (m3vec (m3tr (rot M1)) (v3sub (m3vec (rot M1) (lin (motion_actInv M1 (worldVel m (q s) w j1)))) (m3vec (rot M2) (lin (motion_actInv M2 (worldVel m (q s) w j2))))))
      with (v3sub (m3vec (m3mul (m3tr (rot M1)) (rot M1)) (lin (motion_actInv M1 (worldVel m (q s) w j1)))) (m3vec (m3mul (m3tr (rot M1)) (rot M2)) (lin (motion_actInv M2 (worldVel m (q s) w j2)))))
      by (generalize (rot M1) (rot M2) (lin (motion_actInv M1 (worldVel m (q s) w j1))) (lin (motion_actInv M2 (worldVel m (q s) w j2))); clear; sring).
    replace (m3mul (m3tr (rot M1)) (rot M1)) with m3id by (symmetry; apply R1). cbn [toFrame]. unfold se3_actInv_se3. cbn [rot]. f_equal. generalize (lin (motion_actInv M1 (worldVel m (q s) w j1))). clear. sring.
  - rewrite !lwa_local by assumption. reflexivity.
Qed.
Theorem cj_frames : t = CONTACT_6D -> framesSlide rf (fun u => cPl (q u) j1 p1) (fun u => cPl (q u) j2 p2) (rows6 (m_nv m) (getConstraintJacobian m d c b J) b w) s.
Proof.
  intros E. destruct (cPl_twist q w s j1 p1 Hq Hm Hj1 Hp1) as [R1 T1]. destruct (cPl_twist q w s j2 p2 Hq Hm Hj2 Hp2) as [R2 T2].
  eexists. split; [apply (hasTwist_rel (fun u => cPl (q u) j2 p2) (fun u => cPl (q u) j1 p1) _ _ s R2 R1 T2 T1)|].
  rewrite (rows6_mul E), E. cbn [side1 side2]. set (M1 := cPl (q s) j1 p1) in *. set (M2 := cPl (q s) j2 p2) in *. clearbody M1 M2.
  assert (EM : M1 = se3_mul M2 (se3_actInv_se3 M2 M1)).
  { destruct M1 as [A p], M2 as [B r]. unfold se3_mul, se3_actInv_se3. cbn [rot trans] in *. rewrite <- m3vec_mul, m3mul_assoc. replace (m3mul B (m3tr B)) with m3id by (symmetry; apply orthogonal_right, R2). f_equal; [clear; sring | clear; sring]. }
  assert (R3 : isRotation (rot (se3_actInv_se3 M2 M1))) by (apply isRotation_mul; [apply isRotation_tr, R2 | exact R1]).
  rewrite <- (motion_actInv_mul M2 (se3_actInv_se3 M2 M1)), <- EM by assumption.
  destruct rf; [contradiction| |].
  - reflexivity.
  - rewrite !lwa_local by exact R1. generalize (motion_actInv M1 (worldVel m (q s) w j1)) (motion_actInv M1 (worldVel m (q s) w j2)) (rot M1). clear. intros x y A. apply v6_ext; apply v3_ext; cbn; ring.
Qed.
End At.
End C2.
