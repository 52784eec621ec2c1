(* The theorems about constraints as stated, and a case that meets their hypotheses. *)
Require Import Reals List Arith Lia Lra Bool.
From Verif Require Import Vec3 Spatial Inertia Joints Spec_Joints Deriv Model Spec_Model ModelFacts ModelTree ModelFacts2 ModelFacts3 Sums Data Kinematics Spec_Kin Spec_Mass KinFacts KinFacts2 KinFacts3 TreeSums MassFacts Crba CrbaFacts CrbaFacts2 CrbaFacts3 CrbaFacts4 Jacobian Spec_Jac Spec_Reg Constraint Spec_Constraint ComFacts6 ConstraintFacts ConstraintFacts2 ConstraintFacts3.
Import ListNotations.
Local Open Scope nat_scope.
Local Open Scope bool_scope.

Section S.
Variable eps : R.
Variable m : Model.
Hypothesis Bt : Built eps m.
Hypothesis Vm : validModel m.
Hypothesis NM : noMimic m.
Theorem cj_points3 j1 p1 j2 p2 rf (q : R -> vec) v t d J : rf <> WORLD -> j1 < m_njoints m -> j2 < m_njoints m -> isRotation (rot p1) -> isRotation (rot p2) ->
  validState m (q t) -> moves m q v t -> pl (rows d 0) F_oMi = se3_Identity -> (forall r k, r < 3 -> J r k = 0%R) ->
  pointsSlide rf (fun s => se3_mul (worldPl m (q s) j1) p1) (fun s => se3_mul (worldPl m (q s) j2) p2)
    (rows3 (m_nv m) (getConstraintJacobian m (computeJointJacobians m d (q t)) (rcFill m CONTACT_3D j1 p1 j2 p2 rf) 0 J) 0 v) t.
Proof. intros Hr H1 H2 P1 P2 Hq Hm H0 HJ. exact (cj_points eps m Bt Vm NM CONTACT_3D j1 p1 j2 p2 rf Hr H1 H2 P1 P2 q v t (computeJointJacobians m d (q t)) J 0 Hq Hm (cjj_ready eps m Bt d (q t) H0) HJ eq_refl). Qed.
Theorem cj_frames6 j1 p1 j2 p2 rf (q : R -> vec) v t d J : rf <> WORLD -> j1 < m_njoints m -> j2 < m_njoints m -> isRotation (rot p1) -> isRotation (rot p2) ->
  validState m (q t) -> moves m q v t -> pl (rows d 0) F_oMi = se3_Identity -> (forall r k, r < 6 -> J r k = 0%R) ->
  framesSlide rf (fun s => se3_mul (worldPl m (q s) j1) p1) (fun s => se3_mul (worldPl m (q s) j2) p2)
    (rows6 (m_nv m) (getConstraintJacobian m (computeJointJacobians m d (q t)) (rcFill m CONTACT_6D j1 p1 j2 p2 rf) 0 J) 0 v) t.
Proof. intros Hr H1 H2 P1 P2 Hq Hm H0 HJ. exact (cj_frames eps m Bt Vm NM CONTACT_6D j1 p1 j2 p2 rf Hr H1 H2 P1 P2 q v t (computeJointJacobians m d (q t)) J 0 Hq Hm (cjj_ready eps m Bt d (q t) H0) HJ eq_refl). Qed.
Theorem pattern4 t j1 p1 j2 p2 rf i k : j1 < m_njoints m -> j2 < m_njoints m -> 0 < i < m_njoints m -> readsV m i k -> let c := rcFill m t j1 p1 j2 p2 rf in
  (rc_sparse c k = true <-> match t with CONTACT_3D => onPath m i j1 \/ onPath m i j2 | CONTACT_6D => onPath m i j1 /\ ~ onPath m i j2 \/ onPath m i j2 /\ ~ onPath m i j1 end) /\
  (In k (rc_span c) <-> rc_sparse c k = true) /\
  (In k (rc_loop c) <-> onPath m i j1 /\ ~ onPath m i j2 \/ onPath m i j2 /\ ~ onPath m i j1) /\
  (rc_sparse c k = false -> forall d b J r, getConstraintJacobian m d c b J r k = J r k).
Proof.
  intros H1 H2 Hi Hk. cbv zeta. destruct (pattern eps m Bt Vm NM t j1 p1 j2 p2 rf i k H1 H2 Hi Hk) as (A & B & C). split; [exact A|]. split; [exact B|]. split; [exact C|].
  intros E d b J r. unfold getConstraintJacobian. cbv zeta. rewrite putCols. set (c := rcFill m t j1 p1 j2 p2 rf) in *. destruct (inb k (rc_span c)) eqn:X; [|now rewrite andb_false_r].
  apply inb_In in X. apply B in X. congruence.
Qed.
Theorem constructor_ok t j1 p1 j2 p2 rf : j1 < m_njoints m -> j2 < m_njoints m ->
  (rf = WORLD -> rcInit m t j1 p1 j2 p2 rf = Throw tt) /\
  (rf <> WORLD -> canBuild m t j1 j2 ->
   exists c, rcInit m t j1 p1 j2 p2 rf = Ok tt c /\ (forall d b J, getConstraintJacobian m d c b J = getConstraintJacobian m d (rcFill m t j1 p1 j2 p2 rf) b J) /\
   rc_sparse c = rc_sparse (rcFill m t j1 p1 j2 p2 rf) /\ rc_loop c = rc_loop (rcFill m t j1 p1 j2 p2 rf) /\
   forall i, 0 < i < m_njoints m ->
     (In i (rc_js1 c) <-> onPath m i j1 /\ (t = CONTACT_6D -> ~ onPath m i j2)) /\ (In i (rc_js2 c) <-> onPath m i j2 /\ (t = CONTACT_6D -> ~ onPath m i j1))).
Proof. intros H1 H2. split; [intros ->; reflexivity|]. intros Hr HB. exact (init_ok eps m Bt Vm NM t j1 p1 j2 p2 rf Hr H1 H2 HB). Qed.
Theorem constructor_undef t j1 p1 j2 p2 rf : rf <> WORLD -> j1 < m_njoints m -> j2 < m_njoints m -> (~ canBuild m t j1 j2 -> rcInit m t j1 p1 j2 p2 rf = Undef) /\ rcInit m t j1 p1 0 p2 rf = Undef.
Proof. intros Hr H1 H2. split; [exact (init_undef eps m Bt Vm NM t j1 p1 j2 p2 rf Hr H1 H2) | exact (init_universe eps m Bt Vm NM t j1 p1 p2 rf Hr H1)]. Qed.
End S.
Definition exP : SE3 := mkSE3 (mkM3 0 (-1) 0 1 0 0 0 0 1) (mkV3 1 2 3).
Lemma exP_rot : isRotation (rot exP).
Proof. split; [unfold orthogonal, exP; cbn [rot]; vext; ring | unfold exP; cbn [rot]; vsimp; ring]. Qed.
Lemma exConstraint s : let m := exD (1/1000) in Built (1/1000) m /\ validModel m /\ noMimic m /\ LOCAL <> WORLD /\ 2 < m_njoints m /\ 3 < m_njoints m /\ isRotation (rot exP) /\
  validState m (exQ s) /\ moves m exQ (exV s) s /\ (exists d, pl (rows d 0) F_oMi = se3_Identity) /\ ~ onPath m 2 3 /\ ~ onPath m 3 2 /\ onPath m 1 2 /\ onPath m 1 3.
Proof.
  intros m. pose proof (exD_built (1/1000)) as B. fold m in B. pose proof (Built_tree _ _ B) as T. assert (N4 : m_njoints m = 4) by reflexivity.
  split; [exact B|]. split; [apply exD_valid|]. split; [apply exD_noMimic|]. split; [discriminate|]. split; [rewrite N4; lia|]. split; [rewrite N4; lia|]. split; [exact exP_rot|]. split; [apply exD_validState|]. split; [apply exD_moves|].
  split; [exists (newData m); apply newData_universe|]. rewrite <- !(anc_onPath m T) by (rewrite N4; lia). repeat split; try discriminate; reflexivity.
Qed.
