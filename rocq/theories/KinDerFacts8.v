(* Columns kept, and error cases. *)
Require Import Reals List Arith ZArith Lia Lra Bool.
From Verif Require Import Vec3 Spatial Inertia Joints Spec_Joints Deriv Model Spec_Model ModelFacts ModelTree ModelFacts2 ModelFacts3 Sums Data Kinematics Spec_Kin Spec_Mass KinFacts KinFacts3 MassFacts Crba CrbaFacts CrbaFacts2 Jacobian Spec_Jac JacFacts JacFacts2 JacFacts6 Com ComFacts3 DccrbaFacts DataX KinDer KinDerFacts KinDerFacts2 KinDerFacts3 KinDerFacts5 KinDerFacts7 Spec_KinDer.
Import ListNotations.
Local Open Scope nat_scope.
Local Open Scope bool_scope.

Section KD.
Variable eps : R.
Variable m : Model.
Hypothesis Bt : Built eps m.
Let W : wellFormed m := Built_wf eps m Bt.
Let T : treeInv m := Built_tree eps m Bt.
Hypothesis Vm : validModel m.
Hypothesis NM : noMimic m.

Lemma off_joint j i k : 0 < j < m_njoints m -> 0 < i < m_njoints m -> ~ onPath m i j -> columnOf m i k -> offPath m j k.
Proof.
  intros Hj Hi N C i' Hi'. destruct (within (idx_v m i') (nvOf m i') k) eqn:E; [|reflexivity]. exfalso. apply N.
  assert (E2 : within (idx_v m i) (nvOf m i) k = true) by (unfold columnOf in C; unfold within; apply andb_true_iff; split; [apply Nat.leb_le | apply Nat.ltb_lt]; lia).
  unfold columnOf in C.
  assert (Ri : 0 < i' < m_njoints m) by (pose proof (tail_range m W T j i' (proj2 Hj) Hi'); lia).
  pose proof (within_own m W NM i' i (k - idx_v m i) Ri Hi ltac:(lia)) as F.
  replace (idx_v m i + (k - idx_v m i)) with k in F by lia. rewrite E in F. symmetry in F. apply Nat.eqb_eq in F as <-. exact (proj2 (proj1 (tail_onPath eps m Bt i' j (proj2 Hj)) Hi')).
Qed.
Lemma jvd_kept q v a d j rf Vq Vv : validState m q -> 0 < j < m_njoints m -> exists Dq Dv,
  getJointVelocityDerivatives m (computeForwardKinematicsDerivatives m d q v a) j rf Vq Vv = Ok tt (Dq, Dv) /\
  forall i k, 0 < i < m_njoints m -> ~ onPath m i j -> columnOf m i k -> Dq k = Vq k /\ Dv k = Vv k.
Proof.
  intros Hq Hj. destruct (jvd_cols eps m Bt Vm NM q v a _ j rf Hq (fkd_ok eps m Bt Vm NM d q v a Hq) Hj Vq Vv) as (Dq & Dv & E & _ & O).
  exists Dq, Dv. split; [exact E|]. intros i k Hi N C. exact (O k (off_joint j i k Hj Hi N C)).
Qed.
Lemma jad_kept q v a d j rf A : validState m q -> 0 < j < m_njoints m -> exists D,
  getJointAccelerationDerivatives m (computeForwardKinematicsDerivatives m d q v a) j rf A = Ok tt D /\
  forall i k, 0 < i < m_njoints m -> ~ onPath m i j -> columnOf m i k -> ad_vq D k = ad_vq A k /\ ad_aq D k = ad_aq A k /\ ad_av D k = ad_av A k /\ ad_aa D k = ad_aa A k.
Proof.
  intros Hq Hj. destruct (jad_cols eps m Bt Vm NM q v a _ j rf Hq (fkd_ok eps m Bt Vm NM d q v a Hq) Hj A) as (D & E & _ & O).
  exists D. split; [exact E|]. intros i k Hi N C. exact (O k (off_joint j i k Hj Hi N C)).
Qed.
Lemma pvd_kept q v a d j M rf Vq Vv : validState m q -> 0 < j < m_njoints m -> isRotation (rot M) -> rf <> WORLD -> exists Dq Dv,
  getPointVelocityDerivatives m (computeForwardKinematicsDerivatives m d q v a) j M rf Vq Vv = Ok tt (Dq, Dv) /\
  forall i k, 0 < i < m_njoints m -> ~ onPath m i j -> columnOf m i k -> Dq k = Vq k /\ Dv k = Vv k.
Proof.
  intros Hq Hj HM NW. destruct (pvd_cols eps m Bt Vm NM q v a _ j M Hq (fkd_ok eps m Bt Vm NM d q v a Hq) Hj HM rf NW Vq Vv) as (Dq & Dv & E & _ & O).
  exists Dq, Dv. split; [exact E|]. intros i k Hi N C. exact (O k (off_joint j i k Hj Hi N C)).
Qed.
Lemma pad_kept q v a d j M rf A : validState m q -> 0 < j < m_njoints m -> isRotation (rot M) -> rf <> WORLD -> exists D,
  getPointClassicAccelerationDerivatives m (computeForwardKinematicsDerivatives m d q v a) j M rf A = Ok tt D /\
  forall i k, 0 < i < m_njoints m -> ~ onPath m i j -> columnOf m i k -> pd_vq D k = pd_vq A k /\ pd_aq D k = pd_aq A k /\ pd_av D k = pd_av A k /\ pd_aa D k = pd_aa A k.
Proof.
  intros Hq Hj HM NW. destruct (pad_cols eps m Bt Vm NM q v a _ j M Hq (fkd_ok eps m Bt Vm NM d q v a Hq) Hj HM rf NW A) as (D & E & _ & O).
  exists D. split; [exact E|]. intros i k Hi N C. exact (O k (off_joint j i k Hj Hi N C)).
Qed.
(* the columns of the joints that carry j do not depend on the content given by the caller *)
Lemma on_joint j i k : 0 < j < m_njoints m -> 0 < i -> onPath m i j -> columnOf m i k -> In i (tl (support m j)) /\ exists c, c < nvOf m i /\ k = idx_v m i + c.
Proof.
  intros Hj Hi N C. unfold columnOf in C. split; [apply (tail_onPath eps m Bt i j (proj2 Hj)); auto|]. exists (k - idx_v m i). lia.
Qed.
Lemma jvd_fresh q v a d j rf Vq Vv Dq Dv Dq0 Dv0 : validState m q -> 0 < j < m_njoints m -> rf <> LOCAL ->
  getJointVelocityDerivatives m (computeForwardKinematicsDerivatives m d q v a) j rf Vq Vv = Ok tt (Dq, Dv) ->
  getJointVelocityDerivatives m (computeForwardKinematicsDerivatives m d q v a) j rf zeroJ zeroJ = Ok tt (Dq0, Dv0) ->
  forall i k, 0 < i -> onPath m i j -> columnOf m i k -> Dq k = Dq0 k /\ Dv k = Dv0 k.
Proof.
  intros Hq Hj NL E1 E2 i k Hi N C. destruct (on_joint j i k Hj Hi N C) as (I & c & Hc & ->). pose proof (fkd_ok eps m Bt Vm NM d q v a Hq) as K.
  destruct (jvd_cols eps m Bt Vm NM q v a _ j rf Hq K Hj Vq Vv) as (x & y & F1 & C1 & _). destruct (jvd_cols eps m Bt Vm NM q v a _ j rf Hq K Hj zeroJ zeroJ) as (x' & y' & F2 & C2 & _).
  rewrite E1 in F1. rewrite E2 in F2. injection F1 as <- <-. injection F2 as <- <-. destruct (C1 i c I Hc) as [A1 A2], (C2 i c I Hc) as [B1 B2]. rewrite A1, A2, B1, B2. unfold wr. destruct rf; [split; reflexivity | contradiction | split; reflexivity].
Qed.
Lemma jad_fresh q v a d j rf A D D0 : validState m q -> 0 < j < m_njoints m -> rf <> LOCAL ->
  getJointAccelerationDerivatives m (computeForwardKinematicsDerivatives m d q v a) j rf A = Ok tt D ->
  getJointAccelerationDerivatives m (computeForwardKinematicsDerivatives m d q v a) j rf zeroAD = Ok tt D0 ->
  forall i k, 0 < i -> onPath m i j -> columnOf m i k -> ad_vq D k = ad_vq D0 k /\ ad_aq D k = ad_aq D0 k /\ ad_av D k = ad_av D0 k /\ ad_aa D k = ad_aa D0 k.
Proof.
  intros Hq Hj NL E1 E2 i k Hi N C. destruct (on_joint j i k Hj Hi N C) as (I & c & Hc & ->). pose proof (fkd_ok eps m Bt Vm NM d q v a Hq) as K.
  destruct (jad_cols eps m Bt Vm NM q v a _ j rf Hq K Hj A) as (x & F1 & C1 & _). destruct (jad_cols eps m Bt Vm NM q v a _ j rf Hq K Hj zeroAD) as (x' & F2 & C2 & _).
  rewrite E1 in F1. rewrite E2 in F2. injection F1 as <-. injection F2 as <-. destruct (C1 i c I Hc) as (A1 & A2 & A3 & A4), (C2 i c I Hc) as (B1 & B2 & B3 & B4). rewrite A1, A2, A3, A4, B1, B2, B3, B4. unfold wr.
  destruct rf; [repeat split; reflexivity | contradiction | repeat split; reflexivity].
Qed.
Lemma pvd_fresh q v a d j M rf Vq Vv Dq Dv Dq0 Dv0 : validState m q -> 0 < j < m_njoints m -> isRotation (rot M) -> rf <> WORLD ->
  getPointVelocityDerivatives m (computeForwardKinematicsDerivatives m d q v a) j M rf Vq Vv = Ok tt (Dq, Dv) ->
  getPointVelocityDerivatives m (computeForwardKinematicsDerivatives m d q v a) j M rf zeroJ3 zeroJ3 = Ok tt (Dq0, Dv0) ->
  forall i k, 0 < i -> onPath m i j -> columnOf m i k -> Dq k = Dq0 k /\ Dv k = Dv0 k.
Proof.
  intros Hq Hj HM NW E1 E2 i k Hi N C. destruct (on_joint j i k Hj Hi N C) as (I & c & Hc & ->). pose proof (fkd_ok eps m Bt Vm NM d q v a Hq) as K.
  destruct (pvd_cols eps m Bt Vm NM q v a _ j M Hq K Hj HM rf NW Vq Vv) as (x & y & F1 & C1 & _). destruct (pvd_cols eps m Bt Vm NM q v a _ j M Hq K Hj HM rf NW zeroJ3 zeroJ3) as (x' & y' & F2 & C2 & _).
  rewrite E1 in F1. rewrite E2 in F2. injection F1 as <- <-. injection F2 as <- <-. destruct (C1 i c I Hc) as [A1 A2], (C2 i c I Hc) as [B1 B2]. rewrite A1, A2, B1, B2. split; reflexivity.
Qed.
Lemma pad_fresh q v a d j M rf A D D0 : validState m q -> 0 < j < m_njoints m -> isRotation (rot M) -> rf <> WORLD ->
  getPointClassicAccelerationDerivatives m (computeForwardKinematicsDerivatives m d q v a) j M rf A = Ok tt D ->
  getPointClassicAccelerationDerivatives m (computeForwardKinematicsDerivatives m d q v a) j M rf zeroPAD = Ok tt D0 ->
  forall i k, 0 < i -> onPath m i j -> columnOf m i k -> pd_vq D k = pd_vq D0 k /\ pd_aq D k = pd_aq D0 k /\ pd_av D k = pd_av D0 k /\ pd_aa D k = pd_aa D0 k.
Proof.
  intros Hq Hj HM NW E1 E2 i k Hi N C. destruct (on_joint j i k Hj Hi N C) as (I & c & Hc & ->). pose proof (fkd_ok eps m Bt Vm NM d q v a Hq) as K.
  destruct (pad_cols eps m Bt Vm NM q v a _ j M Hq K Hj HM rf NW A) as (x & F1 & C1 & _). destruct (pad_cols eps m Bt Vm NM q v a _ j M Hq K Hj HM rf NW zeroPAD) as (x' & F2 & C2 & _).
  rewrite E1 in F1. rewrite E2 in F2. injection F1 as <-. injection F2 as <-. destruct (C1 i c I Hc) as (A1 & A2 & A3 & A4), (C2 i c I Hc) as (B1 & B2 & B3 & B4). rewrite A1, A2, A3, A4, B1, B2, B3, B4. repeat split; reflexivity.
Qed.
Section Fr.
Hypothesis Pos : noRigidJoint m.
Lemma fvd_kept q v a d j M rf Vq Vv : validState m q -> 0 < j < m_njoints m -> exists Dq Dv,
  getFrameVelocityDerivatives m (computeForwardKinematicsDerivatives m d q v a) j M rf Vq Vv = Ok tt (Dq, Dv) /\
  forall i k, 0 < i < m_njoints m -> ~ onPath m i j -> columnOf m i k -> Dq k = Vq k /\ Dv k = Vv k.
Proof.
  intros Hq Hj. destruct (jvd_kept q v a d j rf Vq Vv Hq Hj) as (Dq & Dv & E & O). unfold getFrameVelocityDerivatives. rewrite E.
  eexists _, _. split; [reflexivity|]. intros i k Hi N C. destruct (O i k Hi N C) as [<- <-]. pose proof (off_joint j i k Hj Hi N C) as F.
  split; apply (proj2 (reframe_cols eps m Bt Vm NM Pos j M rf _ Hj _) k F).
Qed.
Lemma fad_kept q v a d j M rf A : validState m q -> 0 < j < m_njoints m -> exists D,
  getFrameAccelerationDerivatives m (computeForwardKinematicsDerivatives m d q v a) j M rf A = Ok tt D /\
  forall i k, 0 < i < m_njoints m -> ~ onPath m i j -> columnOf m i k -> ad_vq D k = ad_vq A k /\ ad_aq D k = ad_aq A k /\ ad_av D k = ad_av A k /\ ad_aa D k = ad_aa A k.
Proof.
  intros Hq Hj. destruct (jad_kept q v a d j rf A Hq Hj) as (D & E & O). unfold getFrameAccelerationDerivatives. rewrite E.
  eexists. split; [reflexivity|]. intros i k Hi N C. destruct (O i k Hi N C) as (<- & <- & <- & <-). pose proof (off_joint j i k Hj Hi N C) as F. cbn [ad_vq ad_aq ad_av ad_aa].
  repeat split; apply (proj2 (reframe_cols eps m Bt Vm NM Pos j M rf _ Hj _) k F).
Qed.
End Fr.
End KD.
(* error cases *)
Lemma joints_throw m d j rf Vq Vv A : m_njoints m <= j ->
  getJointVelocityDerivatives m d j rf Vq Vv = Throw tt /\ getJointAccelerationDerivatives m d j rf A = Throw tt /\ getJointAccelerationDerivatives5 m d j rf A = Throw tt.
Proof. intros H. unfold getJointAccelerationDerivatives5, getJointVelocityDerivatives, getJointAccelerationDerivatives. apply Nat.ltb_ge in H. rewrite H. auto. Qed.
Lemma points_throw m d j M rf Vq Vv A : (m_njoints m <= j \/ rf = WORLD) <-> getPointVelocityDerivatives m d j M rf Vq Vv = Throw tt /\ getPointClassicAccelerationDerivatives m d j M rf A = Throw tt /\ getPointClassicAccelerationDerivatives5 m d j M rf A = Throw tt.
Proof.
  unfold getPointClassicAccelerationDerivatives5, getPointVelocityDerivatives, getPointClassicAccelerationDerivatives. split.
  - intros [H | ->]; [apply Nat.ltb_ge in H; rewrite H; auto | destruct (j <? m_njoints m); auto].
  - destruct (Nat.ltb_spec j (m_njoints m)) as [H|H]; [|auto]. destruct rf; intros (E & _); try discriminate; auto.
Qed.
Lemma joints_five m d j rf A D : getJointAccelerationDerivatives m d j rf A = Ok tt D -> getJointAccelerationDerivatives5 m d j rf A = Ok tt (D, ad_aa D).
Proof. intros H. unfold getJointAccelerationDerivatives5. now rewrite H. Qed.
Lemma points_five m d j M rf A D : getPointClassicAccelerationDerivatives m d j M rf A = Ok tt D -> getPointClassicAccelerationDerivatives5 m d j M rf A = Ok tt (D, pd_aa D).
Proof. intros H. unfold getPointClassicAccelerationDerivatives5. now rewrite H. Qed.
