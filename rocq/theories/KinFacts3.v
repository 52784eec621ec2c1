Require Import Reals String List Arith Lia Lra.
From Verif Require Import Vec3 Spatial Inertia InertiaFacts Spec_Spatial SpatialFacts Joints Spec_Joints Deriv JointFacts JointFacts2 Model Spec_Model ModelFacts ModelTree ModelFacts2 ModelFacts3 Data Kinematics Spec_Kin KinFacts KinFacts2.
Import ListNotations.
Local Open Scope nat_scope.

(* ---- velocities and accelerations expressed in the three reference frames ---- *)
Lemma rf_velocity (d : Data) i p : isRotation (rot (oMiOf d i)) ->
  velocityAt (getVelocity d i WORLD) (se3_actPoint (oMiOf d i) p) = m3vec (rot (oMiOf d i)) (velocityAt (getVelocity d i LOCAL) p) /\
  ang (getVelocity d i WORLD) = m3vec (rot (oMiOf d i)) (ang (getVelocity d i LOCAL)) /\
  lin (getVelocity d i LOCAL_WORLD_ALIGNED) = velocityAt (getVelocity d i WORLD) (trans (oMiOf d i)) /\
  ang (getVelocity d i LOCAL_WORLD_ALIGNED) = ang (getVelocity d i WORLD).
Proof.
  intros H. unfold oMiOf in *. cbn [getVelocity]. split; [apply motion_act_field; exact H|]. split; [reflexivity|].
  split; [|reflexivity]. unfold rotateBoth, motion_act, velocityAt. cbn [lin ang].
  generalize (m3vec (rot (pl (rows d i) F_oMi)) (lin (mo (rows d i) F_v))) (m3vec (rot (pl (rows d i) F_oMi)) (ang (mo (rows d i) F_v))).
  intros; vring.
Qed.
Lemma rf_acceleration (d : Data) i p : isRotation (rot (oMiOf d i)) ->
  velocityAt (getAcceleration d i WORLD) (se3_actPoint (oMiOf d i) p) = m3vec (rot (oMiOf d i)) (velocityAt (getAcceleration d i LOCAL) p) /\
  ang (getAcceleration d i WORLD) = m3vec (rot (oMiOf d i)) (ang (getAcceleration d i LOCAL)) /\
  lin (getAcceleration d i LOCAL_WORLD_ALIGNED) = velocityAt (getAcceleration d i WORLD) (trans (oMiOf d i)) /\
  ang (getAcceleration d i LOCAL_WORLD_ALIGNED) = ang (getAcceleration d i WORLD).
Proof.
  intros H. unfold oMiOf in *. cbn [getAcceleration]. split; [apply motion_act_field; exact H|]. split; [reflexivity|].
  split; [|reflexivity]. unfold rotateBoth, motion_act, velocityAt. cbn [lin ang].
  generalize (m3vec (rot (pl (rows d i) F_oMi)) (lin (mo (rows d i) F_a))) (m3vec (rot (pl (rows d i) F_oMi)) (ang (mo (rows d i) F_a))).
  intros; vring.
Qed.

Section Facts.
Variables (eps : R) (m : Model).
Hypothesis B : Built eps m.
Let W : wellFormed m := Built_wf eps m B.
Let T : treeInv m := Built_tree eps m B.

Lemma fk_rot (d : Data) (q v a : vec) i : validModel m -> validState m q -> 0 < i < m_njoints m ->
  isRotation (rot (oMiOf (forwardKinematics1 m d q v) i)) /\ isRotation (rot (oMiOf (forwardKinematics2 m d q v a) i)).
Proof.
  intros V Hq Hi. destruct (fk_placement eps m B d q v a i Hi) as (_ & -> & ->).
  split; apply (worldPl_rot m W T V q i Hq); lia.
Qed.

Lemma fk_frames (d : Data) (q v a : vec) i p : validModel m -> validState m q -> 0 < i < m_njoints m ->
  let d := forwardKinematics2 m d q v a in
  let M := oMiOf d i in
  (velocityAt (getVelocity d i WORLD) (se3_actPoint M p) = m3vec (rot M) (velocityAt (getVelocity d i LOCAL) p) /\
   ang (getVelocity d i WORLD) = m3vec (rot M) (ang (getVelocity d i LOCAL)) /\
   lin (getVelocity d i LOCAL_WORLD_ALIGNED) = velocityAt (getVelocity d i WORLD) (trans M) /\
   ang (getVelocity d i LOCAL_WORLD_ALIGNED) = ang (getVelocity d i WORLD)) /\
  (velocityAt (getAcceleration d i WORLD) (se3_actPoint M p) = m3vec (rot M) (velocityAt (getAcceleration d i LOCAL) p) /\
   ang (getAcceleration d i WORLD) = m3vec (rot M) (ang (getAcceleration d i LOCAL)) /\
   lin (getAcceleration d i LOCAL_WORLD_ALIGNED) = velocityAt (getAcceleration d i WORLD) (trans M) /\
   ang (getAcceleration d i LOCAL_WORLD_ALIGNED) = ang (getAcceleration d i WORLD)).
Proof.
  intros V Hq Hi. cbv zeta. split; [apply rf_velocity | apply rf_acceleration]; apply (fk_rot d q v a i V Hq Hi).
Qed.

(* ---- frames ---- *)
(* a frame rigidly attached to joint j by the placement P *)
Lemma frame_all (d d0 d1 : Data) (q v : R -> vec) (a : vec) t j P : validModel m -> (forall s, validState m (q s)) ->
  (forall s, moves m q (v s) s) -> accelerates m v a t -> 0 < j < m_njoints m -> isRotation (rot P) ->
  let frame := fun s => se3_mul (oMiOf (forwardKinematics0 m d0 (q s)) j) P in
  let vel := fun s rf => getFrameVelocity (forwardKinematics1 m d1 (q s) (v s)) j P rf in
  let dd := forwardKinematics2 m d (q t) (v t) a in
  hasTwist frame (vel t LOCAL) t /\
  deriv6 (fun s => vel s LOCAL) (getFrameAcceleration dd j P LOCAL) t /\
  deriv3 (fun s => trans (frame s)) (lin (vel t LOCAL_WORLD_ALIGNED)) t /\
  deriv3 (fun s => lin (vel s LOCAL_WORLD_ALIGNED)) (lin (getFrameClassicalAcceleration dd j P LOCAL_WORLD_ALIGNED)) t /\
  deriv3 (fun s => ang (vel s LOCAL_WORLD_ALIGNED)) (ang (getFrameClassicalAcceleration dd j P LOCAL_WORLD_ALIGNED)) t /\
  m3vec (rot (frame t)) (lin (getFrameClassicalAcceleration dd j P LOCAL)) = lin (getFrameClassicalAcceleration dd j P LOCAL_WORLD_ALIGNED) /\
  m3vec (rot (frame t)) (ang (getFrameClassicalAcceleration dd j P LOCAL)) = ang (getFrameClassicalAcceleration dd j P LOCAL_WORLD_ALIGNED).
Proof.
  intros V Hq Hm Ha Hj HP. cbv zeta.
  pose proof (fun s => proj1 (fk_twist eps m B d1 d0 q (v s) a s j V (Hq s) (Hm s) Hj)) as Tw.
  pose proof (fk_acc eps m B d d1 q v a t j V Hq (Hm t) Ha ltac:(lia)) as Ac.
  pose proof (fun s => fk_placement eps m B d0 (q s) (v s) a j Hj) as E0.
  pose proof (fun s => fk_placement eps m B d1 (q s) (v s) a j Hj) as E1.
  pose proof (fk_placement eps m B d (q t) (v t) a j Hj) as E2.
  assert (HR : isRotation (rot (worldPl m (q t) j))) by (apply (worldPl_rot m W T V (q t) j (Hq t)); lia).
  assert (EV : mo (rows (forwardKinematics1 m d1 (q t) (v t)) j) F_v = mo (rows (forwardKinematics2 m d (q t) (v t) a) j) F_v).
  { destruct (fk_vel eps m B d1 (q t) (v t) a j V (Hq t) ltac:(lia)) as [X _].
    destruct (fk_vel eps m B d (q t) (v t) a j V (Hq t) ltac:(lia)) as [_ Y]. cbn [getVelocity] in X, Y. congruence. }
  assert (Tw' : forall s, hasTwist (fun s => worldPl m (q s) j) (mo (rows (forwardKinematics1 m d1 (q s) (v s)) j) F_v) s).
  { intros s. eapply hasTwist_ext; [|exact (Tw s)]. intros u. symmetry. apply E0. }
  assert (EF : forall s, se3_mul (oMiOf (forwardKinematics0 m d0 (q s)) j) P = se3_mul (worldPl m (q s) j) P).
  { intros s. now rewrite (proj1 (E0 s)). }
  assert (EO1 : forall s, pl (rows (forwardKinematics1 m d1 (q s) (v s)) j) F_oMi = worldPl m (q s) j) by (intros s; apply E1).
  assert (EO2 : pl (rows (forwardKinematics2 m d (q t) (v t) a) j) F_oMi = worldPl m (q t) j) by apply E2.
  split; [|split; [|split; [|split; [|split; [|split]]]]].
  - cbn [getFrameVelocity]. eapply hasTwist_ext; [exact EF|]. apply frame_twist; [exact HP | exact (Tw' t)].
  - cbn [getFrameVelocity getFrameAcceleration getVelocity getAcceleration] in *.
    eapply deriv6_eq; [apply (deriv_actInv (fun _ => P)); [exact HP | apply hasTwist_const | exact Ac]|].
    cbv beta. sring.
  - cbn [getFrameVelocity lin]. rewrite EO1.
    eapply deriv3_ext; [|exact (point_vel (fun s => worldPl m (q s) j) _ t (trans P) (Tw' t))].
    intros s. rewrite EF. unfold se3_mul, se3_actPoint. cbn [trans]. apply v3add_comm.
  - cbn [getFrameVelocity lin].
    eapply deriv3_ext; [intros s; rewrite EO1; reflexivity|].
    eapply deriv3_eq; [exact (point_acc (fun s => worldPl m (q s) j) _ _ t (trans P) (Tw' t) Ac)|].
    cbn [getFrameClassicalAcceleration getFrameAcceleration getFrameVelocity lin ang getAcceleration]. rewrite EO2.
    rewrite <- rotation_cross by exact HR. rewrite <- m3vec_add_r. cbn [getVelocity]. now rewrite EV.
  - cbn [getFrameVelocity ang]. eapply deriv3_ext; [intros s; rewrite EO1; reflexivity|].
    cbn [getFrameClassicalAcceleration getFrameAcceleration ang]. rewrite EO2.
    destruct Ac as [_ A2]. destruct (Tw' t) as [T1 _]. cbn [getVelocity getAcceleration] in A2.
    eapply deriv3_eq; [apply deriv3_vec; [exact T1 | exact A2]|].
    cbv beta. rewrite m3vec_mul, skew_vec, v3cross_self, m3vec_0. apply v3add_0_l.
  - rewrite (EF t). cbn [getFrameClassicalAcceleration getFrameAcceleration getFrameVelocity lin ang].
    rewrite EO2. cbn [se3_mul rot].
    rewrite m3vec_mul. unfold motion_actInv. cbn [lin ang].
    rewrite rot_cross_tr by exact HP. rewrite <- m3vec_add_r, <- (m3vec_mul (rot P)).
    rewrite (orthogonal_right _ (proj1 HP)), m3vec_1. rewrite <- rotation_cross by exact HR. rewrite <- m3vec_add_r. f_equal.
    generalize (mo (rows (forwardKinematics2 m d (q t) (v t) a) j) F_a) (mo (rows (forwardKinematics2 m d (q t) (v t) a) j) F_v). intros; sring.
  - rewrite (EF t). cbn [getFrameClassicalAcceleration getFrameAcceleration getFrameVelocity lin ang].
    rewrite EO2. cbn [se3_mul rot]. rewrite m3vec_mul. unfold motion_actInv. cbn [ang].
    rewrite <- (m3vec_mul (rot P)). now rewrite (orthogonal_right _ (proj1 HP)), m3vec_1.
Qed.
End Facts.

(* relative placements after forward kinematics on a data whose universe is at the origin *)
Lemma fk_relative eps m (d : Data) (q : vec) i j : Built eps m -> validModel m -> validState m q ->
  pl (rows d 0) F_oMi = se3_Identity -> i < m_njoints m -> j < m_njoints m ->
  let d' := forwardKinematics0 m d q in
  exists M Mi, (forall c, getRelativePlacement m d' i j c = Ok tt M) /\ (forall c, getRelativePlacement m d' j i c = Ok tt Mi) /\ se3_mul (worldPl m q i) M = worldPl m q j /\ se3_mul M Mi = se3_Identity.
Proof.
  intros B V Hq H0 Hi Hj d'. pose proof (Built_wf eps m B) as W. pose proof (Built_tree eps m B) as T.
  assert (Hp : placed m q d') by apply (fk0_placed m W T d q).
  assert (H0' : pl (rows d' 0) F_oMi = se3_Identity).
  { destruct (upward_rows m (fk0Row m q) d W) as (_ & E & _). unfold d', forwardKinematics0. rewrite E. exact H0. }
  destruct (relative_placement eps m B d' q i j V Hq Hp H0' Hi Hj) as (M & A1 & A2 & EM).
  destruct (relative_placement eps m B d' q j i V Hq Hp H0' Hj Hi) as (M' & A1' & A2' & EM').
  exists M, M'. split; [intros []; assumption|]. split; [intros []; assumption|].
  pose proof (worldPl_rot m W T V q i Hq Hi) as Ri. pose proof (worldPl_rot m W T V q j Hq Hj) as Rj.
  assert (X : forall A Bm, isRotation (rot A) -> se3_mul A (se3_actInv_se3 A Bm) = Bm).
  { clear. intros A Bm H. unfold se3_mul, se3_actInv_se3. cbn [rot trans].
    rewrite m3mul_assoc, (orthogonal_right _ (proj1 H)), m3mul_1_l, <- m3vec_mul, (orthogonal_right _ (proj1 H)), m3vec_1.
    destruct Bm as [RB pB], A as [RA pA]. cbn [rot trans]. f_equal. vring. }
  split; [rewrite EM; apply X; exact Ri|].
  rewrite EM, EM'. clear - Ri Rj. revert Ri Rj. generalize (worldPl m q i) (worldPl m q j). intros A Bm HA HB.
  unfold se3_mul, se3_actInv_se3, se3_Identity. cbn [rot trans].
  f_equal.
  - rewrite <- m3mul_assoc, (m3mul_assoc (rot Bm)), (orthogonal_right _ (proj1 HB)), m3mul_1_l. apply HA.
  - rewrite <- m3vec_mul, <- m3mul_assoc, (orthogonal_right _ (proj1 HB)), m3mul_1_r.
    rewrite <- m3vec_add_r. replace (v3add (v3sub (trans Bm) (trans A)) (v3sub (trans A) (trans Bm))) with v3zero by vring. apply m3vec_0.
Qed.
Lemma newData_universe m : pl (rows (newData m) 0) F_oMi = se3_Identity. Proof. reflexivity. Qed.

(* ---- a motion of the example tree: the revolute joint accelerates, the free flyer spins about its z axis ---- *)
Definition exQ (s : R) : vec := fun k => match k with
  | 0 => (s * s / 2)%R | 6 => sin (s / 2) | 7 => cos (s / 2) | 11 => 1%R | _ => 0%R end.
Definition exV (s : R) : vec := fun k => match k with 0 => s | 6 => 1%R | _ => 0%R end.
Definition exA : vec := fun k => match k with 0 => 1%R | _ => 0%R end.
Lemma exTree_types eps : (forall i, 0 < i < 5 -> jm_type (joint (exTree eps) i) = nth i [JSimple (JRevolute 2); JSimple (JRevolute 2); JSimple JFreeFlyer; JSimple JSpherical; JMimic (JRevolute 2) 2 1] (JSimple (JRevolute 2)) /\
  idx_q (exTree eps) i = nth i [0; 0; 1; 8; 0] 0 /\ idx_v (exTree eps) i = nth i [0; 0; 1; 7; 0] 0).
Proof. intros i Hi. destruct i as [|[|[|[|[|i]]]]]; try lia; split; try split; reflexivity. Qed.
Lemma exQ_valid eps s : validState (exTree eps) (exQ s).
Proof.
  intros i Hi. change (m_njoints (exTree eps)) with 5 in Hi. destruct (exTree_types eps i Hi) as (-> & -> & _).
  destruct i as [|[|[|[|[|i]]]]]; try lia; cbn [nth validConfig validConfig1]; try exact I; unfold shift; cbn [Nat.add exQ]; try (split; exact I); try ring.
  pose proof (sin2_cos2 (s / 2)) as H. unfold Rsqr in H. lra.
Qed.
Lemma exQ_moves eps s : moves (exTree eps) exQ (exV s) s.
Proof.
  intros i k Hi Hk. change (m_njoints (exTree eps)) with 5 in Hi.
  assert (Hid : deriv (fun s => s) 1 s) by (apply derivable_pt_lim_id).
  assert (H2 : deriv (fun s => s / 2)%R (1 / 2) s).
  { eapply deriv_eq; [apply (deriv_mult (fun s => s) (fun _ => / 2)%R); [exact Hid | apply deriv_const]|]. cbv beta. field. }
  assert (Hq : deriv (fun s => s * s / 2)%R s s).
  { eapply deriv_eq; [apply (deriv_mult (fun s => s * s)%R (fun _ => / 2)%R); [apply deriv_mult; exact Hid | apply deriv_const]|]. cbv beta. field. }
  destruct (exTree_types eps i Hi) as (E1 & E2 & E3). rewrite E1, E2, E3 in *. clear E1 E2 E3.
  destruct i as [|[|[|[|[|i]]]]]; try lia; cbn [nth readsQ jnq nq1] in *; 
  [ destruct k as [|k]; [|lia]
  | destruct k as [|[|[|[|[|[|[|k]]]]]]]; try lia
  | destruct k as [|[|[|[|k]]]]; try lia
  | destruct k as [|k]; [|lia] ];
  cbn; unfold shift; cbn; try exact Hq; unfold quatRotate;
  try (eapply deriv_eq; [first [apply deriv_const | apply deriv_sin; exact H2 | apply deriv_cos; exact H2] | cbn; field]).
Qed.
Lemma exQ_accelerates eps t : accelerates (exTree eps) exV exA t.
Proof.
  intros k _. destruct k as [|[|[|[|[|[|[|k]]]]]]]; cbn; try apply deriv_const. apply derivable_pt_lim_id.
Qed.
Lemma exKin eps t : Built eps (exTree eps) /\ validModel (exTree eps) /\ (forall s, validState (exTree eps) (exQ s)) /\
  (forall s, moves (exTree eps) exQ (exV s) s) /\ accelerates (exTree eps) exV exA t /\ 0 < 4 < m_njoints (exTree eps).
Proof.
  split; [apply exTree_built|]. split; [apply exTree_valid|]. split; [apply exQ_valid|]. split; [apply exQ_moves|].
  split; [apply exQ_accelerates|]. cbn. lia.
Qed.
Lemma exTree_frame eps : 0 < 1 < m_nframes (exTree eps) /\ fr_parentJoint (frameAt (exTree eps) 1) = 4.
Proof. split; [cbn; lia | reflexivity]. Qed.
Lemma frame_single m d f g :
  oMf (gl (updateFramePlacement m d f)) f = se3_mul (pl (rows d (fr_parentJoint (frameAt m f))) F_oMi) (fr_placement (frameAt m f)) /\
  (g <> f -> oMf (gl (updateFramePlacement m d f)) g = oMf (gl d) g).
Proof. unfold updateFramePlacement. mem. split; [apply putn_same | intros H; apply putn_other; congruence]. Qed.
Lemma frames_fk eps m d q f : Built eps m -> 0 < f < m_nframes m -> 0 < fr_parentJoint (frameAt m f) < m_njoints m ->
  oMf (gl (framesForwardKinematics m d q)) f = se3_mul (worldPl m q (fr_parentJoint (frameAt m f))) (fr_placement (frameAt m f)).
Proof.
  intros B Hf Hj. unfold framesForwardKinematics. rewrite frames_loop by exact Hf.
  pose proof (fk_placement eps m B d q q q _ Hj) as (E & _). unfold oMiOf in E. now rewrite E.
Qed.
Lemma motion_actInv_Id v : motion_actInv se3_Identity v = v.
Proof. sring. Qed.
Lemma se3_mul_Id_r M : se3_mul M se3_Identity = M.
Proof. destruct M as [A p]. unfold se3_mul, se3_Identity. cbn [rot trans]. rewrite m3mul_1_r, m3vec_0, v3add_0_r. reflexivity. Qed.
Lemma classical_all eps m : Built eps m -> forall (d d0 d1 : Data) (q v : R -> vec) (a : vec) t i, validModel m -> (forall s, validState m (q s)) ->
  (forall s, moves m q (v s) s) -> accelerates m v a t -> 0 < i < m_njoints m ->
  let oMi := fun s => pl (rows (forwardKinematics0 m d0 (q s)) i) F_oMi in
  let vel := fun s => getVelocity (forwardKinematics1 m d1 (q s) (v s)) i LOCAL_WORLD_ALIGNED in
  let dd := forwardKinematics2 m d (q t) (v t) a in
  deriv3 (fun s => trans (oMi s)) (lin (vel t)) t /\
  deriv3 (fun s => lin (vel s)) (lin (getClassicalAcceleration dd i LOCAL_WORLD_ALIGNED)) t /\
  deriv3 (fun s => ang (vel s)) (ang (getClassicalAcceleration dd i LOCAL_WORLD_ALIGNED)) t /\
  m3vec (rot (oMi t)) (lin (getClassicalAcceleration dd i LOCAL)) = lin (getClassicalAcceleration dd i LOCAL_WORLD_ALIGNED) /\
  m3vec (rot (oMi t)) (ang (getClassicalAcceleration dd i LOCAL)) = ang (getClassicalAcceleration dd i LOCAL_WORLD_ALIGNED).
Proof.
  intros B d d0 d1 q v a t i V Hq Hm Ha Hi. cbv zeta.
  destruct (frame_all eps m B d d0 d1 q v a t i se3_Identity V Hq Hm Ha Hi isRotation_id) as (_ & _ & A & C & D & E & F).
  unfold oMiOf in *. rewrite se3_mul_Id_r in E, F.
  assert (EV : forall d', getFrameVelocity d' i se3_Identity LOCAL_WORLD_ALIGNED = getVelocity d' i LOCAL_WORLD_ALIGNED /\
     getFrameVelocity d' i se3_Identity LOCAL = getVelocity d' i LOCAL /\
     getFrameAcceleration d' i se3_Identity LOCAL_WORLD_ALIGNED = getAcceleration d' i LOCAL_WORLD_ALIGNED /\
     getFrameAcceleration d' i se3_Identity LOCAL = getAcceleration d' i LOCAL).
  { intros d'. cbn [getFrameVelocity getVelocity getFrameAcceleration getAcceleration]. rewrite !motion_actInv_Id.
    unfold rotateBoth. cbn [trans se3_Identity]. rewrite !v3cross_0_r, !v3add_0_r. auto. }
  unfold getClassicalAcceleration. unfold getFrameClassicalAcceleration in *.
  assert (EV1 := fun s => proj1 (EV (forwardKinematics1 m d1 (q s) (v s)))).
  destruct (EV (forwardKinematics2 m d (q t) (v t) a)) as (X1 & X2 & X3 & X4).
  rewrite X1, X2, X3, X4 in *. split; [|split; [|split; [|split]]].
  - rewrite <- (EV1 t). eapply deriv3_ext; [|exact A]. intros s. cbv beta. now rewrite se3_mul_Id_r.
  - eapply deriv3_ext; [|exact C]. intros s. cbv beta. now rewrite EV1.
  - eapply deriv3_ext; [|exact D]. intros s. cbv beta. now rewrite EV1.
  - exact E.
  - exact F.
Qed.
Lemma frame_fields_aux M P v p : isRotation (rot M) -> isRotation (rot P) ->
  velocityAt (motion_act M v) (se3_actPoint (se3_mul M P) p) = m3vec (rot (se3_mul M P)) (velocityAt (motion_actInv P v) p) /\
  ang (motion_act M v) = m3vec (rot (se3_mul M P)) (ang (motion_actInv P v)) /\
  m3vec (rot M) (v3add (lin v) (v3cross (ang v) (trans P))) = velocityAt (motion_act M v) (trans (se3_mul M P)) /\
  m3vec (rot M) (ang v) = ang (motion_act M v).
Proof.
  intros HM HP.
  assert (E : v = motion_act P (motion_actInv P v)) by (symmetry; exact (motion_act_actInv P v (proj1 HP))).
  assert (F : forall x, velocityAt (motion_act M v) (se3_actPoint M x) = m3vec (rot M) (velocityAt v x)) by (intros; now apply motion_act_field).
  split; [|split; [|split]].
  - rewrite se3_actPoint_mul, F. cbn [se3_mul rot]. rewrite m3vec_mul. f_equal.
    rewrite E at 1. now apply motion_act_field.
  - cbn [motion_act ang se3_mul rot motion_actInv]. rewrite m3vec_mul, <- (m3vec_mul (rot P)), (orthogonal_right _ (proj1 HP)), m3vec_1. reflexivity.
  - replace (trans (se3_mul M P)) with (se3_actPoint M (trans P)) by (unfold se3_actPoint, se3_mul; cbn [trans]; apply v3add_comm).
    rewrite F. reflexivity.
  - reflexivity.
Qed.
Lemma frame_fields eps m (d : Data) (q v a : vec) j P p : Built eps m -> validModel m -> validState m q -> 0 < j < m_njoints m -> isRotation (rot P) ->
  let d' := forwardKinematics2 m d q v a in
  let M := se3_mul (pl (rows d' j) F_oMi) P in
  forall get, get = (fun rf => getFrameVelocity d' j P rf) \/ get = (fun rf => getFrameAcceleration d' j P rf) ->
  velocityAt (get WORLD) (se3_actPoint M p) = m3vec (rot M) (velocityAt (get LOCAL) p) /\
  ang (get WORLD) = m3vec (rot M) (ang (get LOCAL)) /\
  lin (get LOCAL_WORLD_ALIGNED) = velocityAt (get WORLD) (trans M) /\
  ang (get LOCAL_WORLD_ALIGNED) = ang (get WORLD).
Proof.
  intros B V Hq Hj HP. cbv zeta. destruct (fk_rot eps m B d q v a j V Hq Hj) as [_ HR]. unfold oMiOf in HR.
  intros get [-> | ->]; cbn [getFrameVelocity getFrameAcceleration lin ang]; apply frame_fields_aux; assumption.
Qed.
Lemma quatMatrix_1000 (p : V3) : isRotation (rot (mkSE3 (quatMatrix 1 0 0 0) p)).
Proof. cbn [rot]. apply quatMatrix_rot. ring. Qed.
