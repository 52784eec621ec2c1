(* contactInverseDynamics as a whole, and a contact between two joints. *)
Require Import Reals List Arith Lia Lra Bool FunctionalExtensionality.
From Verif Require Import Vec3 Spatial Inertia Joints Spec_Joints Sums Deriv Model Spec_Model ModelFacts ModelTree ModelFacts2 ModelFacts3 Data Kinematics Spec_Kin Spec_Mass KinFacts KinFacts2 KinFacts3 TreeSums MassFacts Rnea Spec_Dyn DynFacts DynFacts2 CrbaFacts3 CrbaFacts4 KinDerFacts4 Jacobian Spec_Jac Cone Contact Spec_Contact Spec_Reg Constraint ConstraintFacts ConstraintFacts2 ConstraintFacts3 ContactInv Spec_ContactInv ContactInvFacts ContactInvFacts2 ContactInvFacts3.
Import ListNotations.
Local Open Scope nat_scope.

Theorem inverse_dynamics eps m d d' imp q v a dt cs ncd mus Rv corr P guess s tau lam P' :
  Built eps m -> validModel m -> noMimic m -> validState m q -> pl (rows d 0) F_oMi = se3_Identity ->
  (forall c, In c cs -> exists j p p0, c = rcFill m CONTACT_3D j p 0 p0 LOCAL /\ j < m_njoints m /\ isRotation (rot p) /\ isRotation (rot p0)) ->
  let D := computeJointJacobians m d q in let J := getConstraintsJacobian m D cs (fun _ _ => 0%R) in
  contactInverseDynamics m D imp q v a dt cs ncd mus Rv corr P guess = Ok s (tau, lam, P') ->
  (forall k, k < m_nv m -> tau k = (rnea m d' q v a k - sumN (3 * length cs)%nat (fun r => J r k * lam r))%R) /\
  (forall k, lam k = (sv_x s k / dt)%R) /\
  (1 <= px_max P -> frictions mus -> goodCompliance mus (sv_x Rv) (px_mu P) -> px_res P' = 0%R ->
   contactSolution (sv_n Rv) (diagM (sv_x Rv)) (fun i => dotv (m_nv m) (J i) (fun k => v k + dt * a k)%R) mus (sv_x s)).
Proof.
  intros B V N Hq H0 HC D J E. unfold contactInverseDynamics in E. cbv zeta in E. fold J in E.
  set (imp' := match guess with Some g => mkSV (sv_n g) (fun k => sv_x g k * dt)%R | None => imp end) in *. set (guess' := match guess with Some _ => Some imp' | None => None end) in *.
  destruct (computeContactImpulses _ _ _ _ _ _ _ _ _) as [s1 P1|s1|] eqn:C; try discriminate. destruct (sv_n s1 <? 3 * length cs); [discriminate|]. injection E as -> <- <- ->. split; [|split].
  - intros k Hk. apply (torque_universe eps m B V N q Hq D (cjj_ready eps m B d q H0) a v d' cs (fun k => sv_x s k / dt)%R k); [|exact Hk].
    intros c Hc. destruct (HC c Hc) as (j & p & p0 & -> & Hj & R1 & R2). split; [|reflexivity]. exists j, p, 0, p0. repeat split; try assumption; try apply R1; try apply R2. pose proof (Built_wf eps m B) as W. lia.
  - reflexivity.
  - intros Hi HF HG HZ. exact (impulse_solution _ _ _ _ _ _ _ _ _ _ _ C Hi HF HG HZ).
Qed.

(* ---- a contact between joints 3 and 2 of the tree with two branches ---- *)
Section W.
Let m := exD (1/1000).
Let q := exQ 0.
Let D := computeJointJacobians m (newData m) q.
Lemma w_B : Built (1/1000) m. Proof. apply exD_built. Qed.
Let Wf := Built_wf _ _ w_B.
Let Tr := Built_tree _ _ w_B.
Let Vm := exD_valid (1/1000).
Let Hq : validState m q := exD_validState (1/1000) 0.
Lemma w_ready : jacReady m q D. Proof. exact (cjj_ready _ m w_B (newData m) q (newData_universe m)). Qed.
Definition w_p1 : SE3 := se3_actInv_se3 (worldPl m q 3) (worldPl m q 2).
Lemma w_twist1 : jointTwist m q (unitv 3) 1 = v6zero. Proof. unfold jointTwist, jointAt. cbn. unfold shift, unitv. cbn. sring. Qed.
Lemma w_twist3 : jointTwist m q (unitv 3) 3 = v6zero. Proof. unfold jointTwist, jointAt. cbn. unfold shift, unitv. cbn. sring. Qed.
Lemma w_v1 : bodyVel m q (unitv 3) 1 = v6zero.
Proof. rewrite (bodyVel_step m Wf Tr Vm q (unitv 3) 1 Hq) by (cbn; lia). change (parent m 1) with 0. rewrite (bodyVel_0 m Wf Tr), w_twist1. generalize (relPl m q 1). intros M. sring. Qed.
Lemma w_v3 : bodyVel m q (unitv 3) 3 = v6zero.
Proof. rewrite (bodyVel_step m Wf Tr Vm q (unitv 3) 3 Hq) by (cbn; lia). change (parent m 3) with 1. rewrite w_v1, w_twist3. generalize (relPl m q 3). intros M. sring. Qed.
Lemma w_v2 : bodyVel m q (unitv 3) 2 = mkV6 (mkV3 0 0 1) v3zero.
Proof.
  rewrite (bodyVel_step m Wf Tr Vm q (unitv 3) 2 Hq) by (cbn; lia). change (parent m 2) with 1. rewrite w_v1. unfold m, q. rewrite exD_twist. generalize (relPl (exD (1/1000)) (exQ 0) 2). intros M. unfold unitv. cbn [Nat.eqb]. sring.
Qed.
Lemma w_rot j : j < 4 -> isRotation (rot (worldPl m q j)). Proof. intros H. exact (worldPl_rot m Wf Tr Vm q j Hq H). Qed.
Lemma w_same : rot (se3_actInv_se3 (se3_mul (worldPl m q 3) w_p1) (se3_mul (worldPl m q 2) se3_Identity)) = m3id.
Proof.
  assert (E : se3_mul (worldPl m q 3) w_p1 = worldPl m q 2). { unfold w_p1. rewrite se3_actInv_se3_inverse, se3_mul_assoc, se3_mul_inv_r by apply (w_rot 3 ltac:(lia)). apply se3_mul_1_l. }
  rewrite E. replace (se3_mul (worldPl m q 2) se3_Identity) with (worldPl m q 2) by (symmetry; apply se3_mul_1_r). destruct (w_rot 2 ltac:(lia)) as [O _]. unfold se3_actInv_se3. cbn [rot]. exact O.
Qed.
Definition w_c : RigidConstraintModel := rcFill m CONTACT_3D 3 w_p1 2 se3_Identity LOCAL.
Lemma w_is3 c : In c [w_c] -> is3 m c.
Proof.
  intros [<-|[]]. exists 3, w_p1, 2, se3_Identity. split; [reflexivity|]. split; [cbn; lia|]. split; [cbn; lia|]. split; [|exact isRotation_id].
  unfold w_p1. rewrite se3_actInv_se3_inverse. apply isRotation_se3_mul; [unfold se3_inverse; cbn [rot]; apply isRotation_tr|]; apply w_rot; lia.
Qed.
Lemma w_row r : r < 3 -> getConstraintsJacobian m D [w_c] (fun _ _ => 0%R) r 3 = (if r =? 2 then -1 else 0)%R.
Proof.
  intros Hr. pose proof (list_rows m D [w_c] 0 r 3 w_c w_is3 ltac:(cbn; lia) Hr) as L. cbn [Nat.mul Nat.add nth] in L. rewrite L. clear L.
  assert (P1 : isRotation (rot w_p1)). { unfold w_p1. rewrite se3_actInv_se3_inverse. apply isRotation_se3_mul; [unfold se3_inverse; cbn [rot]; apply isRotation_tr|]; apply w_rot; lia. }
  unfold w_c. rewrite (row_vel (1/1000) m w_B Vm (exD_noMimic _) q Hq D w_ready 3 w_p1 2 se3_Identity 3 r P1 isRotation_id) by (cbn; lia).
  rewrite w_same. unfold ptVel. rewrite w_v3, w_v2. generalize w_p1. intros M. destruct r as [|[|[|r]]]; try lia; cbn [Nat.eqb comp6 lin ang vx vy vz]; cbv [motion_actInv v3sub m3vec lin ang vx vy vz v6zero v3zero rot trans se3_Identity m3id v3cross m3tr m00 m01 m02 m10 m11 m12 m20 m21 m22]; ring.
Qed.

Definition w_g : SVec := mkSV 3 (fun k => if k =? 2 then 1 else 0)%R.
Lemma w_ref r : r < 3 -> dotv (m_nv m) (getConstraintsJacobian m D [w_c] (fun _ _ => 0%R) r) (fun k => unitv 3 k + 1 * 0)%R = (if r =? 2 then -1 else 0)%R.
Proof. intros Hr. replace (fun k => unitv 3 k + 1 * 0)%R with (unitv 3) by (extensionality k; ring). rewrite (dotv_unit (m_nv m) 3) by (cbn; lia). now apply w_row. Qed.
Lemma w_ok : contactInverseDynamics m D (mkSV 0 (fun _ => 0%R)) q (unitv 3) (fun _ => 0%R) 1 [w_c] 1 [(1/2)%R] ciR (mkSV 3 (fun _ => 0%R)) ciP (Some w_g) =
  Ok (mkSV 3 (fun k => sv_x w_g k * 1)%R) (rneaExt m D q (unitv 3) (fun _ => 0%R) (ciForces [w_c] 0 (fun k => sv_x w_g k * 1 / 1)%R (fun _ => v6zero)), (fun k => sv_x w_g k * 1 / 1)%R, mkProx 1 (1/1000) 10 0 1).
Proof.
  unfold contactInverseDynamics. cbv zeta. change (sv_n w_g) with 3. set (c := fun i => dotv _ _ _). change (length [w_c]) with (sv_n ciR / 3).
  rewrite (impulse_warm (mkSV 3 (fun k => sv_x w_g k * 1)%R) c 1 [(1/2)%R] ciR (mkSV 3 (fun _ => 0%R)) ciP (mkSV 3 (fun k => sv_x w_g k * 1)%R)); [reflexivity | reflexivity | reflexivity | reflexivity | cbn; lia | cbn; lra | cbn; lra | cbn; lia | | |].
  - apply ci_ex.
  - apply ci_ex.
  - intros [|i] Hi; [|cbn in Hi; lia]. change (sv_n ciR) with 3. rewrite diag_seg by lia. unfold seg3, c. cbn [Nat.mul Nat.add]. rewrite !w_ref by lia. unfold coulomb, had, v3add, ciR, w_g. cbn [vx vy vz nth sv_x Nat.eqb Nat.add].
    replace (0 + 1 * (0 * 1))%R with 0%R by ring. replace (-1 + 1 * (1 * 1))%R with 0%R by ring. replace ((0 * 1) ^ 2 + (0 * 1) ^ 2)%R with (0 * 0)%R by ring. replace (0 ^ 2 + 0 ^ 2)%R with (0 * 0)%R by ring. rewrite !sqrt_square by lra. repeat split; lra.
Qed.
Lemma w_torque d' : let lam := (fun k => sv_x w_g k * 1 / 1)%R in
  rneaExt m D q (unitv 3) (fun _ => 0%R) (ciForces [w_c] 0 lam (fun _ => v6zero)) 3 =
  (rnea m d' q (unitv 3) (fun _ => 0) 3%nat - sumN 3 (fun r => getConstraintsJacobian m D [w_c] (fun _ _ => 0) r 3%nat * lam r) - 2)%R.
Proof.
  intros lam. rewrite (torque (1/1000) m w_B Vm (exD_noMimic _) q Hq D w_ready (fun _ => 0%R) (unitv 3) d' [w_c] lam 3 w_is3) by (cbn; lia). change (3 * length [w_c]) with 3. f_equal. cbn [listsum w_c rc_j1 rc_j2 rc_p1 rc_p2 rcFill].
  rewrite w_same. unfold ptVel. rewrite w_v2. unfold lam, w_g, seg3. cbn [sv_x Nat.eqb Nat.add]. cbv [motion_actInv v3dot v3add v3sub m3vec lin ang vx vy vz v6zero v3zero rot trans se3_Identity m3id v3cross m3tr m00 m01 m02 m10 m11 m12 m20 m21 m22]. field.
Qed.

(* a contact of joint 2 with the ground *)
Definition u_c : RigidConstraintModel := rcFill m CONTACT_3D 2 se3_Identity 0 se3_Identity LOCAL.
Lemma u_is3 c : In c [u_c] -> is3 m c.
Proof. intros [<-|[]]. exists 2, se3_Identity, 0, se3_Identity. split; [reflexivity|]. split; [cbn; lia|]. split; [cbn; lia|]. split; exact isRotation_id. Qed.
Lemma u_row r : r < 3 -> getConstraintsJacobian m D [u_c] (fun _ _ => 0%R) r 3 = (if r =? 2 then 1 else 0)%R.
Proof.
  intros Hr. pose proof (list_rows m D [u_c] 0 r 3 u_c u_is3 ltac:(cbn; lia) Hr) as L. cbn [Nat.mul Nat.add nth] in L. rewrite L. clear L.
  unfold u_c. rewrite (row_vel (1/1000) m w_B Vm (exD_noMimic _) q Hq D w_ready 2 se3_Identity 0 se3_Identity 3 r isRotation_id isRotation_id) by (cbn; lia).
  unfold ptVel. rewrite (bodyVel_0 m Wf Tr), w_v2. generalize (rot (se3_actInv_se3 (se3_mul (worldPl m q 2) se3_Identity) (se3_mul (worldPl m q 0) se3_Identity))). intros M.
  destruct r as [|[|[|r]]]; try lia; cbn [Nat.eqb comp6 lin ang vx vy vz]; cbv [motion_actInv v3sub m3vec lin ang vx vy vz v6zero v3zero rot trans se3_Identity m3id v3cross m3tr m00 m01 m02 m10 m11 m12 m20 m21 m22]; ring.
Qed.
Definition u_v : vec := fun k => (- unitv 3 k)%R.
Lemma u_ref r : r < 3 -> dotv (m_nv m) (getConstraintsJacobian m D [u_c] (fun _ _ => 0%R) r) (fun k => u_v k + 1 * 0)%R = (if r =? 2 then -1 else 0)%R.
Proof.
  intros Hr. transitivity (- dotv (m_nv m) (getConstraintsJacobian m D [u_c] (fun _ _ => 0%R) r) (unitv 3))%R.
  - unfold dotv. rewrite <- (Rmult_1_l (sumN _ (fun i => _ * unitv 3 i)%R)), Ropp_mult_distr_l, <- sumN_scale. apply sumN_ext. intros k _. unfold u_v. ring.
  - rewrite (dotv_unit (m_nv m) 3) by (cbn; lia). rewrite u_row by exact Hr. destruct (r =? 2); ring.
Qed.
Lemma u_ok : exists s o, contactInverseDynamics m D (mkSV 0 (fun _ => 0%R)) q u_v (fun _ => 0%R) 1 [u_c] 1 [(1/2)%R] ciR (mkSV 3 (fun _ => 0%R)) ciP (Some w_g) = Ok s o /\ px_res (snd o) = 0%R /\ sv_x s 2 = 1%R.
Proof.
  unfold contactInverseDynamics. cbv zeta. change (sv_n w_g) with 3. set (c := fun i => dotv _ _ _). change (length [u_c]) with (sv_n ciR / 3).
  rewrite (impulse_warm (mkSV 3 (fun k => sv_x w_g k * 1)%R) c 1 [(1/2)%R] ciR (mkSV 3 (fun _ => 0%R)) ciP (mkSV 3 (fun k => sv_x w_g k * 1)%R)); [ | reflexivity | reflexivity | reflexivity | cbn; lia | cbn; lra | cbn; lra | cbn; lia | | |].
  - do 2 eexists. split; [reflexivity|]. split; [reflexivity|]. cbn. ring.
  - apply ci_ex.
  - apply ci_ex.
  - intros [|i] Hi; [|cbn in Hi; lia]. change (sv_n ciR) with 3. rewrite diag_seg by lia. unfold seg3, c. cbn [Nat.mul Nat.add]. rewrite !u_ref by lia. unfold coulomb, had, v3add, ciR, w_g. cbn [vx vy vz nth sv_x Nat.eqb Nat.add].
    replace (0 + 1 * (0 * 1))%R with 0%R by ring. replace (-1 + 1 * (1 * 1))%R with 0%R by ring. replace ((0 * 1) ^ 2 + (0 * 1) ^ 2)%R with (0 * 0)%R by ring. replace (0 ^ 2 + 0 ^ 2)%R with (0 * 0)%R by ring. rewrite !sqrt_square by lra. repeat split; lra.
Qed.
End W.
Lemma ci_dyn_ex : exists eps m d imp q v a cs s o, Built eps m /\ validModel m /\ noMimic m /\ validState m q /\ pl (rows d 0) F_oMi = se3_Identity /\ cs <> [] /\
  (forall c, In c cs -> exists j p p0, c = rcFill m CONTACT_3D j p 0 p0 LOCAL /\ j < m_njoints m /\ isRotation (rot p) /\ isRotation (rot p0)) /\
  contactInverseDynamics m (computeJointJacobians m d q) imp q v a 1 cs 1 [(1/2)%R] ciR (mkSV 3 (fun _ => 0%R)) ciP (Some w_g) = Ok s o /\ px_res (snd o) = 0%R /\ sv_x s 2 = 1%R.
Proof.
  destruct u_ok as (s & o & E). exists (1/1000)%R, (exD (1/1000)), (newData (exD (1/1000))), (mkSV 0 (fun _ => 0%R)), (exQ 0), u_v, (fun _ => 0%R), [u_c], s, o.
  split; [apply w_B|]. split; [apply exD_valid|]. split; [apply exD_noMimic|]. split; [apply exD_validState|]. split; [apply newData_universe|]. split; [discriminate|]. split; [|exact E].
  intros c [<-|[]]. exists 2, se3_Identity, se3_Identity. split; [reflexivity|]. split; [cbn; lia|]. split; exact isRotation_id.
Qed.
Theorem two_joints : exists eps m d imp q v a dt j1 p1 j2 p2 mus Rv corr P guess s tau lam P' k,
  Built eps m /\ validModel m /\ noMimic m /\ validState m q /\ pl (rows d 0) F_oMi = se3_Identity /\ 0 < j1 < m_njoints m /\ 0 < j2 < m_njoints m /\ k < m_nv m /\
  let D := computeJointJacobians m d q in let c := rcFill m CONTACT_3D j1 p1 j2 p2 LOCAL in let J := getConstraintsJacobian m D [c] (fun _ _ => 0%R) in
  contactInverseDynamics m D imp q v a dt [c] 1 mus Rv corr P guess = Ok s (tau, lam, P') /\ px_res P' = 0%R /\
  forall d', tau k <> (rnea m d' q v a k - sumN 3 (fun r => J r k * lam r))%R.
Proof.
  exists (1/1000)%R, (exD (1/1000)), (newData (exD (1/1000))), (mkSV 0 (fun _ => 0%R)), (exQ 0), (unitv 3), (fun _ => 0%R), 1%R, 3, w_p1, 2, se3_Identity, [(1/2)%R], ciR, (mkSV 3 (fun _ => 0%R)), ciP, (Some w_g),
    (mkSV 3 (fun k => sv_x w_g k * 1)%R). do 3 eexists. exists 3. split; [apply w_B|]. split; [apply exD_valid|]. split; [apply exD_noMimic|]. split; [apply exD_validState|]. split; [apply newData_universe|].
  split; [cbn; lia|]. split; [cbn; lia|]. split; [cbn; lia|]. cbv zeta. split; [exact w_ok|]. split; [reflexivity|]. intros d' E. pose proof (w_torque d') as Q. cbv zeta in Q. rewrite Q in E. unfold w_c in E. revert E. generalize (rnea (exD (1/1000)) d' (exQ 0) (unitv 3) (fun _ => 0%R) 3). intros x.
  generalize (sumN 3 (fun r => getConstraintsJacobian (exD (1 / 1000)) (computeJointJacobians (exD (1 / 1000)) (newData (exD (1 / 1000))) (exQ 0)) [rcFill (exD (1 / 1000)) CONTACT_3D 3 w_p1 2 se3_Identity LOCAL] (fun _ _ => 0) r 3%nat * (sv_x w_g r * 1 / 1))%R). intros y E. lra.
Qed.
