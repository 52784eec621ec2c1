Require Import Reals List Arith Lia Lra FunctionalExtensionality.
From Verif Require Import Vec3 Spatial Inertia InertiaFacts Joints Spec_Joints Deriv JointFacts JointFacts2 Model Spec_Model ModelFacts ModelTree ModelFacts2 Sums Data Kinematics Spec_Kin KinFacts KinFacts2 Rnea Spec_Dyn DynFacts.
Import ListNotations.
Local Open Scope nat_scope.

(* no bias at rest *)
Lemma jv_rest j q v : validJoint j -> (forall k, v k = 0%R) -> jv (jcalc j q v) = v6zero.
Proof.
  intros Hj H. rewrite jv_S by exact Hj. rewrite (Smul_ext _ v (fun _ => 0%R)) by auto. apply Smul_0.
Qed.
Lemma jc_rest j q v : validJoint j -> (forall k, v k = 0%R) -> jc (jcalc j q v) = v6zero.
Proof.
  assert (E : forall j q v, (forall k, v k = 0%R) -> calcc1 j q v = v6zero).
  { intros j' q' v' H. destruct j'; cbn [calcc1]; try reflexivity; unfold angCol; cbv zeta; rewrite !H; sring. }
  revert q v. induction j as [j|j s o|l IH] using Joint_ind'; intros q v Hj H.
  - now apply E.
  - cbn [jcalc jc]. apply E. intros k. rewrite H. ring.
  - revert q v Hj H. induction IH as [|[P j] l Hx Hl IHl]; intros q v Hj H; [reflexivity|].
    apply -> validJoint_cons in Hj. destruct Hj as [[HP [Hn Hj]] Hl'].
    rewrite jcalc_composite. cbn in Hx. destruct l as [|x r].
    + rewrite calcComposite_one. cbv zeta. cbn [jc]. now apply Hx.
    + rewrite calcComposite_cons. cbv zeta. cbn [jc].
      specialize (IHl (shift (jnq j) q) (shift (jnv j) v) Hl' (fun k => H (jnv j + k))). rewrite jcalc_composite in IHl.
      rewrite IHl, (Hx q v Hj H), (jv_rest j q v Hj H). rewrite motion_actInv_0, v6add_0_r.
      generalize (jv (calcComposite (x :: r) (shift (jnq j) q) (shift (jnv j) v))). intros u. sring.
Qed.

Section Dyn.
Variable m : Model.
Hypothesis W : wellFormed m.
Hypothesis T : treeInv m.
Hypothesis Vm : validModel m.

(* ---- linearity of body velocities ---- *)
Lemma jointTwist_add q w w' i : jointTwist m q (fun k => w k + w' k)%R i = v6add (jointTwist m q w i) (jointTwist m q w' i).
Proof. unfold jointTwist. apply (Smul_add _ (shift (idx_v m i) w) (shift (idx_v m i) w')). Qed.
Lemma jointTwist_scale q c w i : jointTwist m q (fun k => c * w k)%R i = v6scale c (jointTwist m q w i).
Proof. unfold jointTwist. apply (Smul_scal _ c (shift (idx_v m i) w)). Qed.
Lemma jointTwist_0 q i : jointTwist m q (fun _ => 0%R) i = v6zero.
Proof. unfold jointTwist. apply Smul_0. Qed.
Lemma sumV6_map_add {A} (f g : A -> V6) l : sumV6 (map (fun x => v6add (f x) (g x)) l) = v6add (sumV6 (map f l)) (sumV6 (map g l)).
Proof. induction l as [|x l IH]; cbn [map sumV6]; [sring|]. rewrite IH. generalize (sumV6 (map f l)) (sumV6 (map g l)) (f x) (g x). sring. Qed.
Lemma sumV6_map_0 {A} (f : A -> V6) l : (forall x, In x l -> f x = v6zero) -> sumV6 (map f l) = v6zero.
Proof.
  induction l as [|x l IH]; intros H; [reflexivity|]. cbn [map sumV6]. rewrite IH by (intros; apply H; now right).
  rewrite H by now left. apply v6add_0_l.
Qed.
Lemma bodyVel_add q w w' i : bodyVel m q (fun k => w k + w' k)%R i = v6add (bodyVel m q w i) (bodyVel m q w' i).
Proof.
  unfold bodyVel. rewrite <- sumV6_map_add. f_equal. apply map_ext. intros j.
  now rewrite jointTwist_add, motion_act_add, motion_actInv_add.
Qed.
Lemma bodyVel_scale q c w i : bodyVel m q (fun k => c * w k)%R i = v6scale c (bodyVel m q w i).
Proof.
  unfold bodyVel. rewrite (sumV6_map_lin (v6scale c)) by (intros; sring). f_equal. apply map_ext. intros j.
  rewrite jointTwist_scale, motion_act_scale, motion_actInv_scale. reflexivity.
Qed.
Lemma bodyVel_zero q i : bodyVel m q (fun _ => 0%R) i = v6zero.
Proof. unfold bodyVel. apply sumV6_map_0. intros j _. now rewrite jointTwist_0, motion_act_0, motion_actInv_0. Qed.
(* only the first nv components matter *)
Lemma jointTwist_ext q w w' i : 0 < i < m_njoints m -> (forall k, k < m_nv m -> w k = w' k) -> jointTwist m q w i = jointTwist m q w' i.
Proof.
  intros Hi H. unfold jointTwist. apply Smul_ext. intros k Hk. unfold shift. apply H. apply (inRange m W Vm i k Hi).
  unfold jointAt in Hk. destruct (Vm i Hi) as [Vj _].
  destruct (wf_joint _ W i Hi) as (_ & _ & _ & _ & _ & _ & E). rewrite <- E. 
  rewrite <- (jS_lengthE _ (shift (idx_q m i) q) (shift (idx_v m i) noVel) Vj). exact Hk.
Qed.
Lemma bodyVel_ext q w w' i : i < m_njoints m -> (forall k, k < m_nv m -> w k = w' k) -> bodyVel m q w i = bodyVel m q w' i.
Proof.
  intros Hi H. unfold bodyVel. f_equal. apply map_ext_in. intros j Hj. pose proof (tail_range m W T i j Hi Hj).
  now rewrite (jointTwist_ext q w w' j) by (auto; lia).
Qed.
(* body velocities are combinations of those of the unit velocities *)
Lemma bodyVel_trunc q n w i : bodyVel m q (fun k => if k <? n then w k else 0)%R i = 
  fold_right (fun k V => v6add V (v6scale (w k) (bodyVel m q (unitv k) i))) v6zero (rev (seq 0 n)).
Proof.
  induction n as [|n IH].
  - cbn [seq rev fold_right]. apply (bodyVel_zero q i).
  - rewrite (List.seq_S n 0), rev_app_distr. cbn [rev app fold_right Nat.add]. rewrite <- IH, <- bodyVel_scale, <- bodyVel_add.
    f_equal. apply functional_extensionality. intros k. unfold unitv.
    destruct (Nat.ltb_spec k (S n)), (Nat.ltb_spec k n), (Nat.eqb_spec n k); try lia; subst; ring.
Qed.
Lemma bodyVel_basis q w i f : i < m_njoints m ->
  v6dot (bodyVel m q w i) f = sumN (m_nv m) (fun k => w k * v6dot (bodyVel m q (unitv k) i) f)%R.
Proof.
  intros Hi. rewrite (bodyVel_ext q w (fun k => if k <? m_nv m then w k else 0%R) i Hi).
  2: { intros k Hk. destruct (Nat.ltb_spec k (m_nv m)); [reflexivity|lia]. }
  rewrite bodyVel_trunc. generalize (m_nv m). induction n as [|n IH]; [cbn [seq rev fold_right sumN]; apply v6dot_0_l|].
  rewrite (List.seq_S n 0), rev_app_distr. cbn [rev app fold_right Nat.add sumN]. rewrite v6dot_add_l, v6dot_scale_l, IH. reflexivity.
Qed.

(* ---- the kinetic form ---- *)
Lemma kineticForm_sym q w w' : kineticForm m q w w' = kineticForm m q w' w.
Proof. unfold kineticForm, bodies. apply sumN_ext. intros k _. apply inertia_mul_sym. Qed.
Lemma kineticForm_basis_l q w w' : kineticForm m q w w' = sumN (m_nv m) (fun k => w k * kineticForm m q (unitv k) w')%R.
Proof.
  unfold kineticForm, bodies.
  rewrite (sumN_ext (m_nv m) _ (fun k => sumN (m_njoints m - 1) (fun j => w k * v6dot (bodyVel m q (unitv k) (S j)) (inertia_mul (inertiaOf m (S j)) (bodyVel m q w' (S j)))))%R).
  - rewrite sumN_swap. apply sumN_ext. intros j Hj. apply bodyVel_basis. lia.
  - intros k Hk. now rewrite sumN_scale.
Qed.
Lemma kineticForm_basis q w w' : kineticForm m q w w' =
  sumN (m_nv m) (fun k => w k * sumN (m_nv m) (fun l => kineticForm m q (unitv k) (unitv l) * w' l))%R.
Proof.
  rewrite kineticForm_basis_l. apply sumN_ext. intros k Hk. f_equal.
  rewrite kineticForm_sym, kineticForm_basis_l. apply sumN_ext. intros l Hl. rewrite kineticForm_sym. ring.
Qed.
Lemma massMatrix_form q w w' :
  dotv (m_nv m) w (fun k => dotv (m_nv m) (massMatrix m q k) w') = (kineticForm m q w w' + armaturePower m w' w)%R.
Proof.
  unfold dotv, armaturePower. rewrite kineticForm_basis, <- sumN_add. apply sumN_ext. intros k Hk.
  unfold massMatrix. rewrite (sumN_ext (m_nv m) _ (fun l => kineticForm m q (unitv k) (unitv l) * w' l + (if Nat.eqb k l then nth k (m_armature m) 0 * w' l else 0))%R)
    by (intros l Hl; destruct (Nat.eqb k l); ring).
  rewrite sumN_add, (sumN_delta (m_nv m) k (fun l => nth k (m_armature m) 0 * w' l)%R Hk). ring.
Qed.
Lemma massMatrix_sym q k l : massMatrix m q k l = massMatrix m q l k.
Proof.
  unfold massMatrix. rewrite kineticForm_sym. f_equal. rewrite (Nat.eqb_sym l k). destruct (Nat.eqb_spec k l) as [->|]; reflexivity.
Qed.

(* ---- decomposition of the inertial wrenches ---- *)
Lemma jointAcc_split q v a i : jointAcc m q v a i = v6add (jointTwist m q a i) (jointAcc m q v (fun _ => 0%R) i).
Proof.
  unfold jointAcc, jointTwist at 2. 
  change (shift (idx_v m i) (fun _ : nat => 0%R)) with (fun _ : nat => 0%R). rewrite Smul_0. unfold jointTwist.
  generalize (Smul (jS (jointAt m q noVel i)) (shift (idx_v m i) a)) (jc (jointAt m q v i)).
  generalize (motion_cross (bodyVel m q v i) (Smul (jS (jointAt m q noVel i)) (shift (idx_v m i) v))). sring.
Qed.
Lemma bodyAcc_split q v a i : bodyAcc m q v a i = v6add (bodyVel m q a i) (bodyAcc m q v (fun _ => 0%R) i).
Proof.
  unfold bodyAcc, bodyVel. rewrite <- sumV6_map_add. f_equal. apply map_ext. intros j.
  now rewrite (jointAcc_split q v a j), motion_act_add, motion_actInv_add.
Qed.
Lemma bodyForce_split q v a i : bodyForce m q v a i = v6add (inertia_mul (inertiaOf m i) (bodyVel m q a i)) (bodyForce m q v (fun _ => 0%R) i).
Proof.
  unfold bodyForce. rewrite (bodyAcc_split q v a i), !inertia_mul_sub, inertia_mul_add.
  generalize (inertia_mul (inertiaOf m i) (bodyVel m q a i)) (inertia_mul (inertiaOf m i) (gravityAt m q i))
    (inertia_mul (inertiaOf m i) (bodyAcc m q v (fun _ => 0%R) i)) (force_cross (bodyVel m q v i) (inertia_mul (inertiaOf m i) (bodyVel m q v i))). sring.
Qed.
Lemma power_add q F G w : power m q (fun i => v6add (F i) (G i)) w = (power m q F w + power m q G w)%R.
Proof. unfold power, bodies. rewrite <- sumN_add. apply sumN_ext. intros; apply v6dot_add_r. Qed.
Lemma power_sub q F G w : power m q (fun i => v6sub (F i) (G i)) w = (power m q F w - power m q G w)%R.
Proof. unfold power, bodies. rewrite <- sumN_sub. apply sumN_ext. intros; apply v6dot_sub_r. Qed.
Lemma power_ext q F G w : (forall i, 0 < i < m_njoints m -> F i = G i) -> power m q F w = power m q G w.
Proof. intros H. unfold power, bodies. apply sumN_ext. intros k Hk. now rewrite H by lia. Qed.
Lemma power_split q v a w : power m q (bodyForce m q v a) w = (kineticForm m q w a + power m q (bodyForce m q v (fun _ => 0%R)) w)%R.
Proof. rewrite (power_ext q _ _ w (fun i _ => bodyForce_split q v a i)), power_add. reflexivity. Qed.

(* at rest *)
Lemma bodyAcc_rest q i : i < m_njoints m -> bodyAcc m q (fun _ => 0%R) (fun _ => 0%R) i = v6zero.
Proof.
  intros Hi. unfold bodyAcc. apply sumV6_map_0. intros j Hj. pose proof (tail_range m W T i j Hi Hj).
  unfold jointAcc. rewrite bodyVel_zero, jointTwist_0.
  change (shift (idx_v m j) (fun _ : nat => 0%R)) with (fun _ : nat => 0%R). rewrite Smul_0.
  unfold jointAt. destruct (Vm j ltac:(lia)) as [Vj _].
  rewrite (jc_rest _ _ _ Vj) by reflexivity.
  replace (v6add (v6add v6zero v6zero) (motion_cross v6zero v6zero)) with v6zero by sring.
  now rewrite motion_act_0, motion_actInv_0.
Qed.
Definition weight (q : vec) (i : nat) : V6 := inertia_mul (inertiaOf m i) (v6opp (gravityAt m q i)).
Lemma bodyForce_rest q i : i < m_njoints m -> bodyForce m q (fun _ => 0%R) (fun _ => 0%R) i = weight q i.
Proof.
  intros Hi. unfold bodyForce, weight. rewrite bodyAcc_rest, bodyVel_zero, force_cross_0_l, v6add_0_r by exact Hi. f_equal. sring.
Qed.

(* ---- nonlinear effects, gravity, static torque ---- *)
Lemma nleRow_rnea q v i r rp : 0 < i < m_njoints m ->
  let r1 := nleRow m q v i r rp in let r2 := rneaRow m q v (fun _ => 0%R) i r rp in
  jd r1 = jd r2 /\ pl r1 F_liMi = pl r2 F_liMi /\ mo r1 F_v = mo r2 F_v /\ mo r1 F_a_gf = mo r2 F_a_gf /\ mo r1 F_f = mo r2 F_f.
Proof.
  intros Hi. cbv zeta. unfold nleRow, rneaRow. rewrite (velSel_at m W i _ Hi).
  change (shift (idx_v m i) (fun _ : nat => 0%R)) with (fun _ : nat => 0%R). rewrite !Smul_0.
  set (r1 := velRow m q v i r rp). clearbody r1. mem. rewrite v6add_0_r. 
  split; [reflexivity|]. split; [reflexivity|]. split; [reflexivity|]. split; [reflexivity|]. now rewrite inertia_vxiv_spec.
Qed.
Lemma nle_forward d q v : validState m q ->
  let d0 := setRow d 0 (setMo (setMo (rows d 0) F_v v6zero) F_a_gf (v6opp (m_gravity m))) in
  let d' := upward m (rowStep m (nleRow m q v)) d0 in
  gl d' = gl d /\ forwardOk m q (bodyForce m q v (fun _ => 0%R)) d'.
Proof.
  intros Hq d0. cbv zeta.
  destruct (upward_rows m (nleRow m q v) d0 W) as (H0 & H1 & H2). set (d' := upward m (rowStep m (nleRow m q v)) d0) in *.
  assert (E : forall i r rp, 0 < i < m_njoints m -> mo rp F_v = bodyVel m q v (parent m i) ->
     mo rp F_a_gf = v6sub (bodyAcc m q v (fun _ => 0%R) (parent m i)) (gravityAt m q (parent m i)) ->
     let r' := nleRow m q v i r rp in
     jS (jd r') = jS (jointAt m q noVel i) /\ pl r' F_liMi = relPl m q i /\
     mo r' F_v = bodyVel m q v i /\ mo r' F_a_gf = v6sub (bodyAcc m q v (fun _ => 0%R) i) (gravityAt m q i) /\ mo r' F_f = bodyForce m q v (fun _ => 0%R) i).
  { intros i r rp Hi Ev Ea. cbv zeta. destruct (nleRow_rnea q v i r rp Hi) as (-> & -> & -> & -> & ->).
    exact (rneaRow_eq m W T Vm q v (fun _ => 0%R) i r rp Hq Hi Ev Ea). }
  assert (G : forall i, i < m_njoints m -> mo (rows d' i) F_v = bodyVel m q v i /\ mo (rows d' i) F_a_gf = v6sub (bodyAcc m q v (fun _ => 0%R) i) (gravityAt m q i)).
  { refine (tree_ind m _ W _ _).
    - rewrite H1. unfold d0. mem. rewrite putn_same. mem. rewrite (bodyVel_0 m W T), (bodyAcc_0 m W T), (gravityAt_0 m W T). split; [reflexivity | sring].
    - intros i Hi [IH1 IH2]. rewrite (H2 i Hi). destruct (E i (rows d0 i) (rows d' (parent m i)) Hi IH1 IH2) as (_ & _ & A & B & _). now rewrite A, B. }
  split; [rewrite H0; reflexivity|].
  intros i Hi. pose proof (wf_parent _ W i Hi) as Hp. destruct (G (parent m i) ltac:(lia)) as [G1 G2].
  rewrite (H2 i Hi). destruct (E i (rows d0 i) (rows d' (parent m i)) Hi G1 G2) as (A1 & A2 & _ & _ & A3). auto.
Qed.
Theorem nle_power d q v w : validState m q ->
  dotv (m_nv m) (nonLinearEffects m d q v) w = power m q (bodyForce m q v (fun _ => 0%R)) w.
Proof.
  intros Hq. unfold nonLinearEffects, nleData.
  destruct (nle_forward (zeroVe d F_nle) q v Hq) as (E1 & E2).
  rewrite (forward_power m W T Vm F_nle _ q _ w Hq E2), E1, zeroVe_dot. ring.
Qed.

Lemma gravity_forward d q fx : validState m q ->
  let d0 := setRow d 0 (setMo (rows d 0) F_a_gf (v6opp (m_gravity m))) in
  let d' := upward m (rowStep m (fun i r rp => let r := gravityRow m q i r rp in setMo r F_f (v6sub (mo r F_f) (fx i)))) d0 in
  gl d' = gl d /\ forwardOk m q (fun i => v6sub (weight q i) (fx i)) d'.
Proof.
  intros Hq d0. cbv zeta.
  set (F := fun i r rp => let r := gravityRow m q i r rp in setMo r F_f (v6sub (mo r F_f) (fx i))).
  destruct (upward_rows m F d0 W) as (H0 & H1 & H2). set (d' := upward m (rowStep m F) d0) in *.
  assert (E : forall i r rp, 0 < i < m_njoints m -> mo rp F_a_gf = v6opp (gravityAt m q (parent m i)) ->
     let r' := F i r rp in
     jS (jd r') = jS (jointAt m q noVel i) /\ pl r' F_liMi = relPl m q i /\
     mo r' F_a_gf = v6opp (gravityAt m q i) /\ mo r' F_f = v6sub (weight q i) (fx i)).
  { intros i r rp Hi Ea. cbv zeta. unfold F, gravityRow. mem.
    destruct (calcJoint0_at m W i (jd r) q Hi) as (E1 & E2). rewrite E1, E2. fold (relPl m q i). rewrite Ea.
    rewrite motion_actInv_opp, <- (gravityAt_step m W T Vm q i Hq Hi). auto. }
  assert (G : forall i, i < m_njoints m -> mo (rows d' i) F_a_gf = v6opp (gravityAt m q i)).
  { refine (tree_ind m _ W _ _).
    - rewrite H1. unfold d0. mem. rewrite putn_same. mem. now rewrite (gravityAt_0 m W T).
    - intros i Hi IH. rewrite (H2 i Hi). apply (E i _ _ Hi IH). }
  split; [rewrite H0; reflexivity|].
  intros i Hi. pose proof (wf_parent _ W i Hi) as Hp.
  rewrite (H2 i Hi). destruct (E i (rows d0 i) (rows d' (parent m i)) Hi (G (parent m i) ltac:(lia))) as (A1 & A2 & _ & A3). auto.
Qed.
Theorem static_power d q fx w : validState m q ->
  dotv (m_nv m) (computeStaticTorque m d q fx) w = power m q (fun i => v6sub (weight q i) (fx i)) w.
Proof.
  intros Hq. unfold computeStaticTorque, staticData.
  destruct (gravity_forward d q fx Hq) as (E1 & E2). cbv zeta in *.
  set (d1 := upward _ _ _) in *.
  assert (E2' : forwardOk m q (fun i => v6sub (weight q i) (fx i)) (zeroVe d1 F_tau)) by exact E2.
  rewrite (forward_power m W T Vm F_tau _ q _ w Hq E2'), zeroVe_dot. ring.
Qed.
Lemma v6sub_0_r a : v6sub a v6zero = a. Proof. sring. Qed.
Lemma gravity_forward0 d q : validState m q ->
  let d0 := setRow d 0 (setMo (rows d 0) F_a_gf (v6opp (m_gravity m))) in
  let d' := upward m (rowStep m (gravityRow m q)) d0 in
  forwardOk m q (weight q) d'.
Proof.
  intros Hq d0. cbv zeta.
  destruct (upward_rows m (gravityRow m q) d0 W) as (H0 & H1 & H2). set (d' := upward m (rowStep m (gravityRow m q)) d0) in *.
  assert (E : forall i r rp, 0 < i < m_njoints m -> mo rp F_a_gf = v6opp (gravityAt m q (parent m i)) ->
     let r' := gravityRow m q i r rp in
     jS (jd r') = jS (jointAt m q noVel i) /\ pl r' F_liMi = relPl m q i /\
     mo r' F_a_gf = v6opp (gravityAt m q i) /\ mo r' F_f = weight q i).
  { intros i r rp Hi Ea. cbv zeta. unfold gravityRow. mem.
    destruct (calcJoint0_at m W i (jd r) q Hi) as (E1 & E2). rewrite E1, E2. fold (relPl m q i). rewrite Ea.
    rewrite motion_actInv_opp, <- (gravityAt_step m W T Vm q i Hq Hi). auto. }
  assert (G : forall i, i < m_njoints m -> mo (rows d' i) F_a_gf = v6opp (gravityAt m q i)).
  { refine (tree_ind m _ W _ _).
    - rewrite H1. unfold d0. mem. rewrite putn_same. mem. now rewrite (gravityAt_0 m W T).
    - intros i Hi IH. rewrite (H2 i Hi). apply (E i _ _ Hi IH). }
  intros i Hi. pose proof (wf_parent _ W i Hi) as Hp.
  rewrite (H2 i Hi). destruct (E i (rows d0 i) (rows d' (parent m i)) Hi (G (parent m i) ltac:(lia))) as (A1 & A2 & _ & A3). auto.
Qed.
Theorem gravity_power d q w : validState m q ->
  dotv (m_nv m) (computeGeneralizedGravity m d q) w = power m q (weight q) w.
Proof.
  intros Hq. unfold computeGeneralizedGravity, gravityData. cbv zeta.
  pose proof (gravity_forward0 (zeroVe d F_g) q Hq) as E2. cbv zeta in *. set (d1 := upward _ _ _) in *.
  assert (E2' : forwardOk m q (weight q) (zeroVe d1 F_g)) by exact E2.
  rewrite (forward_power m W T Vm F_g _ q _ w Hq E2'), zeroVe_dot. ring.
Qed.

(* ---- consequences, component by component ---- *)
Theorem rnea_affine d d' q v a k : validState m q -> k < m_nv m ->
  rnea m d q v a k = (dotv (m_nv m) (massMatrix m q k) a + nonLinearEffects m d' q v k)%R.
Proof.
  intros Hq. revert k. refine (dotv_inj _ _ (fun k => dotv (m_nv m) (massMatrix m q k) a + nonLinearEffects m d' q v k)%R _). intros w.
  rewrite (rnea_power m W T Vm d q v a w Hq), power_split.
  unfold dotv at 1. rewrite (sumN_ext _ _ (fun k => w k * dotv (m_nv m) (massMatrix m q k) a + nonLinearEffects m d' q v k * w k)%R) by (intros; ring).
  rewrite sumN_add. fold (dotv (m_nv m) (nonLinearEffects m d' q v) w). rewrite nle_power by exact Hq.
  fold (dotv (m_nv m) w (fun k => dotv (m_nv m) (massMatrix m q k) a)). rewrite massMatrix_form. ring.
Qed.
Theorem nle_rest d d' q k : validState m q -> k < m_nv m -> nonLinearEffects m d q (fun _ => 0%R) k = computeGeneralizedGravity m d' q k.
Proof.
  intros Hq. revert k. apply dotv_inj. intros w. rewrite nle_power, gravity_power by exact Hq.
  apply power_ext. intros i Hi. apply bodyForce_rest. lia.
Qed.
Theorem rneaExt_diff d d' q v a fx k : validState m q -> k < m_nv m ->
  (rneaExt m d q v a fx k = rnea m d' q v a k - bodies m (fun i => v6dot (bodyVel m q (unitv k) i) (fx i)))%R.
Proof.
  intros Hq Hk. rewrite <- (dotv_unit (m_nv m) k (rneaExt m d q v a fx) Hk), <- (dotv_unit (m_nv m) k (rnea m d' q v a) Hk).
  rewrite (rneaExt_power m W T Vm) by exact Hq. rewrite (rnea_power m W T Vm) by exact Hq. rewrite power_sub. unfold power at 2. ring.
Qed.
Theorem static_diff d d' q fx k : validState m q -> k < m_nv m ->
  (computeStaticTorque m d q fx k = computeGeneralizedGravity m d' q k - bodies m (fun i => v6dot (bodyVel m q (unitv k) i) (fx i)))%R.
Proof.
  intros Hq Hk. rewrite <- (dotv_unit (m_nv m) k (computeStaticTorque m d q fx) Hk), <- (dotv_unit (m_nv m) k (computeGeneralizedGravity m d' q) Hk).
  rewrite static_power, gravity_power by exact Hq. rewrite power_sub. unfold power at 2. ring.
Qed.

(* ---- dynamics along trajectories ---- *)
Hypothesis IR : forall i k, 0 < i < m_njoints m -> k < nvEOf m i -> idx_v m i + k < m_nv m.
Lemma bodyAcc_deriv (q v : R -> vec) a t i :
  (forall s, validState m (q s)) -> moves m q (v t) t -> accelerates m v a t -> i < m_njoints m ->
  deriv6 (fun s => bodyVel m (q s) (v s) i) (bodyAcc m (q t) (v t) a i) t.
Proof.
  intros Hq Hm Ha. revert i. refine (tree_ind m _ W _ _).
  - rewrite (bodyAcc_0 m W T). eapply deriv6_ext; [intros s; apply (bodyVel_0 m W T) | apply deriv6_const].
  - intros i Hi IH. pose proof (wf_parent _ W i Hi) as Hp.
    eapply deriv6_ext; [intros s; rewrite (bodyVel_step m W T Vm (q s) (v s) i (Hq s) Hi), <- (jv_twist m Vm (q s) (v s) i Hi); reflexivity|].
    eapply deriv6_eq.
    + apply deriv6_add; [exact (jv_deriv m W Vm IR q v a t i (Hq t) Hm Ha Hi)|].
      apply (deriv_actInv (fun s => relPl m (q s) i) (fun s => bodyVel m (q s) (v s) (parent m i))).
      * apply (relPl_rot m Vm); [apply Hq | exact Hi].
      * apply (relPl_twist m Vm); [apply Hq | exact Hm | exact Hi].
      * exact IH.
    + cbv beta. rewrite (bodyAcc_step m W T Vm (q t) (v t) a i (Hq t) Hi). unfold jointAcc.
      rewrite (bodyVel_step m W T Vm (q t) (v t) i (Hq t) Hi), (jointAt_S m (q t) (v t) noVel i).
      set (tw := jointTwist m (q t) (v t) i). set (X := motion_actInv (relPl m (q t) i) (bodyVel m (q t) (v t) (parent m i))).
      set (Y := motion_actInv (relPl m (q t) i) (bodyAcc m (q t) (v t) a (parent m i))).
      rewrite v6sub_add, <- !v6add_assoc. f_equal. f_equal. rewrite v6add_comm. f_equal.
      rewrite motion_cross_add_l, motion_cross_self, v6add_0_l. symmetry. apply motion_cross_anti.
Qed.
Lemma deriv_force_act M f V f' t : isRotation (rot (M t)) -> hasTwist M V t -> deriv6 f f' t ->
  deriv6 (fun s => force_act (M s) (f s)) (force_act (M t) (v6add f' (force_cross V (f t)))) t.
Proof.
  intros HR [H1 H2] [H3 H4]. 
  assert (HL : deriv3 (fun s => m3vec (rot (M s)) (lin (f s))) (m3vec (rot (M t)) (v3add (lin f') (v3cross (ang V) (lin (f t))))) t).
  { eapply deriv3_eq; [apply deriv3_vec; [exact H1 | exact H3]|]. cbv beta. rewrite m3vec_mul, skew_vec, <- m3vec_add_r. f_equal. apply v3add_comm. }
  split; unfold force_act; cbn [lin ang].
  - exact HL.
  - eapply deriv3_eq.
    + apply deriv3_add; [apply deriv3_vec; [exact H1 | exact H4]|]. apply deriv3_cross; [exact H2 | exact HL].
    + cbv beta. cbn [v6add force_cross lin ang]. rewrite m3vec_mul, skew_vec. rewrite <- (rotation_cross _ _ _ HR).
      rewrite !m3vec_add_r. 
      generalize (m3vec (rot (M t)) (v3cross (ang V) (ang (f t)))) (m3vec (rot (M t)) (ang f')) (m3vec (rot (M t)) (v3cross (lin V) (lin (f t)))).
      generalize (m3vec (rot (M t)) (lin f')) (m3vec (rot (M t)) (v3cross (ang V) (lin (f t)))). generalize (trans (M t)). clear. vring.
Qed.
Lemma deriv6_m6 A f f' t : deriv6 f f' t -> deriv6 (fun s => m6vec A (f s)) (m6vec A f') t.
Proof.
  intros [H1 H2]. split; unfold m6vec; cbn [lin ang].
  - eapply deriv3_eq; [apply deriv3_add; apply (deriv3_vec (fun _ => _)); first [apply derivM3_const | exact H1 | exact H2]|]. cbv beta. sring.
  - eapply deriv3_eq; [apply deriv3_add; apply (deriv3_vec (fun _ => _)); first [apply derivM3_const | exact H1 | exact H2]|]. cbv beta. sring.
Qed.
Lemma deriv6_inertia Y f f' t : deriv6 f f' t -> deriv6 (fun s => inertia_mul Y (f s)) (inertia_mul Y f') t.
Proof.
  intros H. rewrite inertia_mul_spec. eapply deriv6_ext; [intros s; apply inertia_mul_spec|]. now apply deriv6_m6.
Qed.
Lemma momentum_deriv (q v : R -> vec) a t i :
  (forall s, validState m (q s)) -> moves m q (v t) t -> accelerates m v a t -> i < m_njoints m ->
  deriv6 (fun s => worldMomentum m (q s) (v s) i) 
    (force_act (worldPl m (q t) i) (v6add (inertia_mul (inertiaOf m i) (bodyAcc m (q t) (v t) a i))
        (force_cross (bodyVel m (q t) (v t) i) (inertia_mul (inertiaOf m i) (bodyVel m (q t) (v t) i))))) t.
Proof.
  intros Hq Hm Ha Hi. unfold worldMomentum.
  apply (deriv_force_act (fun s => worldPl m (q s) i) (fun s => inertia_mul (inertiaOf m i) (bodyVel m (q s) (v s) i))).
  - apply (worldPl_rot m W T Vm); [apply Hq | exact Hi].
  - apply (worldPl_twist m W T Vm); [apply Hq | exact Hm | exact Hi].
  - apply deriv6_inertia. apply bodyAcc_deriv; assumption.
Qed.
(* Newton-Euler: the generalized force delivers the power of (rate of momentum - weight - external wrench) *)
Theorem newton_euler (q v : R -> vec) a t d fx P w :
  (forall s, validState m (q s)) -> moves m q (v t) t -> accelerates m v a t ->
  (forall i, 0 < i < m_njoints m -> deriv6 (fun s => worldMomentum m (q s) (v s) i) (P i) t) ->
  dotv (m_nv m) (rneaExt m d (q t) (v t) a fx) w =
  (bodies m (fun i => v6dot (motion_act (worldPl m (q t) i) (bodyVel m (q t) w i))
      (v6sub (v6sub (P i) (worldWeight m (q t) i)) (force_act (worldPl m (q t) i) (fx i)))) + armaturePower m a w)%R.
Proof.
  intros Hq Hm Ha HP. rewrite (rneaExt_power m W T Vm) by apply Hq. f_equal. unfold power, bodies. apply sumN_ext. intros k Hk.
  assert (Hi : 0 < S k < m_njoints m) by lia. generalize dependent (S k). intros i Hi.
  rewrite (deriv6_unique _ _ _ _ (HP i Hi) (momentum_deriv q v a t i Hq Hm Ha ltac:(lia))).
  unfold worldWeight, bodyForce. rewrite inertia_mul_sub.
  set (M := worldPl m (q t) i).
  assert (HR : isRotation (rot M)) by (apply (worldPl_rot m W T Vm); [apply Hq | lia]).
  set (A := inertia_mul (inertiaOf m i) (bodyAcc m (q t) (v t) a i)). set (G := inertia_mul (inertiaOf m i) (gravityAt m (q t) i)).
  set (C := force_cross _ _). set (X := bodyVel m (q t) w i).
  replace (v6sub (v6sub (force_act M (v6add A C)) (force_act M G)) (force_act M (fx i)))
    with (force_act M (v6sub (v6add (v6sub A G) C) (fx i))) by (clearbody A G C M; generalize (fx i); clear; sring).
  rewrite <- act_dot_dual, (motion_actInv_act _ _ (proj1 HR)). reflexivity.
Qed.
Theorem newton_euler_ex (q v : R -> vec) a t :
  (forall s, validState m (q s)) -> moves m q (v t) t -> accelerates m v a t ->
  exists P, (forall i, 0 < i < m_njoints m -> deriv6 (fun s => worldMomentum m (q s) (v s) i) (P i) t) /\
  forall d fx w, dotv (m_nv m) (rneaExt m d (q t) (v t) a fx) w =
  (bodies m (fun i => v6dot (motion_act (worldPl m (q t) i) (bodyVel m (q t) w i))
      (v6sub (v6sub (P i) (worldWeight m (q t) i)) (force_act (worldPl m (q t) i) (fx i)))) + armaturePower m a w)%R.
Proof.
  intros Hq Hm Ha. exists (fun i => force_act (worldPl m (q t) i) (v6add (inertia_mul (inertiaOf m i) (bodyAcc m (q t) (v t) a i))
        (force_cross (bodyVel m (q t) (v t) i) (inertia_mul (inertiaOf m i) (bodyVel m (q t) (v t) i))))).
  assert (HP : forall i, 0 < i < m_njoints m -> deriv6 (fun s => worldMomentum m (q s) (v s) i) (force_act (worldPl m (q t) i) (v6add (inertia_mul (inertiaOf m i) (bodyAcc m (q t) (v t) a i))
        (force_cross (bodyVel m (q t) (v t) i) (inertia_mul (inertiaOf m i) (bodyVel m (q t) (v t) i))))) t).
  { intros i Hi. apply momentum_deriv; try assumption. lia. }
  split; [exact HP|]. intros d fx w. exact (newton_euler q v a t d fx _ w Hq Hm Ha HP).
Qed.
Theorem rnea_zero_ext d q v a w : validState m q -> 
  dotv (m_nv m) (rneaExt m d q v a (fun _ => v6zero)) w = dotv (m_nv m) (rnea m d q v a) w.
Proof.
  intros Hq. rewrite (rneaExt_power m W T Vm) by exact Hq. rewrite (rnea_power m W T Vm) by exact Hq. f_equal.
  apply power_ext. intros i _. apply v6sub_0_r.
Qed.
End Dyn.
