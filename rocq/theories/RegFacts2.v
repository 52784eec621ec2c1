(* The joint torque regressor. *)
Require Import Reals List Arith ZArith Lia Lra Bool.
From Verif Require Import Vec3 Spatial Inertia InertiaFacts Joints Spec_Joints Deriv JointFacts JointFacts2 Model Spec_Model ModelFacts ModelTree ModelFacts2 Sums Data Kinematics Spec_Kin Spec_Mass KinFacts KinFacts2 KinFacts3 Spec_Dyn Rnea DynFacts DynFacts2 TreeSums MassFacts Crba CrbaFacts Spec_Com Com ComFacts ComFacts2 ComFacts3 Aba Spec_Jac Regressor Spec_Reg RegFacts.
Import ListNotations.
Local Open Scope nat_scope.

Lemma dot_act_dual M x f : v6dot x (force_act M f) = v6dot (motion_actInv M x) f.
Proof. destruct M as [[? ? ? ? ? ? ? ? ?] [? ? ?]], x as [[? ? ?] [? ? ?]], f as [[? ? ?] [? ? ?]]. ssimp. ring. Qed.

Lemma within_spec b n k : within b n k = true <-> b <= k < b + n.
Proof. unfold within. rewrite andb_true_iff, Nat.leb_le, Nat.ltb_lt. tauto. Qed.

Section Torque.
Variable m : Model.
Hypothesis W : wellFormed m.
Hypothesis T : treeInv m.
Hypothesis Vm : validModel m.

Lemma torqueReg_forward d q v a : validState m q -> let d' := torqueRegForward m d q v a in
  forall i, 0 < i < m_njoints m -> jS (jd (rows d' i)) = jS (jointAt m q noVel i) /\ pl (rows d' i) F_liMi = relPl m q i /\
    mo (rows d' i) F_v = bodyVel m q v i /\ mo (rows d' i) F_a_gf = v6sub (bodyAcc m q v a i) (gravityAt m q i).
Proof.
  intros Hq. cbv zeta. unfold torqueRegForward.
  set (d0 := setRow d 0 (setMo (setMo (rows d 0) F_v v6zero) F_a_gf (v6opp (m_gravity m)))).
  destruct (upward_rows m (torqueRegRow m q v a) d0 W) as (_ & H1 & H2). set (d' := upward m (rowStep m (torqueRegRow m q v a)) d0) in *.
  assert (E : forall i r rp, jd (torqueRegRow m q v a i r rp) = jd (rneaRow m q v a i r rp) /\ pl (torqueRegRow m q v a i r rp) F_liMi = pl (rneaRow m q v a i r rp) F_liMi /\
    mo (torqueRegRow m q v a i r rp) F_v = mo (rneaRow m q v a i r rp) F_v /\ mo (torqueRegRow m q v a i r rp) F_a_gf = mo (rneaRow m q v a i r rp) F_a_gf).
  { intros i r rp. unfold torqueRegRow, rneaRow. generalize (velRow m q v i r rp). intros r'. mem. repeat split. }
  assert (G : forall i, i < m_njoints m -> mo (rows d' i) F_v = bodyVel m q v i /\ mo (rows d' i) F_a_gf = v6sub (bodyAcc m q v a i) (gravityAt m q i)).
  { refine (tree_ind m _ W _ _).
    - rewrite H1. unfold d0. mem. rewrite putn_same. mem. rewrite (bodyVel_0 m W T), (bodyAcc_0 m W T), (gravityAt_0 m W T). split; [reflexivity | sring].
    - intros i Hi [IH1 IH2]. rewrite (H2 i Hi). destruct (E i (rows d0 i) (rows d' (parent m i))) as (_ & _ & -> & ->).
      destruct (rneaRow_eq m W T Vm q v a i (rows d0 i) (rows d' (parent m i)) Hq Hi IH1 IH2) as (_ & _ & A & B & _). now split. }
  intros i Hi. pose proof (wf_parent _ W i Hi) as Hp. destruct (G i ltac:(lia)) as [G1 G2]. destruct (G (parent m i) ltac:(lia)) as [P1 P2].
  rewrite G1, G2. rewrite (H2 i Hi). destruct (E i (rows d0 i) (rows d' (parent m i))) as (-> & -> & _ & _).
  destruct (rneaRow_eq m W T Vm q v a i (rows d0 i) (rows d' (parent m i)) Hq Hi P1 P2) as (A & B & _). auto.
Qed.
(* the wrench of each body *)
Theorem joint_regressor d q v a i : validState m q -> 0 < i < m_njoints m ->
  colsMul 10 (jointBodyRegressor (torqueRegForward m d q v a) i) (param (inertiaOf m i)) = bodyForce m q v a i.
Proof.
  intros Hq Hi. unfold jointBodyRegressor. destruct (torqueReg_forward d q v a Hq i Hi) as (_ & _ & -> & ->).
  rewrite body_regressor. reflexivity.
Qed.

Hypothesis NM : noMimic m.

Lemma unit_body_step q o a j : validState m q -> 0 < o < m_njoints m -> a < nvOf m o -> 0 < j < m_njoints m ->
  bodyVel m q (unitv (idx_v m o + a)) j =
  v6add (if o =? j then nth a (jS (jointAt m q noVel o)) v6zero else v6zero) (motion_actInv (relPl m q j) (bodyVel m q (unitv (idx_v m o + a)) (parent m j))).
Proof.
  intros Hq Ho Ha Hj. rewrite (bodyVel_step m W T Vm q _ j Hq Hj), (twist_unit m W Vm NM q o a j Ho Ha Hj). reflexivity.
Qed.
Lemma unit_body_off q o a j : validState m q -> 0 < o < m_njoints m -> a < nvOf m o -> j < m_njoints m -> anc m o j = false ->
  bodyVel m q (unitv (idx_v m o + a)) j = v6zero.
Proof.
  intros Hq Ho Ha. revert j. refine (tree_ind m _ W _ _).
  - intros _. apply (bodyVel_0 m W T).
  - intros j Hj IH Hn. rewrite (anc_step m W T o j Hj) in Hn. apply orb_false_iff in Hn. destruct Hn as [N1 N2].
    rewrite (unit_body_step q o a j Hq Ho Ha Hj), N1, (IH N2), motion_actInv_0. apply v6add_0_l.
Qed.

Lemma climb_torque q d col : validState m q ->
  (forall i, 0 < i < m_njoints m -> jS (jd (rows d i)) = jS (jointAt m q noVel i) /\ pl (rows d i) F_liMi = relPl m q i) ->
  forall fuel j s o a c, j <= fuel -> j < m_njoints m -> 0 < o < m_njoints m -> a < nvOf m o ->
  regT (climb m (torqueRegStep m d col) fuel j s) (idx_v m o + a) c =
  if within (10 * (col - 1)) 10 c && anc m o j then v6dot (bodyVel m q (unitv (idx_v m o + a)) j) (regB s (c - 10 * (col - 1)))
  else regT s (idx_v m o + a) c.
Proof.
  intros Hq Hd. induction fuel as [|fuel IH]; intros j s o a c Hf Hj Ho Ha.
  - replace j with 0 by lia. cbn [climb]. rewrite (anc_0 m W T). destruct (Nat.eqb_spec o 0); [lia|]. now rewrite andb_false_r.
  - cbn [climb]. destruct (Nat.ltb_spec 0 j) as [Hp|Hp].
    2:{ replace j with 0 by lia. rewrite (anc_0 m W T). destruct (Nat.eqb_spec o 0); [lia|]. now rewrite andb_false_r. }
    assert (Hj' : 0 < j < m_njoints m) by lia. pose proof (wf_parent _ W j Hj') as Hpar.
    destruct (Hd j Hj') as [E1 E2].
    rewrite (IH (parent m j) _ o a c) by (assumption || lia).
    rewrite (anc_step m W T o j Hj').
    destruct (Nat.eqb_spec o j) as [->|Hne]; cbn [orb].
    + destruct (anc m j (parent m j)) eqn:EA; [apply (anc_le m W T) in EA; lia|]. rewrite andb_false_r, andb_true_r.
      unfold torqueRegStep. cbn [regT]. unfold setBlock. rewrite (proj2 (within_spec _ _ _)) by lia. cbn [andb].
      destruct (within (10 * (col - 1)) 10 c); [|reflexivity].
      rewrite (unit_body_step q j a j Hq Hj' Ha Hj'), Nat.eqb_refl, (unit_body_off q j a (parent m j) Hq Hj' Ha ltac:(lia) EA), motion_actInv_0, v6add_0_r.
      rewrite E1. unfold StMul. replace (idx_v m j + a - idx_v m j) with a by lia. reflexivity.
    + assert (Z : regT (torqueRegStep m d col s j) (idx_v m o + a) c = regT s (idx_v m o + a) c).
      { unfold torqueRegStep. cbn [regT]. unfold setBlock.
        destruct (within (idx_v m j) (nvOf m j) (idx_v m o + a)) eqn:EW; [|reflexivity].
        apply within_spec in EW. exfalso. apply Hne.
        apply (dof_unique m W NM o a j (idx_v m o + a - idx_v m j) Ho Hj' Ha); lia. }
      rewrite Z. destruct (anc m o (parent m j)) eqn:EA; [|now rewrite !andb_false_r]. destruct (within (10 * (col - 1)) 10 c); [|reflexivity]. cbn [andb].
      rewrite (unit_body_step q o a j Hq Ho Ha Hj'), (proj2 (Nat.eqb_neq o j) Hne), v6add_0_l.
      unfold torqueRegStep. cbn [regB]. destruct (Nat.ltb_spec 0 (parent m j)) as [Hpp|Hpp].
      * rewrite E2. apply dot_act_dual.
      * replace (parent m j) with 0 in EA by lia. rewrite (anc_0 m W T) in EA. apply Nat.eqb_eq in EA. lia.
Qed.
Lemma torque_entries q d : validState m q ->
  (forall i, 0 < i < m_njoints m -> jS (jd (rows d i)) = jS (jointAt m q noVel i) /\ pl (rows d i) F_liMi = relPl m q i) ->
  forall i k c, 0 < i < m_njoints m -> k < m_nv m -> c < 10 ->
  regT (downward m (torqueRegBody m d) (mkRegS (fun _ _ => 0%R) (fun _ => v6zero))) k (10 * (i - 1) + c)
  = v6dot (bodyVel m q (unitv k) i) (jointBodyRegressor d i c).
Proof.
  intros Hq Hd.
  assert (G : forall i k c, 0 < i < m_njoints m -> k < m_nv m -> c < 10 ->
    regT (downward m (torqueRegBody m d) (mkRegS (fun _ _ => 0%R) (fun _ => v6zero))) k (10 * (i - 1) + c)
    = if 1 <=? i then v6dot (bodyVel m q (unitv k) i) (jointBodyRegressor d i c) else 0%R).
  { apply (downward_inv m (torqueRegBody m d) (fun j s => forall i k c, 0 < i < m_njoints m -> k < m_nv m -> c < 10 ->
      regT s k (10 * (i - 1) + c) = if j <=? i then v6dot (bodyVel m q (unitv k) i) (jointBodyRegressor d i c) else 0%R)).
    - apply (njoints_pos m W).
    - intros i k c Hi Hk Hc. cbn [regT]. destruct (Nat.leb_spec (m_njoints m) i); [lia | reflexivity].
    - intros j s Hj IH i k c Hi Hk Hc. destruct (dof_owner m W k Hk) as (o & a & Ho & Ha & Ek).
      unfold torqueRegBody. rewrite Ek. rewrite (climb_torque q d j Hq Hd j j _ o a _ (le_n _) (proj2 Hj) Ho Ha). cbn [regT regB]. rewrite <- Ek.
      destruct (Nat.eq_dec i j) as [->|Hne].
      + rewrite (proj2 (within_spec (10 * (j - 1)) 10 _)) by lia. rewrite Nat.leb_refl. cbn [andb].
        destruct (anc m o j) eqn:EA.
        * f_equal. f_equal. lia.
        * rewrite (IH j k c Hj Hk Hc), Ek, (unit_body_off q o a j Hq Ho Ha (proj2 Hj) EA).
          destruct (Nat.leb_spec (j + 1) j); [lia|]. symmetry. apply v6dot_0_l.
      + assert (Z : within (10 * (j - 1)) 10 (10 * (i - 1) + c) = false).
        { destruct (within _ _ _) eqn:EW; [|reflexivity]. apply within_spec in EW. lia. }
        rewrite Z. cbn [andb]. rewrite (IH i k c Hi Hk Hc).
        destruct (Nat.leb_spec (j + 1) i), (Nat.leb_spec j i); try lia; reflexivity. }
  intros i k c Hi Hk Hc. rewrite (G i k c Hi Hk Hc). now rewrite (proj2 (Nat.leb_le 1 i)) by lia.
Qed.

Theorem torque_regressor d d' q v a k : validState m q -> k < m_nv m ->
  (dotv (10 * (m_njoints m - 1)) (computeJointTorqueRegressor m d q v a k) (params m) = rnea m d' q v a k - armatureOf m k * a k)%R.
Proof.
  intros Hq Hk. rewrite <- (dotv_unit (m_nv m) k (rnea m d' q v a) Hk), (rnea_power m W T Vm d' q v a _ Hq).
  replace (armaturePower m a (unitv k)) with (armatureOf m k * a k)%R.
  2:{ unfold armaturePower. rewrite (sumN_ext _ _ (fun l => if k =? l then nth l (m_armature m) 0 * a l else 0)%R).
      - now rewrite sumN_delta.
      - intros l _. unfold unitv. destruct (k =? l); ring. }
  ring_simplify. unfold power, bodies, dotv. rewrite sumN_blocks. apply sumN_ext. intros i Hi.
  rewrite <- (joint_regressor d q v a (S i) Hq ltac:(lia)).
  rewrite colsMul_sum.
  apply sumN_ext. intros c Hc. rewrite (params_at m i c Hc). unfold computeJointTorqueRegressor. cbv zeta.
  set (d1 := torqueRegForward m d q v a). replace (10 * i + c) with (10 * (S i - 1) + c) by lia.
  rewrite (torque_entries q d1 Hq) by first [lia | intros j Hj; destruct (torqueReg_forward d q v a Hq j Hj) as (A & B & _); now split].
  apply Rmult_comm.
Qed.
End Torque.
