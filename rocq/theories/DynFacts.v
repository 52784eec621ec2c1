Require Import Reals List Arith Lia Lra.
From Verif Require Import Vec3 Spatial Inertia InertiaFacts Joints Spec_Joints Deriv JointFacts JointFacts2 Model Spec_Model ModelFacts ModelTree ModelFacts2 Sums Data Kinematics Spec_Kin KinFacts KinFacts2 Rnea Spec_Dyn.
Import ListNotations.
Local Open Scope nat_scope.

Lemma v6dot_comm a b : v6dot a b = v6dot b a. Proof. ssimp. ring. Qed.
Lemma v6dot_add_l a b c : v6dot (v6add a b) c = (v6dot a c + v6dot b c)%R. Proof. ssimp. ring. Qed.
Lemma v6dot_add_r a b c : v6dot c (v6add a b) = (v6dot c a + v6dot c b)%R. Proof. ssimp. ring. Qed.
Lemma v6dot_sub_r a b c : v6dot c (v6sub a b) = (v6dot c a - v6dot c b)%R. Proof. ssimp. ring. Qed.
Lemma v6dot_scale_l k a c : v6dot (v6scale k a) c = (k * v6dot a c)%R. Proof. ssimp. ring. Qed.
Lemma v6dot_scale_r k a c : v6dot c (v6scale k a) = (k * v6dot c a)%R. Proof. ssimp. ring. Qed.
Lemma v6dot_0_l c : v6dot v6zero c = 0%R. Proof. ssimp. ring. Qed.
Lemma v6dot_0_r c : v6dot c v6zero = 0%R. Proof. ssimp. ring. Qed.

Lemma sumN_shift1 n f : sumN (S n) f = (f 0%nat + sumN n (fun k => f (S k)))%R.
Proof. change (S n) with (1 + n). rewrite sumN_split. cbn [sumN Nat.add]. ring. Qed.
Lemma StMul_dot S f x : sumN (length S) (fun k => StMul S f k * x k)%R = v6dot (Smul S x) f.
Proof.
  revert x. induction S as [|c S IH]; intros x; cbn [length Smul]; [cbn [sumN]; now rewrite v6dot_0_l|].
  rewrite sumN_shift1, v6dot_add_l, v6dot_scale_l, <- IH. unfold StMul. cbn [nth]. unfold shift. cbn [Nat.add]. ring.
Qed.
Lemma addSeg_dot n b l y x w : b + l <= n -> dotv n (addSeg b l y x) w = (dotv n x w + sumN l (fun k => y k * w (b + k)%nat))%R.
Proof.
  intros H. unfold dotv. rewrite <- (sumN_ext l (fun k => y (b + k - b)%nat * w (b + k)%nat)%R) by (intros k Hk; f_equal; f_equal; lia).
  rewrite <- (sumN_seg n b l (fun k => y (k - b)%nat * w k)%R H), <- sumN_add. apply sumN_ext. intros k Hk.
  unfold addSeg. destruct ((b <=? k) && (k <? b + l))%bool; ring.
Qed.

Section Back.
Variable m : Model.
Hypothesis W : wellFormed m.
Variables (SS : nat -> list V6) (LL : nat -> SE3) (V : nat -> V6) (w : vec).
Hypothesis HS : forall i, 0 < i < m_njoints m -> length (SS i) = nvEOf m i.
Hypothesis HR : forall i, 0 < i < m_njoints m -> idx_v m i + nvEOf m i <= m_nv m.
Hypothesis V0 : V 0 = v6zero.
Hypothesis HV : forall i, 0 < i < m_njoints m -> V i = v6add (Smul (SS i) (shift (idx_v m i) w)) (motion_actInv (LL i) (V (parent m i))).

(* virtual power: the generalized force and the wrenches not yet transmitted always produce the same power *)
Lemma torque_power T d :
  (forall i, 0 < i < m_njoints m -> jS (jd (rows d i)) = SS i) ->
  (forall i, 0 < i < m_njoints m -> pl (rows d i) F_liMi = LL i) ->
  let d' := downward m (torqueStep m T) d in
  dotv (m_nv m) (ve (gl d') T) w = (dotv (m_nv m) (ve (gl d) T) w + bodies m (fun i => v6dot (V i) (mo (rows d i) F_f)))%R.
Proof.
  intros ES EL. cbv zeta. unfold bodies.
  pose (Inv := fun k (s : Data) =>
    (forall i, 0 < i < m_njoints m -> jS (jd (rows s i)) = SS i) /\
    (forall i, 0 < i < m_njoints m -> pl (rows s i) F_liMi = LL i) /\
    (dotv (m_nv m) (ve (gl s) T) w + sumN (k - 1) (fun j => v6dot (V (S j)) (mo (rows s (S j)) F_f)))%R =
    (dotv (m_nv m) (ve (gl d) T) w + sumN (m_njoints m - 1) (fun j => v6dot (V (S j)) (mo (rows d (S j)) F_f)))%R).
  assert (H : Inv 1 (downward m (torqueStep m T) d)).
  { apply downward_inv.
    - apply (wf_n m W).
    - unfold Inv. auto.
    - intros i s Hi (I1 & I2 & I3). pose proof (wf_parent m W i Hi) as Hp.
      assert (Eve : ve (gl (torqueStep m T s i)) T = addSeg (idx_v m i) (nvEOf m i) (StMul (SS i) (mo (rows s i) F_f)) (ve (gl s) T)).
      { unfold torqueStep. rewrite (I1 i Hi). destruct (0 <? parent m i); destruct T; mem; reflexivity. }
      assert (Erow : forall j, jd (rows (torqueStep m T s i) j) = jd (rows s j) /\ pl (rows (torqueStep m T s i) j) F_liMi = pl (rows s j) F_liMi).
      { intros j. unfold torqueStep. destruct (0 <? parent m i); mem; [|auto].
        destruct (Nat.eq_dec (parent m i) j) as [->|Hn]; [rewrite putn_same; mem; auto | rewrite putn_other by exact Hn; auto]. }
      assert (Ef : forall j, mo (rows (torqueStep m T s i) j) F_f =
         if ((0 <? parent m i) && (parent m i =? j))%bool then v6add (mo (rows s j) F_f) (force_act (LL i) (mo (rows s i) F_f)) else mo (rows s j) F_f).
      { intros j. unfold torqueStep. rewrite (I2 i Hi). destruct (0 <? parent m i); mem; [|reflexivity].
        cbn [andb]. destruct (Nat.eqb_spec (parent m i) j) as [->|Hn]; [rewrite putn_same; mem; reflexivity | now rewrite putn_other by exact Hn]. }
      unfold Inv. split; [|split].
      + intros j Hj. rewrite (proj1 (Erow j)). now apply I1.
      + intros j Hj. rewrite (proj2 (Erow j)). now apply I2.
      + rewrite <- I3. replace (i + 1 - 1) with (S (i - 1)) by lia. cbn [sumN].
        rewrite Eve, addSeg_dot by now apply HR. rewrite Rplus_assoc. f_equal.
        rewrite <- (HS i Hi). change (fun k => (StMul (SS i) (mo (rows s i) F_f) k * w (idx_v m i + k)%nat)%R)
          with (fun k => (StMul (SS i) (mo (rows s i) F_f) k * shift (idx_v m i) w k)%R).
        rewrite StMul_dot. replace (S (i - 1)) with i by lia. rewrite (HV i Hi), v6dot_add_l, act_dot_dual.
        destruct (Nat.ltb_spec 0 (parent m i)) as [Hpp|Hpp].
        * rewrite (sumN_one (i - 1) (parent m i - 1) (fun j => v6dot (V (S j)) (mo (rows (torqueStep m T s i) (S j)) F_f))
                     (fun j => v6dot (V (S j)) (mo (rows s (S j)) F_f))).
          -- rewrite !Ef. replace (S (parent m i - 1)) with (parent m i) by lia. rewrite Nat.eqb_refl. cbn [andb].
             rewrite v6dot_add_r. ring.
          -- lia.
          -- intros k Hk Hne. rewrite Ef. destruct (Nat.eqb_spec (parent m i) (S k)); [lia|]. now rewrite Bool.andb_false_r.
        * rewrite (sumN_ext (i - 1) (fun j => v6dot (V (S j)) (mo (rows (torqueStep m T s i) (S j)) F_f))
                     (fun j => v6dot (V (S j)) (mo (rows s (S j)) F_f))) by (intros k Hk; now rewrite Ef).
          replace (parent m i) with 0 by lia. rewrite V0, v6dot_0_l. ring. }
  destruct H as (_ & _ & H). cbn [sumN Nat.sub] in H. lra.
Qed.
End Back.

Section Dyn.
Variable m : Model.
Hypothesis W : wellFormed m.
Hypothesis T : treeInv m.
Hypothesis Vm : validModel m.

Lemma bodyAcc_0 q v a : bodyAcc m q v a 0 = v6zero.
Proof. unfold bodyAcc. now rewrite (support_0 m W T). Qed.
Lemma bodyAcc_step q v a i : validState m q -> 0 < i < m_njoints m ->
  bodyAcc m q v a i = v6add (jointAcc m q v a i) (motion_actInv (relPl m q i) (bodyAcc m q v a (parent m i))).
Proof.
  intros Hq Hi. unfold bodyAcc. pose proof (wf_parent _ W i Hi) as Hp.
  rewrite (tail_step m W T i Hi), map_app, sumV6_app. cbn [map sumV6]. rewrite v6add_0_r.
  rewrite (motion_actInv_act _ _ (proj1 (worldPl_rot m W T Vm q i Hq ltac:(lia)))).
  rewrite v6add_comm. f_equal.
  rewrite (sumV6_map_lin (motion_actInv (relPl m q i))) by first [apply motion_actInv_0 | apply motion_actInv_add].
  f_equal. apply map_ext. intros j. rewrite (worldPl_step m W T q i Hi).
  rewrite motion_actInv_mul; [reflexivity | apply (worldPl_rot m W T Vm); [exact Hq | lia] | now apply (relPl_rot m Vm)].
Qed.
Lemma gravityAt_0 q : gravityAt m q 0 = m_gravity m.
Proof. unfold gravityAt. rewrite (worldPl_0 m W T). apply motion_actInv_1. Qed.
Lemma gravityAt_step q i : validState m q -> 0 < i < m_njoints m -> gravityAt m q i = motion_actInv (relPl m q i) (gravityAt m q (parent m i)).
Proof.
  intros Hq Hi. pose proof (wf_parent _ W i Hi) as Hp. unfold gravityAt. rewrite (worldPl_step m W T q i Hi).
  apply motion_actInv_mul; [apply (worldPl_rot m W T Vm); [exact Hq | lia] | now apply (relPl_rot m Vm)].
Qed.

Lemma velRow_eq q v i r rp : 0 < i < m_njoints m ->
  jd (velRow m q v i r rp) = jointAt m q v i /\
  pl (velRow m q v i r rp) F_liMi = relPl m q i /\
  (mo rp F_v = bodyVel m q v (parent m i) -> validState m q -> mo (velRow m q v i r rp) F_v = bodyVel m q v i) /\
  (forall t, t <> F_v -> mo (velRow m q v i r rp) t = mo r t).
Proof.
  intros Hi. unfold velRow. rewrite (calcJoint_at m W i q v Hi). unfold relPl. rewrite (jointAt_M m q noVel v i).
  split; [destruct (0 <? parent m i); mem; reflexivity|]. split; [destruct (0 <? parent m i); mem; reflexivity|]. split.
  - intros Ev Hq. rewrite (bodyVel_step m W T Vm q v i Hq Hi). rewrite <- (jv_twist m Vm q v i Hi).
    destruct (Nat.ltb_spec 0 (parent m i)) as [Hp|Hp]; mem.
    + unfold relPl. rewrite (jointAt_M m q noVel v i), Ev. reflexivity.
    + replace (parent m i) with 0 by lia. rewrite (bodyVel_0 m W T), motion_actInv_0, v6add_0_r. reflexivity.
  - intros t Ht. destruct (0 <? parent m i); destruct t; try congruence; mem; reflexivity.
Qed.

(* what a forward pass establishes: subspaces, relative placements and wrenches *)
Definition forwardOk (q : vec) (F : nat -> V6) (d : Data) : Prop :=
  forall i, 0 < i < m_njoints m -> jS (jd (rows d i)) = jS (jointAt m q noVel i) /\ pl (rows d i) F_liMi = relPl m q i /\
    mo (rows d i) F_f = F i.

Lemma forward_power Tg d q F w : validState m q -> forwardOk q F d ->
  dotv (m_nv m) (ve (gl (downward m (torqueStep m Tg) d)) Tg) w = (dotv (m_nv m) (ve (gl d) Tg) w + power m q F w)%R.
Proof.
  intros Hq Hf. unfold power.
  rewrite (torque_power m W (fun i => jS (jointAt m q noVel i)) (relPl m q) (bodyVel m q w) w) with (d := d).
  - f_equal. unfold bodies. apply sumN_ext. intros k Hk. now rewrite (proj2 (proj2 (Hf (S k) ltac:(lia)))).
  - intros i Hi. unfold jointAt. destruct (Vm i Hi) as [Vj _]. rewrite (jS_lengthE _ _ _ Vj).
    destruct (wf_joint _ W i Hi) as (_ & _ & _ & _ & _ & _ & E). exact E.
  - intros i Hi. destruct (Nat.eq_dec (nvEOf m i) 0) as [E|E].
    + rewrite E, Nat.add_0_r. pose proof (wf_inrange m W i Hi). lia.
    + pose proof (inRange m W Vm i (nvEOf m i - 1) Hi ltac:(lia)). lia.
  - apply (bodyVel_0 m W T).
  - intros i Hi. rewrite (bodyVel_step m W T Vm q w i Hq Hi). reflexivity.
  - intros i Hi. apply (Hf i Hi).
  - intros i Hi. apply (Hf i Hi).
Qed.

Lemma zeroVe_dot n d Tg w : dotv n (ve (gl (zeroVe d Tg)) Tg) w = 0%R.
Proof. unfold dotv. apply sumN_zero. intros k _. unfold zeroVe. destruct Tg; mem; ring. Qed.
Lemma addArmature_dot a d w : dotv (m_nv m) (ve (gl (addArmature m a d)) F_tau) w = (dotv (m_nv m) (ve (gl d) F_tau) w + armaturePower m a w)%R.
Proof.
  unfold dotv, armaturePower. rewrite <- sumN_add. apply sumN_ext. intros k _. unfold addArmature, armatureOf. mem. ring.
Qed.

(* forward recursion over a_gf *)
Lemma rneaRow_eq q v a i r rp : validState m q -> 0 < i < m_njoints m ->
  mo rp F_v = bodyVel m q v (parent m i) -> mo rp F_a_gf = v6sub (bodyAcc m q v a (parent m i)) (gravityAt m q (parent m i)) ->
  let r' := rneaRow m q v a i r rp in
  jS (jd r') = jS (jointAt m q noVel i) /\ pl r' F_liMi = relPl m q i /\
  mo r' F_v = bodyVel m q v i /\ mo r' F_a_gf = v6sub (bodyAcc m q v a i) (gravityAt m q i) /\ mo r' F_f = bodyForce m q v a i.
Proof.
  intros Hq Hi Ev Ea. destruct (velRow_eq q v i r rp Hi) as (E1 & E2 & E3 & E4). specialize (E3 Ev Hq).
  cbv zeta. unfold rneaRow. rewrite (velSel_at m W i a Hi).
  set (r1 := velRow m q v i r rp) in *. clearbody r1. mem.
  rewrite E1, E2, E3, Ea, (jointAt_S m q v noVel i).
  assert (EA : v6add (v6add (v6add (jc (jointAt m q v i)) (motion_cross (bodyVel m q v i) (jv (jointAt m q v i))))
       (Smul (jS (jointAt m q noVel i)) (shift (idx_v m i) a)))
       (motion_actInv (relPl m q i) (v6sub (bodyAcc m q v a (parent m i)) (gravityAt m q (parent m i))))
     = v6sub (bodyAcc m q v a i) (gravityAt m q i)).
  { rewrite (bodyAcc_step q v a i Hq Hi), (gravityAt_step q i Hq Hi). unfold jointAcc. rewrite (jv_twist m Vm q v i Hi).
    generalize (jc (jointAt m q v i)) (motion_cross (bodyVel m q v i) (jointTwist m q v i)) (Smul (jS (jointAt m q noVel i)) (shift (idx_v m i) a)).
    generalize (bodyAcc m q v a (parent m i)) (gravityAt m q (parent m i)). intros A G c x s.
    replace (motion_actInv (relPl m q i) (v6sub A G)) with (v6sub (motion_actInv (relPl m q i) A) (motion_actInv (relPl m q i) G)) by sring.
    generalize (motion_actInv (relPl m q i) A) (motion_actInv (relPl m q i) G). clear. sring. }
  split; [reflexivity|]. split; [reflexivity|]. split; [reflexivity|]. split; [exact EA|].
  rewrite EA. reflexivity.
Qed.

Lemma rnea_forward d q v a : validState m q ->
  let d0 := setRow d 0 (setMo (setMo (rows d 0) F_v v6zero) F_a_gf (v6opp (m_gravity m))) in
  forall fx : nat -> Force,
  let d' := upward m (rowStep m (fun i r rp => let r := rneaRow m q v a i r rp in setMo r F_f (v6sub (mo r F_f) (fx i)))) d0 in
  gl d' = gl d /\ forwardOk q (fun i => v6sub (bodyForce m q v a i) (fx i)) d' /\
  (forall i, i < m_njoints m -> mo (rows d' i) F_v = bodyVel m q v i /\ mo (rows d' i) F_a_gf = v6sub (bodyAcc m q v a i) (gravityAt m q i)).
Proof.
  intros Hq d0 fx. cbv zeta.
  set (F := fun i r rp => let r := rneaRow m q v a i r rp in setMo r F_f (v6sub (mo r F_f) (fx i))).
  destruct (upward_rows m F d0 W) as (H0 & H1 & H2). set (d' := upward m (rowStep m F) d0) in *.
  assert (G : forall i, i < m_njoints m -> mo (rows d' i) F_v = bodyVel m q v i /\ mo (rows d' i) F_a_gf = v6sub (bodyAcc m q v a i) (gravityAt m q i)).
  { refine (tree_ind m _ W _ _).
    - rewrite H1. unfold d0. mem. rewrite putn_same. mem. rewrite (bodyVel_0 m W T), bodyAcc_0, gravityAt_0. split; [reflexivity | sring].
    - intros i Hi [IH1 IH2]. rewrite (H2 i Hi). unfold F.
      destruct (rneaRow_eq q v a i (rows d0 i) (rows d' (parent m i)) Hq Hi IH1 IH2) as (_ & _ & A & B & _). mem. now rewrite A, B. }
  split; [rewrite H0; reflexivity|]. split; [|exact G].
  intros i Hi. pose proof (wf_parent _ W i Hi) as Hp. destruct (G (parent m i) ltac:(lia)) as [G1 G2].
  rewrite (H2 i Hi). unfold F.
  destruct (rneaRow_eq q v a i (rows d0 i) (rows d' (parent m i)) Hq Hi G1 G2) as (A1 & A2 & _ & _ & A3). mem. rewrite A3. auto.
Qed.
Lemma rnea_forward0 d q v a : validState m q ->
  let d0 := setRow d 0 (setMo (setMo (rows d 0) F_v v6zero) F_a_gf (v6opp (m_gravity m))) in
  let d' := upward m (rowStep m (rneaRow m q v a)) d0 in
  gl d' = gl d /\ forwardOk q (bodyForce m q v a) d' /\
  (forall i, i < m_njoints m -> mo (rows d' i) F_v = bodyVel m q v i /\ mo (rows d' i) F_a_gf = v6sub (bodyAcc m q v a i) (gravityAt m q i)).
Proof.
  intros Hq d0. cbv zeta.
  destruct (upward_rows m (rneaRow m q v a) d0 W) as (H0 & H1 & H2). set (d' := upward m (rowStep m (rneaRow m q v a)) d0) in *.
  assert (G : forall i, i < m_njoints m -> mo (rows d' i) F_v = bodyVel m q v i /\ mo (rows d' i) F_a_gf = v6sub (bodyAcc m q v a i) (gravityAt m q i)).
  { refine (tree_ind m _ W _ _).
    - rewrite H1. unfold d0. mem. rewrite putn_same. mem. rewrite (bodyVel_0 m W T), bodyAcc_0, gravityAt_0. split; [reflexivity | sring].
    - intros i Hi [IH1 IH2]. rewrite (H2 i Hi).
      destruct (rneaRow_eq q v a i (rows d0 i) (rows d' (parent m i)) Hq Hi IH1 IH2) as (_ & _ & A & B & _). now rewrite A, B. }
  split; [rewrite H0; reflexivity|]. split; [|exact G].
  intros i Hi. pose proof (wf_parent _ W i Hi) as Hp. destruct (G (parent m i) ltac:(lia)) as [G1 G2].
  rewrite (H2 i Hi).
  destruct (rneaRow_eq q v a i (rows d0 i) (rows d' (parent m i)) Hq Hi G1 G2) as (A1 & A2 & _ & _ & A3). rewrite A3. auto.
Qed.

Theorem rnea_power d q v a w : validState m q ->
  dotv (m_nv m) (rnea m d q v a) w = (power m q (bodyForce m q v a) w + armaturePower m a w)%R.
Proof.
  intros Hq. unfold rnea, rneaData. rewrite addArmature_dot. f_equal.
  destruct (rnea_forward0 (zeroVe d F_tau) q v a Hq) as (E1 & E2 & _).
  rewrite (forward_power F_tau _ q _ w Hq E2), E1, zeroVe_dot. ring.
Qed.
Theorem rneaExt_power d q v a fx w : validState m q ->
  dotv (m_nv m) (rneaExt m d q v a fx) w =
  (power m q (fun i => v6sub (bodyForce m q v a i) (fx i)) w + armaturePower m a w)%R.
Proof.
  intros Hq. unfold rneaExt, rneaDataExt. rewrite addArmature_dot. f_equal.
  destruct (rnea_forward (zeroVe d F_tau) q v a Hq fx) as (E1 & E2 & _). cbv zeta in *.
  rewrite (forward_power F_tau _ q _ w Hq E2), E1, zeroVe_dot. ring.
Qed.
End Dyn.
