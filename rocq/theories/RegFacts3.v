(* The kinematic regressors and the regressor of a body attached to a frame. *)
Require Import Reals List Arith ZArith Lia Lra Bool.
From Verif Require Import Vec3 Spatial Inertia InertiaFacts Joints Spec_Joints Deriv JointFacts JointFacts2 Model Spec_Model ModelFacts ModelTree ModelFacts2 Sums Data Kinematics Spec_Kin Spec_Mass KinFacts KinFacts2 KinFacts3 Spec_Dyn Rnea DynFacts DynFacts2 TreeSums MassFacts Crba CrbaFacts Aba Spec_Jac Regressor Spec_Reg RegFacts RegFacts2.
Import ListNotations.
Local Open Scope nat_scope.

Lemma v6_dot_ext a b : (forall e, v6dot e a = v6dot e b) -> a = b.
Proof.
  intros H. destruct a as [[a0 a1 a2] [a3 a4 a5]], b as [[b0 b1 b2] [b3 b4 b5]].
  pose proof (H (mkV6 (mkV3 1 0 0) v3zero)) as H0. pose proof (H (mkV6 (mkV3 0 1 0) v3zero)) as H1. pose proof (H (mkV6 (mkV3 0 0 1) v3zero)) as H2.
  pose proof (H (mkV6 v3zero (mkV3 1 0 0))) as H3. pose proof (H (mkV6 v3zero (mkV3 0 1 0))) as H4. pose proof (H (mkV6 v3zero (mkV3 0 0 1))) as H5.
  unfold v6dot, v3dot in *. cbn in *. apply v6_ext; apply v3_ext; cbn; lra.
Qed.
Lemma action_cols M V : colsMul 6 (fun k => m6col (se3_toActionMatrix M) k) (comp6 V) = motion_act M V.
Proof.
  destruct M as [[? ? ? ? ? ? ? ? ?] [? ? ?]], V as [[? ? ?] [? ? ?]]. apply v6_ext; apply v3_ext; cbn; ring.
Qed.

Section Frame.
Variable m : Model.
Hypothesis W : wellFormed m.
Hypothesis T : treeInv m.
Hypothesis Vm : validModel m.

Lemma torque_keeps Tg tg d : tg <> F_f -> forall i, mo (rows (downward m (torqueStep m Tg) d) i) tg = mo (rows d i) tg.
Proof.
  intros Ht. apply (downward_inv m (torqueStep m Tg) (fun _ s => forall i, mo (rows s i) tg = mo (rows d i) tg)).
  - apply (njoints_pos m W).
  - reflexivity.
  - intros j s Hj IH i. rewrite <- IH. unfold torqueStep. destruct (0 <? parent m j); [|mem; reflexivity]. mem. unfold putn.
    destruct (Nat.eqb_spec (parent m j) i) as [->|]; [|reflexivity]. destruct tg; try congruence; mem; reflexivity.
Qed.
Lemma rnea_rows d q v a i : validState m q -> i < m_njoints m ->
  mo (rows (rneaData m d q v a) i) F_v = bodyVel m q v i /\ mo (rows (rneaData m d q v a) i) F_a_gf = v6sub (bodyAcc m q v a i) (gravityAt m q i).
Proof.
  intros Hq Hi. unfold rneaData. cbv zeta.
  destruct (rnea_forward0 m W T Vm (zeroVe d F_tau) q v a Hq) as (_ & _ & E). unfold addArmature. mem.
  rewrite !torque_keeps by discriminate. exact (E i Hi).
Qed.
Theorem joint_regressor_rnea d q v a i Y : validState m q -> 0 < i < m_njoints m ->
  colsMul 10 (jointBodyRegressor (rneaData m d q v a) i) (param Y) =
  v6add (inertia_mul Y (v6sub (bodyAcc m q v a i) (gravityAt m q i))) (force_cross (bodyVel m q v i) (inertia_mul Y (bodyVel m q v i))).
Proof.
  intros Hq Hi. unfold jointBodyRegressor. destruct (rnea_rows d q v a i Hq ltac:(lia)) as [-> ->]. apply body_regressor.
Qed.
Theorem frame_regressor_rnea d q v a f Y : validState m q -> let j := fr_parentJoint (frameAt m f) in let P := fr_placement (frameAt m f) in
  j < m_njoints m -> isRotation (rot P) ->
  force_act P (colsMul 10 (frameBodyRegressor m (rneaData m d q v a) f) (param Y)) =
  v6add (inertia_mul (inertia_act P Y) (v6sub (bodyAcc m q v a j) (gravityAt m q j)))
        (force_cross (bodyVel m q v j) (inertia_mul (inertia_act P Y) (bodyVel m q v j))).
Proof.
  intros Hq j P Hj HP. unfold frameBodyRegressor. cbv zeta. fold j P.
  destruct (rnea_rows d q v a j Hq Hj) as [-> ->]. rewrite body_regressor.
  generalize (v6sub (bodyAcc m q v a j) (gravityAt m q j)) (bodyVel m q v j). intros A V.
  rewrite <- (motion_act_actInv P V (proj1 HP)) at 3 4. rewrite <- (motion_act_actInv P A (proj1 HP)) at 2.
  rewrite !(inertia_act_mul P Y) by exact HP. rewrite <- force_act_cross by exact HP.
  generalize (inertia_mul Y (motion_actInv P A)) (force_cross (motion_actInv P V) (inertia_mul Y (motion_actInv P V))). intros x y. destruct P as [[? ? ? ? ? ? ? ? ?] [? ? ?]]. sring.
Qed.

(* ---- placements as parameters ---- *)
Lemma withPl_at P i : i < m_njoints m -> placementOf (withPlacements m P) i = P i.
Proof.
  intros Hi. unfold placementOf, withPlacements. cbn [m_placements].
  rewrite (nth_indep _ _ (P 0)) by (now rewrite map_length, seq_length). rewrite map_nth, seq_nth by exact Hi. reflexivity.
Qed.
Lemma withPl_rel P q i : i < m_njoints m -> relPl (withPlacements m P) q i = se3_mul (P i) (jM (jointAt m q noVel i)).
Proof. intros Hi. unfold relPl. rewrite (withPl_at P i Hi). reflexivity. Qed.
Lemma withPl_step P q i : 0 < i < m_njoints m ->
  worldPl (withPlacements m P) q i = se3_mul (worldPl (withPlacements m P) q (parent m i)) (relPl (withPlacements m P) q i).
Proof.
  intros Hi. unfold worldPl. change (support (withPlacements m P)) with (support m). rewrite (tail_step m W T i Hi), product_app. cbn [product].
  now rewrite se3_mul_1_r.
Qed.
Lemma withPl_0 P q : worldPl (withPlacements m P) q 0 = se3_Identity.
Proof. unfold worldPl. change (support (withPlacements m P)) with (support m). now rewrite (support_0 m W T). Qed.

(* velocity of joint j when the placements move with the twists tau *)
Definition placeVel (q : vec) (tau : nat -> V6) (j : nat) : V6 :=
  sumV6 (map (fun i => motion_actInv (worldPl m q j) (motion_act (se3_mul (worldPl m q (parent m i)) (placementOf m i)) (tau i))) (tl (support m j))).
Lemma placeVel_step q tau j : validState m q -> 0 < j < m_njoints m ->
  placeVel q tau j = v6add (motion_actInv (relPl m q j) (placeVel q tau (parent m j))) (motion_actInv (jM (jointAt m q noVel j)) (tau j)).
Proof.
  intros Hq Hj. pose proof (wf_parent _ W j Hj) as Hp. unfold placeVel. rewrite (tail_step m W T j Hj), map_app, sumV6_app. cbn [map sumV6]. rewrite v6add_0_r.
  pose proof (worldPl_rot m W T Vm q (parent m j) Hq ltac:(lia)) as HR. pose proof (relPl_rot m Vm q j Hq Hj) as HRr.
  f_equal.
  - rewrite (sumV6_map_lin (motion_actInv (relPl m q j))) by first [apply motion_actInv_0 | apply motion_actInv_add].
    f_equal. apply map_ext. intros i. rewrite (worldPl_step m W T q j Hj). now rewrite motion_actInv_mul.
  - rewrite (worldPl_step m W T q j Hj). unfold relPl. rewrite se3_mul_assoc.
    assert (HQ : isRotation (rot (jM (jointAt m q noVel j)))) by (unfold jointAt; destruct (Vm j Hj) as [Vj _]; apply jM_rotation; [exact Vj | exact (Hq j Hj)]).
    assert (HP : isRotation (rot (se3_mul (worldPl m q (parent m j)) (placementOf m j)))) by (apply isRotation_se3_mul; [exact HR | exact (proj2 (Vm j Hj))]).
    rewrite motion_actInv_mul by assumption. now rewrite motion_actInv_act by apply HP.
Qed.
Lemma placements_twist q (P : R -> nat -> SE3) tau t j : validState m q ->
  (forall i, 0 < i < m_njoints m -> P t i = placementOf m i /\ hasTwist (fun s => P s i) (tau i) t) -> j < m_njoints m ->
  worldPl (withPlacements m (P t)) q j = worldPl m q j /\
  hasTwist (fun s => worldPl (withPlacements m (P s)) q j) (placeVel q tau j) t.
Proof.
  intros Hq HP. revert j. refine (tree_ind m _ W _ _).
  - split; [now rewrite withPl_0, (worldPl_0 m W T)|].
    apply (hasTwist_ext _ (fun _ => se3_Identity)); [intros s; apply withPl_0|].
    unfold placeVel. rewrite (support_0 m W T). cbn [tl map sumV6]. apply hasTwist_const.
  - intros j Hj [IH0 IH]. destruct (HP j Hj) as [E H].
    assert (ER : relPl (withPlacements m (P t)) q j = relPl m q j) by (rewrite withPl_rel by lia; rewrite E; reflexivity).
    split; [now rewrite (withPl_step (P t) q j Hj), (worldPl_step m W T q j Hj), IH0, ER|].
    apply (hasTwist_ext _ (fun s => se3_mul (worldPl (withPlacements m (P s)) q (parent m j)) (relPl (withPlacements m (P s)) q j))).
    + intros s. now apply withPl_step.
    + rewrite (placeVel_step q tau j Hq Hj), <- ER. apply hasTwist_mul.
      * rewrite ER. exact (relPl_rot m Vm q j Hq Hj).
      * exact IH.
      * apply (hasTwist_ext _ (fun s => se3_mul (P s j) (jM (jointAt m q noVel j)))); [intros s; apply withPl_rel; lia|].
        eapply hasTwist_eq; [apply hasTwist_mul; [|exact H | apply hasTwist_const]|].
        -- unfold jointAt. destruct (Vm j Hj) as [Vj _]. apply jM_rotation; [exact Vj | exact (Hq j Hj)].
        -- apply v6add_0_r.
Qed.

(* what the loop accumulates *)
Definition kinM (d : Data) (rf : RefFrame) (G : SE3) (i : nat) : SE3 :=
  let oMp := se3_mul (pl (rows d (parent m i)) F_oMi) (placementOf m i) in
  match rf with LOCAL => se3_actInv_se3 G oMp | LOCAL_WORLD_ALIGNED => mkSE3 (rot oMp) (v3sub (trans oMp) (trans G)) | WORLD => oMp end.
Lemma stack6_at tau i : (forall k, k < 6 -> stack6 tau (6 * i + k) = comp6 (tau (S i)) k).
Proof. intros k Hk. unfold stack6. destruct (block_div 6 i k Hk) as [-> ->]. reflexivity. Qed.
Lemma climb_kin d rf G tau : forall fuel j K, j <= fuel -> j < m_njoints m -> (forall c, c < 6 * j -> K c = v6zero) ->
  colsMul (6 * (m_njoints m - 1)) (climb m (kinStep m d rf G) fuel j K) (stack6 tau) =
  v6add (colsMul (6 * (m_njoints m - 1)) K (stack6 tau)) (sumV6 (map (fun i => motion_act (kinM d rf G i) (tau i)) (tl (support m j)))).
Proof.
  induction fuel as [|fuel IH]; intros j K Hf Hj HK.
  - replace j with 0 by lia. cbn [climb]. rewrite (support_0 m W T). cbn [tl map sumV6]. now rewrite v6add_0_r.
  - cbn [climb]. destruct (Nat.ltb_spec 0 j) as [Hp|Hp].
    2:{ replace j with 0 by lia. rewrite (support_0 m W T). cbn [tl map sumV6]. now rewrite v6add_0_r. }
    assert (Hj' : 0 < j < m_njoints m) by lia. pose proof (wf_parent _ W j Hj') as Hpar.
    rewrite IH; [|lia|lia|].
    + rewrite (tail_step m W T j Hj'), map_app, sumV6_app. cbn [map sumV6]. rewrite v6add_0_r.
      rewrite (v6add_comm (sumV6 _) (motion_act _ _)), v6add_assoc. f_equal.
      rewrite <- (action_cols (kinM d rf G j)). apply v6_dot_ext. intros e. rewrite v6dot_add_r, !colsMul_sum.
      set (N := 6 * (m_njoints m - 1)).
      rewrite <- (sumN_ext N (fun c => stack6 tau c * v6dot e (K c) + (if within (6 * (j - 1)) 6 c then comp6 (tau j) (c - 6 * (j - 1)) * v6dot e (m6col (se3_toActionMatrix (kinM d rf G j)) (c - 6 * (j - 1))) else 0))%R).
      * rewrite sumN_add. f_equal. unfold within.
        rewrite (sumN_seg N (6 * (j - 1)) 6 (fun c => comp6 (tau j) (c - 6 * (j - 1)) * v6dot e (m6col (se3_toActionMatrix (kinM d rf G j)) (c - 6 * (j - 1))))%R) by (unfold N; lia).
        apply sumN_ext. intros k Hk. replace (6 * (j - 1) + k - 6 * (j - 1)) with k by lia. reflexivity.
      * intros c Hc. unfold kinStep. cbv zeta. fold (kinM d rf G j). destruct (within (6 * (j - 1)) 6 c) eqn:E; [|ring].
        apply within_spec in E. rewrite (HK c) by lia. rewrite v6dot_0_r.
        assert (E2 : stack6 tau c = comp6 (tau j) (c - 6 * (j - 1))).
        { replace c with (6 * (j - 1) + (c - 6 * (j - 1))) at 1 by lia. rewrite stack6_at by lia. now replace (S (j - 1)) with j by lia. }
        rewrite E2. fold (kinM d rf G j). ring.
    + intros c Hc. unfold kinStep. cbv zeta. destruct (within (6 * (j - 1)) 6 c) eqn:E; [|apply HK; lia].
      apply within_spec in E. lia.
Qed.
Lemma kin_generic d rf G tau j : j < m_njoints m ->
  colsMul (6 * (m_njoints m - 1)) (kinRegressorGeneric m d j rf G) (stack6 tau) = sumV6 (map (fun i => motion_act (kinM d rf G i) (tau i)) (tl (support m j))).
Proof.
  intros Hj. unfold kinRegressorGeneric. rewrite climb_kin by first [lia | reflexivity].
  assert (Z : forall p w, colsMul p (fun _ => v6zero) w = v6zero).
  { intros p w. induction p as [|p IH]; cbn [colsMul]; [reflexivity|]. rewrite IH. sring. }
  rewrite Z. apply v6add_0_l.
Qed.

(* the three reference frames: G the placement of a frame carried by joint j *)
Theorem kin_regressor d q tau j F : validState m q -> j < m_njoints m -> isRotation (rot F) -> pl (rows d 0) F_oMi = se3_Identity ->
  let d' := forwardKinematics0 m d q in let G := se3_mul (worldPl m q j) F in
  let V := motion_actInv F (placeVel q tau j) in
  let K := fun rf => colsMul (6 * (m_njoints m - 1)) (kinRegressorGeneric m d' j rf G) (stack6 tau) in
  K LOCAL = V /\ K WORLD = motion_act G V /\ K LOCAL_WORLD_ALIGNED = mkV6 (m3vec (rot G) (lin V)) (m3vec (rot G) (ang V)).
Proof.
  intros Hq Hj HF H0 d' G V K.
  pose proof (worldPl_rot m W T Vm q j Hq Hj) as HRj.
  assert (HG : isRotation (rot G)) by (apply isRotation_se3_mul; assumption).
  assert (EP : forall i, In i (tl (support m j)) -> pl (rows d' (parent m i)) F_oMi = worldPl m q (parent m i) /\
     isRotation (rot (se3_mul (worldPl m q (parent m i)) (placementOf m i)))).
  { intros i Hi. apply (tail_range m W T j i Hj) in Hi. assert (Hi' : 0 < i < m_njoints m) by lia. pose proof (wf_parent _ W i Hi') as Hp. split.
    - destruct (Nat.eq_dec (parent m i) 0) as [E|E].
      + rewrite E, (worldPl_0 m W T). unfold d'. destruct (upward_rows m (fk0Row m q) d W) as (_ & E0 & _). unfold forwardKinematics0. now rewrite E0.
      + apply (fk0_placed m W T d q (parent m i)). lia.
    - apply isRotation_se3_mul; [apply (worldPl_rot m W T Vm); [exact Hq | lia] | exact (proj2 (Vm i Hi'))]. }
  assert (KW : K WORLD = sumV6 (map (fun i => motion_act (se3_mul (worldPl m q (parent m i)) (placementOf m i)) (tau i)) (tl (support m j)))).
  { unfold K. rewrite kin_generic by exact Hj. f_equal. apply map_ext_in. intros i Hi. unfold kinM. cbv zeta. now rewrite (proj1 (EP i Hi)). }
  assert (EV : motion_act G V = K WORLD).
  { rewrite KW. unfold V, G. rewrite motion_act_mul by exact HRj. rewrite motion_act_actInv by apply HF. unfold placeVel.
    rewrite <- (sumV6_map_lin (motion_actInv (worldPl m q j))) by first [apply motion_actInv_0 | apply motion_actInv_add].
    now rewrite motion_act_actInv by apply HRj. }
  split; [|split].
  - rewrite <- (motion_actInv_act G V (proj1 HG)), EV, KW. unfold K. rewrite kin_generic by exact Hj.
    rewrite (sumV6_map_lin (motion_actInv G)) by first [apply motion_actInv_0 | apply motion_actInv_add].
    f_equal. apply map_ext_in. intros i Hi. unfold kinM. cbv zeta. rewrite (proj1 (EP i Hi)).
    destruct (EP i Hi) as [_ HR]. set (A := se3_mul (worldPl m q (parent m i)) (placementOf m i)) in *.
    rewrite se3_actInv_se3_inverse, motion_act_mul. 2:{ apply isRotation_tr. exact HG. }
    now rewrite <- motion_actInv_inverse by exact HG.
  - now symmetry.
  - transitivity (mkV6 (v3sub (lin (K WORLD)) (v3cross (trans G) (ang (K WORLD)))) (ang (K WORLD))).
    + rewrite KW. unfold K. rewrite kin_generic by exact Hj.
      set (h := fun x : V6 => mkV6 (v3sub (lin x) (v3cross (trans G) (ang x))) (ang x)).
      change (sumV6 (map (fun i => motion_act (kinM d' LOCAL_WORLD_ALIGNED G i) (tau i)) (tl (support m j))) =
         h (sumV6 (map (fun i => motion_act (se3_mul (worldPl m q (parent m i)) (placementOf m i)) (tau i)) (tl (support m j))))).
      rewrite (sumV6_map_lin h); [|unfold h; sring|intros a b; unfold h; sring].
      f_equal. apply map_ext_in. intros i Hi. unfold kinM, h. cbv zeta. rewrite (proj1 (EP i Hi)).
      generalize (se3_mul (worldPl m q (parent m i)) (placementOf m i)) (tau i) (trans G). intros A x g. destruct A as [[? ? ? ? ? ? ? ? ?] [? ? ?]]. sring.
    + rewrite <- EV. generalize V. intros x. destruct G as [[? ? ? ? ? ? ? ? ?] [? ? ?]]. clear. sring.
Qed.
End Frame.
