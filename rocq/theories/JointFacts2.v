(* Further facts on joints: neutral configuration, mimic joints, worked example. *)
Require Import Reals Lra Lia List.
From Verif Require Import Vec3 Spatial Deriv Joints Spec_Joints JointFacts.
Import ListNotations.
Local Open Scope R_scope.

Lemma rnv_jnvE j : validJoint j -> rnv j = jnvE j.
Proof.
  induction j as [j|j s o|l IH] using Joint_ind'; intros Hj; try reflexivity.
  cbn [rnv]. revert Hj. induction IH as [|[P j] l Hx Hl IHl]; intros Hj; [reflexivity|].
  apply -> validJoint_cons in Hj. destruct Hj as [[HP [Hn Hj]] Hl'].
  cbn in *. rewrite <- (rnv_notMimic j Hn), (Hx Hj). f_equal. apply (IHl Hl').
Qed.

Lemma jS_lengthE j q v : validJoint j -> length (jS (jcalc j q v)) = jnvE j.
Proof. intros H. rewrite <- rnv_jnvE by exact H. apply jS_length; exact H. Qed.

Lemma jM_twist_S j (q v : R -> nat -> R) (w : nat -> R) t :
  validJoint j -> validConfig j (q t) ->
  (forall k, (k < readsQ j)%nat -> deriv (fun s => q s k) (configRate j (q t) w k) t) ->
  hasTwist (fun s => jM (jcalc j (q s) (v s))) (Smul (jS (jcalc j (q t) w)) w) t.
Proof. intros Hj Hq Hd. rewrite <- jv_S by exact Hj. apply jM_twist; assumption. Qed.

Lemma jv_biasE j (q v : R -> nat -> R) (a : nat -> R) t :
  validJoint j -> validConfig j (q t) ->
  (forall k, (k < readsQ j)%nat -> deriv (fun s => q s k) (configRate j (q t) (v t) k) t) ->
  (forall k, (k < jnvE j)%nat -> deriv (fun s => v s k) (a k) t) ->
  let d := jcalc j (q t) (v t) in
  deriv6 (fun s => jv (jcalc j (q s) (v s))) (v6add (Smul (jS d) a) (jc d)) t.
Proof. intros Hj. rewrite <- rnv_jnvE by exact Hj. apply jv_bias; exact Hj. Qed.

Lemma unitAxis_0 ax : v3scale 0 (unitAxis ax) = v3zero.
Proof. destruct ax as [|[|]]; unfold v3scale, unitAxis, v3zero; cbn; f_equal; ring. Qed.

Lemma neutral_identity j v :
  validJoint1 j -> validConfig1 j (neutral1 j) /\ jM (jcalc (JSimple j) (neutral1 j) v) = se3_Identity.
Proof.
  intros Hj. split.
  - destruct j; cbn; try exact I; ring.
  - assert (Hr : forall ax, axisRotation ax 0 1 = m3id) by (intros [|[|]]; cbn; unfold m3id; f_equal; ring).
    assert (Ht : forall a, toRotationMatrix a 1 0 = m3id)
      by (intros a; unfold toRotationMatrix, m3id, v3scale; cbn; f_equal; ring).
    assert (Hi : m3mul m3id m3id = m3id) by (unfold m3mul, m3id; cbn; f_equal; ring).
    cbn [jcalc jM]. unfold se3_Identity.
    destruct j; cbn [calcM1 neutral1]; rewrite ?sin_0, ?cos_0, ?Hr, ?Ht, ?Hi, ?Rmult_0_l, ?unitAxis_0; try reflexivity;
      f_equal; try (unfold quatMatrix, zyxRotation, m3id; f_equal; ring); try (unfold v3zero, v3scale; cbn; f_equal; ring).
Qed.

Lemma quaternion_joints (q v : nat -> R) (u : V3) :
  se3_actPoint (jM (jcalc (JSimple JSpherical) q v)) u = quatRotate (q 0%nat) (q 1%nat) (q 2%nat) (q 3%nat) u /\
  se3_actPoint (jM (jcalc (JSimple JFreeFlyer) q v)) u =
    v3add (quatRotate (q 3%nat) (q 4%nat) (q 5%nat) (q 6%nat) u) (mkV3 (q 0%nat) (q 1%nat) (q 2%nat)).
Proof.
  destruct u. cbn [jcalc jM calcM1]. unfold se3_actPoint, quatMatrix, quatRotate, m3vec, v3add, v3scale, v3cross, v3zero.
  cbn. split; f_equal; ring.
Qed.

Lemma atan2_circle th : - PI < th < PI -> atan2 (sin th) (cos th) = th.
Proof.
  intros [H1 H2]. pose proof PI_RGT_0.
  destruct (Rlt_dec 0 (cos th)) as [Hc|Hc].
  - rewrite atan2_pos_x by exact Hc. change (sin th / cos th) with (tan th).
    assert (- (PI/2) < th < PI/2).
    { split; apply Rnot_le_lt; intros Hx; apply Rlt_not_le in Hc; apply Hc.
      - rewrite <- cos_neg. apply cos_le_0; lra.
      - apply cos_le_0; lra. }
    apply atan_tan; assumption.
  - destruct (Rtotal_order (sin th) 0) as [Hs|[Hs|Hs]].
    + rewrite atan2_neg_y by exact Hs.
      assert (H0 : th < 0). { apply Rnot_le_lt; intros Hx. destruct (Rle_lt_or_eq_dec 0 th Hx) as [Hy|Hy].
        - pose proof (sin_gt_0 th Hy H2); lra. - subst th; rewrite sin_0 in Hs; lra. }
      assert (th <= - (PI/2)). { apply Rnot_lt_le; intros Hx. apply Hc. apply cos_gt_0; lra. }
      replace (cos th / sin th) with (tan (- (PI/2) - th)).
      * rewrite atan_tan by lra. ring.
      * unfold tan. rewrite sin_minus, cos_minus, sin_neg, cos_neg, sin_PI2, cos_PI2. field. lra.
    + exfalso. destruct (Rle_lt_dec 0 th) as [Hx|Hx].
      * destruct (Rle_lt_or_eq_dec 0 th Hx) as [Hy|Hy].
        -- pose proof (sin_gt_0 th Hy H2); lra.
        -- subst th; rewrite cos_0 in Hc; lra.
      * assert (Hy : 0 < sin (- th)) by (apply sin_gt_0; lra). rewrite sin_neg in Hy. lra.
    + rewrite atan2_pos_y by exact Hs.
      assert (H0 : 0 < th). { apply Rnot_le_lt; intros Hx. destruct (Rle_lt_or_eq_dec th 0 Hx) as [Hy|Hy].
        - assert (0 < sin (- th)) by (apply sin_gt_0; lra). rewrite sin_neg in *; lra.
        - subst th; rewrite sin_0 in Hs; lra. }
      assert (PI/2 <= th). { apply Rnot_lt_le; intros Hx. apply Hc. apply cos_gt_0; lra. }
      replace (cos th / sin th) with (tan (PI/2 - th)).
      * rewrite atan_tan by lra. ring.
      * unfold tan. rewrite sin_minus, cos_minus, sin_PI2, cos_PI2. field. lra.
Qed.

Lemma calcM1_ext j q q' : (forall k, (k < nq1 j)%nat -> q k = q' k) -> calcM1 j q = calcM1 j q'.
Proof.
  intros H. destruct j; cbn [nq1] in H; cbn [calcM1];
    rewrite ?(H 0%nat), ?(H 1%nat), ?(H 2%nat), ?(H 3%nat), ?(H 4%nat), ?(H 5%nat), ?(H 6%nat) by lia; reflexivity.
Qed.

Lemma mimic_moves (j : Joint1) (s o : R) (q v : nat -> R) :
  mimicable j ->
  (match j with JRUB _ | JRUBUnaligned _ => False | _ => True end ->
     jM (jcalc (JMimic j s o) q v) = jM (jcalc (JSimple j) (fun k => s * q k + o) v)) /\
  (forall th : R, (match j with JRUB _ | JRUBUnaligned _ => True | _ => False end) -> - PI < th < PI ->
     q 0%nat = cos th -> q 1%nat = sin th ->
     jM (jcalc (JMimic j s o) q v) =
     jM (jcalc (JSimple j) (fun k => match k with 0%nat => cos (s * th + o) | _ => sin (s * th + o) end) v)).
Proof.
  intros Hm. split.
  - intros Hj. destruct j; try contradiction; reflexivity.
  - intros th Hj Hth H0 H1. cbn [jcalc jM].
    destruct j; try contradiction; cbn [mimicConfig]; rewrite H0, H1, atan2_circle by exact Hth; reflexivity.
Qed.

Lemma mimic_helical_wrong :
  exists q v : nat -> R, jv (jcalc (JMimic (JHelical 0 1) 1 0) q v) <> Smul (jS (jcalc (JMimic (JHelical 0 1) 1 0) q v)) v.
Proof.
  exists (fun _ => 0), (fun _ => 1). cbn. intros H. apply (f_equal (fun m => vx (lin m))) in H. cbn in H.
  unfold unitAxis in H; cbn in H. lra.
Qed.

Lemma one_lt_PI : - PI < 1 < PI.
Proof. pose proof PI2_1. lra. Qed.

(* worked example: a composite of an unbounded revolute, a universal joint and a placed helical joint *)
Definition exAxis : V3 := mkV3 (3/5) 0 (4/5).
Lemma exUnit : validJoint1 (JRevoluteUnaligned exAxis).
Proof. cbn. unfold unit3, exAxis, v3dot; cbn. field. Qed.
Definition exJoint : Joint :=
  JComposite [(se3_Identity, JSimple (JRUB 2));
              (mkSE3 m3id (mkV3 1 2 3), JSimple (JUniversal exAxis (mkV3 0 1 0)));
              (se3_Identity, JSimple (JHelicalUnaligned exAxis 2))].
Lemma exJoint_valid : validJoint exJoint.
Proof.
  cbn. unfold unit3, exAxis, v3dot; cbn. repeat split; try exact I; try apply isRotation_id; field.
Qed.
Definition exTraj (t : R) (k : nat) : R :=
  match k with 0%nat => cos t | 1%nat => sin t | 2%nat => 2 * t | 3%nat => 3 * t | _ => 5 * t end.
Definition exVel (k : nat) : R := match k with 0%nat => 1 | 1%nat => 2 | 2%nat => 3 | _ => 5 end.
Lemma exTraj_valid t : validConfig exJoint (exTraj t).
Proof. cbn. repeat split; try exact I. pose proof (sin2_cos2 t) as H. unfold Rsqr in H. lra. Qed.
Lemma exTraj_rate t k : (k < readsQ exJoint)%nat -> deriv (fun s => exTraj s k) (configRate exJoint (exTraj t) exVel k) t.
Proof.
  cbn [readsQ jnq exJoint nq1]. intros H. assert (Hid : deriv (fun s => s) 1 t) by (apply derivable_pt_lim_id).
  destruct k as [|[|[|[|[|k]]]]]; [| | | | |lia]; cbn; (eapply deriv_eq; [dv | cbv beta; cbn; try ring]).
Qed.
