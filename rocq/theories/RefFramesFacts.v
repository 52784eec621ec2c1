Require Import Reals Lra.
From Verif Require Import Vec3 Spatial Model Data Kinematics Jacobian RefFrames Spec_RefFrames.
Local Open Scope R_scope.

Lemma change_motion_point M v a b p : isRotation (rot M) -> pointVelocity b M (changeMotion M v a b) p = pointVelocity a M v p.
Proof.
  intros (O & _). destruct a, b; unfold pointVelocity, changeMotion, motion_act, motion_actInv, axes, referencePoint; cbn [lin ang]; rewrite ?(orthogonal_vec_tr _ _ O), ?m3vec_1; try reflexivity;
  generalize (m3vec (rot M) (lin v)) (m3vec (rot M) (ang v)) (trans M); intros; vring.
Qed.
Lemma change_force_resultant M f a b : isRotation (rot M) -> resultant b M (changeForce M f a b) = resultant a M f.
Proof.
  intros (O & _). destruct a, b; unfold resultant, changeForce, force_act, force_actInv, axes; cbn [lin ang]; rewrite ?(orthogonal_vec_tr _ _ O), ?m3vec_1; reflexivity.
Qed.
Lemma change_force_moment M f a b p : isRotation (rot M) -> momentAt b M (changeForce M f a b) p = momentAt a M f p.
Proof.
  intros (O & _). destruct a, b; unfold momentAt, changeForce, force_act, force_actInv, axes, referencePoint; cbn [lin ang]; rewrite ?(orthogonal_vec_tr _ _ O), ?m3vec_1; try reflexivity;
  generalize (m3vec (rot M) (lin f)) (m3vec (rot M) (ang f)) (trans M); intros; vring.
Qed.
Lemma axes_orth rf M : isRotation (rot M) -> orthogonal (axes rf M).
Proof. intros (O & _). destruct rf; cbn [axes]; try exact O; exact orthogonal_id. Qed.
Lemma orth_inj A u v : orthogonal A -> m3vec A u = m3vec A v -> u = v.
Proof. intros O E. rewrite <- (orthogonal_tr_vec A u O), <- (orthogonal_tr_vec A v O). now rewrite E. Qed.
Lemma cross_basis u w : (forall e, v3cross u e = v3cross w e) -> u = w.
Proof.
  intros H. pose proof (H (mkV3 1 0 0)) as E1. pose proof (H (mkV3 0 1 0)) as E2. destruct u as [u1 u2 u3], w as [w1 w2 w3]. unfold v3cross in E1, E2. cbn in E1, E2.
  injection E1 as _ A B. injection E2 as C _ D. apply v3_ext; cbn; lra.
Qed.
Lemma motion_point_unique rf M u v : isRotation (rot M) -> (forall p, pointVelocity rf M u p = pointVelocity rf M v p) -> u = v.
Proof.
  intros Ro H. pose proof (axes_orth rf M Ro) as O. unfold pointVelocity in H.
  assert (L : m3vec (axes rf M) (lin u) = m3vec (axes rf M) (lin v)).
  { specialize (H (referencePoint rf M)). rewrite !v3sub_diag, !v3cross_0_r, !v3add_0_r in H. exact H. }
  apply v6_ext; [exact (orth_inj _ _ _ O L)|]. apply (orth_inj (axes rf M) _ _ O). apply cross_basis. intros e.
  specialize (H (v3add (referencePoint rf M) e)). rewrite L in H. replace (v3sub (v3add (referencePoint rf M) e) (referencePoint rf M)) with e in H by vring.
  apply (f_equal (fun x => v3sub x (m3vec (axes rf M) (lin v)))) in H. etransitivity; [|etransitivity; [exact H|]]; vring.
Qed.
Lemma force_unique rf M f g : isRotation (rot M) -> resultant rf M f = resultant rf M g -> (exists p, momentAt rf M f p = momentAt rf M g p) -> f = g.
Proof.
  intros Ro L (p & H). pose proof (axes_orth rf M Ro) as O. unfold resultant, momentAt in *. apply v6_ext; [exact (orth_inj _ _ _ O L)|].
  apply (orth_inj (axes rf M) _ _ O). rewrite L in H. apply (f_equal (fun x => v3sub x (v3cross (v3sub (referencePoint rf M) p) (m3vec (axes rf M) (lin g))))) in H.
  etransitivity; [|etransitivity; [exact H|]]; generalize (v3cross (v3sub (referencePoint rf M) p) (m3vec (axes rf M) (lin g))); intros; vring.
Qed.
Lemma change_motion_comp M v a b c : isRotation (rot M) -> changeMotion M (changeMotion M v a b) b c = changeMotion M v a c.
Proof. intros Ro. apply (motion_point_unique c M _ _ Ro). intros p. now rewrite !change_motion_point. Qed.
Lemma change_force_comp M f a b c : isRotation (rot M) -> changeForce M (changeForce M f a b) b c = changeForce M f a c.
Proof. intros Ro. apply (force_unique c M _ _ Ro); [now rewrite !change_force_resultant|]. exists v3zero. now rewrite !change_force_moment. Qed.
(* the power, from the velocity of the reference point and the moment there *)
Lemma power_world rf M v f : isRotation (rot M) ->
  v6dot v f = v3dot (resultant rf M f) (pointVelocity rf M v (referencePoint rf M)) + v3dot (momentAt rf M f (referencePoint rf M)) (m3vec (axes rf M) (ang v)).
Proof.
  intros Ro. pose proof (axes_orth rf M Ro) as O. unfold resultant, pointVelocity, momentAt. rewrite !v3sub_diag, v3cross_0_r, v3cross_0_l, !v3add_0_r, !(orthogonal_dot _ _ _ O). reflexivity.
Qed.
Lemma change_power M v f a b : isRotation (rot M) -> v6dot (changeMotion M v a b) (changeForce M f a b) = v6dot v f.
Proof.
  intros (O & D). pose proof (orthogonal_tr _ O) as Ot.
  destruct a, b; unfold v6dot, changeMotion, changeForce, motion_act, motion_actInv, force_act, force_actInv; cbn [lin ang]; rewrite ?(orthogonal_dot _ _ _ Ot), ?(orthogonal_dot _ _ _ O); try reflexivity;
  try (destruct v as [[? ? ?] [? ? ?]], f as [[? ? ?] [? ? ?]], M as [rm [? ? ?]]; cbn; unfold v3dot, v3cross, v3sub, v3add; cbn; ring).
  rewrite <- (orthogonal_dot (rot M) (lin f) (lin v) O), <- (orthogonal_dot (rot M) (ang f) (ang v) O).
  generalize (m3vec (rot M) (lin v)) (m3vec (rot M) (ang v)) (m3vec (rot M) (lin f)) (m3vec (rot M) (ang f)) (trans M). intros [? ? ?] [? ? ?] [? ? ?] [? ? ?] [? ? ?]. unfold v3dot, v3cross, v3add; cbn; ring.
Qed.
(* ---- queries ---- *)
Lemma joint_queries d i a b : isRotation (rot (pl (rows d i) F_oMi)) ->
  getVelocity d i b = changeMotion (pl (rows d i) F_oMi) (getVelocity d i a) a b /\ getAcceleration d i b = changeMotion (pl (rows d i) F_oMi) (getAcceleration d i a) a b.
Proof.
  intros Ro. split.
  - transitivity (changeMotion (pl (rows d i) F_oMi) (mo (rows d i) F_v) LOCAL b); [destruct b; reflexivity|].
    rewrite <- (change_motion_comp _ _ LOCAL a b Ro). f_equal; destruct a; reflexivity.
  - transitivity (changeMotion (pl (rows d i) F_oMi) (mo (rows d i) F_a) LOCAL b); [destruct b; reflexivity|].
    rewrite <- (change_motion_comp _ _ LOCAL a b Ro). f_equal; destruct a; reflexivity.
Qed.
Lemma frame_motion M P v b : isRotation (rot M) -> isRotation (rot P) ->
  changeMotion (se3_mul M P) (motion_act M v) WORLD b =
  match b with LOCAL => motion_actInv P v | WORLD => motion_act M v
  | LOCAL_WORLD_ALIGNED => mkV6 (m3vec (rot M) (v3add (lin v) (v3cross (ang v) (trans P)))) (m3vec (rot M) (ang v)) end.
Proof.
  intros RM RP. destruct b; cbn [changeMotion].
  - reflexivity.
  - rewrite motion_actInv_mul by assumption. now rewrite motion_actInv_act by apply RM.
  - unfold motion_act, se3_mul. cbn [lin ang trans]. rewrite m3vec_add_r, (rotation_cross _ _ _ RM).
    generalize (m3vec (rot M) (lin v)) (m3vec (rot M) (ang v)) (m3vec (rot M) (trans P)) (trans M). intros. apply v6_ext; cbn [lin ang]; [vring|reflexivity].
Qed.
Lemma frame_queries d j P a b : isRotation (rot (pl (rows d j) F_oMi)) -> isRotation (rot P) -> let M := se3_mul (pl (rows d j) F_oMi) P in
  getFrameVelocity d j P b = changeMotion M (getFrameVelocity d j P a) a b /\ getFrameAcceleration d j P b = changeMotion M (getFrameAcceleration d j P a) a b.
Proof.
  intros RM RP M. assert (RR : isRotation (rot M)) by (apply isRotation_mul; assumption).
  assert (V : forall c, getFrameVelocity d j P c = changeMotion M (motion_act (pl (rows d j) F_oMi) (mo (rows d j) F_v)) WORLD c) by (intros c; unfold M; rewrite (frame_motion _ P _ c RM RP); destruct c; reflexivity).
  assert (A : forall c, getFrameAcceleration d j P c = changeMotion M (motion_act (pl (rows d j) F_oMi) (mo (rows d j) F_a)) WORLD c) by (intros c; unfold M; rewrite (frame_motion _ P _ c RM RP); destruct c; reflexivity).
  split; [rewrite (V a), (V b)|rewrite (A a), (A b)]; symmetry; now apply change_motion_comp.
Qed.
Lemma column_queries rf M v : toFrame rf M v = changeMotion M v WORLD rf.
Proof. destruct rf; try reflexivity. unfold toFrame, changeMotion. f_equal. vring. Qed.
(* classical accelerations: between the two frames at the origin of the placement only *)
Lemma classical_local d i : isRotation (rot (pl (rows d i) F_oMi)) ->
  getClassicalAcceleration d i LOCAL_WORLD_ALIGNED = changeMotion (pl (rows d i) F_oMi) (getClassicalAcceleration d i LOCAL) LOCAL LOCAL_WORLD_ALIGNED.
Proof.
  intros Ro. unfold getClassicalAcceleration, getVelocity, getAcceleration, changeMotion, rotateBoth. cbn [lin ang]. now rewrite m3vec_add_r, (rotation_cross _ _ _ Ro).
Qed.
Definition exTurn : SE3 := mkSE3 (mkM3 0 (-1) 0 1 0 0 0 0 1) (mkV3 1 2 3).
Lemma exTurn_rot : isRotation (rot exTurn).
Proof. split; [apply m3_ext; cbn; ring|unfold m3det; cbn; ring]. Qed.
(* a joint that turns about the vertical axis, one unit away from the origin *)
Definition exSpin (d : Data) : Data := setRow d 1 (setMo (setMo (setPl (rows d 1) F_oMi (mkSE3 m3id (mkV3 1 0 0))) F_v (mkV6 v3zero (mkV3 0 0 1))) F_a v6zero).
Lemma classical_wrong d : isRotation (rot (pl (rows (exSpin d) 1) F_oMi)) /\
  getClassicalAcceleration (exSpin d) 1 WORLD <> changeMotion (pl (rows (exSpin d) 1) F_oMi) (getClassicalAcceleration (exSpin d) 1 LOCAL) LOCAL WORLD.
Proof.
  split; [exact isRotation_id|]. intros H. apply (f_equal (fun x => vx (lin x))) in H. cbn in H. lra.
Qed.
