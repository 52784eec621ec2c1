(* valid states of the kinematics are valid configurations; examples; witnesses *)
Require Import Reals Lra Arith Bool List Lia FunctionalExtensionality.
From Verif Require Import Vec3 Spatial Joints Spec_Joints JointFacts Model Spec_Model ModelFacts ModelFacts2 ModelFacts3 Kinematics Spec_Kin KinFacts3 Rot ExpLog LieGroup Spec_Lie LieFacts LieFacts2 LieFacts3 LogFacts4 LieFacts4 LieFacts5 LieFacts6 LieFacts7.
Import ListNotations.
Local Open Scope R_scope.

Lemma valid1_on s q : validConfig1 s q -> onGroup (lieGroup1 s) q.
Proof. destruct s; intros H; try exact I; cbn in *; lra. Qed.
Lemma valid_leaf j oq ov s : leaf j oq ov s -> forall q, validConfig j q -> onGroup (lieGroup1 s) (shift oq q).
Proof.
  induction 1 as [s|l1 p j l2 oq ov s L IH]; intros q H.
  - apply valid1_on. exact H.
  - revert q H. induction l1 as [|[p1 j1] l1 IHl]; intros q H.
    + apply IH. apply H.
    + cbn [app] in H. destruct H as [_ H]. specialize (IHl _ H).
      replace (shift (jnq (JComposite ((p1, j1) :: l1)) + oq) q) with (shift (jnq (JComposite l1) + oq) (shift (jnq j1) q)); [exact IHl|].
      extensionality k. unfold shift. f_equal. rewrite jnq_cons. lia.
Qed.
Lemma validState_conf m q : validState m q -> validConf m q.
Proof.
  intros V iq iv s [i [oq [ov [Hi [L [-> ->]]]]]]. pose proof (valid_leaf _ _ _ _ L _ (V i Hi)) as H.
  replace (shift (idx_q m i + oq) q) with (shift oq (shift (idx_q m i) q)); [exact H|]. extensionality k. unfold shift. f_equal. lia.
Qed.
Lemma exN eps : m_njoints (exTree eps) = 5%nat. Proof. reflexivity. Qed.
Lemma exLie eps : Built eps (exTree eps) /\ validConf (exTree eps) (exQ 0) /\ validConf (exTree eps) (exQ 1) /\
  leafOf (exTree eps) 1 1 JFreeFlyer /\ leafOf (exTree eps) 8 7 JSpherical /\ exQ 0 0%nat <> exQ 1 0%nat.
Proof.
  split; [apply exTree_built|]. split; [apply validState_conf, exQ_valid|]. split; [apply validState_conf, exQ_valid|]. split; [|split].
  - exists 2%nat, 0%nat, 0%nat. destruct (exTree_types eps 2 ltac:(lia)) as (E1 & E2 & E3). rewrite E1, E2, E3. split; [split; [lia | rewrite exN; lia]|]. split; [exact (leaf_simple JFreeFlyer)|]. split; reflexivity.
  - exists 3%nat, 0%nat, 0%nat. destruct (exTree_types eps 3 ltac:(lia)) as (E1 & E2 & E3). rewrite E1, E2, E3. split; [split; [lia | rewrite exN; lia]|]. split; [exact (leaf_simple JSpherical)|]. split; reflexivity.
  - cbn. lra.
Qed.
Lemma neutral1_eq s : eqTo (nq1 s) (lg_neutral (lieGroup1 s)) (neutral1 s).
Proof. intros k Hk. destruct s; try reflexivity; cbn in Hk |- *; do 8 (try (destruct k as [|k]; [reflexivity|])); lia. Qed.
