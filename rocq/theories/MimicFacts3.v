(* The motion of the transformed model. *)
Require Import Reals String List Arith Bool Lia.
From Verif Require Import Vec3 Spatial Inertia InertiaFacts Joints Spec_Joints JointFacts JointFacts2 Model Spec_Model ModelFacts ModelFacts2 ModelTree Data Kinematics Spec_Kin KinFacts Mimic Spec_Mimic MimicFacts MimicFacts2.
Import ListNotations.
Local Open Scope nat_scope.

Lemma driven_config j sc off qa qb : mimicable j -> driven j sc off qa qb -> forall k, k < nq1 j -> mimicConfig j sc off qa k = qb k.
Proof.
  intros Hm H k Hk. destruct j; cbn in Hm; try tauto; cbn [driven] in H; cbn [nq1] in Hk; cbn [mimicConfig];
    try (destruct k as [|k]; [now rewrite H | lia]);
    destruct H as (th & Hth & E0 & E1 & B0 & B1); rewrite E0, E1, atan2_circle by exact Hth; destruct k as [|[|k]]; [now rewrite B0 | now rewrite B1 | lia | now rewrite B0 | now rewrite B1 | lia].
Qed.

Lemma paired_wf m : wellFormed m -> wellFormed (paired m).
Proof. intros W. destruct W. constructor; assumption. Qed.

Lemma worldPl_paired m q i : worldPl (paired m) q i = worldPl m q i.
Proof. unfold worldPl. change (support (paired m) i) with (support m i). induction (tl (support m i)) as [|x l IH]; cbn [product]; [reflexivity | rewrite IH; reflexivity]. Qed.

Section Motion.
Variables (m : Model) (a b : nat) (sc off : R) (out m' : Model).
Hypothesis W : wellFormed m.
Hypothesis T : treeInv (paired m).
Hypothesis MP : mimicPair m a b.
Hypothesis E : transformJointIntoMimic out m a b sc off = Ok m' tt.
Hypothesis VM : validModel m.

Lemma W' : wellFormed m'.
Proof. destruct MP as ((H1 & H2) & H3 & H4 & (j & H5 & H6 & H7 & H8) & H9). eapply (r_wf m a b j sc off out); eassumption. Qed.
Lemma T' : treeInv (paired m').
Proof. destruct MP as ((H1 & H2) & H3 & H4 & (j & H5 & H6 & H7 & H8) & H9). eapply (r_tree m a b j sc off out); eassumption. Qed.

Variables (q q' v v' : vec) (j : Joint1).
Hypothesis Ej : jm_type (joint m b) = JSimple j.
Hypothesis Cq : sameConfigBut m m' b q q'.
Hypothesis Cb : driven j sc off (shift (idx_q m a) q) (shift (idx_q m b) q).

Lemma coords_q i k : 0 < i < m_njoints m -> i <> b -> k < rnq (jm_type (joint m i)) -> shift (idx_q m' i) q' k = shift (idx_q m i) q k.
Proof.
  destruct MP as ((H1 & H2) & H3 & H4 & (j' & H5 & H6 & H7 & H8) & H9). intros Hi Hb Hk. unfold shift.
  destruct (wf_joint _ W i Hi) as (_&_&_&_&D1&_).
  destruct (isMimic (joint m i)) eqn:Hm.
  - pose proof (H9 i Hi Hm) as Hf. unfold isMimic in Hm. destruct (jm_type (joint m i)) as [|j1 s1 o1|] eqn:Et; try discriminate.
    pose proof (wf_mimic _ W i j1 s1 o1 Hi Et) as (M1 & M2 & M3 & M4 & M5 & M6 & M7). cbn [rnq] in Hk.
    assert (Et' : jm_type (joint m' i) = JMimic j1 s1 o1).
    { rewrite (r_joint m a b j' sc off out) by (assumption || lia). rewrite newJ_type by (assumption || lia). destruct (Nat.eqb_spec i b); [lia | exact Et]. }
    pose proof (wf_mimic _ W' i j1 s1 o1 ltac:(rewrite (proj1 (r_fields m a b j' sc off out W H1 H2 H3 H5 H6 H9 m' E)); exact Hi) Et') as (_ & _ & _ & M4' & _).
    rewrite (r_ref m a b j' sc off out) in M4' by (assumption || lia). destruct (Nat.eqb_spec i b); [lia|].
    rewrite M4, M4'. apply Cq; [lia | exact Hf | exact M3 | lia].
  - apply Cq; [assumption..|]. rewrite <- D1. unfold isMimic in Hm. destruct (jm_type (joint m i)); cbn in Hk |- *; auto; discriminate.
Qed.
Hypothesis Cv : sameVelocityBut m m' b v v'.
Lemma coords_v i k : 0 < i < m_njoints m -> i <> b -> k < rnv (jm_type (joint m i)) -> shift (idx_v m' i) v' k = shift (idx_v m i) v k.
Proof.
  destruct MP as ((H1 & H2) & H3 & H4 & (j' & H5 & H6 & H7 & H8) & H9). intros Hi Hb Hk. unfold shift.
  destruct (wf_joint _ W i Hi) as (_&_&_&_&_&D1&_).
  destruct (isMimic (joint m i)) eqn:Hm.
  - pose proof (H9 i Hi Hm) as Hf. unfold isMimic in Hm. destruct (jm_type (joint m i)) as [|j1 s1 o1|] eqn:Et; try discriminate.
    pose proof (wf_mimic _ W i j1 s1 o1 Hi Et) as (M1 & M2 & M3 & M4 & M5 & M6 & M7). cbn [rnv] in Hk.
    assert (Et' : jm_type (joint m' i) = JMimic j1 s1 o1).
    { rewrite (r_joint m a b j' sc off out) by (assumption || lia). rewrite newJ_type by (assumption || lia). destruct (Nat.eqb_spec i b); [lia | exact Et]. }
    pose proof (wf_mimic _ W' i j1 s1 o1 ltac:(rewrite (proj1 (r_fields m a b j' sc off out W H1 H2 H3 H5 H6 H9 m' E)); exact Hi) Et') as (_ & _ & _ & _ & M4' & _).
    rewrite (r_ref m a b j' sc off out) in M4' by (assumption || lia). destruct (Nat.eqb_spec i b); [lia|].
    rewrite M5, M4'. apply Cv; [lia | exact Hf | exact M3 | lia].
  - apply Cv; [assumption..|]. rewrite <- D1. unfold isMimic in Hm. destruct (jm_type (joint m i)); cbn in Hk |- *; auto; discriminate.
Qed.
End Motion.

(* what each joint computes *)
Section Motion2.
Variables (m : Model) (a b : nat) (sc off : R) (out m' : Model).
Hypothesis W : wellFormed m.
Hypothesis T : treeInv (paired m).
Hypothesis MP : mimicPair m a b.
Hypothesis E : transformJointIntoMimic out m a b sc off = Ok m' tt.
Hypothesis VM : validModel m.
Variables (q q' : vec) (j : Joint1).
Hypothesis Ej : jm_type (joint m b) = JSimple j.
Hypothesis Cq : sameConfigBut m m' b q q'.
Hypothesis Cb : driven j sc off (shift (idx_q m a) q) (shift (idx_q m b) q).

Lemma at_other v v' i : sameVelocityBut m m' b v v' -> 0 < i < m_njoints m -> i <> b -> jointAt m' q' v' i = jointAt m q v i.
Proof.
  intros Cv Hi Hib. unfold jointAt. destruct (VM i Hi) as [Hj _].
  pose proof (fun k => coords_q m a b sc off out m' W MP E q q' Cq i k Hi Hib) as Kq.
  pose proof (fun k => coords_v m a b sc off out m' W MP E v v' Cv i k Hi Hib) as Kv.
  destruct MP as ((H1 & H2) & H3 & H4 & (j' & H5 & H6 & H7 & H8) & H9).
  rewrite (r_joint m a b j' sc off out) by (assumption || lia). rewrite newJ_type by (assumption || lia). destruct (Nat.eqb_spec i b); [lia|].
  apply jcalc_ext; [exact Hj | intros k Hk; now apply Kq | intros k Hk; now apply Kv].
Qed.
Lemma coords_b : (forall k, k < nq1 j -> shift (idx_q m' b) q' k = shift (idx_q m a) q k) /\ jm_type (joint m' b) = JMimic j sc off /\ nq1 j = nqOf m a /\ nv1 j = 1 /\ mimicable j /\ idx_v m' b = idx_v m' a /\ nvOf m a = 1.
Proof.
  destruct MP as ((H1 & H2) & H3 & H4 & (j' & H5 & H6 & H7 & H8) & H9). rewrite Ej in H5. injection H5 as <-.
  destruct (r_idx m a b j sc off out W H1 H2 H3 Ej H6 H9 H7 H8 m' E b H3) as [I1 I2]. destruct (r_idx m a b j sc off out W H1 H2 H3 Ej H6 H9 H7 H8 m' E a ltac:(lia)) as [I3 I4].
  assert (N1 : nv1 j = 1) by (destruct j; cbn in H6; try tauto; reflexivity).
  assert (X : newQ m a b j sc off b = newQ m a b j sc off a /\ newV m a b j sc off b = newV m a b j sc off a).
  { unfold newQ, newV, newJ. destruct (Nat.ltb_spec b b); [lia|]. destruct (Nat.ltb_spec a b); [|lia]. rewrite Nat.eqb_refl. cbn [jm_idx_q jm_idx_v].
    auto. }
  split; [|split; [|split; [exact H7|split; [exact N1|split; [exact H6 | split; [rewrite I2, I4; apply X|lia]]]]]].
  - intros k Hk. unfold shift. rewrite I1, (proj1 X), <- I3. apply Cq; try lia. exact H4.
  - rewrite (r_joint m a b j sc off out) by (assumption || lia). rewrite newJ_type by (assumption || lia). now rewrite Nat.eqb_refl.
Qed.
Lemma at_b v v' : sameVelocityBut m m' b v v' -> v (idx_v m b) = (sc * v (idx_v m a))%R ->
  jM (jointAt m' q' v' b) = jM (jointAt m q v b) /\ jv (jointAt m' q' v' b) = jv (jointAt m q v b) /\ jc (jointAt m' q' v' b) = jc (jointAt m q v b).
Proof.
  intros Cv Hv. destruct coords_b as (K & Et & D1 & D2 & Mj & Iv & Dv). unfold jointAt. rewrite Et, Ej.
  assert (X : jcalc (JSimple j) (mimicConfig j sc off (shift (idx_q m' b) q')) (fun k => (sc * shift (idx_v m' b) v' k)%R) = jcalc (JSimple j) (shift (idx_q m b) q) (shift (idx_v m b) v)).
  { apply calc1_ext.
    - intros k Hk. rewrite (mimicConfig_ext j sc off _ (shift (idx_q m a) q) Mj K k Hk). now apply driven_config.
    - intros k Hk. rewrite D2 in Hk. destruct k; [|lia]. unfold shift. rewrite !Nat.add_0_r, Iv, Hv. f_equal.
      destruct MP as ((H1 & H2) & H3 & H4 & _). pose proof (Cv a 0 ltac:(lia) ltac:(lia) H4 ltac:(lia)) as C0. now rewrite !Nat.add_0_r in C0. }
  pose proof (f_equal jM X) as X1. pose proof (f_equal jv X) as X2. pose proof (f_equal jc X) as X3. cbn [jcalc jM jv jc] in *. auto.
Qed.
Lemma r_parent i : parent m' i = parent m i /\ placementOf m' i = placementOf m i /\ m_njoints m' = m_njoints m.
Proof.
  destruct MP as ((H1 & H2) & H3 & H4 & (j' & H5 & H6 & H7 & H8) & H9).
  destruct (r_fields m a b j' sc off out W H1 H2 H3 H5 H6 H9 m' E) as (F1&F2&F3&F4&F5&F6&F7&F8&F9&_). unfold parent, placementOf. rewrite F5, F9. auto.
Qed.
Lemma same_zero : sameVelocityBut m m' b noVel noVel. Proof. intros i k _ _ _ _. reflexivity. Qed.
Lemma rel_same i : 0 < i < m_njoints m -> relPl m' q' i = relPl m q i.
Proof.
  intros Hi. unfold relPl. destruct (r_parent i) as (_ & -> & _). f_equal. destruct (Nat.eq_dec i b) as [->|Hib].
  - apply (at_b noVel noVel same_zero). unfold noVel. now rewrite Rmult_0_r.
  - now rewrite (at_other noVel noVel i same_zero).
Qed.
Notation Wm' := (paired_wf m' (W' m a b sc off out m' W MP E)).
Notation Wp := (paired_wf m W).
Notation Tm' := (T' m a b sc off out m' W T MP E).

Theorem motion_pl i : 0 < i < m_njoints m -> worldPl m' q' i = worldPl m q i.
Proof.
  intros Hi. assert (S : support m' i = support m i).
  { destruct MP as ((H1 & H2) & H3 & H4 & (j' & H5 & H6 & H7 & H8) & H9). destruct (r_fields m a b j' sc off out W H1 H2 H3 H5 H6 H9 m' E) as (F1&F2&F3&F4&F5&F6&F7&_). unfold support. now rewrite F7. }
  unfold worldPl. rewrite S. pose proof (fun k Hk => tail_range (paired m) Wp T i k ltac:(cbn; lia) Hk) as R. change (support (paired m) i) with (support m i) in R.
  induction (tl (support m i)) as [|x l IH]; cbn [product]; [reflexivity|].
  rewrite IH, rel_same; [reflexivity | specialize (R x (or_introl eq_refl)); lia | intros k Hk; apply R; now right].
Qed.
Lemma motion_plp i : 0 < i < m_njoints m -> worldPl (paired m') q' i = worldPl (paired m) q i.
Proof. intros Hi. rewrite !worldPl_paired. exact (motion_pl i Hi). Qed.
Theorem motion_oMi d d' i : 0 < i < m_njoints m -> pl (rows (forwardKinematics0 m' d' q') i) F_oMi = pl (rows (forwardKinematics0 m d q) i) F_oMi.
Proof.
  intros Hi. pose proof (proj2 (fk0_placed (paired m) Wp T d q i Hi)) as X.
  pose proof (proj2 (fk0_placed (paired m') Wm' Tm' d' q' i ltac:(cbn; rewrite (proj2 (proj2 (r_parent i))); exact Hi))) as X'.
  exact (eq_trans X' (eq_trans (motion_plp i Hi) (eq_sym X))).
Qed.
Variables (v v' : vec).
Hypothesis Cv : sameVelocityBut m m' b v v'.
Hypothesis Vb : v (idx_v m b) = (sc * v (idx_v m a))%R.
Lemma jv_same i : 0 < i < m_njoints m -> jv (jointAt m' q' v' i) = jv (jointAt m q v i) /\ jc (jointAt m' q' v' i) = jc (jointAt m q v i).
Proof. intros Hi. destruct (Nat.eq_dec i b) as [->|Hib]; [apply (at_b v v' Cv Vb) | now rewrite (at_other v v' i Cv)]. Qed.
Lemma vel_same d d' : mo (rows d 0) F_v = v6zero -> mo (rows d' 0) F_v = v6zero -> velEq m q v d -> velEq m' q' v' d' ->
  forall i, i < m_njoints m -> mo (rows d' i) F_v = mo (rows d i) F_v.
Proof.
  intros Z Z' V V'. refine (tree_ind m _ W _ _); [congruence|]. intros i Hi IH. rewrite (V i Hi), (V' i ltac:(rewrite (proj2 (proj2 (r_parent i))); exact Hi)).
  rewrite (proj1 (r_parent i)), IH, (proj1 (jv_same i Hi)), (rel_same i Hi). reflexivity.
Qed.
Theorem motion_fk1 d d' i : 0 < i < m_njoints m ->
  pl (rows (forwardKinematics1 m' d' q' v') i) F_oMi = pl (rows (forwardKinematics1 m d q v) i) F_oMi /\
  mo (rows (forwardKinematics1 m' d' q' v') i) F_v = mo (rows (forwardKinematics1 m d q v) i) F_v.
Proof.
  intros Hi. assert (Hi' : 0 < i < m_njoints m') by (rewrite (proj2 (proj2 (r_parent i))); exact Hi). split.
  - exact (eq_trans (proj2 (fk1_placed (paired m') Wm' Tm' d' q' v' i Hi')) (eq_trans (motion_plp i Hi) (eq_sym (proj2 (fk1_placed (paired m) Wp T d q v i Hi))))).
  - destruct (fk1_vel (paired m) Wp d q v) as (Z & V & _). destruct (fk1_vel (paired m') Wm' d' q' v') as (Z' & V' & _).
    apply (vel_same _ _ Z Z' V V'). lia.
Qed.
Variables (c c' : vec).
Hypothesis Cc : sameVelocityBut m m' b c c'.
Hypothesis Ab : c (idx_v m b) = (sc * c (idx_v m a))%R.
Hypothesis NH : ~ isHelical j.
Lemma Sa_same i : 0 < i < m_njoints m -> Smul (jS (jointAt m' q' v' i)) (shift (idx_v m' i) c') = Smul (jS (jointAt m q v i)) (shift (idx_v m i) c).
Proof.
  intros Hi. destruct (Nat.eq_dec i b) as [->|Hib].
  - destruct coords_b as (K & Et & D1 & D2 & Mj & Iv & Dv). unfold jointAt. rewrite Et, Ej. cbn [jcalc jS]. unfold mimicS. rewrite Smul_scale, (createS1_ok j (shift (idx_q m b) q) Mj NH).
    rewrite <- !calcv1_S.
    assert (X : shift (idx_v m b) c 0 = (sc * shift (idx_v m' b) c' 0)%R).
    { unfold shift. rewrite !Nat.add_0_r, Iv, Ab. f_equal. destruct MP as ((H1 & H2) & H3 & H4 & _). pose proof (Cc a 0 ltac:(lia) ltac:(lia) H4 ltac:(lia)) as C0. now rewrite !Nat.add_0_r in C0. }
    pose proof (calc1_ext j (shift (idx_q m b) q) (shift (idx_q m b) q) (fun k => (sc * shift (idx_v m' b) c' k)%R) (shift (idx_v m b) c) (fun _ _ => eq_refl)) as Y.
    rewrite D2 in Y. specialize (Y ltac:(intros k Hk; destruct k; [now rewrite X | lia])). exact (f_equal jv Y).
  - assert (Y : forall k, k < length (jS (jointAt m q v i)) -> shift (idx_v m' i) c' k = shift (idx_v m i) c k).
    { intros k Hk. apply (coords_v m a b sc off out m' W MP E c c' Cc i k Hi Hib). unfold jointAt in Hk. rewrite jS_length in Hk by apply (VM i Hi). exact Hk. }
    rewrite (at_other v v' i Cv Hi Hib). revert Y. generalize (shift (idx_v m' i) c') (shift (idx_v m i) c). induction (jS (jointAt m q v i)) as [|x S IH]; intros f g Y; [reflexivity|].
    cbn [Smul]. rewrite (Y 0) by (cbn; lia). f_equal. apply IH. intros k Hk. unfold shift. apply Y. cbn. lia.
Qed.
Theorem motion_fk2 d d' i : 0 < i < m_njoints m ->
  pl (rows (forwardKinematics2 m' d' q' v' c') i) F_oMi = pl (rows (forwardKinematics2 m d q v c) i) F_oMi /\
  mo (rows (forwardKinematics2 m' d' q' v' c') i) F_v = mo (rows (forwardKinematics2 m d q v c) i) F_v /\
  mo (rows (forwardKinematics2 m' d' q' v' c') i) F_a = mo (rows (forwardKinematics2 m d q v c) i) F_a.
Proof.
  intros Hi. assert (Hi' : 0 < i < m_njoints m') by (rewrite (proj2 (proj2 (r_parent i))); exact Hi).
  destruct (fk2_all (paired m) Wp T d q v c) as (P & Z & ZA & V & A). destruct (fk2_all (paired m') Wm' Tm' d' q' v' c') as (P' & Z' & ZA' & V' & A').
  pose proof (vel_same _ _ Z Z' V V') as Hv. split; [exact (eq_trans (proj2 (P' i Hi')) (eq_trans (motion_plp i Hi) (eq_sym (proj2 (P i Hi)))))|]. split; [apply Hv; lia|].
  clear Hi'. assert (G : forall i, i < m_njoints m -> mo (rows (forwardKinematics2 m' d' q' v' c') i) F_a = mo (rows (forwardKinematics2 m d q v c) i) F_a); [|apply G; lia]. clear i Hi.
  refine (tree_ind m _ W _ _); [exact (eq_trans ZA' (eq_sym ZA))|]. intros i Hi IH.
  assert (Hi' : 0 < i < m_njoints m') by (rewrite (proj2 (proj2 (r_parent i))); exact Hi).
  refine (eq_trans (A' i Hi') (eq_trans _ (eq_sym (A i Hi)))). change (parent (paired m') i) with (parent m' i). rewrite (proj1 (r_parent i)).
  f_equal; [f_equal; [f_equal; [exact (Sa_same i Hi) | exact (proj2 (jv_same i Hi))] | f_equal; [apply Hv; lia | exact (proj1 (jv_same i Hi))]] | f_equal; [exact (rel_same i Hi) | exact IH]].
Qed.
End Motion2.
