(* Models assembled from joints of other models. *)
Require Import Reals String List Arith Bool Lia.
From Verif Require Import Vec3 Spatial Inertia InertiaFacts Joints Spec_Joints Model Spec_Model ModelFacts ModelFacts2 ModelTree ModelFacts3 Spec_Kin Mimic MimicFacts Reduce Spec_Append.
Import ListNotations.
Local Open Scope nat_scope.

(* one joint of the result: joint it_ix of it_src, mounted on joint it_par of the result with placement it_pl; it_ref is
   the joint it is linked to when it is a mimic joint *)
Record Item := mkItem { it_src : Model; it_ix : nat; it_par : nat; it_pl : SE3; it_ref : nat }.
Definition itName (it : Item) : string := nameOf (it_src it) (it_ix it).
Definition itType (it : Item) : Joint := jm_type (joint (it_src it) (it_ix it)).
Definition velFields : list (Model -> list R) := [m_effort; m_velocity; m_friction; m_damping; m_rotorInertia; m_rotorGearRatio].
Definition posFields : list (Model -> list R) := [m_lower; m_upper].

Record Layout (r : Model) (items : list Item) : Prop := {
  lay_wf : wellFormed r;
  lay_tree : treeInv r;
  lay_src : forall it, In it items -> wellFormed (it_src it) /\ 0 < it_ix it < m_njoints (it_src it);
  lay_n : m_njoints r = S (length items);
  lay_names : tl (m_names r) = map itName items;
  lay_types : map jm_type (tl (m_joints r)) = map itType items;
  lay_refs : forall n it, nth_error items n = Some it -> isMimic (joint (it_src it) (it_ix it)) = true -> jm_ref (joint r (S n)) = it_ref it;
  lay_parents : m_parents r = 0 :: map it_par items;
  lay_pl : tl (m_placements r) = map it_pl items;
  lay_vel : forall g, In g velFields -> g r = flat_map (fun it => segV (it_src it) (it_ix it) (g (it_src it))) items;
  lay_pos : forall g, In g posFields -> g r = flat_map (fun it => segQ (it_src it) (it_ix it) (g (it_src it))) items;
  lay_arm : m_armature r = repeat 0%R (m_nv r)
}.

Lemma readSeg_ok l i n : i + n <= length l -> readSeg l i n = Some (firstn n (skipn i l)).
Proof. intros H. unfold readSeg. replace (i + n <=? length l) with true by (symmetry; apply Nat.leb_le; exact H). now rewrite orb_true_r. Qed.
Lemma writeSeg_end l d i x : length l = i -> length d = length x -> writeSeg (l ++ d) i x = Some (l ++ x).
Proof.
  intros <- Hd. unfold writeSeg. rewrite app_length. replace (length l + length x <=? length l + length d) with true by (symmetry; apply Nat.leb_le; lia).
  rewrite orb_true_r. unfold setSegment. rewrite firstn_app, Nat.sub_diag, firstn_all, skipn_all2 by (rewrite app_length; lia). cbn. now rewrite !app_nil_r.
Qed.
Lemma writeSeg_nil l i : writeSeg l i [] = Some l.
Proof. unfold writeSeg. cbn [length Nat.eqb orb]. unfold setSegment. cbn [length app]. rewrite Nat.add_0_r. now rewrite firstn_skipn. Qed.

(* ---- selecting the segments of a joint ---- *)
Section Source.
Variable m : Model.
Hypothesis W : wellFormed m.
Variable i : nat.
Hypothesis Hi : 0 < i < m_njoints m.
Lemma src_inrange : (isMimic (joint m i) = true -> nqOf m i = 0 /\ nvOf m i = 0) /\
  (isMimic (joint m i) = false -> idx_q m i + nqOf m i <= m_nq m /\ idx_v m i + nvOf m i <= m_nv m).
Proof.
  destruct (wf_joint _ W i Hi) as (_ & _ & _ & _ & E1 & E2 & _). split.
  - intros Hm. rewrite <- E1, <- E2. now apply mimic_dims.
  - intros Hm. destruct (wf_range _ W i Hi Hm) as [R1 R2]. destruct (wf_total _ W) as (T1 & T2 & _).
    destruct (wf_lengths _ W) as (L1&L2&L3&L4&L5&L6&L7&_).
    rewrite R1, R2, T1, T2. pose proof (sum_firstn_S (m_nqs m) i ltac:(lia)) as F1. pose proof (sum_firstn_S (m_nvs m) i ltac:(lia)) as F2.
    pose proof (sum_firstn_mono (m_nqs m) (S i) (length (m_nqs m)) ltac:(lia)) as M1. pose proof (sum_firstn_mono (m_nvs m) (S i) (length (m_nvs m)) ltac:(lia)) as M2.
    rewrite firstn_all in M1, M2. unfold nqOf, nvOf. lia.
Qed.
Lemma selV_ok jm l : length l = m_nv m -> jm = joint m i \/ (isMimic (joint m i) = true /\ jm_type jm = jm_type (joint m i)) ->
  selV jm l = Some (segV m i l) /\ length (segV m i l) = jnv (jm_type (joint m i)).
Proof.
  intros Hl Hjm. destruct (wf_joint _ W i Hi) as (_ & _ & I2 & _ & E1 & E2 & _). destruct src_inrange as [S1 S2]. unfold selV, segV. rewrite E2.
  assert (Et : jm_type jm = jm_type (joint m i)) by (destruct Hjm as [->|[_ ?]]; [reflexivity|assumption]). rewrite Et, E2.
  destruct (isMimic (joint m i)) eqn:Em.
  - destruct (S1 eq_refl) as [_ ->]. split; reflexivity.
  - destruct Hjm as [->|[? _]]; [|discriminate]. destruct (S2 eq_refl) as [_ S3]. rewrite I2. rewrite readSeg_ok by lia. split; [reflexivity|].
    rewrite firstn_length, skipn_length. lia.
Qed.
Lemma selQ_ok jm l : length l = m_nq m -> jm = joint m i \/ (isMimic (joint m i) = true /\ jm_type jm = jm_type (joint m i)) ->
  selQ jm l = Some (segQ m i l) /\ length (segQ m i l) = jnq (jm_type (joint m i)).
Proof.
  intros Hl Hjm. destruct (wf_joint _ W i Hi) as (_ & I1 & _ & _ & E1 & E2 & _). destruct src_inrange as [S1 S2]. unfold selQ, segQ. rewrite E1.
  assert (Et : jm_type jm = jm_type (joint m i)) by (destruct Hjm as [->|[_ ?]]; [reflexivity|assumption]). rewrite Et, E1.
  destruct (isMimic (joint m i)) eqn:Em.
  - destruct (S1 eq_refl) as [-> _]. split; reflexivity.
  - destruct Hjm as [->|[? _]]; [|discriminate]. destruct (S2 eq_refl) as [S3 _]. rewrite I1. rewrite readSeg_ok by lia. split; [reflexivity|].
    rewrite firstn_length, skipn_length. lia.
Qed.
Lemma limitsOf_ok jm : jm = joint m i \/ (isMimic (joint m i) = true /\ jm_type jm = jm_type (joint m i)) ->
  limitsOf m jm = Some (mkLimits (segV m i (m_effort m)) (segV m i (m_velocity m)) (segQ m i (m_lower m)) (segQ m i (m_upper m))
                          (segV m i (m_friction m)) (segV m i (m_damping m))).
Proof.
  intros H. destruct (wf_dofs _ W) as (D1&D2&D3&D4&D5&D6&D7&D8&D9). unfold limitsOf.
  rewrite (proj1 (selV_ok jm _ D6 H)), (proj1 (selV_ok jm _ D7 H)), (proj1 (selV_ok jm _ D4 H)), (proj1 (selV_ok jm _ D5 H)),
    (proj1 (selQ_ok jm _ D8 H)), (proj1 (selQ_ok jm _ D9 H)). reflexivity.
Qed.
End Source.

(* ---- addJoint ignores the old indexes of the joint ---- *)
Lemma addJoint_type m p jm jm' pl nm lim : jm_type jm' = jm_type jm ->
  setIndexes jm (m_njoints m) (m_nq m) (m_nv m) (m_nvE m) <> None ->
  setIndexes jm' (m_njoints m) (m_nq m) (m_nv m) (m_nvE m) = setIndexes jm (m_njoints m) (m_nq m) (m_nv m) (m_nvE m) ->
  addJoint m p jm' pl nm lim = addJoint m p jm pl nm lim.
Proof. intros E Hn Hs. unfold addJoint. rewrite E, Hs. destruct (setIndexes jm _ _ _ _); [reflexivity|contradiction]. Qed.
