(* The transformed model is well formed and moves like the original one. *)
Require Import Reals String List Arith Bool Lia Sorted.
From Verif Require Import Vec3 Spatial Inertia Joints Spec_Joints JointFacts JointFacts2 Model Spec_Model ModelFacts ModelFacts2 ModelTree Data Kinematics Spec_Kin KinFacts Mimic Spec_Mimic MimicFacts.
Import ListNotations.
Local Open Scope nat_scope.

(* ---- a joint reads its own coordinates only ---- *)
Lemma calc1_ext j q q' v v' : (forall k, k < nq1 j -> q k = q' k) -> (forall k, k < nv1 j -> v k = v' k) ->
  jcalc (JSimple j) q v = jcalc (JSimple j) q' v'.
Proof.
  intros Hq Hv. destruct j; cbn [nq1 nv1] in Hq, Hv; cbn [jcalc calcM1 calcS1 calcv1 calcc1];
    rewrite ?(Hq 0), ?(Hq 1), ?(Hq 2), ?(Hq 3), ?(Hq 4), ?(Hq 5), ?(Hq 6) by lia;
    rewrite ?(Hv 0), ?(Hv 1), ?(Hv 2), ?(Hv 3), ?(Hv 4), ?(Hv 5) by lia; reflexivity.
Qed.
Lemma mimicConfig_ext j s o q q' : mimicable j -> (forall k, k < nq1 j -> q k = q' k) -> forall k, k < nq1 j -> mimicConfig j s o q k = mimicConfig j s o q' k.
Proof.
  intros Hm H k Hk. destruct j; cbn in Hm; try tauto; cbn [nq1] in H, Hk; cbn [mimicConfig]; rewrite ?(H 0), ?(H 1) by lia; try reflexivity; now rewrite (H k Hk).
Qed.
Lemma jcalc_ext j q q' v v' : validJoint j -> (forall k, k < rnq j -> q k = q' k) -> (forall k, k < rnv j -> v k = v' k) -> jcalc j q v = jcalc j q' v'.
Proof.
  revert q q' v v'. induction j as [j|j s o|l IH] using Joint_ind'; intros q q' v v' Hj Hq Hv.
  - now apply calc1_ext.
  - cbn in Hj, Hq, Hv. destruct Hj as (_ & Hm & _).
    pose proof (calc1_ext j (mimicConfig j s o q) (mimicConfig j s o q') (fun k => (s * v k)%R) (fun k => (s * v' k)%R) (mimicConfig_ext j s o q q' Hm Hq)
      (fun k Hk => f_equal (Rmult s) (Hv k Hk))) as E. cbn [jcalc] in E |- *.
    pose proof (f_equal jM E) as E1. pose proof (f_equal jv E) as E2. pose proof (f_equal jc E) as E3. cbn [jM jv jc] in E1, E2, E3. now rewrite E1, E2, E3.
  - rewrite !jcalc_composite. change (rnq (JComposite l)) with (lnq l) in Hq. change (rnv (JComposite l)) with (lnv l) in Hv.
    revert q q' v v' Hj Hq Hv. induction IH as [|[P j] l Hx Hl IHl]; intros q q' v v' Hj Hq Hv; [reflexivity|].
    apply -> validJoint_cons in Hj. destruct Hj as [[HP [Hn Hj]] Hl']. cbn in Hx. rewrite lnq_cons in Hq. rewrite lnv_cons in Hv.
    assert (E : jcalc j q v = jcalc j q' v') by (apply Hx; [exact Hj | intros k Hk; apply Hq; rewrite rnq_notMimic in Hk by exact Hn; lia | intros k Hk; apply Hv; rewrite rnv_notMimic in Hk by exact Hn; lia]).
    destruct l as [|x r]; [rewrite !calcComposite_one; now rewrite E|].
    rewrite !calcComposite_cons, E. rewrite (IHl (shift (jnq j) q) (shift (jnq j) q') (shift (jnv j) v) (shift (jnv j) v') Hl').
    + reflexivity.
    + intros k Hk. unfold shift. apply Hq. lia.
    + intros k Hk. unfold shift. apply Hv. lia.
Qed.

(* ---- sorted insertion ---- *)
Lemma insertSort_filter p b l : StronglySorted lt l -> In b l -> p b = false -> insertSort b (filter p l) = filter (fun k => p k || (k =? b)) l.
Proof.
  intros S H Hp. induction S as [|x l S IH Hx]; [destruct H|]. rewrite Forall_forall in Hx. cbn [filter].
  destruct H as [->|H].
  - rewrite Hp, Nat.eqb_refl. cbn [orb].
    replace (filter (fun k => p k || (k =? b)) l) with (filter p l).
    2: { apply filter_ext_in. intros k Hk. specialize (Hx k Hk). destruct (Nat.eqb_spec k b); [lia | now rewrite orb_false_r]. }
    assert (G : forall k, In k (filter p l) -> b < k) by (intros k Hk; apply filter_In in Hk; apply Hx, Hk).
    destruct (filter p l) as [|y r]; [reflexivity|]. cbn [insertSort]. specialize (G y (or_introl eq_refl)). destruct (Nat.ltb_spec y b); [lia | reflexivity].
  - specialize (Hx b H). specialize (IH H). destruct (Nat.eqb_spec x b); [lia|]. rewrite orb_false_r. destruct (p x); [|exact IH].
    cbn [insertSort]. destruct (Nat.ltb_spec x b); [|lia]. now rewrite IH.
Qed.
Lemma filter_orb_notin p b l : ~ In b l -> filter (fun k => p k || (k =? b)) l = filter p l.
Proof. intros H. apply filter_ext_in. intros k Hk. destruct (Nat.eqb_spec k b); [subst; contradiction | now rewrite orb_false_r]. Qed.
Lemma seq_sorted a n : StronglySorted lt (seq a n).
Proof. revert a; induction n as [|n IH]; intros a; cbn; constructor; [apply IH|]. apply Forall_forall. intros x Hx. apply in_seq in Hx. lia. Qed.

Lemma nth_fold_upd (f : list nat -> list nat) l (ms : list (list nat)) k : NoDup l -> (forall i, In i l -> i < length ms) ->
  nth k (fold_left (fun ms i => upd ms i f) l ms) [] = if existsb (fun i => i =? k) l then f (nth k ms []) else nth k ms [].
Proof.
  revert ms. induction l as [|x l IH]; intros ms Hn Hl; [reflexivity|]. inversion Hn as [|? ? Hx Hn']; subst. cbn [fold_left existsb].
  rewrite IH; [|assumption | intros i Hi; rewrite upd_length; apply Hl; now right]. rewrite nth_upd. specialize (Hl x (or_introl eq_refl)). destruct (Nat.ltb_spec x (length ms)); [|lia].
  rewrite andb_true_r, (Nat.eqb_sym k x). destruct (Nat.eqb_spec x k) as [->|Hk]; cbn [orb]; [|reflexivity].
  replace (existsb (fun i => i =? k) l) with false; [reflexivity|]. symmetry. apply not_true_is_false. intros E. apply existsb_exists in E. destruct E as (y & Hy & E). apply Nat.eqb_eq in E. now subst.
Qed.
Lemma fold_upd_length (f : list nat -> list nat) l (ms : list (list nat)) : length (fold_left (fun ms i => upd ms i f) l ms) = length ms.
Proof. revert ms. induction l as [|x l IH]; intros ms; cbn; [reflexivity | rewrite IH; apply upd_length]. Qed.

(* a model whose list of mimicked joints follows the list of mimicking joints *)
Definition paired (m : Model) : Model :=
  withMim m (m_nq m) (m_nv m) (mkMim (m_joints m) (m_idx_qs m) (m_nqs m) (m_idx_vs m) (m_nvs m) (veloMembers m) (confMembers m))
    (m_mimic_supports m) (m_mimicking m) (map (fun k => jm_ref (joint m k)) (m_mimicking m)).
Definition goodTree (m : Model) : Prop := wellFormed m /\ treeInv (paired m).
Lemma treeInv_paired m : treeInv m -> treeInv (paired m).
Proof.
  intros T. destruct (ti_mimicking _ T) as [T1 T2].
  constructor; [| apply (ti_children _ T) | apply (ti_subtree _ T) | apply (ti_subtree0 _ T) | apply (ti_mimic _ T) | exact (conj T1 eq_refl)].
  intros k Hk. apply (path_same m); [reflexivity | reflexivity | apply (ti_path _ T k Hk)].
Qed.

Section Result.
Variables (m : Model) (a b : nat) (j : Joint1) (sc off : R) (out : Model).
Hypothesis W : wellFormed m.
Hypothesis T : treeInv (paired m).
Hypothesis Ha : 0 < a.
Hypothesis Hab : a < b.
Hypothesis Hb : b < m_njoints m.
Hypothesis NMa : isMimic (joint m a) = false.
Hypothesis Tb : jm_type (joint m b) = JSimple j.
Hypothesis Mj : mimicable j.
Hypothesis Free : forall k, 0 < k < m_njoints m -> isMimic (joint m k) = true -> jm_ref (joint m k) <> b.
Hypothesis Dq : nq1 j = nqOf m a.
Hypothesis Dv : nv1 j = nvOf m a.
Variable m' : Model.
Hypothesis E : transformJointIntoMimic out m a b sc off = Ok m' tt.

Notation NQ := (m_nq m - nqOf m b).
Notation NV := (m_nv m - nvOf m b).
Lemma result : exists t, m' = withMim m NQ NV t (newSup m b) (insertSort b (m_mimicking m)) (insertSort a (m_mimicked m)) /\
  inv2 m a b j sc off (m_njoints m) t /\ t_velo t = map (removeSeg (idx_v m b) (nvOf m b)) (veloMembers m) /\
  t_conf t = map (removeSeg (idx_q m b) (nqOf m b)) (confMembers m).
Proof.
  destruct (transform_ok m a b j sc off W Ha Hab Hb Tb Mj Free out) as (t & Et & I & V1 & V2). exists t.
  rewrite E in Et. injection Et as ->. auto.
Qed.

Lemma r_joint k : k < m_njoints m -> joint m' k = newJ m a b j sc off k.
Proof. destruct result as (t & -> & I & _). intros Hk. unfold joint. cbn [m_joints withMim]. rewrite (i2_joints _ _ _ _ _ _ _ _ I). now destruct (Nat.ltb_spec k (m_njoints m)); [|lia]. Qed.
Lemma r_idx k : k < m_njoints m -> idx_q m' k = newQ m a b j sc off k /\ idx_v m' k = newV m a b j sc off k.
Proof.
  destruct result as (t & -> & I & _). intros Hk. unfold idx_q, idx_v. cbn [m_idx_qs m_idx_vs withMim]. rewrite (i2_q _ _ _ _ _ _ _ _ I), (i2_v' _ _ _ _ _ _ _ _ I).
  now destruct (Nat.ltb_spec k (m_njoints m)); [|lia].
Qed.
Lemma r_ns : m_nqs m' = nqs' m b /\ m_nvs m' = nvs' m b.
Proof.
  destruct result as (t & -> & I & _). cbn [m_nqs m_nvs withMim]. destruct (i2_len _ _ _ _ _ _ _ _ I) as (_&_&L1&_&L2). split.
  - apply (nth_ext _ _ 0 0); [now rewrite L1, nqs'_length|]. intros k Hk. rewrite (i2_nq _ _ _ _ _ _ _ _ I). now destruct (Nat.ltb_spec k (m_njoints m)); [|lia].
  - apply (nth_ext _ _ 0 0); [now rewrite L2, nvs'_length|]. intros k Hk. rewrite (i2_nv _ _ _ _ _ _ _ _ I). now destruct (Nat.ltb_spec k (m_njoints m)); [|lia].
Qed.
Lemma r_fields : m_njoints m' = m_njoints m /\ m_nq m' = NQ /\ m_nv m' = NV /\ m_nvE m' = m_nvE m /\ m_parents m' = m_parents m /\ m_children m' = m_children m /\
  m_supports m' = m_supports m /\ m_subtrees m' = m_subtrees m /\ m_placements m' = m_placements m /\ m_inertias m' = m_inertias m /\ m_names m' = m_names m /\
  m_frames m' = m_frames m /\ m_nframes m' = m_nframes m /\ m_idx_vEs m' = m_idx_vEs m /\ m_nvEs m' = m_nvEs m /\ m_gravity m' = m_gravity m /\ m_refs m' = m_refs m /\
  m_nbodies m' = m_nbodies m /\ m_name m' = m_name m /\ m_mimicking m' = insertSort b (m_mimicking m) /\ m_mimicked m' = insertSort a (m_mimicked m).
Proof. destruct result as (t & -> & _). cbn. auto 30. Qed.
Lemma r_vecs : let rv := removeSeg (idx_v m b) (nvOf m b) in let rq := removeSeg (idx_q m b) (nqOf m b) in
  m_effort m' = rv (m_effort m) /\ m_velocity m' = rv (m_velocity m) /\ m_armature m' = rv (m_armature m) /\ m_rotorInertia m' = rv (m_rotorInertia m) /\
  m_rotorGearRatio m' = rv (m_rotorGearRatio m) /\ m_friction m' = rv (m_friction m) /\ m_damping m' = rv (m_damping m) /\
  m_lower m' = rq (m_lower m) /\ m_upper m' = rq (m_upper m).
Proof. destruct result as (t & -> & _ & E1 & E2). unfold withMim. rewrite E1, E2. cbn. auto 15. Qed.

Lemma r_isMimic k : k < m_njoints m -> isMimic (joint m' k) = isMimic (joint m k) || (k =? b).
Proof.
  intros Hk. rewrite (r_joint k Hk). unfold isMimic. rewrite newJ_type by assumption. destruct (Nat.eqb_spec k b) as [->|]; [now rewrite Tb | now rewrite orb_false_r].
Qed.
Lemma r_ref k : k < m_njoints m -> jm_ref (joint m' k) = if k =? b then a else jm_ref (joint m k).
Proof. intros Hk. rewrite (r_joint k Hk). unfold newJ. destruct (Nat.ltb_spec k b); destruct (Nat.eqb_spec k b); try lia; reflexivity. Qed.

Theorem r_wf : wellFormed m'.
Proof.
  destruct r_fields as (F1&F2&F3&F4&F5&F6&F7&F8&F9&F10&F11&F12&F13&F14&F15&F16&F17&F18&F19&F20&F21). destruct r_ns as [N1 N2]. destruct r_vecs as (X1&X2&X3&X4&X5&X6&X7&X8&X9).
  destruct (wf_lengths _ W) as (L1&L2&L3&L4&L5&L6&L7&L8&L9&L10&L11&L12&L13&L14&L15). destruct result as (t & Em & I & _). destruct (i2_len _ _ _ _ _ _ _ _ I) as (K1&K2&K3&K4&K5).
  pose proof (b_end m a b j W Ha Hab Hb Tb) as [B1 B2].
  constructor; rewrite ?F1.
  - apply (wf_n _ W).
  - rewrite F5, F6, F7, F8, F9, F10, F11, F14, F15, N1, N2, nqs'_length, nvs'_length by (try assumption; lia).
    assert (Y : length (m_joints m') = m_njoints m /\ length (m_idx_qs m') = m_njoints m /\ length (m_idx_vs m') = m_njoints m /\ length (m_mimic_supports m') = m_njoints m).
    { rewrite Em. cbn [withMim m_joints m_idx_qs m_idx_vs m_mimic_supports]. repeat split; try assumption. unfold newSup. now rewrite fold_upd_length. }
    destruct Y as (Y1 & Y2 & Y3 & Y4). rewrite Y1, Y2, Y3, Y4. auto 20.
  - unfold parent. rewrite F5. apply (wf_parent0 _ W).
  - unfold parent. rewrite F5. apply (wf_parent _ W).
  - intros i Hi. rewrite (r_joint i ltac:(lia)). destruct (r_idx i ltac:(lia)) as [-> ->]. destruct (newJ_dims m a b j sc off W Ha Hab Hb i Hi) as [D1 D2].
    destruct (wf_joint _ W i Hi) as (G1&G2&G3&G4&G5&G6&G7). unfold nqOf, nvOf, nvEOf, idx_vE. rewrite N1, N2, F14, F15. rewrite D1, D2. fold (idx_vE m i) (nvEOf m i).
    unfold newQ, newV, newJ. destruct (Nat.ltb_spec i b); [auto 10|]. destruct (Nat.eqb_spec i b) as [->|]; cbn [jm_id jm_idx_q jm_idx_v jm_idx_vE jm_type].
    + rewrite Tb in G7. auto 10.
    + auto 10.
  - unfold nqOf, nvOf, nvEOf. rewrite N1, N2, F15, (nth_nqs' m a b W Ha Hab Hb), (nth_nvs' m a b W Ha Hab Hb). destruct (Nat.eqb_spec 0 b); [lia|]. apply (wf_zero _ W).
  - intros i Hi. rewrite (r_isMimic i ltac:(lia)). intros Hm. apply orb_false_iff in Hm. destruct Hm as [Hm Hib]. apply Nat.eqb_neq in Hib.
    destruct (r_idx i ltac:(lia)) as [-> ->]. rewrite N1, N2. apply newQ_ordinary; assumption.
  - intros i Hi. unfold idx_vE. rewrite F14, F15. apply (wf_rangeE _ W i Hi).
  - intros i j' s' o' Hi Et. rewrite (r_joint i ltac:(lia)), newJ_type in Et by assumption. rewrite (r_ref i ltac:(lia)). cbv zeta.
    assert (Nq : forall k, k < m_njoints m -> k <> b -> nqOf m' k = nqOf m k /\ nvOf m' k = nvOf m k).
    { intros k Hk Hkb. unfold nqOf, nvOf. rewrite N1, N2, (nth_nqs' m a b W Ha Hab Hb), (nth_nvs' m a b W Ha Hab Hb). destruct (Nat.eqb_spec k b); [lia | auto]. }
    destruct (Nat.eqb_spec i b) as [->|Hib].
    + injection Et as <- _ _. rewrite (r_isMimic a ltac:(lia)), NMa. destruct (Nat.eqb_spec a b); [lia|]. destruct (r_idx b Hb) as [-> ->]. destruct (r_idx a ltac:(lia)) as [-> ->].
      destruct (Nq a ltac:(lia) ltac:(lia)) as [-> ->]. unfold newQ, newV, newJ. destruct (Nat.ltb_spec b b); [lia|]. destruct (Nat.ltb_spec a b); [|lia]. rewrite Nat.eqb_refl. cbn [jm_idx_q jm_idx_v].
      auto 10.
    + assert (Hm : isMimic (joint m i) = true) by (unfold isMimic; now rewrite Et). pose proof (wf_mimic _ W i j' s' o' Hi Et) as (M1 & M2 & M3 & M4 & M5 & M6 & M7).
      pose proof (Free i Hi Hm) as Hf. set (r := jm_ref (joint m i)) in *.
      rewrite (r_isMimic r ltac:(lia)), M3. destruct (Nat.eqb_spec r b); [lia|]. destruct (r_idx i ltac:(lia)) as [-> ->]. destruct (r_idx r ltac:(lia)) as [-> ->].
      destruct (newQ_mimic m a b j sc off W Ha Hab Hb Tb Free i Hi Hm) as [-> ->]. fold r. destruct (Nq r ltac:(lia) ltac:(lia)) as [-> ->]. auto 10.
  - rewrite F2, F3, F4, F15, N1, N2. pose proof (totalQ m b W Hb). pose proof (totalV m b W Hb). destruct (wf_total _ W) as (_&_&->). lia.
  - rewrite F2, F3, X1, X2, X3, X4, X5, X6, X7, X8, X9. destruct (wf_dofs _ W) as (Z1&Z2&Z3&Z4&Z5&Z6&Z7&Z8&Z9). rewrite !removeSeg_length by lia. rewrite Z1, Z2, Z3, Z4, Z5, Z6, Z7, Z8, Z9. repeat split; reflexivity.
  - rewrite F12, F13. apply (wf_frames _ W).
Qed.

Theorem r_tree : treeInv (paired m').
Proof.
  destruct r_fields as (F1&F2&F3&F4&F5&F6&F7&F8&F9&F10&F11&F12&F13&F14&F15&F16&F17&F18&F19&F20&F21).
  assert (Es : forall k, support (paired m') k = support (paired m) k) by (intros k; unfold support; cbn [paired withMim m_supports]; now rewrite F7).
  assert (En : m_njoints (paired m') = m_njoints (paired m)) by exact F1.
  assert (Ep : forall k, parent (paired m') k = parent (paired m) k) by (intros k; unfold parent; cbn [paired withMim m_parents]; now rewrite F5).
  assert (Ej : forall k, k < m_njoints m -> isMimic (joint (paired m') k) = isMimic (joint (paired m) k) || (k =? b)) by exact r_isMimic.
  change (m_njoints m) with (m_njoints (paired m)) in *.
  assert (Sr : forall i k, i < m_njoints (paired m) -> In k (tl (support (paired m) i)) -> 0 < k < m_njoints (paired m)).
  { intros i k Hi Hk. pose proof (path_sorted _ _ _ W (path_same (paired m) m _ _ eq_refl eq_refl (ti_path _ T i Hi))) as S1. pose proof (ti_path _ T i Hi) as P1.
    destruct (path_hd _ _ _ P1) as (r & Er). rewrite Er in Hk, S1. cbn [tl] in Hk. apply StronglySorted_inv in S1. destruct S1 as [_ S1]. rewrite Forall_forall in S1.
    specialize (S1 k Hk). pose proof (path_le m i (support (paired m) i) W (path_same (paired m) m _ _ eq_refl eq_refl P1) k) as Hle. rewrite Er in Hle. specialize (Hle (or_intror Hk)). lia. }
  constructor; rewrite ?En.
  - intros k Hk. rewrite Es. apply (path_same (paired m)); [cbn; now rewrite F5 | exact En | apply (ti_path _ T k Hk)].
  - intros i Hi. change (childrenOf (paired m') i) with (nth i (m_children m') []). rewrite F6. rewrite (filter_ext _ (fun k => parent (paired m) k =? i)) by (intros k; now rewrite Ep). apply (ti_children _ T i Hi).
  - intros i Hi. change (subtree (paired m') i) with (nth i (m_subtrees m') []). rewrite F8. rewrite (filter_ext _ (fun k => inb i (support (paired m) k))) by (intros k; now rewrite Es). apply (ti_subtree _ T i Hi).
  - change (subtree (paired m') 0) with (nth 0 (m_subtrees m') []). rewrite F8. apply (ti_subtree0 _ T).
  - intros i Hi. rewrite Es. destruct result as (t & Em & _). assert (Es' : m_mimic_supports (paired m') = newSup m b) by (change (m_mimic_supports (paired m')) with (m_mimic_supports m'); now rewrite Em). rewrite Es'. unfold newSup.
    assert (Esub : subtree m b = filter (fun k => inb b (support (paired m) k)) (seq 1 (m_njoints (paired m) - 1))) by (apply (ti_subtree _ T b); lia).
    rewrite nth_fold_upd.
    2: { rewrite Esub. apply NoDup_filter, seq_NoDup. }
    2: { intros k Hk. rewrite Esub in Hk. apply filter_In in Hk. destruct Hk as [Hk _]. apply in_seq in Hk. destruct (wf_lengths _ W) as (L1&L2&L3&L4&L5&L6&L7&L8&L9&L10&L11&L12&L13&L14&L15). rewrite L14. change (m_njoints (paired m)) with (m_njoints m) in *. lia. }
    change (m_mimic_supports m) with (m_mimic_supports (paired m)). rewrite (ti_mimic _ T i Hi).
    rewrite (filter_ext_in (fun k => isMimic (joint (paired m') k)) (fun k => isMimic (joint (paired m) k) || (k =? b))) by (intros k Hk; apply Ej; apply (Sr i k Hi Hk)).
    pose proof (ti_path _ T i Hi) as P1. pose proof (path_sorted _ _ _ W (path_same (paired m) m _ _ eq_refl eq_refl P1)) as S1. destruct (path_hd _ _ _ P1) as (r & Er).
    assert (Ein : existsb (fun k => k =? i) (subtree m b) = inb b (support (paired m) i)).
    { rewrite Esub. destruct (inb b (support (paired m) i)) eqn:Hin.
      - apply existsb_exists. exists i. split; [|apply Nat.eqb_refl]. apply filter_In. split; [|exact Hin]. apply in_seq.
        assert (i <> 0). { intros ->. rewrite (path_fun _ _ _ _ P1 (path_root _)) in Hin. apply inb_In in Hin. destruct Hin as [?|[]]. lia. } lia.
      - apply not_true_is_false. intros Hx. apply existsb_exists in Hx. destruct Hx as (y & Hy & Ey). apply Nat.eqb_eq in Ey. subst y. apply filter_In in Hy. rewrite Hin in Hy. now destruct Hy. }
    rewrite Ein. rewrite Er in S1 |- *. cbn [tl]. apply StronglySorted_inv in S1. destruct S1 as [S1 S2].
    destruct (inb b (0 :: r)) eqn:Hin.
    + apply inb_In in Hin. destruct Hin as [?|Hin]; [lia|]. cbn [insertSort]. destruct (Nat.ltb_spec 0 b); [|lia]. f_equal. apply insertSort_filter; [exact S1 | exact Hin|].
      unfold isMimic. change (joint (paired m) b) with (joint m b). now rewrite Tb.
    + f_equal. symmetry. apply filter_orb_notin. intros Hx. assert (inb b (0 :: r) = true) by (apply inb_In; now right). congruence.
  - destruct (ti_mimicking _ T) as [T1 _]. split; [|reflexivity]. change (m_mimicking (paired m')) with (m_mimicking m'). rewrite F20. change (m_mimicking m) with (m_mimicking (paired m)). rewrite T1.
    rewrite (filter_ext_in (fun k => isMimic (joint (paired m') k)) (fun k => isMimic (joint (paired m) k) || (k =? b))) by (intros k Hk; apply in_seq in Hk; apply Ej; lia).
    apply insertSort_filter; [apply seq_sorted | apply in_seq; lia|]. unfold isMimic. change (joint (paired m) b) with (joint m b). now rewrite Tb.
Qed.
End Result.
