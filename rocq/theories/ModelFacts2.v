(* Index ranges, name lookup, inertia bookkeeping, lowest common ancestor. *)
Require Import Reals String List Arith Bool Lia Lra Sorted.
From Verif Require Import Vec3 Spatial Inertia InertiaFacts Joints Spec_Joints Model Spec_Model ModelFacts ModelTree.
Import ListNotations.
Local Open Scope nat_scope.

(* ---- index ranges cover [0, total) exactly once ---- *)
Lemma sum_firstn_mono l i j : i <= j -> sum (firstn i l) <= sum (firstn j l).
Proof.
  revert i j; induction l as [|x l IH]; intros i j H; [rewrite !firstn_nil; lia|].
  destruct i; [cbn; lia|]. destruct j; [lia|]. cbn. specialize (IH i j ltac:(lia)). unfold sum in *. lia.
Qed.
Lemma sum_firstn_S l i : i < length l -> sum (firstn (S i) l) = sum (firstn i l) + nth i l 0.
Proof.
  revert i; induction l as [|x l IH]; intros i H; [cbn in H; lia|]. destruct i; [cbn; lia|].
  change (firstn (S (S i)) (x :: l)) with (x :: firstn (S i) l). change (firstn (S i) (x :: l)) with (x :: firstn i l).
  change (nth (S i) (x :: l) 0) with (nth i l 0).
  cbn [sum fold_right]. fold (sum (firstn (S i) l)). fold (sum (firstn i l)). rewrite IH by (cbn in H; lia). lia.
Qed.
Lemma sum_cover l k : k < sum l -> exists i, i < length l /\ sum (firstn i l) <= k < sum (firstn i l) + nth i l 0.
Proof.
  revert k; induction l as [|x l IH]; intros k H; [cbn in H; lia|].
  cbn [sum fold_right] in H. fold (sum l) in H. destruct (Nat.lt_ge_cases k x).
  - exists 0. cbn. lia.
  - destruct (IH (k - x) ltac:(lia)) as [i [Hi Hk]]. exists (S i). cbn [length firstn nth sum fold_right]. fold (sum (firstn i l)). lia.
Qed.
Lemma sum_cover_unique l k i j : i < length l -> j < length l ->
  sum (firstn i l) <= k < sum (firstn i l) + nth i l 0 -> sum (firstn j l) <= k < sum (firstn j l) + nth j l 0 -> i = j.
Proof.
  intros Hi Hj A B. rewrite <- sum_firstn_S in A, B by assumption.
  destruct (Nat.lt_trichotomy i j) as [H|[H|H]]; [|exact H|]; exfalso.
  - pose proof (sum_firstn_mono l (S i) j H). lia.
  - pose proof (sum_firstn_mono l (S j) i H). lia.
Qed.

Lemma mimic_dims jm : isMimic jm = true -> jnq (jm_type jm) = 0 /\ jnv (jm_type jm) = 0.
Proof. unfold isMimic. destruct (jm_type jm); try discriminate. intros _; cbn; auto. Qed.


Lemma wf_cover m : wellFormed m ->
  (forall k, k < m_nq m -> exists i, ownsQ m k i /\ forall i', ownsQ m k i' -> i' = i) /\
  (forall k, k < m_nv m -> exists i, ownsV m k i /\ forall i', ownsV m k i' -> i' = i).
Proof.
  intros W. destruct (wf_lengths _ W) as (L1&L2&L3&L4&L5&L6&L7&L8&L9&L10&L11&L12&L13&L14&L15).
  destruct (wf_total _ W) as (T1&T2&T3). destruct (wf_zero _ W) as (Z1&Z2&Z3). split; intros k Hk.
  - rewrite T1 in Hk. destruct (sum_cover _ _ Hk) as [i [Hi Hr]].
    assert (i <> 0). { intros ->. unfold nqOf in Z1. rewrite Z1 in Hr. lia. }
    assert (Hm : isMimic (joint m i) = false).
    { apply not_true_is_false. intros E. apply mimic_dims in E. destruct (wf_joint _ W i ltac:(lia)) as (_&_&_&_&Q&_).
      unfold nqOf in Q. lia. }
    destruct (wf_range _ W i ltac:(lia) Hm) as [Rq _].
    exists i. split; [unfold ownsQ, nqOf; repeat split; try exact Hm; lia|].
    intros i' (Hi' & Hm' & Hr'). destruct (wf_range _ W i' Hi' Hm') as [Rq' _]. unfold nqOf in Hr'. rewrite Rq' in Hr'.
    apply (sum_cover_unique (m_nqs m) k); lia.
  - rewrite T2 in Hk. destruct (sum_cover _ _ Hk) as [i [Hi Hr]].
    assert (i <> 0). { intros ->. unfold nvOf in Z2. rewrite Z2 in Hr. lia. }
    assert (Hm : isMimic (joint m i) = false).
    { apply not_true_is_false. intros E. apply mimic_dims in E. destruct (wf_joint _ W i ltac:(lia)) as (_&_&_&_&_&Q&_).
      unfold nvOf in Q. lia. }
    destruct (wf_range _ W i ltac:(lia) Hm) as [_ Rq].
    exists i. split; [unfold ownsV, nvOf; repeat split; try exact Hm; lia|].
    intros i' (Hi' & Hm' & Hr'). destruct (wf_range _ W i' Hi' Hm') as [_ Rq']. unfold nvOf in Hr'. rewrite Rq' in Hr'.
    apply (sum_cover_unique (m_nvs m) k); lia.
Qed.

(* every joint, mimic or not, reads inside q and v *)
Lemma wf_inrange m : wellFormed m -> forall i, 0 < i < m_njoints m ->
  idx_q m i + (match jm_type (joint m i) with JMimic j _ _ => nq1 j | j => jnq j end) <= m_nq m /\
  idx_v m i + (match jm_type (joint m i) with JMimic j _ _ => nv1 j | j => jnv j end) <= m_nv m.
Proof.
  intros W i Hi. destruct (wf_lengths _ W) as (L1&L2&L3&L4&L5&L6&L7&L8&L9&L10&L11&L12&L13&L14&L15).
  destruct (wf_total _ W) as (T1&T2&T3).
  assert (H : forall i, 0 < i < m_njoints m -> isMimic (joint m i) = false ->
     idx_q m i + nqOf m i <= m_nq m /\ idx_v m i + nvOf m i <= m_nv m).
  { intros k Hk Hm. destruct (wf_range _ W k Hk Hm) as [-> ->]. unfold nqOf, nvOf. rewrite <- !sum_firstn_S by lia.
    rewrite T1, T2. rewrite <- (firstn_all (m_nqs m)) at 2. rewrite <- (firstn_all (m_nvs m)) at 2.
    split; apply sum_firstn_mono; lia. }
  destruct (jm_type (joint m i)) as [j|j s o|l] eqn:E.
  - assert (Hm : isMimic (joint m i) = false) by (unfold isMimic; rewrite E; reflexivity).
    destruct (wf_joint _ W i Hi) as (_&_&_&_&Q1&Q2&_). rewrite E in *. rewrite Q1, Q2. apply H; assumption.
  - destruct (wf_mimic _ W i j s o Hi E) as (_ & Hk & Hnm & E1 & E2 & E3 & E4). rewrite E1, E2, E3, E4. apply H; [lia|assumption].
  - assert (Hm : isMimic (joint m i) = false) by (unfold isMimic; rewrite E; reflexivity).
    destruct (wf_joint _ W i Hi) as (_&_&_&_&Q1&Q2&_). rewrite E in *. rewrite Q1, Q2. apply H; assumption.
Qed.

(* ---- effect of a successful addJoint ---- *)
Lemma addJoint_effect m p jm pl nm lim m' id : wellFormed m -> goodArg m jm -> addJoint m p jm pl nm lim = Ok m' id ->
  id = m_njoints m /\ m_njoints m' = S id /\
  jm_type (joint m' id) = jm_type jm /\ parent m' id = p /\ placementOf m' id = pl /\ nth id (m_names m') ""%string = nm /\
  inertiaOf m' id = inertia_Zero /\
  (forall i, i < id -> joint m' i = joint m i /\ parent m' i = parent m i /\ placementOf m' i = placementOf m i /\
     nth i (m_names m') ""%string = nth i (m_names m) ""%string /\ inertiaOf m' i = inertiaOf m i /\
     idx_q m' i = idx_q m i /\ idx_v m' i = idx_v m i) /\
  m_lower m' = m_lower m ++ l_lower lim /\ m_upper m' = m_upper m ++ l_upper lim /\
  m_effort m' = m_effort m ++ l_effort lim /\ m_velocity m' = m_velocity m ++ l_velocity lim /\
  m_friction m' = m_friction m ++ l_friction lim /\ m_damping m' = m_damping m ++ l_damping lim /\
  m_armature m' = m_armature m ++ repeat 0%R (jnv (jm_type jm)) /\
  m_rotorInertia m' = m_rotorInertia m ++ repeat 0%R (jnv (jm_type jm)) /\
  m_rotorGearRatio m' = m_rotorGearRatio m ++ repeat 1%R (jnv (jm_type jm)) /\
  m_frames m' = m_frames m /\ m_gravity m' = m_gravity m.
Proof.
  intros W G H.
  pose proof (addJoint_sizes _ _ _ _ _ _ _ _ H) as (Z1 & Z2 & Z3 & Z4 & Z5 & Z6 & Hp).
  destruct (addJoint_inv _ _ _ _ _ _ _ _ H) as (jm' & anc & sup & msup & Es & Ec & Eu & Ev & Eid & ->). clear H.
  destruct (setIndexes_type _ _ _ _ _ _ Es) as (T1 & T2 & T3 & T4 & T5 & T6).
  destruct (wf_lengths _ W) as (L1&L2&L3&L4&L5&L6&L7&L8&L9&L10&L11&L12&L13&L14&L15).
  destruct (wf_dofs _ W) as (D1&D2&D3&D4&D5&D6&D7&D8&D9).
  assert (Hmim : isMimic jm = true -> jnq (jm_type jm) = 0 /\ jnv (jm_type jm) = 0) by apply mimic_dims.
  assert (Hseg : forall (l : list R) x, length l = m_nv m -> length x = jnv (jm_type jm) ->
      setSegment (resize (m_nv m + jnv (jm_type jm)) l) (jm_idx_v jm') x = l ++ x).
  { intros l x Hl Hx. destruct (isMimic jm) eqn:Em.
    - destruct (Hmim eq_refl) as [_ Hv]. rewrite Hv in *. destruct x; [|discriminate]. rewrite setSegment_nil by lia. now rewrite app_nil_r.
    - destruct T6 as [_ ->]. apply resize_setSegment; lia. }
  assert (HsegQ : forall (l : list R) x, length l = m_nq m -> length x = jnq (jm_type jm) ->
      setSegment (resize (m_nq m + jnq (jm_type jm)) l) (jm_idx_q jm') x = l ++ x).
  { intros l x Hl Hx. destruct (isMimic jm) eqn:Em.
    - destruct (Hmim eq_refl) as [Hv _]. rewrite Hv in *. destruct x; [|discriminate]. rewrite setSegment_nil by lia. now rewrite app_nil_r.
    - destruct T6 as [-> _]. apply resize_setSegment; lia. }
  rewrite Eid. unfold joint, parent, placementOf, inertiaOf, idx_q, idx_v.
  cbn [m_njoints m_joints m_parents m_placements m_names m_inertias m_idx_qs m_idx_vs m_lower m_upper m_effort m_velocity
       m_friction m_damping m_armature m_rotorInertia m_rotorGearRatio m_frames m_gravity].
  rewrite !nth_snoc, L1, L2, L3, L10, L12, Nat.eqb_refl, T1.
  repeat (split; [reflexivity|]). split.
  { intros i Hi. rewrite !nth_snoc, L1, L2, L3, L4, L6, L10, L12.
    destruct (Nat.eqb_spec i (m_njoints m)); [lia|]. repeat split. }
  repeat split; (apply Hseg || apply HsegQ); rewrite ?repeat_length; (assumption || reflexivity).
Qed.

(* ---- lookup ---- *)
Lemma findIndex_spec {A} (p : A -> bool) l : findIndex p l <= length l /\
  (forall k x, k < findIndex p l -> nth_error l k = Some x -> p x = false) /\
  (findIndex p l < length l -> exists x, nth_error l (findIndex p l) = Some x /\ p x = true).
Proof.
  induction l as [|a l (IH1 & IH2 & IH3)]; cbn; [repeat split; intros; lia|].
  destruct (p a) eqn:E.
  - repeat split; [lia | intros; lia | intros _; exists a; auto].
  - repeat split; [lia | | intros H; apply IH3; lia].
    intros k x Hk Hx. destruct k as [|k]; [inversion Hx; congruence | apply (IH2 k); [lia|exact Hx]].
Qed.
Lemma findIndex_none {A} (p : A -> bool) l : findIndex p l = length l <-> forall x, In x l -> p x = false.
Proof.
  induction l as [|a l IH]; cbn; [split; [intros _ x [] | auto]|]. destruct (p a) eqn:E.
  - split; [discriminate | intros H; rewrite (H a) in E by auto; discriminate].
  - split.
    + intros H x [<-|Hx]; [exact E | apply IH; [lia | exact Hx]].
    + intros H. f_equal. apply IH. intros x Hx. apply H. auto.
Qed.

Lemma getJointId_spec m nm : wellFormed m ->
  (forall i, getJointId m nm = i -> i < m_njoints m ->
     nth_error (m_names m) i = Some nm /\ forall k, k < i -> nth_error (m_names m) k <> Some nm) /\
  (getJointId m nm = m_njoints m <-> ~ In nm (m_names m)) /\ getJointId m nm <= m_njoints m /\
  (existJointName m nm = true <-> In nm (m_names m)).
Proof.
  intros W. destruct (wf_lengths _ W) as (_&_&_&_&_&_&_&_&_&_&_&L&_).
  unfold existJointName, getJointId. rewrite L. destruct (findIndex_spec (fun n => String.eqb n nm) (m_names m)) as (F1 & F2 & F3).
  assert (N : findIndex (fun n => (n =? nm)%string) (m_names m) = m_njoints m <-> ~ In nm (m_names m)).
  { rewrite <- L, findIndex_none. split.
    - intros H Hin. specialize (H nm Hin). rewrite String.eqb_refl in H. discriminate.
    - intros H x Hx. apply String.eqb_neq. congruence. }
  split; [|split; [exact N|split; [lia|split]]].
  - intros i <- Hi. split.
    + destruct F3 as [x [Hx E]]; [lia|]. apply String.eqb_eq in E. congruence.
    + intros k Hk E. specialize (F2 k nm Hk E). cbv beta in F2. rewrite String.eqb_refl in F2. discriminate.
  - rewrite negb_true_iff, Nat.eqb_neq. intros H. destruct (in_dec string_dec nm (m_names m)); [assumption|]. tauto.
  - intros Hin. rewrite negb_true_iff, Nat.eqb_neq. tauto.
Qed.

Lemma filterFrame_spec nm mask f : filterFrame nm mask f = true <-> matches nm mask f.
Proof.
  unfold filterFrame, matches. rewrite andb_true_iff, negb_true_iff, Nat.eqb_neq, String.eqb_eq. intuition.
Qed.
Lemma filterFrame_false nm mask f : filterFrame nm mask f = false <-> ~ matches nm mask f.
Proof. rewrite <- filterFrame_spec. destruct (filterFrame nm mask f); intuition congruence. Qed.

Lemma nth_error_skipn' {A} (l : list A) n k : nth_error (skipn n l) k = nth_error l (n + k).
Proof. revert l; induction n; intros l; [reflexivity|]. destruct l; cbn; [destruct k; reflexivity | apply IHn]. Qed.

Lemma getFrameId_spec m nm mask : wellFormed m ->
  match getFrameId m nm mask with
  | Some i =>
      (i < m_nframes m /\ exists f, nth_error (m_frames m) i = Some f /\ matches nm mask f /\
         forall k g, nth_error (m_frames m) k = Some g -> matches nm mask g -> k = i)
      \/ (i = m_nframes m /\ forall f, In f (m_frames m) -> ~ matches nm mask f)
  | None => exists i j f g, i < j /\ nth_error (m_frames m) i = Some f /\ nth_error (m_frames m) j = Some g /\
              matches nm mask f /\ matches nm mask g
  end.
Proof.
  intros W. destruct (wf_frames _ W) as [L _]. unfold getFrameId. set (p := filterFrame nm mask). set (l := m_frames m) in *.
  destruct (findIndex_spec p l) as (F1 & F2 & F3). set (i := findIndex p l) in *. rewrite L.
  destruct (Nat.eqb_spec i (length l)) as [Hi|Hi]; cbn [orb].
  - right. split; [exact Hi|]. intros f Hf. apply filterFrame_false. fold p. apply (proj1 (findIndex_none p l)); [exact Hi | exact Hf].
  - destruct F3 as [f [Hf Ef]]; [lia|].
    destruct (Nat.eqb_spec (findIndex p (skipn (S i) l)) (length (skipn (S i) l))) as [Hr|Hr].
    + left. split; [lia|]. exists f. split; [exact Hf|]. split; [apply filterFrame_spec; exact Ef|].
      intros k g Hk Hg. apply filterFrame_spec in Hg. fold p in Hg.
      destruct (Nat.lt_trichotomy k i) as [Hlt|[->|Hgt]]; [|reflexivity|]; exfalso.
      * rewrite (F2 k g Hlt Hk) in Hg. discriminate.
      * assert (Hin : In g (skipn (S i) l)).
        { apply (nth_error_In _ (k - S i)). rewrite nth_error_skipn'. replace (S i + (k - S i)) with k by lia. exact Hk. }
        pose proof (proj1 (findIndex_none p (skipn (S i) l)) Hr g Hin). congruence.
    + destruct (findIndex_spec p (skipn (S i) l)) as (G1 & G2 & G3). destruct G3 as [g [Hg Eg]]; [lia|].
      rewrite nth_error_skipn' in Hg. exists i, (S i + findIndex p (skipn (S i) l)), f, g.
      apply filterFrame_spec in Ef. apply filterFrame_spec in Eg.
      split; [lia|]. split; [exact Hf|]. split; [exact Hg|]. split; assumption.
Qed.
Lemma existFrame_spec m nm mask : existFrame m nm mask = true <-> exists f, In f (m_frames m) /\ matches nm mask f.
Proof.
  unfold existFrame. rewrite negb_true_iff, Nat.eqb_neq. split.
  - intros H. destruct (findIndex_spec (filterFrame nm mask) (m_frames m)) as (F1 & F2 & F3).
    destruct F3 as [f [Hf Ef]]; [lia|]. exists f. split; [eapply nth_error_In; exact Hf | apply filterFrame_spec; exact Ef].
  - intros [f [Hf Ef]] H. pose proof (proj1 (findIndex_none _ _) H f Hf) as E. apply filterFrame_false in E. contradiction.
Qed.

Lemma addFrame_existing eps m f b : fr_parentJoint f < m_njoints m ->
  (exists g, In g (m_frames m) /\ matches (fr_name f) (fr_type f) g) ->
  addFrame eps m f b = match getFrameId m (fr_name f) (fr_type f) with Some i => Ok m i | None => Throw m end.
Proof.
  intros Hj He. apply existFrame_spec in He. unfold addFrame. rewrite He.
  replace (fr_parentJoint f <? m_njoints m) with true by (symmetry; apply Nat.ltb_lt; exact Hj). reflexivity.
Qed.
Lemma addFrame_new eps m f b : wellFormed m -> fr_parentJoint f < m_njoints m ->
  (forall g, In g (m_frames m) -> ~ matches (fr_name f) (fr_type f) g) ->
  exists m', addFrame eps m f b = Ok m' (m_nframes m) /\ m_nframes m' = S (m_nframes m) /\ m_frames m' = m_frames m ++ [f] /\
    m_nbodies m' = m_nbodies m /\ m_joints m' = m_joints m /\ m_parents m' = m_parents m /\
    (forall i, i <> fr_parentJoint f \/ b = false -> inertiaOf m' i = inertiaOf m i) /\
    (b = true -> inertiaOf m' (fr_parentJoint f) =
       inertia_plus eps (inertiaOf m (fr_parentJoint f)) (inertia_act (fr_placement f) (fr_inertia f))).
Proof.
  intros W Hj He. unfold addFrame.
  assert (Hx : existFrame m (fr_name f) (fr_type f) = false).
  { apply not_true_is_false. rewrite existFrame_spec. intros [g [Hg Hm]]. apply (He g Hg Hm). }
  rewrite Hx. replace (fr_parentJoint f <? m_njoints m) with true by (symmetry; apply Nat.ltb_lt; exact Hj). cbn [negb].
  destruct (wf_lengths _ W) as (L1&_). destruct b.
  - replace (fr_parentJoint f <? length (m_inertias m)) with true by (symmetry; apply Nat.ltb_lt; lia).
    eexists. split; [reflexivity|]. repeat split.
    + intros i [Hi|Hi]; [|discriminate]. unfold inertiaOf; cbn. rewrite nth_upd. destruct (Nat.eqb_spec i (fr_parentJoint f)); [lia|reflexivity].
    + intros _. unfold inertiaOf; cbn. rewrite nth_upd, Nat.eqb_refl. replace (fr_parentJoint f <? length (m_inertias m)) with true by (symmetry; apply Nat.ltb_lt; lia).
      cbn [andb]. apply inertia_pequ_plus.
  - eexists. split; [reflexivity|]. repeat split. discriminate.
Qed.

(* ---- inertia bookkeeping ---- *)
Lemma appendBody_effect eps m j Y pl : wellFormed m -> j < m_njoints m ->
  exists m', appendBodyToJoint eps m j Y pl = Ok m' tt /\ m_nbodies m' = S (m_nbodies m) /\
    inertiaOf m' j = inertia_plus eps (inertiaOf m j) (inertia_act pl Y) /\
    (forall i, i <> j -> inertiaOf m' i = inertiaOf m i) /\
    m_frames m' = m_frames m /\ m_joints m' = m_joints m /\ m_parents m' = m_parents m.
Proof.
  intros W Hj. destruct (wf_lengths _ W) as (L1&_). unfold appendBodyToJoint.
  replace (j <? length (m_inertias m)) with true by (symmetry; apply Nat.ltb_lt; lia).
  eexists. split; [reflexivity|]. repeat split.
  - unfold inertiaOf; cbn. rewrite nth_upd, Nat.eqb_refl.
    replace (j <? length (m_inertias m)) with true by (symmetry; apply Nat.ltb_lt; lia). apply inertia_pequ_plus.
  - intros i Hi. unfold inertiaOf; cbn. rewrite nth_upd. destruct (Nat.eqb_spec i j); [lia|reflexivity].
Qed.

Lemma rsum_app a b : fold_right Rplus 0%R (a ++ b) = (fold_right Rplus 0 a + fold_right Rplus 0 b)%R.
Proof. induction a; cbn; [ring|]. rewrite IHa. ring. Qed.
Lemma rsum_upd (l : list Inertia) j f : j < length l -> forall c,
  (mass (f (nth j l inertia_Zero)) = mass (nth j l inertia_Zero) + c)%R ->
  fold_right Rplus 0%R (map mass (upd l j f)) = (fold_right Rplus 0 (map mass l) + c)%R.
Proof.
  intros Hj c Hc. unfold upd. rewrite (nth_error_nth' l inertia_Zero Hj).
  rewrite map_app, rsum_app. cbn [map fold_right]. rewrite Hc.
  rewrite <- (firstn_skipn j l) at 4. rewrite map_app, rsum_app.
  assert (E : skipn j l = nth j l inertia_Zero :: skipn (S j) l).
  { clear -Hj. revert l Hj; induction j; intros [|a l] Hj; cbn in *; try lia; [reflexivity|]. apply IHj. lia. }
  rewrite E. cbn [map fold_right]. ring.
Qed.

Lemma m6add_assoc A B C : m6add A (m6add B C) = m6add (m6add A B) C.
Proof. sring. Qed.
Lemma m6add_zero_l A : m6add (inertia_matrix inertia_Zero) A = A.
Proof. iring. Qed.
Lemma m6add_zero_r A : m6add A (inertia_matrix inertia_Zero) = A.
Proof. iring. Qed.
Lemma attachedMatrix_app j l l' : attachedMatrix j (l ++ l') = m6add (attachedMatrix j l) (attachedMatrix j l').
Proof.
  induction l as [|[[k pl] Y] l IH]; cbn; [now rewrite m6add_zero_l|]. destruct (k =? j); rewrite IH; [apply m6add_assoc|reflexivity].
Qed.
Fixpoint attachedMass (j : nat) (l : list (nat * SE3 * Inertia)) : R :=
  match l with [] => 0%R | (k, _, Y) :: r => if k =? j then (mass Y + attachedMass j r)%R else attachedMass j r end.
Lemma attachedMass_app j l l' : attachedMass j (l ++ l') = (attachedMass j l + attachedMass j l')%R.
Proof. induction l as [|[[k pl] Y] l IH]; cbn; [ring|]. destruct (k =? j); rewrite IH; ring. Qed.

(* what a step does to the inertias *)
Lemma Step_inertia eps m m' b : wellFormed m -> Step eps m m' b ->
  (m_njoints m <= m_njoints m') /\
  (forall i, i < m_njoints m -> inertiaOf m' i =
     match b with Some (j, pl, Y) => if j =? i then inertia_plus eps (inertiaOf m i) (inertia_act pl Y) else inertiaOf m i
                | None => inertiaOf m i end) /\
  (forall i, m_njoints m <= i < m_njoints m' -> inertiaOf m' i = inertia_Zero) /\
  (match b with Some (j, _, _) => j < m_njoints m | None => True end) /\
  totalMass m' = (totalMass m + match b with Some (_, _, Y) => mass Y | None => 0 end)%R.
Proof.
  intros W H. destruct (wf_lengths _ W) as (L1&_).
  assert (Hjoint : forall p jm pl nm lim id, goodArg m jm -> addJoint m p jm pl nm lim = Ok m' id -> b = None ->
    (m_njoints m <= m_njoints m') /\
  (forall i, i < m_njoints m -> inertiaOf m' i =
     match b with Some (j, pl, Y) => if j =? i then inertia_plus eps (inertiaOf m i) (inertia_act pl Y) else inertiaOf m i
                | None => inertiaOf m i end) /\
  (forall i, m_njoints m <= i < m_njoints m' -> inertiaOf m' i = inertia_Zero) /\
  (match b with Some (j, _, _) => j < m_njoints m | None => True end) /\
  totalMass m' = (totalMass m + match b with Some (_, _, Y) => mass Y | None => 0 end)%R).
  { intros p jm pl nm lim id G Ha ->. pose proof (addJoint_effect _ _ _ _ _ _ _ _ W G Ha) as (E1 & E2 & _ & _ & _ & _ & E3 & E4 & _).
    split; [lia|]. split; [intros i Hi; apply E4; lia|]. split; [intros i Hi; replace i with id by lia; exact E3|].
    split; [exact I|].
    destruct (addJoint_inv _ _ _ _ _ _ _ _ Ha) as (jm' & anc & sup & msup & _ & _ & _ & _ & _ & ->).
    unfold totalMass; cbn [m_inertias]. rewrite map_app, rsum_app. cbn. ring. }
  inversion H as [p j pl nm lim id Hn Ha Hb | p j k s o pl nm lim id Hk Hm Hi Hq Hv Ha Hb | j Y pl Ha Hb | f id Ha Hi Hb
    | f b' id Ha Hi Hb | f id Ha Hb | g arm Hl Ha Hb].
  - subst b. eapply Hjoint; [left; exists j; auto | exact Ha | auto].
  - subst b. eapply Hjoint; [right; exists j, k, s, o; auto 8 | exact Ha | auto].
  - clear Hjoint. unfold appendBodyToJoint in Ha. destruct (Nat.ltb_spec j (length (m_inertias m))) as [Hlt|]; [|discriminate]. inversion Ha as [E].
    split; [cbn; lia|]. split; [|split; [cbn; lia|split; [lia|]]].
    + intros i Hi'. unfold inertiaOf; cbn. rewrite nth_upd, (Nat.eqb_sym i j). replace (j <? length (m_inertias m)) with true by (symmetry; apply Nat.ltb_lt; lia).
      rewrite andb_true_r. destruct (j =? i); [apply inertia_pequ_plus | reflexivity].
    + unfold totalMass; cbn. apply rsum_upd; [exact Hlt | reflexivity].
  - clear Hjoint. destruct (addFrame_cases _ _ _ _ _ _ Ha) as (Hj & [(Ex & -> & Eg) | (_ & _ & [(? & _) | (_ & Hl & ->)])]); [|discriminate|].
    + exfalso. pose proof (getFrameId_spec m (fr_name f) (fr_type f) W) as G. rewrite Eg in G.
      destruct G as [[? _]|[_ G]]; [lia|]. apply existFrame_spec in Ex. destruct Ex as [g [? ?]]. apply (G g); assumption.
    + split; [cbn; lia|]. split; [|split; [cbn; lia|split; [lia|]]].
      * intros i Hi'. unfold inertiaOf; cbn. rewrite nth_upd, (Nat.eqb_sym i). replace (fr_parentJoint f <? length (m_inertias m)) with true by (symmetry; apply Nat.ltb_lt; lia).
        rewrite andb_true_r. destruct (fr_parentJoint f =? i); [apply inertia_pequ_plus | reflexivity].
      * unfold totalMass; cbn. apply rsum_upd; [exact Hl | reflexivity].
  - clear Hjoint. destruct (addFrame_cases _ _ _ _ _ _ Ha) as (Hj & [(Ex & -> & Eg) | (_ & ? & _)]); [|lia].
    repeat split; auto; try lia; try (intros; lia); try ring.
  - clear Hjoint. destruct (addFrame_cases _ _ _ _ _ _ Ha) as (Hj & [(Ex & -> & Eg) | (_ & ? & [(_ & ->) | (? & _)])]); [| |discriminate].
    + repeat split; auto; try lia; try (intros; lia); try ring.
    + repeat split; auto; try (cbn; lia). unfold totalMass; cbn. ring.
  - clear Hjoint. subst m'. repeat split; auto; try (cbn; lia). unfold totalMass; cbn. ring.
Qed.

Theorem history_mass eps m l : History eps m l -> totalMass m = massSum l.
Proof.
  intros H. induction H as [|m m' l b H IH Hs]; [unfold totalMass, massSum; cbn; ring|].
  assert (W : wellFormed m) by (apply (Built_wf eps); exists l; exact H).
  destruct (Step_inertia _ _ _ _ W Hs) as (_ & _ & _ & _ & E). rewrite E, IH. unfold massSum.
  destruct b as [[[j pl] Y]|]; [rewrite map_app, rsum_app; cbn; ring | ring].
Qed.

Theorem history_inertia eps m l : (0 < eps)%R -> History eps m l -> (forall x, In x l -> regularBody eps x) ->
  forall j, j < m_njoints m -> inertia_matrix (inertiaOf m j) = attachedMatrix j l.
Proof.
  intros He H Hr.
  assert (G : forall j, j < m_njoints m -> inertia_matrix (inertiaOf m j) = attachedMatrix j l /\
             mass (inertiaOf m j) = attachedMass j l /\ (attachedMass j l = 0 \/ eps <= attachedMass j l)%R).
  2: { intros j Hj. apply G; exact Hj. }
  induction H as [|m m' l b H IH Hs].
  - intros j Hj. cbn in Hj. destruct j; [|lia]. cbn. repeat split; auto.
  - assert (W : wellFormed m) by (apply (Built_wf eps); exists l; exact H).
    destruct (Step_inertia _ _ _ _ W Hs) as (E1 & E2 & E3 & E4 & _).
    assert (Hr' : forall x, In x l -> regularBody eps x).
    { intros x Hx. apply Hr. destruct b; [apply in_or_app; auto | exact Hx]. }
    specialize (IH Hr').
    (* bodies are only attached to existing joints *)
    assert (Hnone : forall m l, History eps m l -> forall j, m_njoints m <= j ->
               attachedMatrix j l = inertia_matrix inertia_Zero /\ attachedMass j l = 0%R).
    { clear. intros m l H. induction H as [|m m' l b H IH Hs]; intros j Hj; [split; reflexivity|].
      assert (W : wellFormed m) by (apply (Built_wf eps); exists l; exact H).
      destruct (Step_inertia _ _ _ _ W Hs) as (E1 & _ & _ & E4 & _). specialize (IH j ltac:(lia)).
      destruct b as [[[k pl] Y]|]; [|exact IH]. rewrite attachedMatrix_app, attachedMass_app. cbn.
      destruct (Nat.eqb_spec k j); [lia|]. destruct IH as [-> ->]. split; [apply m6add_zero_l | ring]. }
    intros j Hj. destruct (Nat.lt_ge_cases j (m_njoints m)) as [Hlt|Hge].
    + rewrite (E2 j Hlt). destruct (IH j Hlt) as (I1 & I2 & I3).
      destruct b as [[[k pl] Y]|]; [|auto]. rewrite attachedMatrix_app, attachedMass_app. cbn.
      destruct (k =? j).
      * assert (Hb : regularBody eps (k, pl, Y)) by (apply Hr; apply in_or_app; right; left; reflexivity).
        unfold regularBody in Hb; cbn in Hb.
        rewrite inertia_plus_matrix.
        2: { split; [exact He|]. change (mass (inertia_act pl Y)) with (mass Y). rewrite I2. lra. }
        rewrite I1, m6add_zero_r. split; [reflexivity|]. split; [cbn; rewrite I2; ring|]. lra.
      * rewrite m6add_zero_r. split; [exact I1|]. split; [rewrite I2; ring|]. lra.
    + rewrite (E3 j ltac:(lia)). destruct (Hnone m l H j Hge) as [N1 N2].
      assert (Hb : match b with Some x => l ++ [x] | None => l end = match b with Some x => l ++ [x] | None => l end) by reflexivity.
      destruct b as [[[k pl] Y]|].
      * rewrite attachedMatrix_app, attachedMass_app. cbn. destruct (Nat.eqb_spec k j); [lia|].
        rewrite N1, N2, m6add_zero_r. repeat split; [ring | left; ring].
      * rewrite N1, N2. repeat split. left; reflexivity.
Qed.

(* ---- lowest common ancestor ---- *)
Lemma sorted_nth_lt l i j x y : StronglySorted lt l -> nth_error l i = Some x -> nth_error l j = Some y -> i < j -> x < y.
Proof.
  intros S. revert i j. induction S as [|a l S IH HF]; intros i j Hx Hy Hij; [destruct i; discriminate|].
  destruct i as [|i], j as [|j]; cbn in *; try lia.
  - inversion Hx; subst. rewrite Forall_forall in HF. apply HF. eapply nth_error_In; exact Hy.
  - apply (IH i j); try assumption; lia.
Qed.
Lemma sorted_nth_le l i j x y : StronglySorted lt l -> nth_error l i = Some x -> nth_error l j = Some y -> i <= j -> x <= y.
Proof.
  intros S Hx Hy Hij. destruct (Nat.eq_dec i j) as [->|]; [replace y with x by congruence; lia|].
  pose proof (sorted_nth_lt l i j x y S Hx Hy ltac:(lia)). lia.
Qed.

Lemma caLoop_spec s1 s2 r1 r2 : s1 = 0 :: r1 -> s2 = 0 :: r2 -> StronglySorted lt s1 -> StronglySorted lt s2 ->
  forall f j1 j2 i1 i2, i1 + i2 <= f -> nth_error s1 i1 = Some j1 -> nth_error s2 i2 = Some j2 ->
  (forall a k1 k2, nth_error s1 k1 = Some a -> nth_error s2 k2 = Some a -> k1 <= i1 /\ k2 <= i2) ->
  exists a k1 k2, caLoop f s1 s2 j1 j2 i1 i2 = Some (a, k1, k2) /\ nth_error s1 k1 = Some a /\ nth_error s2 k2 = Some a /\
    forall b l1 l2, nth_error s1 l1 = Some b -> nth_error s2 l2 = Some b -> l1 <= k1 /\ l2 <= k2.
Proof.
  intros E1 E2 S1 S2. induction f as [|f IH]; intros j1 j2 i1 i2 Hf H1 H2 Hc.
  - assert (i1 = 0) by lia. assert (i2 = 0) by lia. subst i1 i2. rewrite E1 in H1. rewrite E2 in H2. cbn in H1, H2.
    inversion H1; inversion H2; subst j1 j2. cbn. exists 0, 0, 0. rewrite E1, E2 in *. auto.
  - cbn [caLoop]. destruct (Nat.eqb_spec j1 j2) as [->|Hne].
    + exists j2, i1, i2. auto.
    + destruct (Nat.ltb_spec j2 j1) as [Hlt|Hge].
      * destruct i1 as [|i]; [rewrite E1 in H1; cbn in H1; inversion H1; lia|].
        destruct (nth_error s1 i) as [j|] eqn:Ej.
        2: { apply nth_error_None in Ej. assert (S i < length s1) by (apply nth_error_Some; congruence). lia. }
        apply IH; [lia | exact Ej | exact H2|].
        intros a k1 k2 K1 K2. destruct (Hc a k1 k2 K1 K2) as [C1 C2]. split; [|exact C2].
        destruct (Nat.eq_dec k1 (S i)) as [->|]; [|lia]. exfalso.
        assert (a = j1) by congruence. subst a. pose proof (sorted_nth_le s2 k2 i2 j1 j2 S2 K2 H2 C2). lia.
      * destruct i2 as [|i]; [rewrite E2 in H2; cbn in H2; inversion H2; lia|].
        destruct (nth_error s2 i) as [j|] eqn:Ej.
        2: { apply nth_error_None in Ej. assert (S i < length s2) by (apply nth_error_Some; congruence). lia. }
        apply IH; [lia | exact H1 | exact Ej|].
        intros a k1 k2 K1 K2. destruct (Hc a k1 k2 K1 K2) as [C1 C2]. split; [exact C1|].
        destruct (Nat.eq_dec k2 (S i)) as [->|]; [|lia]. exfalso.
        assert (a = j2) by congruence. subst a. pose proof (sorted_nth_le s1 k1 i1 j2 j1 S1 K1 H1 C1). lia.
Qed.

(* elements of a path at or before the position of a are on the path of a *)
Lemma path_before m j l a ka b kb : wellFormed m -> path m j l -> nth_error l ka = Some a -> nth_error l kb = Some b -> kb <= ka ->
  onPath m b a.
Proof.
  intros W H Ha Hb Hle. destruct (path_prefix _ _ _ a H (nth_error_In _ _ Ha)) as (l1 & l2 & H1 & ->).
  exists l1. split; [exact H1|].
  pose proof (path_sorted _ _ _ W H) as S.
  destruct (path_last _ _ _ H1) as [r Hr].
  assert (La : nth_error (l1 ++ l2) (length r) = Some a).
  { rewrite Hr, <- app_assoc. rewrite nth_error_app2 by lia. rewrite Nat.sub_diag. reflexivity. }
  assert (ka = length r).
  { destruct (Nat.lt_trichotomy ka (length r)) as [X|[X|X]]; [|exact X|]; exfalso.
    - pose proof (sorted_nth_lt _ _ _ _ _ S Ha La X). lia.
    - pose proof (sorted_nth_lt _ _ _ _ _ S La Ha X). lia. }
  subst ka. rewrite nth_error_app1 in Hb by (rewrite Hr, app_length; cbn; lia). eapply nth_error_In; exact Hb.
Qed.

Theorem commonAncestor_spec m j1 j2 : wellFormed m -> treeInv m -> j1 < m_njoints m -> j2 < m_njoints m ->
  exists a k1 k2, findCommonAncestor m j1 j2 = Ok tt (a, k1, k2) /\
    nth_error (support m j1) k1 = Some a /\ nth_error (support m j2) k2 = Some a /\
    onPath m a j1 /\ onPath m a j2 /\ forall b, onPath m b j1 -> onPath m b j2 -> onPath m b a.
Proof.
  intros W T H1 H2. unfold findCommonAncestor.
  replace (j1 <? m_njoints m) with true by (symmetry; apply Nat.ltb_lt; lia).
  replace (j2 <? m_njoints m) with true by (symmetry; apply Nat.ltb_lt; lia). cbn [negb].
  pose proof (ti_path _ T j1 H1) as P1. pose proof (ti_path _ T j2 H2) as P2.
  destruct (path_hd _ _ _ P1) as [r1 E1]. destruct (path_hd _ _ _ P2) as [r2 E2].
  assert (Hroot : forall j l, path m j l -> onPath m 0 j).
  { intros j l Hl. exists l. split; [exact Hl|]. destruct (path_hd _ _ _ Hl) as [r ->]. left; reflexivity. }
  destruct ((j1 =? 0) || (j2 =? 0)) eqn:E0.
  - exists 0, 0, 0. split; [reflexivity|]. rewrite E1, E2. repeat split; auto; try (eapply Hroot; eassumption).
    intros b B1 B2. apply orb_true_iff in E0. destruct E0 as [E0|E0]; apply Nat.eqb_eq in E0; subst; assumption.
  - cbv zeta. fold (support m j1) (support m j2).
    destruct (path_last _ _ _ P1) as [q1 Q1]. destruct (path_last _ _ _ P2) as [q2 Q2].
    assert (N1 : nth_error (support m j1) (length (support m j1) - 1) = Some j1).
    { rewrite Q1, app_length, nth_error_app2 by (cbn; lia). replace (length q1 + length [j1] - 1 - length q1) with 0 by (cbn; lia). reflexivity. }
    assert (N2 : nth_error (support m j2) (length (support m j2) - 1) = Some j2).
    { rewrite Q2, app_length, nth_error_app2 by (cbn; lia). replace (length q2 + length [j2] - 1 - length q2) with 0 by (cbn; lia). reflexivity. }
    destruct (caLoop_spec (support m j1) (support m j2) r1 r2 E1 E2 (path_sorted _ _ _ W P1) (path_sorted _ _ _ W P2)
                (length (support m j1) + length (support m j2)) j1 j2 (length (support m j1) - 1) (length (support m j2) - 1) ltac:(lia) N1 N2) as (a & k1 & k2 & -> & K1 & K2 & Kc).
    { intros a k1 k2 A1 A2.
      assert (k1 < length (support m j1)) by (apply nth_error_Some; congruence).
      assert (k2 < length (support m j2)) by (apply nth_error_Some; congruence). lia. }
    exists a, k1, k2. split; [reflexivity|]. split; [exact K1|]. split; [exact K2|].
    split; [exists (support m j1); split; [exact P1 | eapply nth_error_In; exact K1]|].
    split; [exists (support m j2); split; [exact P2 | eapply nth_error_In; exact K2]|].
    intros b [l1 [B1 I1]] [l2 [B2 I2]]. rewrite (path_fun _ _ _ _ B1 P1) in I1. rewrite (path_fun _ _ _ _ B2 P2) in I2.
    apply In_nth_error in I1. apply In_nth_error in I2. destruct I1 as [n1 I1], I2 as [n2 I2].
    destruct (Kc b n1 n2 I1 I2) as [C1 C2]. apply (path_before m j1 _ a k1 b n1 W P1 K1 I1 C1).
Qed.
