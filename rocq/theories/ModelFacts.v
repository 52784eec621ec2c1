(* Invariants of the construction API. *)
Require Import Reals String List Arith Bool Lia.
From Verif Require Import Vec3 Spatial Inertia Joints Spec_Joints Model Spec_Model.
Import ListNotations.
Local Open Scope nat_scope.

(* ---- lists ---- *)
Lemma upd_length {A} (l : list A) i f : length (upd l i f) = length l.
Proof.
  unfold upd. destruct (nth_error l i) eqn:E; [|reflexivity].
  assert (i < length l) by (apply nth_error_Some; congruence).
  rewrite app_length, firstn_length. cbn [length]. rewrite skipn_length. lia.
Qed.
Lemma nth_upd {A} (l : list A) i f k d : nth k (upd l i f) d = if (k =? i) && (i <? length l) then f (nth k l d) else nth k l d.
Proof.
  unfold upd. destruct (nth_error l i) eqn:E.
  - assert (Hi : i < length l) by (apply nth_error_Some; congruence).
    assert (Hl : length (firstn i l) = i) by (rewrite firstn_length; lia).
    replace (i <? length l) with true by (symmetry; apply Nat.ltb_lt; lia). rewrite andb_true_r.
    destruct (Nat.eqb_spec k i) as [->|Hk].
    + rewrite app_nth2 by lia. rewrite Hl, Nat.sub_diag. cbn [nth]. f_equal.
      symmetry. apply nth_error_nth. exact E.
    + destruct (Nat.lt_ge_cases k i) as [Hlt|Hge].
      * rewrite app_nth1 by lia. rewrite <- (firstn_skipn i l) at 2. rewrite app_nth1 by lia. reflexivity.
      * rewrite app_nth2 by lia. rewrite Hl. destruct (k - i) as [|n] eqn:En; [lia|]. cbn [nth].
        rewrite <- (firstn_skipn (S i) l) at 2. rewrite app_nth2; rewrite firstn_length; [|lia].
        f_equal. lia.
  - assert (length l <= i) by (apply nth_error_None; exact E).
    replace (i <? length l) with false by (symmetry; apply Nat.ltb_ge; lia). rewrite andb_false_r. reflexivity.
Qed.
Lemma nth_snoc {A} (l : list A) x k d : nth k (l ++ [x]) d = if k =? length l then x else nth k l d.
Proof.
  destruct (Nat.eqb_spec k (length l)) as [->|H].
  - rewrite app_nth2, Nat.sub_diag by lia. reflexivity.
  - destruct (Nat.lt_ge_cases k (length l)).
    + apply app_nth1; lia.
    + rewrite !nth_overflow; [reflexivity | lia | rewrite app_length; cbn; lia].
Qed.
Lemma sum_app a b : sum (a ++ b) = sum a + sum b.
Proof. induction a; cbn; [reflexivity | unfold sum in *; cbn in *; lia]. Qed.
Lemma sum_snoc a x : sum (a ++ [x]) = sum a + x.
Proof. rewrite sum_app. cbn. lia. Qed.
Lemma firstn_snoc {A} i (l : list A) x : i <= length l -> firstn i (l ++ [x]) = firstn i l.
Proof. intros H. rewrite firstn_app. replace (i - length l) with 0 by lia. cbn. apply app_nil_r. Qed.
Lemma resize_setSegment n l i x : length l = i -> n = i + length x -> setSegment (resize n l) i x = l ++ x.
Proof.
  intros <- ->. unfold setSegment, resize.
  rewrite (firstn_all2 l) by lia. rewrite firstn_app, Nat.sub_diag, firstn_all. cbn [firstn]. rewrite app_nil_r.
  rewrite skipn_all2; [now rewrite app_nil_r | rewrite app_length, repeat_length; lia].
Qed.
Lemma setSegment_nil l n i : length l = n -> setSegment (resize n l) i [] = l.
Proof.
  intros <-. unfold setSegment, resize. rewrite Nat.sub_diag, firstn_all. cbn. rewrite app_nil_r, Nat.add_0_r. apply firstn_skipn.
Qed.

Lemma pushAll_length id ks l : length (pushAll id ks l) = length l.
Proof. revert l; induction ks as [|k ks IH]; intros l; cbn; [reflexivity | unfold pushAll in IH; rewrite IH; apply upd_length]. Qed.
Lemma nth_pushAll id ks l i : NoDup ks -> (forall k, In k ks -> k < length l) ->
  nth i (pushAll id ks l) [] = nth i l [] ++ (if existsb (fun k => k =? i) ks then [id] else []).
Proof.
  revert l; induction ks as [|k ks IH]; intros l Hn Hk; cbn.
  - now rewrite app_nil_r.
  - inversion Hn; subst. unfold pushAll in *. rewrite IH; [|assumption|].
    2: { intros k' Hk'. rewrite upd_length. apply Hk; right; exact Hk'. }
    rewrite nth_upd. replace (k <? length l) with true by (symmetry; apply Nat.ltb_lt, Hk; left; reflexivity).
    rewrite andb_true_r, (Nat.eqb_sym i k). destruct (Nat.eqb_spec k i) as [->|Hki]; cbn [orb].
    + replace (existsb (fun k => k =? i) ks) with false; [now rewrite app_nil_r|].
      symmetry. apply not_true_is_false. intros E. apply existsb_exists in E. destruct E as [x [Hx E]].
      apply Nat.eqb_eq in E. subst. contradiction.
    + reflexivity.
Qed.

(* ---- what a successful addJoint does ---- *)
Section AddJoint.
Variables (m : Model) (p : nat) (jm0 : JointM) (pl : SE3) (nm : string) (lim : Limits) (m' : Model) (id : nat).
Hypothesis (H : addJoint m p jm0 pl nm lim = Ok m' id).
Let jt := jm_type jm0.

Lemma addJoint_sizes : length (l_effort lim) = jnv jt /\ length (l_velocity lim) = jnv jt /\ length (l_lower lim) = jnq jt /\
  length (l_upper lim) = jnq jt /\ length (l_friction lim) = jnv jt /\ length (l_damping lim) = jnv jt /\ p < m_njoints m.
Proof.
  unfold addJoint in H. fold jt in H.
  match type of H with (if negb ?b then _ else _) = _ => destruct b eqn:E end; [|discriminate].
  cbn [negb] in H. destruct (p <? m_njoints m) eqn:Ep; [|discriminate].
  repeat (apply andb_true_iff in E; destruct E as [E ?]). apply Nat.ltb_lt in Ep.
  repeat match goal with X : (_ =? _) = true |- _ => apply Nat.eqb_eq in X end.
  repeat split; assumption.
Qed.

(* the fields of the result, one by one *)
Lemma addJoint_inv : exists jm anc sup msup,
  setIndexes jm0 (m_njoints m) (m_nq m) (m_nv m) (m_nvE m) = Some jm /\
  climb (S (m_njoints m)) (m_parents m ++ [p]) p = Some anc /\
  nth_error (m_supports m) p = Some sup /\ nth_error (m_mimic_supports m) p = Some msup /\
  id = m_njoints m /\
  m' = mkModel (m_nq m + jnq jt) (m_nv m + jnv jt) (m_nvE m + jnvE jt) (S (m_njoints m)) (m_nbodies m) (m_nframes m)
                (m_inertias m ++ [inertia_Zero]) (m_placements m ++ [pl]) (m_joints m ++ [jm])
                (m_idx_qs m ++ [jm_idx_q jm]) (m_nqs m ++ [jnq jt])
                (m_idx_vs m ++ [jm_idx_v jm]) (m_nvs m ++ [jnv jt])
                (m_idx_vEs m ++ [jm_idx_vE jm]) (m_nvEs m ++ [jnvE jt])
                (m_parents m ++ [p]) (upd (m_children m ++ [[]]) p (fun l => l ++ [m_njoints m]))
                (if isMimic jm then m_mimicking m ++ [m_njoints m] else m_mimicking m)
                (if isMimic jm then m_mimicked m ++ [jm_ref jm] else m_mimicked m)
                (m_names m ++ [nm]) (m_refs m)
                (setSegment (resize (m_nv m + jnv jt) (m_armature m)) (jm_idx_v jm) (repeat 0%R (jnv jt)))
                (setSegment (resize (m_nv m + jnv jt) (m_rotorInertia m)) (jm_idx_v jm) (repeat 0%R (jnv jt)))
                (setSegment (resize (m_nv m + jnv jt) (m_rotorGearRatio m)) (jm_idx_v jm) (repeat 1%R (jnv jt)))
                (setSegment (resize (m_nv m + jnv jt) (m_friction m)) (jm_idx_v jm) (l_friction lim))
                (setSegment (resize (m_nv m + jnv jt) (m_damping m)) (jm_idx_v jm) (l_damping lim))
                (setSegment (resize (m_nv m + jnv jt) (m_effort m)) (jm_idx_v jm) (l_effort lim))
                (setSegment (resize (m_nv m + jnv jt) (m_velocity m)) (jm_idx_v jm) (l_velocity lim))
                (setSegment (resize (m_nq m + jnq jt) (m_lower m)) (jm_idx_q jm) (l_lower lim))
                (setSegment (resize (m_nq m + jnq jt) (m_upper m)) (jm_idx_q jm) (l_upper lim))
                (m_frames m)
                (m_supports m ++ [sup ++ [m_njoints m]])
                (m_mimic_supports m ++ [if isMimic jm then msup ++ [m_njoints m] else msup])
                (upd (pushAll (m_njoints m) anc (m_subtrees m ++ [[m_njoints m]])) 0 (fun l => l ++ [m_njoints m]))
                (m_gravity m) (m_name m).
Proof.
  unfold addJoint in H. fold jt in H.
  match type of H with (if negb ?b then _ else _) = _ => destruct b eqn:E end; [|discriminate].
  cbn [negb] in H. destruct (p <? m_njoints m) eqn:Ep; [|discriminate]. cbn [negb] in H. cbv zeta in H.
  destruct (setIndexes _ _ _ _ _) as [jm|] eqn:Es; [|discriminate].
  destruct (climb _ _ _) as [anc|] eqn:Ec; [|discriminate].
  destruct (nth_error (m_supports m) p) as [sup|] eqn:Eu; [|discriminate].
  destruct (nth_error (m_mimic_supports m) p) as [msup|] eqn:Ev; [|discriminate].
  inversion H; subst. exists jm, anc, sup, msup. repeat split; assumption.
Qed.
End AddJoint.

(* result of addJoint on the joint itself *)

Lemma isMimic_fresh j : notMimic j -> isMimic (freshJoint j) = false.
Proof. destruct j; cbn; tauto. Qed.
Lemma setIndexes_type jm id q v e jm' : setIndexes jm id q v e = Some jm' ->
  jm_type jm' = jm_type jm /\ jm_id jm' = id /\ jm_idx_vE jm' = e /\ jm_ref jm' = jm_ref jm /\ isMimic jm' = isMimic jm /\
  (if isMimic jm then jm_idx_q jm' = jm_idx_q jm /\ jm_idx_v jm' = jm_idx_v jm /\ jm_ref jm < id
   else jm_idx_q jm' = q /\ jm_idx_v jm' = v).
Proof.
  unfold setIndexes. destruct (isMimic jm) eqn:E.
  - destruct (jm_ref jm <? id) eqn:El; [|discriminate]. intros X; inversion X; subst; cbn.
    apply Nat.ltb_lt in El. repeat split; auto.
  - intros X; inversion X; subst; cbn. repeat split; auto.
Qed.

Lemma wf_empty : wellFormed emptyModel.
Proof.
  constructor; cbn; try lia; try (repeat split; lia); try (repeat split; reflexivity); try reflexivity; intros; try lia.
  split; [reflexivity|]. intros f [<-|[]]. cbn. lia.
Qed.

Ltac nths := repeat (rewrite nth_snoc in * || rewrite app_length in * ); cbn [length] in *.

Lemma wf_addJoint m p jm pl nm lim m' id :
  wellFormed m -> goodArg m jm -> addJoint m p jm pl nm lim = Ok m' id -> wellFormed m'.
Proof.
  intros W G H.
  pose proof (addJoint_sizes _ _ _ _ _ _ _ _ H) as (Z1 & Z2 & Z3 & Z4 & Z5 & Z6 & Hp).
  destruct (addJoint_inv _ _ _ _ _ _ _ _ H) as (jm' & anc & sup & msup & Es & Ec & Eu & Ev & Eid & ->). clear H.
  destruct (setIndexes_type _ _ _ _ _ _ Es) as (T1 & T2 & T3 & T4 & T5 & T6).
  destruct W as [Wn (L1&L2&L3&L4&L5&L6&L7&L8&L9&L10&L11&L12&L13&L14&L15) Wp0 Wp Wj (W01&W02&W03) Wr WrE Wm (Wt1&Wt2&Wt3) (D1&D2&D3&D4&D5&D6&D7&D8&D9) (Wf1&Wf2)].
  set (n := m_njoints m) in *.
  (* values at old and new indexes *)
  assert (Hnew : forall k, k < S n -> k <> n -> k < n) by lia.
  assert (Hmim : isMimic jm = true -> jnq (jm_type jm) = 0 /\ jnv (jm_type jm) = 0).
  { unfold isMimic. destruct (jm_type jm); try discriminate. intros _; cbn; auto. }
  constructor; unfold joint, parent, idx_q, idx_v, idx_vE, nqOf, nvOf, nvEOf in *; cbn [m_nq m_nv m_nvE m_njoints m_nbodies m_nframes
    m_inertias m_placements m_joints m_idx_qs m_nqs m_idx_vs m_nvs m_idx_vEs m_nvEs m_parents m_children m_mimicking m_mimicked
    m_names m_refs m_armature m_rotorInertia m_rotorGearRatio m_friction m_damping m_effort m_velocity m_lower m_upper m_frames
    m_supports m_mimic_supports m_subtrees m_gravity m_name].
  - lia.
  - rewrite !upd_length, pushAll_length, !app_length. cbn [length]. repeat split; lia.
  - rewrite nth_snoc, L10. destruct (Nat.eqb_spec 0 n); [lia|]. exact Wp0.
  - intros i Hi. rewrite nth_snoc, L10. destruct (Nat.eqb_spec i n) as [->|]; [exact Hp|]. apply Wp. lia.
  - intros i Hi. rewrite !nth_snoc, L3, L4, L5, L6, L7, L8, L9.
    destruct (Nat.eqb_spec i n) as [->|]; [|apply Wj; lia].
    rewrite T1. repeat split; auto.
  - rewrite !nth_snoc, L5, L7, L9. destruct (Nat.eqb_spec 0 n); [lia|]. auto.
  - intros i Hi. rewrite !nth_snoc, L3, L4, L6.
    destruct (Nat.eqb_spec i n) as [->|].
    + intros Hm. rewrite T5 in Hm. rewrite Hm in T6. destruct T6 as [-> ->].
      rewrite !firstn_snoc by lia. rewrite !firstn_all2 by lia. auto.
    + intros Hm. rewrite !firstn_snoc by lia. apply Wr; [lia|exact Hm].
  - intros i Hi. rewrite !nth_snoc, L8. rewrite firstn_snoc by lia.
    destruct (Nat.eqb_spec i n) as [->|].
    + rewrite firstn_all2 by lia. congruence.
    + apply WrE. lia.
  - intros i j s o Hi. rewrite (nth_snoc (m_joints m)), L3. destruct (Nat.eqb_spec i n) as [->|].
    + intros Hj. cbv zeta. rewrite T1 in Hj.
      destruct G as [(j0 & -> & Hn) | (j0 & k & s0 & o0 & -> & Hk & Hmm & Hnm & Hq & Hv)].
      { cbn in Hj. subst j0. destruct Hn. }
      cbn in Hj. inversion Hj; subst j0 s0 o0. clear Hj. cbn in T6. destruct T6 as [-> [-> Hlt]].
      destruct (Wj k Hk) as (K1 & K2 & K3 & K4 & K5 & K6 & K7).
      unfold joint in *. rewrite T4. cbn [jm_ref mkMimic]. rewrite K1, K2, K3 in *.
      rewrite !nth_snoc, ?L3, ?L4, ?L5, ?L6, ?L7.
      destruct (Nat.eqb_spec k n); [lia|]. destruct (Nat.eqb_spec n n); [|lia].
      repeat split; auto; lia.
    + intros Hj. cbv zeta. specialize (Wm i j s o ltac:(lia) Hj). cbv zeta in Wm. destruct Wm as (M1&M2&M3&M4&M5&M6&M7).
      set (k := jm_ref (nth i (m_joints m) dJ)) in *.
      rewrite !nth_snoc, ?L3, ?L4, ?L5, ?L6, ?L7.
      destruct (Nat.eqb_spec k n); [lia|]. destruct (Nat.eqb_spec i n); [lia|]. repeat split; auto; lia.
  - rewrite !sum_snoc. lia.
  - assert (Hseg : forall (l : list R) x, length l = m_nv m -> length x = jnv (jm_type jm) ->
        length (setSegment (resize (m_nv m + jnv (jm_type jm)) l) (jm_idx_v jm') x) = m_nv m + jnv (jm_type jm)).
    { intros l x Hl Hx. destruct (isMimic jm) eqn:Em.
      - destruct (Hmim eq_refl) as [_ Hv]. rewrite Hv in *. destruct x; [|discriminate]. rewrite setSegment_nil; lia.
      - destruct T6 as [_ ->]. rewrite resize_setSegment; [rewrite app_length; lia | lia | lia]. }
    assert (HsegQ : forall (l : list R) x, length l = m_nq m -> length x = jnq (jm_type jm) ->
        length (setSegment (resize (m_nq m + jnq (jm_type jm)) l) (jm_idx_q jm') x) = m_nq m + jnq (jm_type jm)).
    { intros l x Hl Hx. destruct (isMimic jm) eqn:Em.
      - destruct (Hmim eq_refl) as [Hv _]. rewrite Hv in *. destruct x; [|discriminate]. rewrite setSegment_nil; lia.
      - destruct T6 as [-> _]. rewrite resize_setSegment; [rewrite app_length; lia | lia | lia]. }
    repeat split; (apply Hseg || apply HsegQ); rewrite ?repeat_length; (assumption || reflexivity).
  - split; [exact Wf1|]. intros f Hf. specialize (Wf2 f Hf). lia.
Qed.

(* the tree part is not touched by the other calls *)
Lemma wf_setInertias m l n : wellFormed m -> length l = m_njoints m -> wellFormed (setInertias m l n).
Proof. intros [] Hl. constructor; try assumption. cbn. intuition. Qed.
Lemma wf_setFrames m f : wellFormed m -> fr_parentJoint f < m_njoints m ->
  wellFormed (setFrames m (m_frames m ++ [f]) (S (m_nframes m))).
Proof.
  intros [? ? ? ? ? ? ? ? ? ? ? [F1 F2]] Hf. constructor; try assumption. cbn. rewrite app_length. cbn. split; [lia|].
  intros g Hg. apply in_app_or in Hg. destruct Hg as [Hg|[<-|[]]]; [apply F2; exact Hg | exact Hf].
Qed.
Lemma wf_setGA m g arm : wellFormed m -> length arm = m_nv m -> wellFormed (setGravityArmature m g arm).
Proof. intros [] Hl. constructor; try assumption. cbn. intuition. Qed.

(* what a successful addFrame does *)
Lemma addFrame_cases eps m f b m' id : addFrame eps m f b = Ok m' id ->
  fr_parentJoint f < m_njoints m /\
  ((existFrame m (fr_name f) (fr_type f) = true /\ m' = m /\ getFrameId m (fr_name f) (fr_type f) = Some id) \/
   (existFrame m (fr_name f) (fr_type f) = false /\ id = m_nframes m /\
    ((b = false /\ m' = setFrames m (m_frames m ++ [f]) (S (m_nframes m))) \/
     (b = true /\ fr_parentJoint f < length (m_inertias m) /\
      m' = setInertias (setFrames m (m_frames m ++ [f]) (S (m_nframes m)))
             (upd (m_inertias m) (fr_parentJoint f)
                (fun Y0 => inertia_pequ eps Y0 (inertia_act (fr_placement f) (fr_inertia f)))) (m_nbodies m))))).
Proof.
  unfold addFrame. destruct (fr_parentJoint f <? m_njoints m) eqn:E; [|discriminate]. cbn [negb]. apply Nat.ltb_lt in E.
  intros H. split; [exact E|].
  destruct (existFrame _ _ _) eqn:Ef.
  - left. destruct (getFrameId _ _ _) eqn:Eg; [|discriminate]. inversion H; subst. auto.
  - right. split; [reflexivity|]. destruct b.
    + destruct (_ <? _) eqn:El; [|discriminate]. apply Nat.ltb_lt in El. inversion H; subst. split; [reflexivity|]. right; auto.
    + inversion H; subst. split; [reflexivity|]. left; auto.
Qed.
Lemma wf_addFrame eps m f b m' id : wellFormed m -> addFrame eps m f b = Ok m' id -> wellFormed m'.
Proof.
  intros W H. destruct (addFrame_cases _ _ _ _ _ _ H) as (Hj & [(_ & -> & _) | (_ & _ & [(_ & ->) | (_ & Hl & ->)])]).
  - exact W.
  - apply wf_setFrames; assumption.
  - apply wf_setInertias; [apply wf_setFrames; assumption|]. rewrite upd_length. cbn. apply W.
Qed.

Lemma Step_goodArg eps m m' b : Step eps m m' b ->
  (exists p jm pl nm lim id, goodArg m jm /\ addJoint m p jm pl nm lim = Ok m' id /\ b = None) \/
  (m_parents m' = m_parents m /\ m_njoints m' = m_njoints m /\ m_supports m' = m_supports m /\
   m_subtrees m' = m_subtrees m /\ m_children m' = m_children m /\ m_joints m' = m_joints m /\
   m_mimic_supports m' = m_mimic_supports m /\ m_mimicking m' = m_mimicking m /\ m_mimicked m' = m_mimicked m).
Proof.
  intros H. inversion H as [p j pl nm lim id Hn Ha | p j k s o pl nm lim id Hk Hm Hi Hq Hv Ha | j Y pl Ha | f id Ha Hi
    | f b' id Ha Hi | f id Ha | g arm Hl Ha].
  - left. exists p, (freshJoint j), pl, nm, lim, id. split; [left; exists j; auto | auto].
  - left. exists p, (mkMimic j (joint m k) s o), pl, nm, lim, id. split; [|auto]. right. exists j, k, s, o. auto 8.
  - right. unfold appendBodyToJoint in Ha. destruct (_ <? _); [|discriminate]. inversion Ha. repeat split.
  - right. destruct (addFrame_cases _ _ _ _ _ _ Ha) as (Hj & [(_ & -> & _) | (_ & _ & [(_ & ->) | (_ & Hl & ->)])]); repeat split.
  - right. destruct (addFrame_cases _ _ _ _ _ _ Ha) as (Hj & [(_ & -> & _) | (_ & _ & [(_ & ->) | (_ & Hl & ->)])]); repeat split.
  - right. destruct (addFrame_cases _ _ _ _ _ _ Ha) as (Hj & [(_ & -> & _) | (_ & _ & [(_ & ->) | (_ & Hl & ->)])]); repeat split.
  - right. subst. repeat split.
Qed.

Lemma wf_Step eps m m' b : wellFormed m -> Step eps m m' b -> wellFormed m'.
Proof.
  intros W H. inversion H as [p j pl nm lim id Hn Ha | p j k s o pl nm lim id Hk Hm Hi Hq Hv Ha | j Y pl Ha | f id Ha Hi
    | f b' id Ha Hi | f id Ha | g arm Hl Ha].
  - eapply wf_addJoint; [exact W | left; exists j; auto | eassumption].
  - eapply wf_addJoint; [exact W | right; exists j, k, s, o; auto 8 | eassumption].
  - unfold appendBodyToJoint in Ha. destruct (_ <? _); [|discriminate]. inversion Ha. apply wf_setInertias; [exact W|].
    rewrite upd_length. apply W.
  - eapply wf_addFrame; eassumption.
  - eapply wf_addFrame; eassumption.
  - eapply wf_addFrame; eassumption.
  - subst. apply wf_setGA; assumption.
Qed.

Theorem Built_wf eps m : Built eps m -> wellFormed m.
Proof.
  intros [l H]. induction H as [|m m' l b H IH Hs]; [apply wf_empty | eapply wf_Step; eassumption].
Qed.
