(* Rejected calls, frames of joints and bodies, limit flags, and a concrete model. *)
Require Import Reals Lra String List Arith Bool Lia.
From Verif Require Import Vec3 Spatial Inertia InertiaFacts Joints Spec_Joints JointFacts Model Spec_Model ModelFacts ModelTree ModelFacts2 ModelEq.
Import ListNotations.
Local Open Scope nat_scope.


Lemma addJoint_rejected m p jm pl nm lim :
  ~ goodSizes (jm_type jm) lim \/ m_njoints m <= p -> addJoint m p jm pl nm lim = Throw m.
Proof.
  intros H. unfold addJoint. match goal with |- (if negb ?b then _ else _) = _ => destruct b eqn:E end; [|reflexivity].
  cbn [negb]. destruct H as [H|H].
  - exfalso. apply H. rewrite !andb_true_iff, !Nat.eqb_eq in E. unfold goodSizes. tauto.
  - replace (p <? m_njoints m) with false by (symmetry; apply Nat.ltb_ge; exact H). reflexivity.
Qed.
Lemma addFrame_rejected eps m f b : m_njoints m <= fr_parentJoint f -> addFrame eps m f b = Throw m.
Proof.
  intros H. unfold addFrame. replace (fr_parentJoint f <? m_njoints m) with false by (symmetry; apply Nat.ltb_ge; exact H). reflexivity.
Qed.
Lemma addFrame_throw_unchanged eps m f b m' : addFrame eps m f b = Throw m' -> m' = m.
Proof.
  unfold addFrame. destruct (negb _); [intros X; inversion X; reflexivity|].
  destruct (existFrame _ _ _).
  - destruct (getFrameId _ _ _); intros X; inversion X; reflexivity.
  - destruct b; [|discriminate]. destruct (_ <? _); discriminate.
Qed.
Lemma addJoint_throw_unchanged m p jm pl nm lim m' : isMimic jm = false -> addJoint m p jm pl nm lim = Throw m' -> m' = m.
Proof.
  intros Hm. unfold addJoint. destruct (negb _); [intros X; inversion X; reflexivity|].
  destruct (negb _); [intros X; inversion X; reflexivity|]. cbv zeta.
  unfold setIndexes. rewrite Hm. destruct (climb _ _ _), (nth_error (m_supports m) p), (nth_error (m_mimic_supports m) p); discriminate.
Qed.

(* a mimic of a joint of another model, added to a model that has too few joints: the exception leaves the model
   with one more joint than inertias *)
Definition foreignMimic : JointM := mkMimic (JRevolute 2) (mkJointM (JSimple (JRevolute 2)) 1 0 0 0 0) 1 0.
Theorem addJoint_mimic_breaks :
  exists m', addJoint emptyModel 0 foreignMimic se3_Identity "b" (mkLimits [] [] [] [] [] []) = Throw m' /\
    m_njoints m' = 2 /\ length (m_inertias m') = 1 /\ ~ wellFormed m'.
Proof.
  eexists. split; [reflexivity|]. split; [reflexivity|]. split; [reflexivity|].
  intros W. destruct (wf_lengths _ W) as (L&_). discriminate L.
Qed.

(* ---- frames of joints and bodies ---- *)
Lemma addJointFrame_spec eps m j prev m' id : wellFormed m -> addJointFrame eps m j prev = Ok m' id ->
  j < m_njoints m /\
  exists k, addFrame eps m (mkFrame (nth j (m_names m) ""%string) j k se3_Identity JOINT inertia_Zero) true = Ok m' id /\
    match prev with Some k' => k = k' | None => getFrameId m (nth (parent m j) (m_names m) ""%string) (Nat.lor JOINT FIXED_JOINT) = Some k end.
Proof.
  intros W. destruct (wf_lengths _ W) as (_&_&L3&_). unfold addJointFrame.
  destruct (Nat.ltb_spec j (length (m_joints m))) as [Hj|]; [|discriminate]. cbn [negb]. intros H. split; [lia|].
  destruct (nth_error (m_names m) j) as [nm|] eqn:En; [|discriminate]. rewrite (nth_error_nth _ _ ""%string En).
  destruct prev as [k|]; [exists k; auto|].
  destruct (nth_error (m_parents m) j) as [p|] eqn:Ep; [|discriminate].
  destruct (nth_error (m_names m) p) as [pn|] eqn:Eq; [|discriminate].
  destruct (getFrameId m pn _) as [k|] eqn:Eg; [|discriminate]. exists k. split; [exact H|].
  unfold parent. rewrite (nth_error_nth _ _ 0 Ep), (nth_error_nth _ _ ""%string Eq). exact Eg.
Qed.
(* the new frame, when it is new: identity placement on the joint, attached to a frame of the parent joint *)
Theorem addJointFrame_effect eps m j m' id : wellFormed m -> addJointFrame eps m j None = Ok m' id -> id = m_nframes m ->
  (exists g, In g (m_frames m) /\ matches (nth (parent m j) (m_names m) ""%string) (Nat.lor JOINT FIXED_JOINT) g) ->
  exists f g, nth_error (m_frames m') id = Some f /\ fr_name f = nth j (m_names m) ""%string /\ fr_parentJoint f = j /\
    fr_type f = JOINT /\ fr_placement f = se3_Identity /\
    nth_error (m_frames m') (fr_parentFrame f) = Some g /\ fr_parentFrame f < id /\
    matches (nth (parent m j) (m_names m) ""%string) (Nat.lor JOINT FIXED_JOINT) g.
Proof.
  intros W H Hid [g [Hg Mg]]. destruct (addJointFrame_spec _ _ _ _ _ _ W H) as (Hj & k & Ha & Hk).
  pose proof (getFrameId_spec m (nth (parent m j) (m_names m) ""%string) (Nat.lor JOINT FIXED_JOINT) W) as G.
  rewrite Hk in G. destruct G as [(Hlt & g' & Eg' & Mg' & _) | (_ & G)]; [|exfalso; apply (G g); assumption].
  set (f := mkFrame (nth j (m_names m) ""%string) j k se3_Identity JOINT inertia_Zero) in *.
  destruct (addFrame_cases _ _ _ _ _ _ Ha) as (Hf & C).
  destruct (wf_frames _ W) as [Lf _].
  assert (Hnew : forall g, In g (m_frames m) -> ~ matches (fr_name f) (fr_type f) g).
  { destruct C as [(Ex & _ & Eg) | (Ex & _)].
    - exfalso. pose proof (getFrameId_spec m (fr_name f) (fr_type f) W) as G. rewrite Eg, Hid in G.
      destruct G as [(X & _) | (_ & G)]; [lia|]. apply existFrame_spec in Ex. destruct Ex as (x & Hx & Mx). apply (G x Hx Mx).
    - intros x Hx Mx. assert (existFrame m (fr_name f) (fr_type f) = true) by (apply existFrame_spec; eauto). congruence. }
  destruct (addFrame_new eps m f true W ltac:(cbn; lia) Hnew) as (m'' & E & N1 & N2 & _). rewrite E in Ha. injection Ha as Em _. subst m''.
  exists f, g'. rewrite N2. repeat split; try reflexivity.
  - rewrite nth_error_app2 by lia. rewrite Hid, Lf, Nat.sub_diag. reflexivity.
  - cbn [fr_parentFrame f]. rewrite nth_error_app1 by lia. exact Eg'.
  - cbn. lia.
  - exact (proj1 Mg').
  - exact (proj2 Mg').
Qed.
(* ... but when the parent joint has no frame, the new frame names itself as its parent frame *)
Definition noFrameModel : Model :=
  let lim := mkLimits [1%R] [1%R] [(-1)%R] [1%R] [0%R] [0%R] in
  let m := match addJoint emptyModel 0 (freshJoint (JSimple (JRevolute 2))) se3_Identity "a" lim with Ok m _ => m | _ => emptyModel end in
  match addJoint m 1 (freshJoint (JSimple (JRevolute 2))) se3_Identity "b" lim with Ok m _ => m | _ => m end.
Lemma noFrameModel_built eps : Built eps noFrameModel.
Proof.
  set (lim := mkLimits [1%R] [1%R] [(-1)%R] [1%R] [0%R] [0%R]).
  set (m := match addJoint emptyModel 0 (freshJoint (JSimple (JRevolute 2))) se3_Identity "a" lim with Ok m _ => m | _ => emptyModel end).
  assert (H1 : History eps m []).
  { eapply (H_step eps emptyModel _ [] None); [constructor|].
    apply (S_joint eps emptyModel _ 0 (JSimple (JRevolute 2)) se3_Identity "a"%string lim 1); [exact I | reflexivity]. }
  exists []. eapply (H_step eps m _ [] None); [exact H1|].
  apply (S_joint eps m _ 1 (JSimple (JRevolute 2)) se3_Identity "b"%string lim 2); [exact I | reflexivity].
Qed.
Theorem addJointFrame_dangling eps :
  Built eps noFrameModel /\
  exists m' id f, addJointFrame eps noFrameModel 2 None = Ok m' id /\ nth_error (m_frames m') id = Some f /\ fr_parentFrame f = id.
Proof.
  split; [apply noFrameModel_built|]. eexists. exists 1. eexists. split; [reflexivity|]. split; reflexivity.
Qed.

(* ---- limit flags ---- *)
Lemma configLimit1_length j : ~ isHelical j -> length (configLimit1 j) = nq1 j /\ length (configLimitTangent1 j) = nv1 j.
Proof. destruct j; cbn; intros H; try (split; reflexivity); tauto. Qed.
Lemma configLimit_length j : plainJoint j -> length (configLimit j) = jnq j /\ length (configLimitTangent j) = jnv j.
Proof.
  induction j as [j|j s o|l IH] using jointInd; intros H.
  - apply configLimit1_length. exact H.
  - contradiction.
  - induction l as [|[pl x] l IHl]; [split; reflexivity|]. destruct H as [H1 H2].
    destruct (IH pl x (or_introl eq_refl) H1) as [A1 A2].
    destruct (IHl (fun pl j H => IH pl j (or_intror H)) H2) as [B1 B2].
    cbn in *. rewrite !app_length, A1, A2. split; [rewrite B1 | rewrite B2]; reflexivity.
Qed.
Lemma seg_flat_map {A B} (f : A -> list B) (dim : A -> nat) (l : list A) d :
  (forall x, In x l -> length (f x) = dim x) ->
  length (flat_map f l) = sum (map dim l) /\
  forall i, i < length l -> firstn (dim (nth i l d)) (skipn (sum (firstn i (map dim l))) (flat_map f l)) = f (nth i l d).
Proof.
  induction l as [|x l IH]; intros H; [cbn; split; [reflexivity | intros; lia]|].
  destruct (IH (fun y Hy => H y (or_intror Hy))) as [IH1 IH2]. pose proof (H x (or_introl eq_refl)) as Hx.
  split; [cbn; rewrite app_length, IH1, Hx; reflexivity|].
  intros [|i] Hi; cbn [flat_map map nth firstn].
  - cbn [sum fold_right skipn]. rewrite <- Hx, firstn_app, Nat.sub_diag, firstn_all, app_nil_r. reflexivity.
  - change (sum (dim x :: firstn i (map dim l))) with (dim x + sum (firstn i (map dim l))).
    rewrite <- Hx. rewrite skipn_app, skipn_all2 by lia. rewrite Hx.
    replace (dim x + sum (firstn i (map dim l)) - dim x) with (sum (firstn i (map dim l))) by lia.
    cbn [app]. apply IH2. cbn in Hi. lia.
Qed.
Lemma list_nth_eq (a b : list nat) : length a = length b -> (forall i, i < length a -> nth i a 0 = nth i b 0) -> a = b.
Proof. intros. apply nth_ext with 0 0; assumption. Qed.
Lemma hd_tl_nqs (l : list nat) : l <> [] -> l = nth 0 l 0 :: tl l.
Proof. destruct l; [congruence | reflexivity]. Qed.

Section Flags.
Variables (m : Model) (nqs : list nat) (dim : Joint -> nat) (f : Joint -> list bool).
Hypothesis W : wellFormed m.
Hypothesis Hl : length nqs = m_njoints m.
Hypothesis H0 : nth 0 nqs 0 = 0.
Hypothesis Hd : forall i, 0 < i < m_njoints m -> dim (jm_type (joint m i)) = nth i nqs 0.
Hypothesis Hf : forall i, 0 < i < m_njoints m -> length (f (jm_type (joint m i))) = dim (jm_type (joint m i)).
Lemma flags_spec : length (flat_map (fun jm => f (jm_type jm)) (tl (m_joints m))) = sum nqs /\
  forall i, 0 < i < m_njoints m -> firstn (nth i nqs 0) (skipn (sum (firstn i nqs)) (flat_map (fun jm => f (jm_type jm)) (tl (m_joints m)))) = f (jm_type (joint m i)).
Proof.
  destruct (wf_lengths _ W) as (L1&L2&L3&_). pose proof (wf_n _ W) as Hn.
  assert (Lt : length (tl (m_joints m)) = m_njoints m - 1) by (destruct (m_joints m); cbn in *; lia).
  assert (En : nqs = 0 :: tl nqs) by (rewrite <- H0 at 1; apply hd_tl_nqs; intros ->; cbn in Hl; lia).
  assert (Em : tl nqs = map (fun jm => dim (jm_type jm)) (tl (m_joints m))).
  { apply list_nth_eq; [rewrite map_length, Lt; rewrite En in Hl; cbn in Hl; lia|].
    intros i Hi. assert (i < m_njoints m - 1) by (rewrite En in Hl; cbn in Hl; lia).
    rewrite nth_tl, <- Hd by lia.
    rewrite (nth_indep _ 0 (dim (jm_type dJ))) by (rewrite map_length; lia).
    rewrite (map_nth (fun jm => dim (jm_type jm))), nth_tl. reflexivity. }
  destruct (seg_flat_map (fun jm => f (jm_type jm)) (fun jm => dim (jm_type jm)) (tl (m_joints m)) dJ) as [S1 S2].
  { intros x Hx. apply (In_nth _ _ dJ) in Hx. destruct Hx as (i & Hi & <-). rewrite nth_tl. apply Hf. lia. }
  split; [rewrite S1, <- Em, En; cbn; reflexivity|].
  intros [|i] Hi; [lia|]. rewrite <- (Hd (S i) Hi). rewrite En. cbn [firstn sum fold_right plus]. fold (sum (firstn i (tl nqs))).
  rewrite Em. specialize (S2 i ltac:(lia)). rewrite nth_tl in S2. exact S2.
Qed.
End Flags.

Theorem configLimits_spec m : wellFormed m -> (forall i, 0 < i < m_njoints m -> plainJoint (jm_type (joint m i))) ->
  length (hasConfigurationLimit m) = m_nq m /\ length (hasConfigurationLimitInTangent m) = m_nv m /\
  forall i, 0 < i < m_njoints m ->
    firstn (nqOf m i) (skipn (idx_q m i) (hasConfigurationLimit m)) = configLimit (jm_type (joint m i)) /\
    firstn (nvOf m i) (skipn (idx_v m i) (hasConfigurationLimitInTangent m)) = configLimitTangent (jm_type (joint m i)).
Proof.
  intros W Hp. destruct (wf_lengths _ W) as (L1&L2&L3&L4&L5&L6&L7&_). destruct (wf_total _ W) as (T1&T2&_). destruct (wf_zero _ W) as (Z1&Z2&_).
  destruct (flags_spec m (m_nqs m) jnq configLimit W L5 Z1) as [A1 A2].
  { intros i Hi. exact (proj1 (proj2 (proj2 (proj2 (proj2 (wf_joint _ W i Hi)))))). }
  { intros i Hi. apply configLimit_length. apply Hp. exact Hi. }
  destruct (flags_spec m (m_nvs m) jnv configLimitTangent W L7 Z2) as [B1 B2].
  { intros i Hi. exact (proj1 (proj2 (proj2 (proj2 (proj2 (proj2 (wf_joint _ W i Hi))))))). }
  { intros i Hi. apply configLimit_length. apply Hp. exact Hi. }
  split; [rewrite T1; exact A1|]. split; [rewrite T2; exact B1|].
  intros i Hi.
  assert (Hm : isMimic (joint m i) = false).
  { unfold isMimic. specialize (Hp i Hi). destruct (jm_type (joint m i)); auto. contradiction. }
  destruct (wf_range _ W i Hi Hm) as [-> ->]. split; [apply A2 | apply B2]; exact Hi.
Qed.
Theorem configLimits_helical eps p : Built eps (pitchModel eps p) /\ m_nq (pitchModel eps p) = 1 /\
  length (hasConfigurationLimit (pitchModel eps p)) = 2.
Proof. split; [apply pitchModel_built | split; reflexivity]. Qed.
Theorem configLimits_mimic eps s o : Built eps (mimicModel eps s o) /\ m_nq (mimicModel eps s o) = 1 /\
  length (hasConfigurationLimit (mimicModel eps s o)) = 2.
Proof. split; [apply mimicModel_built | split; reflexivity]. Qed.

(* ---- a concrete model: universe - a (revolute) - b (free flyer), a - c (spherical), c - d (mimic of a), with two bodies
   and a frame ---- *)
Definition exY1 : Inertia := mkInertia 2 (mkV3 1 0 0) (mkSym3 1 0 1 0 0 1).
Definition exLim (nq nv : nat) : Limits := mkLimits (repeat 1%R nv) (repeat 1%R nv) (repeat (-1)%R nq) (repeat 1%R nq) (repeat 0%R nv) (repeat 0%R nv).
Definition okModel {A} (r : Res Model A) (d : Model) : Model := match r with Ok m _ => m | _ => d end.
Definition ex1 : Model := okModel (addJoint emptyModel 0 (freshJoint (JSimple (JRevolute 2))) se3_Identity "a" (exLim 1 1)) emptyModel.
Definition ex2 : Model := okModel (addJoint ex1 1 (freshJoint (JSimple JFreeFlyer)) (mkSE3 m3id (mkV3 1 2 3)) "b" (exLim 7 6)) ex1.
Definition ex3 : Model := okModel (addJoint ex2 1 (freshJoint (JSimple JSpherical)) (mkSE3 m3id (mkV3 0 1 0)) "c" (exLim 4 3)) ex2.
Definition ex4 : Model := okModel (addJoint ex3 3 (mkMimic (JRevolute 2) (joint ex3 1) 2 1) (mkSE3 m3id (mkV3 0 0 1)) "d" (exLim 0 0)) ex3.
Definition ex5 (eps : R) : Model := okModel (appendBodyToJoint eps ex4 2 exY1 (mkSE3 m3id (mkV3 0 1 0))) ex4.
Definition exFrame : Frame := mkFrame "tool" 4 0 (mkSE3 m3id (mkV3 0 0 1)) OP_FRAME exY1.
Definition exTree (eps : R) : Model := okModel (addFrame eps (ex5 eps) exFrame true) (ex5 eps).
Definition exBodies : list (nat * SE3 * Inertia) := [(2, mkSE3 m3id (mkV3 0 1 0), exY1); (4, fr_placement exFrame, exY1)].
Lemma exTree_history eps : History eps (exTree eps) exBodies.
Proof.
  assert (H1 : History eps ex1 []).
  { apply (H_step eps emptyModel _ [] None); [constructor|]. apply (S_joint eps emptyModel _ 0 (JSimple (JRevolute 2)) se3_Identity "a"%string (exLim 1 1) 1); [exact I|reflexivity]. }
  assert (H2 : History eps ex2 []).
  { apply (H_step eps ex1 _ [] None); [exact H1|]. apply (S_joint eps ex1 _ 1 (JSimple JFreeFlyer) (mkSE3 m3id (mkV3 1 2 3)) "b"%string (exLim 7 6) 2); [exact I|reflexivity]. }
  assert (H3 : History eps ex3 []).
  { apply (H_step eps ex2 _ [] None); [exact H2|]. apply (S_joint eps ex2 _ 1 (JSimple JSpherical) (mkSE3 m3id (mkV3 0 1 0)) "c"%string (exLim 4 3) 3); [exact I|reflexivity]. }
  assert (H4 : History eps ex4 []).
  { apply (H_step eps ex3 _ [] None); [exact H3|]. apply (S_mimic eps ex3 _ 3 (JRevolute 2) 1 2 1 (mkSE3 m3id (mkV3 0 0 1)) "d"%string (exLim 0 0) 4); try exact I; try reflexivity. cbn; lia. }
  assert (H5 : History eps (ex5 eps) [(2, mkSE3 m3id (mkV3 0 1 0), exY1)]).
  { apply (H_step eps ex4 _ [] (Some (2, mkSE3 m3id (mkV3 0 1 0), exY1))); [exact H4|]. apply S_body. reflexivity. }
  apply (H_step eps (ex5 eps) _ [(2, mkSE3 m3id (mkV3 0 1 0), exY1)] (Some (4, fr_placement exFrame, exY1))); [exact H5|].
  apply (S_frame eps (ex5 eps) (exTree eps) exFrame 1); reflexivity.
Qed.
Lemma exTree_built eps : Built eps (exTree eps).
Proof. eexists. apply exTree_history. Qed.
Lemma exTree_shape eps : m_njoints (exTree eps) = 5 /\ m_nq (exTree eps) = 12 /\ m_nv (exTree eps) = 10 /\ support (exTree eps) 4 = [0; 1; 3; 4] /\
  subtree (exTree eps) 1 = [1; 2; 3; 4] /\ childrenOf (exTree eps) 1 = [2; 3].
Proof. repeat split; reflexivity. Qed.
Lemma exTree_valid eps : validModel (exTree eps).
Proof.
  intros i Hi. change (m_njoints (exTree eps)) with 5 in Hi.
  destruct i as [|[|[|[|[|i]]]]]; try lia; cbn; (split; [repeat split; auto; try lia; tauto | apply isRotation_id]).
Qed.

Theorem addJoint_added eps m p jm pl nm lim :
  Built eps m -> goodArg m jm -> p < m_njoints m -> goodSizes (jm_type jm) lim ->
  exists m', addJoint m p jm pl nm lim = Ok m' (m_njoints m) /\
  let id := m_njoints m in m_njoints m' = S id /\
  jm_type (joint m' id) = jm_type jm /\ parent m' id = p /\ placementOf m' id = pl /\ nth id (m_names m') ""%string = nm /\
  inertiaOf m' id = inertia_Zero /\
  (forall i, i < id -> joint m' i = joint m i /\ parent m' i = parent m i /\ placementOf m' i = placementOf m i /\
     nth i (m_names m') ""%string = nth i (m_names m) ""%string /\ inertiaOf m' i = inertiaOf m i /\
     idx_q m' i = idx_q m i /\ idx_v m' i = idx_v m i) /\
  m_lower m' = m_lower m ++ l_lower lim /\ m_upper m' = m_upper m ++ l_upper lim /\
  m_effort m' = m_effort m ++ l_effort lim /\ m_velocity m' = m_velocity m ++ l_velocity lim /\
  m_friction m' = m_friction m ++ l_friction lim /\ m_damping m' = m_damping m ++ l_damping lim /\
  m_armature m' = m_armature m ++ repeat 0%R (jnv (jm_type jm)) /\
  m_rotorInertia m' = m_rotorInertia m ++ repeat 0%R (jnv (jm_type jm)) /\
  m_rotorGearRatio m' = m_rotorGearRatio m ++ repeat 1%R (jnv (jm_type jm)).
Proof.
  intros B G Hp (Z1&Z2&Z3&Z4&Z5&Z6). pose proof (Built_wf _ _ B) as W.
  destruct (addJoint_total m p jm pl nm lim W G Hp Z1 Z2 Z3 Z4 Z5 Z6) as [m' E]. exists m'. split; [exact E|].
  pose proof (addJoint_effect _ _ _ _ _ _ _ _ W G E) as H. cbv zeta. tauto.
Qed.
Lemma exTree_addable eps : Built eps (exTree eps) /\ goodArg (exTree eps) (freshJoint (JSimple JPlanar)) /\
  4 < m_njoints (exTree eps) /\ goodSizes (JSimple JPlanar) (exLim 4 3).
Proof.
  split; [apply exTree_built|]. split; [left; exists (JSimple JPlanar); split; [reflexivity | exact I]|].
  split; [cbn; lia | repeat split].
Qed.
Lemma onPath_support m i j : treeInv m -> j < m_njoints m -> (onPath m i j <-> In i (support m j)).
Proof.
  intros T Hj. pose proof (ti_path _ T j Hj) as P. split.
  - intros (l & Hl & Hi). rewrite (path_fun _ _ _ _ Hl P) in Hi. exact Hi.
  - intros Hi. exists (support m j). auto.
Qed.
Lemma seq_filter_hd (p : nat -> bool) i n : 0 < i < n -> p i = true -> (forall k, k < i -> p k = false) ->
  exists l, filter p (seq 1 (n - 1)) = i :: l.
Proof.
  intros Hi Hp Hn. replace (n - 1) with ((i - 1) + (n - i)) by lia. rewrite seq_app, filter_app.
  replace (filter p (seq 1 (i - 1))) with (@nil nat).
  - destruct (n - i) eqn:E; [lia|]. cbn. replace (S (i - 1)) with i by lia. rewrite Hp. eexists; reflexivity.
  - assert (G : forall l, (forall x, In x l -> p x = false) -> filter p l = []).
    { induction l as [|x l IH]; intros H; [reflexivity|]. cbn. rewrite (H x) by (left; reflexivity). apply IH. intros; apply H; right; assumption. }
    symmetry. apply G. intros x Hx. apply in_seq in Hx. apply Hn. lia.
Qed.
Theorem subtree_spec m i j : wellFormed m -> treeInv m -> 0 < i < m_njoints m ->
  (In j (subtree m i) <-> j < m_njoints m /\ onPath m i j) /\ (exists l, subtree m i = i :: l) /\ NoDup (subtree m i).
Proof.
  intros W T Hi. rewrite (ti_subtree _ T i Hi). split; [|split].
  - rewrite filter_In, in_seq, inb_In. split.
    + intros [Hj H]. split; [lia|]. apply onPath_support; [exact T | lia | exact H].
    + intros [Hj H]. apply onPath_support in H; [|exact T | exact Hj]. split; [|exact H].
      pose proof (path_le _ _ _ W (ti_path _ T j Hj) i H). lia.
  - apply seq_filter_hd; [exact Hi | |].
    + apply inb_In. destruct (path_last _ _ _ (ti_path _ T i ltac:(lia))) as [r ->]. apply in_or_app. right; left; reflexivity.
    + intros k Hk. destruct (inb i (support m k)) eqn:E; [|reflexivity]. exfalso. apply inb_In in E.
      pose proof (path_le _ _ _ W (ti_path _ T k ltac:(lia)) i E). lia.
  - apply NoDup_filter, seq_NoDup.
Qed.
Theorem children_spec m i j : treeInv m -> i < m_njoints m ->
  (In j (childrenOf m i) <-> 0 < j < m_njoints m /\ parent m j = i) /\ NoDup (childrenOf m i).
Proof.
  intros T Hi. rewrite (ti_children _ T i Hi). split; [|apply NoDup_filter, seq_NoDup].
  rewrite filter_In, in_seq, Nat.eqb_eq. split; intros [? ?]; split; auto; lia.
Qed.
Theorem hasAncestor_spec m i j : treeInv m -> j < m_njoints m -> (hasAncestor m j i = true <-> onPath m i j).
Proof.
  intros T Hj. rewrite (onPath_support m i j T Hj). unfold hasAncestor. fold (support m j).
  rewrite existsb_exists. split; [intros (x & Hx & E); apply Nat.eqb_eq in E; subst; exact Hx | intros H; exists i; rewrite Nat.eqb_refl; auto].
Qed.
Lemma exBodies_regular : (0 < 1/1000)%R /\ History (1/1000) (exTree (1/1000)) exBodies /\ forall x, In x exBodies -> regularBody (1/1000) x.
Proof.
  split; [lra|]. split; [apply exTree_history|]. intros x [<-|[<-|[]]]; unfold regularBody; cbn; lra.
Qed.
Lemma ex1_history eps : History eps ex1 [].
Proof.
  apply (H_step eps emptyModel _ [] None); [constructor|]. apply (S_joint eps emptyModel _ 0 (JSimple (JRevolute 2)) se3_Identity "a"%string (exLim 1 1) 1); [exact I|reflexivity].
Qed.
Lemma ex3_built eps : Built eps ex3.
Proof.
  exists []. apply (H_step eps ex2 _ [] None).
  - apply (H_step eps ex1 _ [] None); [apply ex1_history|]. apply (S_joint eps ex1 _ 1 (JSimple JFreeFlyer) (mkSE3 m3id (mkV3 1 2 3)) "b"%string (exLim 7 6) 2); [exact I|reflexivity].
  - apply (S_joint eps ex2 _ 1 (JSimple JSpherical) (mkSE3 m3id (mkV3 0 1 0)) "c"%string (exLim 4 3) 3); [exact I|reflexivity].
Qed.
Lemma ex3_plain eps : Built eps ex3 /\ forall i, 0 < i < m_njoints ex3 -> plainJoint (jm_type (joint ex3 i)).
Proof.
  split; [apply ex3_built|]. intros i Hi. change (m_njoints ex3) with 4 in Hi. destruct i as [|[|[|[|i]]]]; try lia; cbn; tauto.
Qed.
Lemma ex3_comparable eps : Built eps ex3 /\ (forall i, 0 < i < m_njoints ex3 -> comparable (jm_type (joint ex3 i))) /\ modelEqb ex3 ex3 = true.
Proof.
  split; [apply ex3_built|]. split; [|apply modelEqb_refl].
  intros i Hi. change (m_njoints ex3) with 4 in Hi. destruct i as [|[|[|[|i]]]]; try lia; cbn; tauto.
Qed.
Lemma one_neq_two : (1 <> 2)%R. Proof. lra. Qed.
Lemma ex1_frame eps : Built eps ex1 /\ (exists m', addJointFrame eps ex1 1 None = Ok m' 1) /\ m_nframes ex1 = 1 /\
  exists g, In g (m_frames ex1) /\ matches (nth (parent ex1 1) (m_names ex1) ""%string) (Nat.lor JOINT FIXED_JOINT) g.
Proof.
  split; [eexists; apply ex1_history|]. split; [eexists; reflexivity|]. split; [reflexivity|].
  exists universeFrame. split; [left; reflexivity|]. split; [reflexivity | cbn; discriminate].
Qed.
