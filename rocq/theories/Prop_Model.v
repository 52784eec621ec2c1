(** Property theorems C22-C27, C49, C50, C53 (kinematic tree construction). Statements only. *)
From Coq Require Import Reals Lra String List Arith Lia.
From Verif Require Import Vec3 Spatial Inertia Joints Spec_Joints Model Spec_Model ModelFacts ModelTree ModelFacts2 ModelEq ModelFacts3.
Import ListNotations.
Local Open Scope nat_scope.

(** every construction history gives a well-formed model (see Spec_Model.wellFormed) *)
Theorem C22_wellFormed (eps : R) (m : Model) : Built eps m -> wellFormed m.
Proof. exact (Built_wf eps m). Qed.
Example C22_wellFormed_ex (eps : R) : Built eps (exTree eps) /\ m_njoints (exTree eps) = 5 /\ m_nq (exTree eps) = 12.
Proof. exact (conj (exTree_built eps) (conj (proj1 (exTree_shape eps)) (proj1 (proj2 (exTree_shape eps))))). Qed.
Print Assumptions C22_wellFormed.

(** every coordinate of q and of v belongs to exactly one joint *)
Theorem C22_cover (eps : R) (m : Model) : Built eps m ->
  (forall k, k < m_nq m -> exists i, ownsQ m k i /\ forall i', ownsQ m k i' -> i' = i) /\
  (forall k, k < m_nv m -> exists i, ownsV m k i /\ forall i', ownsV m k i' -> i' = i).
Proof. exact (fun H => wf_cover m (Built_wf eps m H)). Qed.
Example C22_cover_ex (eps : R) : Built eps (exTree eps). Proof. exact (exTree_built eps). Qed.
Print Assumptions C22_cover.

(** a valid addJoint call succeeds, returns the next index, stores its arguments there and changes no earlier joint *)
Theorem C22_added (eps : R) (m : Model) (p : nat) (jm : JointM) (pl : SE3) (nm : string) (lim : Limits) :
  Built eps m -> goodArg m jm -> p < m_njoints m -> goodSizes (jm_type jm) lim ->
  exists m', addJoint m p jm pl nm lim = Ok m' (m_njoints m) /\
  let id := m_njoints m in m_njoints m' = S id /\
  jm_type (joint m' id) = jm_type jm /\ parent m' id = p /\ placementOf m' id = pl /\ nth id (m_names m') ""%string = nm /\
  inertiaOf m' id = inertia_Zero /\
  (forall i, i < id -> joint m' i = joint m i /\ parent m' i = parent m i /\ placementOf m' i = placementOf m i /\
     nth i (m_names m') ""%string = nth i (m_names m) ""%string /\ inertiaOf m' i = inertiaOf m i /\
     idx_q m' i = idx_q m i /\ idx_v m' i = idx_v m i) /\
  m_lower m' = m_lower m ++ l_lower lim /\ m_upper m' = m_upper m ++ l_upper lim /\
  m_effort m' = m_effort m ++ l_effort lim /\ m_velocity m' = m_velocity m ++ l_velocity lim /\
  m_friction m' = m_friction m ++ l_friction lim /\ m_damping m' = m_damping m ++ l_damping lim /\
  m_armature m' = m_armature m ++ repeat 0%R (jnv (jm_type jm)) /\
  m_rotorInertia m' = m_rotorInertia m ++ repeat 0%R (jnv (jm_type jm)) /\
  m_rotorGearRatio m' = m_rotorGearRatio m ++ repeat 1%R (jnv (jm_type jm)).
Proof. exact (addJoint_added eps m p jm pl nm lim). Qed.
Example C22_added_ex (eps : R) : Built eps (exTree eps) /\ goodArg (exTree eps) (freshJoint (JSimple JPlanar)) /\
  4 < m_njoints (exTree eps) /\ goodSizes (JSimple JPlanar) (exLim 4 3).
Proof. exact (exTree_addable eps). Qed.
Print Assumptions C22_added.

(** supports are paths from the universe, subtrees and children are what they say *)
Theorem C23_supports (eps : R) (m : Model) (j : nat) : Built eps m -> j < m_njoints m -> path m j (support m j).
Proof. exact (fun H => ti_path m (Built_tree eps m H) j). Qed.
Example C23_supports_ex (eps : R) : Built eps (exTree eps) /\ 4 < m_njoints (exTree eps) /\ support (exTree eps) 4 = [0; 1; 3; 4].
Proof. exact (conj (exTree_built eps) (conj (le_n 5) eq_refl)). Qed.
Print Assumptions C23_supports.

Theorem C23_subtrees (eps : R) (m : Model) (i j : nat) : Built eps m -> 0 < i < m_njoints m ->
  (In j (subtree m i) <-> j < m_njoints m /\ onPath m i j) /\ (exists l, subtree m i = i :: l) /\ NoDup (subtree m i).
Proof. exact (fun H => subtree_spec m i j (Built_wf eps m H) (Built_tree eps m H)). Qed.
Example C23_subtrees_ex (eps : R) : Built eps (exTree eps) /\ 0 < 1 < m_njoints (exTree eps) /\ subtree (exTree eps) 1 = [1; 2; 3; 4].
Proof. exact (conj (exTree_built eps) (conj (conj (le_n 1) (le_S _ _ (le_S _ _ (le_S _ _ (le_n 2))))) eq_refl)). Qed.
Print Assumptions C23_subtrees.

(** the universe's subtree lists all the other joints, but not the universe itself *)
Theorem C23_subtree_universe (eps : R) (m : Model) : Built eps m -> subtree m 0 = seq 1 (m_njoints m - 1).
Proof. exact (fun H => ti_subtree0 m (Built_tree eps m H)). Qed.
Example C23_subtree_universe_ex (eps : R) : Built eps (exTree eps). Proof. exact (exTree_built eps). Qed.
Print Assumptions C23_subtree_universe.

Theorem C23_children (eps : R) (m : Model) (i j : nat) : Built eps m -> i < m_njoints m ->
  (In j (childrenOf m i) <-> 0 < j < m_njoints m /\ parent m j = i) /\ NoDup (childrenOf m i).
Proof. exact (fun H => children_spec m i j (Built_tree eps m H)). Qed.
Example C23_children_ex (eps : R) : Built eps (exTree eps) /\ 1 < m_njoints (exTree eps) /\ childrenOf (exTree eps) 1 = [2; 3].
Proof. exact (conj (exTree_built eps) (conj (le_S _ _ (le_S _ _ (le_S _ _ (le_n 2)))) eq_refl)). Qed.
Print Assumptions C23_children.

(** mimic bookkeeping *)
Theorem C23_mimic (eps : R) (m : Model) : Built eps m ->
  m_mimicking m = filter (fun k => isMimic (joint m k)) (seq 1 (m_njoints m - 1)) /\
  m_mimicked m = map (fun k => jm_ref (joint m k)) (m_mimicking m) /\
  forall i, i < m_njoints m -> nth i (m_mimic_supports m) [] = 0 :: filter (fun k => isMimic (joint m k)) (tl (support m i)).
Proof. exact (fun H => conj (proj1 (ti_mimicking m (Built_tree eps m H))) (conj (proj2 (ti_mimicking m (Built_tree eps m H))) (ti_mimic m (Built_tree eps m H)))). Qed.
Example C23_mimic_ex (eps : R) : Built eps (exTree eps) /\ m_mimicking (exTree eps) = [4] /\ m_mimicked (exTree eps) = [1].
Proof. exact (conj (exTree_built eps) (conj eq_refl eq_refl)). Qed.
Print Assumptions C23_mimic.

(** a rejected call throws and changes nothing *)
Theorem C24_joint (m : Model) (p : nat) (jm : JointM) (pl : SE3) (nm : string) (lim : Limits) :
  ~ goodSizes (jm_type jm) lim \/ m_njoints m <= p -> addJoint m p jm pl nm lim = Throw m.
Proof. exact (addJoint_rejected m p jm pl nm lim). Qed.
Example C24_joint_ex : ~ goodSizes (JSimple JPlanar) (exLim 3 3).
Proof. exact (fun H => Nat.neq_succ_diag_l 3 (eq_sym (proj1 (proj2 (proj2 H))))). Qed.
Print Assumptions C24_joint.

(** an ordinary joint: whatever the reason, an exception leaves the model as it was *)
Theorem C24_joint_any_partial (m m' : Model) (p : nat) (jm : JointM) (pl : SE3) (nm : string) (lim : Limits) :
  isMimic jm = false -> addJoint m p jm pl nm lim = Throw m' -> m' = m.
Proof. exact (addJoint_throw_unchanged m p jm pl nm lim m'). Qed.
Example C24_joint_any_ex : addJoint emptyModel 1 (freshJoint (JSimple JPlanar)) se3_Identity "a" (exLim 4 3) = Throw emptyModel.
Proof. exact eq_refl. Qed.
Print Assumptions C24_joint_any_partial.

Theorem C24_frame (eps : R) (m m' : Model) (f : Frame) (b : bool) :
  (m_njoints m <= fr_parentJoint f -> addFrame eps m f b = Throw m) /\ (addFrame eps m f b = Throw m' -> m' = m).
Proof. exact (conj (addFrame_rejected eps m f b) (addFrame_throw_unchanged eps m f b m')). Qed.
Example C24_frame_ex : m_njoints emptyModel <= fr_parentJoint exFrame.
Proof. exact (le_S _ _ (le_S _ _ (le_S _ _ (le_n 1)))). Qed.
Print Assumptions C24_frame.

(** a mimic joint that refers to a joint index the model does not have: the exception leaves a broken model *)
Theorem C24_mimic_refuted :
  exists m', addJoint emptyModel 0 foreignMimic se3_Identity "b" (mkLimits [] [] [] [] [] []) = Throw m' /\
    m_njoints m' = 2 /\ length (m_inertias m') = 1 /\ ~ wellFormed m'.
Proof. exact addJoint_mimic_breaks. Qed.
Print Assumptions C24_mimic_refuted.

Theorem C25_joint (eps : R) (m : Model) (nm : string) : Built eps m ->
  (forall i, getJointId m nm = i -> i < m_njoints m ->
     nth_error (m_names m) i = Some nm /\ forall k, k < i -> nth_error (m_names m) k <> Some nm) /\
  (getJointId m nm = m_njoints m <-> ~ In nm (m_names m)) /\ getJointId m nm <= m_njoints m /\
  (existJointName m nm = true <-> In nm (m_names m)).
Proof. exact (fun H => getJointId_spec m nm (Built_wf eps m H)). Qed.
Example C25_joint_ex (eps : R) : Built eps (exTree eps) /\ getJointId (exTree eps) "c" = 3.
Proof. exact (conj (exTree_built eps) eq_refl). Qed.
Print Assumptions C25_joint.

Theorem C25_frame (eps : R) (m : Model) (nm : string) (mask : nat) : Built eps m ->
  match getFrameId m nm mask with
  | Some i =>
      (i < m_nframes m /\ exists f, nth_error (m_frames m) i = Some f /\ matches nm mask f /\
         forall k g, nth_error (m_frames m) k = Some g -> matches nm mask g -> k = i)
      \/ (i = m_nframes m /\ forall f, In f (m_frames m) -> ~ matches nm mask f)
  | None => exists i j f g, i < j /\ nth_error (m_frames m) i = Some f /\ nth_error (m_frames m) j = Some g /\
              matches nm mask f /\ matches nm mask g
  end.
Proof. exact (fun H => getFrameId_spec m nm mask (Built_wf eps m H)). Qed.
Example C25_frame_ex (eps : R) : Built eps (exTree eps) /\ getFrameId (exTree eps) "tool" OP_FRAME = Some 1.
Proof. exact (conj (exTree_built eps) eq_refl). Qed.
Print Assumptions C25_frame.

Theorem C25_exists (m : Model) (nm : string) (mask : nat) :
  existFrame m nm mask = true <-> exists f, In f (m_frames m) /\ matches nm mask f.
Proof. exact (existFrame_spec m nm mask). Qed.
Print Assumptions C25_exists.

(** adding a frame that exists changes nothing and returns its index; a new frame goes to the end *)
Theorem C25_addFrame (eps : R) (m : Model) (f : Frame) (b : bool) : Built eps m -> fr_parentJoint f < m_njoints m ->
  ((exists g, In g (m_frames m) /\ matches (fr_name f) (fr_type f) g) ->
   addFrame eps m f b = match getFrameId m (fr_name f) (fr_type f) with Some i => Ok m i | None => Throw m end) /\
  ((forall g, In g (m_frames m) -> ~ matches (fr_name f) (fr_type f) g) ->
   exists m', addFrame eps m f b = Ok m' (m_nframes m) /\ m_nframes m' = S (m_nframes m) /\ m_frames m' = m_frames m ++ [f] /\
    m_nbodies m' = m_nbodies m /\ m_joints m' = m_joints m /\ m_parents m' = m_parents m /\
    (forall i, i <> fr_parentJoint f \/ b = false -> inertiaOf m' i = inertiaOf m i) /\
    (b = true -> inertiaOf m' (fr_parentJoint f) =
       inertia_plus eps (inertiaOf m (fr_parentJoint f)) (inertia_act (fr_placement f) (fr_inertia f)))).
Proof. exact (fun H Hj => conj (addFrame_existing eps m f b Hj) (addFrame_new eps m f b (Built_wf eps m H) Hj)). Qed.
Example C25_addFrame_ex (eps : R) : Built eps (exTree eps) /\ fr_parentJoint exFrame < m_njoints (exTree eps).
Proof. exact (conj (exTree_built eps) (le_n 5)). Qed.
Print Assumptions C25_addFrame.

(** attaching a body adds its moved inertia to that joint only *)
Theorem C26_body (eps : R) (m : Model) (j : nat) (Y : Inertia) (pl : SE3) : Built eps m -> j < m_njoints m ->
  exists m', appendBodyToJoint eps m j Y pl = Ok m' tt /\ m_nbodies m' = S (m_nbodies m) /\
    inertiaOf m' j = inertia_plus eps (inertiaOf m j) (inertia_act pl Y) /\
    (forall i, i <> j -> inertiaOf m' i = inertiaOf m i) /\
    m_frames m' = m_frames m /\ m_joints m' = m_joints m /\ m_parents m' = m_parents m.
Proof. exact (fun H => appendBody_effect eps m j Y pl (Built_wf eps m H)). Qed.
Example C26_body_ex (eps : R) : Built eps (exTree eps) /\ 3 < m_njoints (exTree eps).
Proof. exact (conj (exTree_built eps) (le_S _ _ (le_n 4))). Qed.
Print Assumptions C26_body.

(** after any history the total mass is the sum of the attached masses *)
Theorem C26_mass (eps : R) (m : Model) (l : list (nat * SE3 * Inertia)) : History eps m l -> totalMass m = massSum l.
Proof. exact (history_mass eps m l). Qed.
Example C26_mass_ex (eps : R) : History eps (exTree eps) exBodies. Proof. exact (exTree_history eps). Qed.
Print Assumptions C26_mass.

(** and the 6x6 inertia of each joint is the sum of the moved inertias of the bodies attached to it *)
Theorem C26_inertia (eps : R) (m : Model) (l : list (nat * SE3 * Inertia)) (j : nat) :
  (0 < eps)%R -> History eps m l -> (forall x, In x l -> regularBody eps x) -> j < m_njoints m ->
  inertia_matrix (inertiaOf m j) = attachedMatrix j l.
Proof. exact (fun He H Hr => history_inertia eps m l He H Hr j). Qed.
Example C26_inertia_ex : (0 < 1/1000)%R /\ History (1/1000) (exTree (1/1000)) exBodies /\ forall x, In x exBodies -> regularBody (1/1000) x.
Proof. exact exBodies_regular. Qed.
Print Assumptions C26_inertia.

Theorem C27_lca (eps : R) (m : Model) (j1 j2 : nat) : Built eps m -> j1 < m_njoints m -> j2 < m_njoints m ->
  exists a k1 k2, findCommonAncestor m j1 j2 = Ok tt (a, k1, k2) /\
    nth_error (support m j1) k1 = Some a /\ nth_error (support m j2) k2 = Some a /\
    onPath m a j1 /\ onPath m a j2 /\ forall b, onPath m b j1 -> onPath m b j2 -> onPath m b a.
Proof. exact (fun H => commonAncestor_spec m j1 j2 (Built_wf eps m H) (Built_tree eps m H)). Qed.
Example C27_lca_ex (eps : R) : Built eps (exTree eps) /\ findCommonAncestor (exTree eps) 2 4 = Ok tt (1, 1, 1).
Proof. exact (conj (exTree_built eps) eq_refl). Qed.
Print Assumptions C27_lca.

Theorem C27_hasAncestor (eps : R) (m : Model) (i j : nat) : Built eps m -> j < m_njoints m ->
  (hasAncestor m j i = true <-> onPath m i j).
Proof. exact (fun H => hasAncestor_spec m i j (Built_tree eps m H)). Qed.
Example C27_hasAncestor_ex (eps : R) : Built eps (exTree eps) /\ hasAncestor (exTree eps) 4 1 = true /\ hasAncestor (exTree eps) 2 3 = false.
Proof. exact (conj (exTree_built eps) (conj eq_refl eq_refl)). Qed.
Print Assumptions C27_hasAncestor.

(** limit flags: without helical and mimic joints, one flag per coordinate, joint by joint *)
Theorem C49_plain_partial (eps : R) (m : Model) : Built eps m -> (forall i, 0 < i < m_njoints m -> plainJoint (jm_type (joint m i))) ->
  length (hasConfigurationLimit m) = m_nq m /\ length (hasConfigurationLimitInTangent m) = m_nv m /\
  forall i, 0 < i < m_njoints m ->
    firstn (nqOf m i) (skipn (idx_q m i) (hasConfigurationLimit m)) = configLimit (jm_type (joint m i)) /\
    firstn (nvOf m i) (skipn (idx_v m i) (hasConfigurationLimitInTangent m)) = configLimitTangent (jm_type (joint m i)).
Proof. exact (fun H => configLimits_spec m (Built_wf eps m H)). Qed.
Example C49_plain_ex (eps : R) : Built eps ex3 /\ forall i, 0 < i < m_njoints ex3 -> plainJoint (jm_type (joint ex3 i)).
Proof. exact (ex3_plain eps). Qed.
Print Assumptions C49_plain_partial.

Theorem C49_helical_refuted (eps p : R) : Built eps (pitchModel eps p) /\ m_nq (pitchModel eps p) = 1 /\
  length (hasConfigurationLimit (pitchModel eps p)) = 2.
Proof. exact (configLimits_helical eps p). Qed.
Print Assumptions C49_helical_refuted.
Theorem C49_mimic_refuted (eps s o : R) : Built eps (mimicModel eps s o) /\ m_nq (mimicModel eps s o) = 1 /\
  length (hasConfigurationLimit (mimicModel eps s o)) = 2.
Proof. exact (configLimits_mimic eps s o). Qed.
Print Assumptions C49_mimic_refuted.

(** equality: an equivalence-like test ... *)
Theorem C50_reflexive_symmetric (m m' : Model) : modelEqb m m = true /\ modelEqb m m' = modelEqb m' m.
Proof. exact (conj (modelEqb_refl m) (modelEqb_sym m m')). Qed.
Print Assumptions C50_reflexive_symmetric.
(** ... that implies the same mechanism when there is no aligned helical joint and no mimic joint *)
Theorem C50_sound_partial (eps : R) (m m' : Model) : Built eps m -> Built eps m' ->
  (forall i, 0 < i < m_njoints m -> comparable (jm_type (joint m i))) ->
  modelEqb m m' = true ->
  m_njoints m = m_njoints m' /\ m_nq m = m_nq m' /\ m_nv m = m_nv m' /\ m_parents m = m_parents m' /\ m_names m = m_names m' /\
  (forall i, 0 < i < m_njoints m -> jm_type (joint m i) = jm_type (joint m' i) /\ inertiaOf m i = inertiaOf m' i /\
     placementOf m i = placementOf m' i /\ idx_q m i = idx_q m' i /\ idx_v m i = idx_v m' i) /\
  (forall i, i < m_njoints m -> support m i = support m' i /\ subtree m i = subtree m' i /\ childrenOf m i = childrenOf m' i) /\
  m_gravity m = m_gravity m' /\ m_armature m = m_armature m' /\ m_rotorInertia m = m_rotorInertia m' /\
  m_rotorGearRatio m = m_rotorGearRatio m' /\ m_friction m = m_friction m' /\ m_damping m = m_damping m' /\
  m_effort m = m_effort m' /\ m_velocity m = m_velocity m' /\ m_lower m = m_lower m' /\ m_upper m = m_upper m' /\
  m_frames m = m_frames m' /\ map snd (m_refs m) = map snd (m_refs m').
Proof.
  exact (fun H H' => modelEqb_sound m m' (Built_wf eps m H) (Built_wf eps m' H') (Built_tree eps m H) (Built_tree eps m' H')).
Qed.
Example C50_sound_ex (eps : R) : Built eps ex3 /\ (forall i, 0 < i < m_njoints ex3 -> comparable (jm_type (joint ex3 i))) /\ modelEqb ex3 ex3 = true.
Proof. exact (ex3_comparable eps). Qed.
Print Assumptions C50_sound_partial.
(** models that differ in a helical pitch, in the parameters of a mimic joint, or in the names of their reference
    configurations compare equal *)
Theorem C50_helical_refuted (eps p p' : R) : p <> p' ->
  Built eps (pitchModel eps p) /\ Built eps (pitchModel eps p') /\
  modelEqb (pitchModel eps p) (pitchModel eps p') = true /\
  jm_type (joint (pitchModel eps p) 1) <> jm_type (joint (pitchModel eps p') 1).
Proof. exact (pitch_ignored eps p p'). Qed.
Example C50_helical_refuted_ex : (1 <> 2)%R. Proof. exact one_neq_two. Qed.
Print Assumptions C50_helical_refuted.
Theorem C50_mimic_refuted (eps s o s' o' : R) : (s, o) <> (s', o') ->
  Built eps (mimicModel eps s o) /\ Built eps (mimicModel eps s' o') /\
  modelEqb (mimicModel eps s o) (mimicModel eps s' o') = true /\
  jm_type (joint (mimicModel eps s o) 2) <> jm_type (joint (mimicModel eps s' o') 2).
Proof. exact (mimic_ignored eps s o s' o'). Qed.
Example C50_mimic_refuted_ex : (1%R, 0%R) <> (2%R, 0%R). Proof. exact (fun E => one_neq_two (f_equal fst E)). Qed.
Print Assumptions C50_mimic_refuted.
Theorem C50_reference_names_refuted (m : Model) (a b : string) (v : list R) : a <> b ->
  modelEqb (setRefs m [(a, v)]) (setRefs m [(b, v)]) = true /\ m_refs (setRefs m [(a, v)]) <> m_refs (setRefs m [(b, v)]).
Proof. exact (refs_names_ignored m a b v). Qed.
Example C50_reference_names_refuted_ex : "half_sitting"%string <> "t_pose"%string. Proof. discriminate. Qed.
Print Assumptions C50_reference_names_refuted.

(** the frame of a joint hangs from a frame of the parent joint *)
Theorem C53_joint_frame_partial (eps : R) (m : Model) (j : nat) (m' : Model) (id : nat) :
  Built eps m -> addJointFrame eps m j None = Ok m' id -> id = m_nframes m ->
  (exists g, In g (m_frames m) /\ matches (nth (parent m j) (m_names m) ""%string) (Nat.lor JOINT FIXED_JOINT) g) ->
  exists f g, nth_error (m_frames m') id = Some f /\ fr_name f = nth j (m_names m) ""%string /\ fr_parentJoint f = j /\
    fr_type f = JOINT /\ fr_placement f = se3_Identity /\
    nth_error (m_frames m') (fr_parentFrame f) = Some g /\ fr_parentFrame f < id /\
    matches (nth (parent m j) (m_names m) ""%string) (Nat.lor JOINT FIXED_JOINT) g.
Proof. exact (fun H => addJointFrame_effect eps m j m' id (Built_wf eps m H)). Qed.
Example C53_joint_frame_ex (eps : R) : Built eps ex1 /\ (exists m', addJointFrame eps ex1 1 None = Ok m' 1) /\ m_nframes ex1 = 1 /\
  exists g, In g (m_frames ex1) /\ matches (nth (parent ex1 1) (m_names ex1) ""%string) (Nat.lor JOINT FIXED_JOINT) g.
Proof. exact (ex1_frame eps). Qed.
Print Assumptions C53_joint_frame_partial.
(** unless the parent joint has no frame: then the call succeeds and the new frame is its own parent *)
Theorem C53_dangling_refuted (eps : R) : Built eps noFrameModel /\
  exists m' id f, addJointFrame eps noFrameModel 2 None = Ok m' id /\ nth_error (m_frames m') id = Some f /\ fr_parentFrame f = id.
Proof. exact (addJointFrame_dangling eps). Qed.
Print Assumptions C53_dangling_refuted.
