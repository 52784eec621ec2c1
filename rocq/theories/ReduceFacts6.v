(* Locking joints: the properties, in terms of the list of joints to lock. *)
Require Import Reals String List Arith Bool Lia Lra Sorted Permutation.
From Verif Require Import Vec3 Spatial Inertia InertiaFacts Joints Spec_Joints JointFacts Model Spec_Model ModelFacts ModelFacts2 ModelTree ModelFacts3 Spec_Kin Spec_Dyn Mimic Reduce Spec_Append AppendFacts AppendFacts2 AppendFacts3 ReduceFacts ReduceFacts2 ReduceFacts3 ReduceFacts4 ReduceFacts5.
Import ListNotations.
Local Open Scope nat_scope.

(* ---- models built with the construction functions ---- *)
Lemma plainRefs_same m m' : m_joints m' = m_joints m -> m_njoints m' = m_njoints m -> plainRefs m -> plainRefs m'.
Proof. intros E1 E2 H i. unfold joint. rewrite E1, E2. apply H. Qed.
Lemma plainRefs_step eps m m' b : wellFormed m -> Step eps m m' b -> plainRefs m -> plainRefs m'.
Proof.
  intros W H P. destruct (Step_goodArg _ _ _ _ H) as [(p & jm & pl & nm & lim & id & G & E & _) | (_ & E2 & _ & _ & _ & E6 & _)]; [|now apply (plainRefs_same m)].
  destruct (addJoint_inv _ _ _ _ _ _ _ _ E) as (jm' & anc & sup & msup & Es & _ & _ & _ & _ & ->). destruct (setIndexes_type _ _ _ _ _ _ Es) as (T1 & _ & _ & T4 & T5 & _).
  destruct (wf_lengths _ W) as (_&_&L3&_). intros i Hi. unfold joint. cbn [m_joints]. cbn [m_njoints] in Hi. rewrite nth_snoc, L3. destruct (Nat.eqb_spec i (m_njoints m)) as [->|].
  - intros Hm. rewrite T4. rewrite T5 in Hm. destruct G as [(j & -> & _) | (j & k & s & o & -> & _)]; [reflexivity | discriminate].
  - apply (P i). lia.
Qed.
Lemma frame0_step eps m m' b : Step eps m m' b -> nth_error (m_frames m) 0 = Some universeFrame -> nth_error (m_frames m') 0 = Some universeFrame.
Proof.
  assert (A : forall l x, nth_error l 0 = Some universeFrame -> nth_error (l ++ x) 0 = Some universeFrame) by (intros [|y l] x; cbn; [discriminate|trivial]).
  assert (Fr : forall f c id, addFrame eps m f c = Ok m' id -> nth_error (m_frames m) 0 = Some universeFrame -> nth_error (m_frames m') 0 = Some universeFrame).
  { intros f c id E H. destruct (addFrame_cases _ _ _ _ _ _ E) as (_ & [(_ & -> & _) | (_ & _ & [(_ & ->) | (_ & _ & ->)])]); [exact H | cbn; now apply A | cbn; now apply A]. }
  intros H H0. inversion H as [p j pl nm lim id Hn Ha | p j k s o pl nm lim id Hk Hm Hi Hq Hv Ha | j Y pl Ha | f id Ha Hi
    | f b' id Ha Hi | f id Ha | g arm Hl Ha]; subst.
  - destruct (addJoint_inv _ _ _ _ _ _ _ _ Ha) as (jm' & anc & sup & msup & _ & _ & _ & _ & _ & ->). exact H0.
  - destruct (addJoint_inv _ _ _ _ _ _ _ _ Ha) as (jm' & anc & sup & msup & _ & _ & _ & _ & _ & ->). exact H0.
  - unfold appendBodyToJoint in Ha. destruct (_ <? _); [|discriminate]. inversion Ha. exact H0.
  - now apply (Fr _ _ _ Ha).
  - now apply (Fr _ _ _ Ha).
  - now apply (Fr _ _ _ Ha).
  - exact H0.
Qed.
Lemma plainRefs_empty : plainRefs emptyModel. Proof. intros i Hi. cbn in Hi. lia. Qed.
Lemma Built_plain eps m : Built eps m -> plainRefs m /\ nth_error (m_frames m) 0 = Some universeFrame.
Proof.
  intros [l H]. induction H as [|m m' l b H IH S]; [split; [apply plainRefs_empty | reflexivity]|]. destruct IH as [I1 I2].
  assert (W : wellFormed m) by (apply (Built_wf eps); exists l; exact H). split; [now apply (plainRefs_step eps m m' b) | now apply (frame0_step eps m m' b)].
Qed.
Lemma Configured_facts eps m : Configured eps m -> wellFormed m /\ treeInv m /\ plainRefs m /\ nth_error (m_frames m) 0 = Some universeFrame.
Proof.
  intros (m0 & ri & rg & refs & B & H1 & H2 & ->). pose proof (Built_wf _ _ B) as W. pose proof (Built_tree _ _ B) as T. destruct (Built_plain _ _ B) as [P F].
  split; [|split; [|split; [exact P | exact F]]].
  - apply (wf_setRotor m0 ri rg W) in H1; [|exact H2]. destruct H1. constructor; assumption.
  - apply (treeInv_same m0); try reflexivity. exact T.
Qed.

(* ---- the list of joints to lock, sorted or not ---- *)
Lemma attached_perm m L L' q0 i a M : (forall x, In x L <-> In x L') -> attached m L q0 i a M -> attached m L' q0 i a M.
Proof. intros E H. induction H as [i Hi|i a M Hi H IH]; constructor; rewrite <- ?E; assumption. Qed.
Lemma increasing_sorted l : increasing l = true -> StronglySorted lt l.
Proof.
  assert (G : forall l a, increasing (a :: l) = true -> StronglySorted lt l /\ Forall (lt a) l).
  { induction l0 as [|b l0 IH]; intros a; [intros _; split; constructor|]. change (increasing (a :: b :: l0)) with ((a <? b) && increasing (b :: l0)). intros H.
    apply andb_prop in H. destruct H as [H1 H2]. apply Nat.ltb_lt in H1. destruct (IH b H2) as [S1 S2]. split; [now constructor|]. constructor; [exact H1|].
    rewrite Forall_forall in *. intros x Hx. specialize (S2 x Hx). lia. }
  destruct l as [|a l]; [constructor|]. intros H. destruct (G l a H). now constructor.
Qed.
Lemma reduce_rejects eps m L q0 : length q0 <> m_nq m \/ m_njoints m < length L \/ ~ NoDup L -> buildReducedModel eps m L q0 = Throw emptyModel.
Proof.
  intros H. unfold buildReducedModel. destruct (Nat.eqb_spec (length q0) (m_nq m)) as [E|E]; [cbn [negb]|reflexivity].
  destruct (Nat.leb_spec (length L) (m_njoints m)) as [E2|E2]; [cbn [negb]|reflexivity].
  destruct (increasing (sortIndexes L)) eqn:E3; [|reflexivity]. exfalso. destruct H as [H|[H|H]]; [congruence | lia|]. apply H.
  apply (Permutation_NoDup (sort_perm L)). apply increasing_sorted in E3. clear -E3. induction E3 as [|a l S IH Ha]; constructor; [|exact IH].
  intros Hin. rewrite Forall_forall in Ha. specialize (Ha a Hin). lia.
Qed.

Section Final.
Variables (eps : R) (m : Model) (L : list nat) (q0l : list R) (r : Model).
Hypotheses (C : Configured eps m) (WN : wellNamed m) (LO : lockable m L) (Hq : length q0l = m_nq m).
Notation q0 := (coord q0l).
Notation n := (m_njoints m).
Let W : wellFormed m := proj1 (Configured_facts eps m C).
Let T : treeInv m := proj1 (proj2 (Configured_facts eps m C)).
Let PR : plainRefs m := proj1 (proj2 (proj2 (Configured_facts eps m C))).
Let F0 := proj2 (proj2 (proj2 (Configured_facts eps m C))).
Let lk := sortIndexes L.
Lemma reduce_succeeds : exists r, buildReducedModel eps m L q0l = Ok r tt.
Proof. destruct (reduce_ok eps m L q0l W PR WN LO F0 Hq) as (r' & E & _). eauto. Qed.
Hypothesis HB : buildReducedModel eps m L q0l = Ok r tt.
Lemma inv : JInv eps m lk q0 n r /\ FInv m lk q0l (length (m_frames m) - 1) r /\
    m_refs r = map (fun e => (fst e, restricted (itemsOf m lk q0 n) (snd e))) (m_refs m).
Proof. destruct (reduce_ok eps m L q0l W PR WN LO F0 Hq) as (r' & E & J & F & Rf). rewrite HB in E. injection E as <-. auto. Qed.
Let J := proj1 inv.
Let F := proj1 (proj2 inv).
Lemma lk_In x : In x L <-> In x lk.
Proof. split; apply Permutation_in; [apply Permutation_sym|]; apply sort_perm. Qed.
Let LO' : lockable m lk := lockable_perm m L lk (Permutation_sym (sort_perm L)) LO.
Lemma to_lk i a M : attached m L q0 i a M -> attached m lk q0 i a M.
Proof. apply attached_perm. apply lk_In. Qed.
Lemma from_lk i a M : attached m lk q0 i a M -> attached m L q0 i a M.
Proof. apply attached_perm. intros x. symmetry. apply lk_In. Qed.

Lemma fin_tree : wellFormed r /\ treeInv r /\ m_njoints r + length L = n /\ m_gravity r = m_gravity m /\ m_name r = m_name m.
Proof.
  split; [apply (lay_wf _ _ (ji_lay _ _ _ _ _ _ J))|]. split; [apply (lay_tree _ _ (ji_lay _ _ _ _ _ _ J))|]. split; [|apply (ji_const _ _ _ _ _ _ J)].
  rewrite <- (Permutation_length (sort_perm L)). apply (count eps m lk q0l W LO' r J).
Qed.
Lemma fin_kept i : 0 < i < n -> ~ In i L -> exists k, copied m i r k.
Proof.
  intros Hi Hn. exists (newIx lk i). apply (kept_copied eps m lk q0l W LO' r J i Hi). apply keptb_In. intros H. apply Hn. now apply lk_In.
Qed.
Lemma fin_joint k : 0 < k < m_njoints r -> exists i, ~ In i L /\ copied m i r k.
Proof.
  intros Hk. destruct (every_joint eps m lk q0l W LO' r J k Hk) as (i & Hi & Hb & _ & Hc). exists i. split; [|exact Hc]. intros H. apply lk_In in H. apply keptb_In in Hb. contradiction.
Qed.
Lemma fin_order i i' k k' : copied m i r k -> copied m i' r k' -> (i < i' <-> k < k').
Proof.
  intros C1 C2. pose proof (copied_kept eps m lk q0l W WN LO' r J i k C1) as B1. pose proof (copied_kept eps m lk q0l W WN LO' r J i' k' C2) as B2.
  destruct (cp_range _ _ _ _ C1) as [R1 _]. destruct (cp_range _ _ _ _ C2) as [R2 _].
  rewrite (stands_unique eps m lk q0l W WN LO' r J i k (or_intror C1) B1), (stands_unique eps m lk q0l W WN LO' r J i' k' (or_intror C2) B2).
  assert (G : forall a b, 0 < a -> keptb lk b = true -> a < b -> newIx lk a < newIx lk b).
  { intros a b Ha Hb Hlt. unfold newIx. replace b with (a + S (b - a - 1)) by lia. rewrite seq_app, filter_app, app_length. rewrite List.seq_S, filter_app, app_length.
    replace (1 + a + (b - a - 1)) with b by lia. cbn [filter]. rewrite Hb. cbn. lia. }
  split; [intros H; now apply G|]. intros H. destruct (Nat.lt_trichotomy i i') as [|[->|X]]; [assumption | lia|]. pose proof (G i' i (proj1 R2) B1 X). lia.
Qed.
Lemma fin_place i k a M : copied m i r k -> attached m L q0 (parent m i) a M -> stands m r a (parent r k) /\ placementOf r k = se3_mul M (placementOf m i).
Proof. intros C1 A. apply (tree_of eps m lk q0l W WN LO' r J i k a M C1). now apply to_lk. Qed.
Lemma fin_anchor i : i < n -> exists a M k, attached m L q0 i a M /\ stands m r a k.
Proof.
  intros Hi. pose proof (ancF_attached m lk q0 W (lo_joints _ _ LO') i Hi) as A. destruct (ancF_le m lk q0 W (lo_joints _ _ LO') i Hi) as [A1 A2].
  eexists _, _, _. split; [apply from_lk, A|]. apply (kept_stands eps m lk q0l W LO' r J); [lia | exact A2].
Qed.
Lemma locked_lk q : lockedAt m L q0 q -> lockedAt m lk q0 q.
Proof. intros H i c Hi. apply H. now apply lk_In. Qed.
Lemma still_lk w : lockedStill m L w -> lockedStill m lk w.
Proof. intros H i c Hi. apply H. now apply lk_In. Qed.
Lemma fin_world q qr i a M k : validModel m -> lockedAt m L q0 q -> sameCoordinates m r q qr -> i < n -> attached m L q0 i a M -> stands m r a k ->
  worldPl m q i = se3_mul (worldPl r qr k) M.
Proof. intros V H1 H2 Hi A S. apply (world_ok eps m lk q0l W T WN LO' r J q qr V (locked_lk q H1) H2 i a M k Hi (to_lk _ _ _ A) S). Qed.
Lemma fin_vel q qr w wr i a M k : validModel m -> validState m q -> lockedAt m L q0 q -> sameCoordinates m r q qr -> lockedStill m L w -> sameVelocities m r w wr ->
  i < n -> attached m L q0 i a M -> stands m r a k -> bodyVel m q w i = motion_actInv M (bodyVel r qr wr k).
Proof.
  intros V Q H1 H2 H3 H4 Hi A S. apply (vel_ok eps m lk q0l W T WN LO' r J q qr V (locked_lk q H1) H2 Q w wr (still_lk w H3) H4 i a M k Hi (to_lk _ _ _ A) S).
Qed.
Lemma fin_kinetic q qr w wr w' wr' : regularMasses eps m -> validModel m -> validState m q -> lockedAt m L q0 q -> sameCoordinates m r q qr ->
  lockedStill m L w -> sameVelocities m r w wr -> lockedStill m L w' -> sameVelocities m r w' wr' -> kineticForm r qr wr wr' = kineticForm m q w w'.
Proof.
  intros [He Hm] V Q H1 H2 H3 H4 H5 H6. apply (kinetic_ok eps m lk q0l W T LO' r J q qr V (locked_lk q H1) H2 Q w wr w' wr' He Hm (still_lk w H3) H4 (still_lk w' H5) H6).
Qed.
Lemma fin_mass : totalMass r = totalMass m.
Proof.
  rewrite (ji_mass _ _ _ _ _ _ J). unfold totalMass, massSum, ReduceFacts2.bodies. rewrite map_map. cbn [snd].
  destruct (wf_lengths _ W) as (L1&_). rewrite <- L1. f_equal. apply (nth_ext _ _ 0%R 0%R); rewrite !map_length, seq_length; [reflexivity|]. intros k Hk.
  rewrite (nth_indep _ _ (mass (inertiaOf m 0))) by (rewrite map_length, seq_length; exact Hk). rewrite (map_nth (fun i => mass (inertiaOf m i))), seq_nth by exact Hk.
  rewrite (nth_indep _ _ (mass inertia_Zero)) by (rewrite map_length; exact Hk). rewrite map_nth. reflexivity.
Qed.
Lemma fin_bodies : exists l, carriedBodies m L q0 r l /\ (regularMasses eps m -> forall j, j < m_njoints r -> inertia_matrix (inertiaOf r j) = attachedMatrix j l).
Proof.
  exists (ReduceFacts2.bodies m lk q0 n). split.
  - split; [unfold ReduceFacts2.bodies; now rewrite map_length, seq_length|]. intros i x E. unfold ReduceFacts2.bodies in E. rewrite nth_error_map in E.
    destruct (nth_error (seq 0 n) i) as [i'|] eqn:Ei; [|discriminate]. injection E as <-. cbn [fst snd].
    assert (Hi : i < n) by (rewrite <- (seq_length n 0); apply nth_error_Some; congruence).
    apply (nth_error_nth _ _ 0) in Ei. rewrite seq_nth in Ei by exact Hi. cbn in Ei. subst i'. split; [reflexivity|]. exists (fst (ancF m lk q0 i)). split; [apply from_lk, (ancF_attached m lk q0 W (lo_joints _ _ LO') i Hi)|].
    destruct (ancF_le m lk q0 W (lo_joints _ _ LO') i Hi) as [A1 A2]. apply (kept_stands eps m lk q0l W LO' r J); [lia | exact A2].
  - intros [He Hm] j Hj. apply (ji_body _ _ _ _ _ _ J He Hm j Hj).
Qed.
Lemma fin_frames f : In f (m_frames m) -> exists g, In g (m_frames r) /\ fr_name g = fr_name f /\
  (exists a, attached m L q0 (fr_parentJoint f) a (snd (ancF m lk q0 (fr_parentJoint f))) /\ stands m r a (fr_parentJoint g)) /\
  fr_placement g = se3_mul (snd (ancF m lk q0 (fr_parentJoint f))) (fr_placement f) /\
  (In (fr_parentJoint f) L /\ fr_name f = nameOf m (fr_parentJoint f) -> fr_type g = FIXED_JOINT) /\
  (~ (In (fr_parentJoint f) L /\ fr_name f = nameOf m (fr_parentJoint f)) -> fr_type g = fr_type f /\ fr_inertia g = fr_inertia f).
Proof.
  intros Hf. destruct (In_nth_error _ _ Hf) as [p Hp]. assert (Hlen : p < length (m_frames m)) by (apply nth_error_Some; congruence).
  destruct (fi_image _ _ _ _ _ F p f ltac:(lia) Hp) as (g & Hg & C1 & C2 & C3 & C4 & C5). exists g. split; [exact Hg|]. split; [exact C1|].
  pose proof (proj2 (wf_frames _ W) f Hf) as Hj. split; [|split; [exact C3|split]].
  - exists (fst (ancF m lk q0 (fr_parentJoint f))). split; [apply from_lk, (ancF_attached m lk q0 W (lo_joints _ _ LO') _ Hj)|]. rewrite C2.
    destruct (ancF_le m lk q0 W (lo_joints _ _ LO') _ Hj) as [A1 A2]. apply (kept_stands eps m lk q0l W LO' r J); [lia | exact A2].
  - intros [H1 H2]. apply C5. split; [now apply lk_In | exact H2].
  - intros H. apply C4. intros [H1 H2]. apply H. split; [now apply lk_In | exact H2].
Qed.
Lemma fin_frames_only g : In g (m_frames r) -> exists f, In f (m_frames m) /\ fr_name f = fr_name g.
Proof.
  intros Hg. destruct (fi_from _ _ _ _ _ F g Hg) as (_ & k & f & _ & Hf & E). exists f. split; [eapply nth_error_In; exact Hf | exact E].
Qed.
Lemma fin_frames_nodup : NoDup (map fr_name (m_frames r)). Proof. apply (fi_nodup _ _ _ _ _ F). Qed.
Lemma fin_refs : map fst (m_refs r) = map fst (m_refs m) /\
  forall p key c, nth_error (m_refs m) p = Some (key, c) -> exists c', nth_error (m_refs r) p = Some (key, c') /\ length c' = m_nq r /\
    forall i k, copied m i r k -> segQ r k c' = segQ m i c.
Proof.
  rewrite (proj2 (proj2 inv)). split; [rewrite map_map; apply map_ext; reflexivity|]. intros p key c E. exists (restricted (itemsOf m lk q0 n) c).
  assert (Hc : length c = m_nq m) by (apply (wn_refs _ WN key); eapply nth_error_In; exact E).
  assert (Hs : forall it, In it (itemsOf m lk q0 n) -> it_src it = m) by (intros it Hit; apply in_map_iff in Hit; destruct Hit as (x & <- & _); reflexivity).
  split; [rewrite nth_error_map, E; reflexivity|]. split; [apply (restricted_length m r _ c (ji_lay _ _ _ _ _ _ J) W Hs Hc)|].
  intros i k C1. pose proof (copied_kept eps m lk q0l W WN LO' r J i k C1) as B1. destruct (cp_range _ _ _ _ C1) as [R1 _].
  rewrite (stands_unique eps m lk q0l W WN LO' r J i k (or_intror C1) B1). destruct (kept_item m lk q0l i R1 B1) as [H1 H2]. rewrite <- H2.
  exact (restricted_seg m r _ c (ji_lay _ _ _ _ _ _ J) W Hs Hc _ _ H1).
Qed.
End Final.
