(* Several constraints, the pattern and the construction of a constraint. *)
Require Import Reals List Arith ZArith Lia Lra Bool.
From Verif Require Import Vec3 Spatial Inertia InertiaFacts SpatialFacts Joints Spec_Joints Deriv Model Spec_Model ModelFacts ModelTree ModelFacts2 ModelFacts3 Sums Data Kinematics Spec_Kin Spec_Mass KinFacts KinFacts2 KinFacts3 TreeSums MassFacts Crba CrbaFacts Jacobian Spec_Jac Spec_Reg Constraint Spec_Constraint ConstraintFacts ConstraintFacts2.
Import ListNotations.
Local Open Scope nat_scope.
Local Open Scope bool_scope.

(* ---- several constraints ---- *)
Lemma cj_rows m d c b J r k : within b (rc_size c) r = false -> getConstraintJacobian m d c b J r k = J r k.
Proof. intros H. unfold getConstraintJacobian. cbv zeta. rewrite putCols, H. reflexivity. Qed.
Lemma cj_shift m d c b J J' r k : J (b + r) k = J' r k -> getConstraintJacobian m d c b J (b + r) k = getConstraintJacobian m d c 0 J' r k.
Proof.
  intros H. unfold getConstraintJacobian. cbv zeta. rewrite !putCols. replace (within b (rc_size c) (b + r)) with (within 0 (rc_size c) r).
  - rewrite H. replace (b + r - b) with (r - 0) by lia. reflexivity.
  - unfold within. apply eq_true_iff_eq. rewrite !andb_true_iff, !Nat.leb_le, !Nat.ltb_lt. lia.
Qed.
Lemma size_from cs : forall n, fold_left (fun n c => n + rc_size c) cs n = n + getTotalConstraintSize cs.
Proof. unfold getTotalConstraintSize. induction cs as [|c cs IH]; intros n; cbn [fold_left]; [lia|]. rewrite IH, (IH (0 + rc_size c)). lia. Qed.
Lemma size_cons c cs : getTotalConstraintSize (c :: cs) = rc_size c + getTotalConstraintSize cs.
Proof. unfold getTotalConstraintSize at 1. cbn [fold_left]. rewrite size_from. lia. Qed.
Definition stackStep m d (s : Mat * nat) c := (getConstraintJacobian m d c (snd s) (fst s), snd s + rc_size c).
Lemma stack_off m d cs : forall s, snd (fold_left (stackStep m d) cs s) = snd s + getTotalConstraintSize cs.
Proof. induction cs as [|c cs IH]; intros s; cbn [fold_left]; [cbn; lia|]. rewrite IH, size_cons. cbn [snd stackStep]. lia. Qed.
Lemma stack_out m d cs : forall s r k, r < snd s \/ snd s + getTotalConstraintSize cs <= r -> fst (fold_left (stackStep m d) cs s) r k = fst s r k.
Proof.
  induction cs as [|c cs IH]; intros s r k H; cbn [fold_left]; [reflexivity|]. rewrite size_cons in H.
  rewrite IH by (cbn [snd stackStep]; lia). cbn [fst stackStep]. apply cj_rows. unfold within. apply andb_false_iff. rewrite Nat.leb_gt, Nat.ltb_ge. lia.
Qed.
Theorem stacked m d xs c ys J : let b := getTotalConstraintSize xs in
  (forall r k, r < rc_size c -> getConstraintsJacobian m d (xs ++ c :: ys) J (b + r) k = getConstraintJacobian m d c 0 (fun r k => J (b + r) k) r k) /\
  (forall r k, getTotalConstraintSize (xs ++ c :: ys) <= r -> getConstraintsJacobian m d (xs ++ c :: ys) J r k = J r k).
Proof.
  cbv zeta. unfold getConstraintsJacobian. fold (stackStep m d). split.
  - intros r k Hr. rewrite fold_left_app. cbn [fold_left]. rewrite stack_out.
    + cbn [fst stackStep]. rewrite stack_off. cbn [snd Nat.add]. apply cj_shift. apply (stack_out m d xs (J, 0)). cbn [snd]. lia.
    + cbn [snd stackStep]. rewrite stack_off. cbn [snd]. lia.
  - intros r k Hr. apply (stack_out m d _ (J, 0)). cbn [snd]. lia.
Qed.

Section C3.
Variable eps : R.
Variable m : Model.
Hypothesis Bt : Built eps m.
Let W : wellFormed m := Built_wf eps m Bt.
Let T : treeInv m := Built_tree eps m Bt.
Hypothesis Vm : validModel m.
Hypothesis NM : noMimic m.

(* ---- the pattern ---- *)
Theorem pattern t j1 p1 j2 p2 rf i k : j1 < m_njoints m -> j2 < m_njoints m -> 0 < i < m_njoints m -> readsV m i k -> let c := rcFill m t j1 p1 j2 p2 rf in
  (rc_sparse c k = true <-> match t with CONTACT_3D => onPath m i j1 \/ onPath m i j2 | CONTACT_6D => onPath m i j1 /\ ~ onPath m i j2 \/ onPath m i j2 /\ ~ onPath m i j1 end) /\
  (In k (rc_span c) <-> rc_sparse c k = true) /\
  (In k (rc_loop c) <-> onPath m i j1 /\ ~ onPath m i j2 \/ onPath m i j2 /\ ~ onPath m i j1).
Proof.
  intros H1 H2 Hi Hk. cbv zeta. set (c := rcFill m t j1 p1 j2 p2 rf). destruct (jm_v m W Vm NM i Hi) as (Q1 & Q2 & Q3 & Q4). destruct (wf_joint _ W i Hi) as (_ & _ & Y1 & Y2 & _ & Y3 & Y4).
  assert (EN : nvEOf m i = nvOf m i) by congruence. unfold readsV in Hk. rewrite EN in Hk.
  pose proof (idx_v_bound m W NM i Hi) as HB. destruct (proj1 (fill_pattern eps m Bt Vm NM t j1 p1 j2 p2 rf H1 H2) i (k - idx_v m i) Hi ltac:(lia)) as [E1 E2]. replace (idx_v m i + (k - idx_v m i)) with k in E1, E2 by lia. fold c in E1, E2.
  pose proof (anc_onPath m T i j1 H1) as A1. pose proof (anc_onPath m T i j2 H2) as A2.
  assert (L : forall p, In k (filter p (seq 0 (m_nv m))) <-> p k = true) by (intros p; rewrite filter_In, in_seq; split; [tauto | intros; split; [lia | assumption]]).
  assert (S : In k (rc_span c) <-> rc_s1 c k || rc_s2 c k = true) by (apply (L (fun k => rc_s1 c k || rc_s2 c k))).
  assert (E : rc_sparse c k = true <-> In k (rc_span c)).
  { change (rc_sparse c k) with (existsb (Nat.eqb k) (rc_span c)). rewrite existsb_exists. split; [intros (x & Hx & E); apply Nat.eqb_eq in E; now subst x | intros H; exists k; split; [exact H | apply Nat.eqb_refl]]. }
  split; [|split; [symmetry; exact E|]].
  - rewrite E, S, E1, E2. destruct t; destruct (anc m i j1), (anc m i j2); cbn; intuition congruence.
  - change (rc_loop c) with (filter (fun k => xorb (rc_s1 c k) (rc_s2 c k)) (seq 0 (m_nv m))). rewrite L, E1, E2. destruct t; destruct (anc m i j1), (anc m i j2); cbn; intuition congruence.
Qed.
(* ---- the construction ---- *)
Definition inside (l : list nat) : Prop := forall i, inb i l = true -> 0 < i < m_njoints m.
Lemma inside_app l x : inside l -> 0 < x < m_njoints m -> inside (l ++ [x]).
Proof. intros H Hx i Hi. rewrite in_app_one in Hi. apply orb_true_iff in Hi. destruct Hi as [Hi|Hi]; [auto|]. apply Nat.eqb_eq in Hi. now subst. Qed.
Lemma climb_inside fuel : forall k, k_1 k < m_njoints m -> k_2 k < m_njoints m -> inside (k_l1 k) -> inside (k_l2 k) ->
  inside (k_l1 (climb m fuel k)) /\ inside (k_l2 (climb m fuel k)) /\ k_1 (climb m fuel k) < m_njoints m.
Proof.
  induction fuel as [|f IH]; intros k K1 K2 L1 L2; cbn [climb]; [auto|]. destruct (Nat.eqb_spec (k_1 k) (k_2 k)); [auto|]. destruct (Nat.ltb_spec (k_2 k) (k_1 k)).
  - pose proof (wf_parent _ W (k_1 k) ltac:(lia)). apply IH; cbn; try assumption; try lia. apply inside_app; [assumption | lia].
  - pose proof (wf_parent _ W (k_2 k) ltac:(lia)). apply IH; cbn; try assumption; try lia. apply inside_app; [assumption | lia].
Qed.
Lemma both_inside fuel : forall k, k_1 k < m_njoints m -> inside (k_l1 k) -> inside (k_l2 k) -> inside (k_l1 (climbBoth m fuel k)) /\ inside (k_l2 (climbBoth m fuel k)).
Proof.
  induction fuel as [|f IH]; intros k K1 L1 L2; cbn [climbBoth]; [auto|]. destruct (Nat.ltb_spec 0 (k_1 k)); [|auto].
  pose proof (wf_parent _ W (k_1 k) ltac:(lia)). apply IH; cbn; [lia| |]; (apply inside_app; [assumption | lia]).
Qed.
Lemma fill_inside t j1 p1 j2 p2 rf : j1 < m_njoints m -> j2 < m_njoints m -> inside (rc_js1 (rcFill m t j1 p1 j2 p2 rf)) /\ inside (rc_js2 (rcFill m t j1 p1 j2 p2 rf)).
Proof.
  intros H1 H2. unfold rcFill. cbv zeta. cbn [rc_js1 rc_js2]. set (k0 := mkClimb j1 j2 _ _ _ _).
  destruct (climb_inside (j1 + j2) k0 H1 H2 ltac:(intros i; discriminate) ltac:(intros i; discriminate)) as (A & B & C). destruct t; [apply both_inside; assumption | auto].
Qed.
Lemma some_span l : rotateSpan l <> None <-> exists i, inb i l = true.
Proof. destruct l as [|x l]; cbn; split; [congruence | intros (i & H); discriminate | intros _; exists x; now rewrite Nat.eqb_refl | congruence]. Qed.
(* the joints for which the constructor stays within the bounds of its vectors *)
Definition canBuild t j1 j2 : Prop := match t with CONTACT_3D => j1 <> 0 /\ j2 <> 0 | CONTACT_6D => ~ onPath m j1 j2 /\ ~ onPath m j2 j1 end.
Lemma spans_some t j1 p1 j2 p2 rf : j1 < m_njoints m -> j2 < m_njoints m -> let c := rcFill m t j1 p1 j2 p2 rf in
  canBuild t j1 j2 <-> rotateSpan (rc_js1 c) <> None /\ rotateSpan (rc_js2 c) <> None.
Proof.
  intros H1 H2. cbv zeta. destruct (fill_inside t j1 p1 j2 p2 rf H1 H2) as [I1 I2]. pose proof (proj2 (fill_pattern eps m Bt Vm NM t j1 p1 j2 p2 rf H1 H2)) as P. set (c := rcFill m t j1 p1 j2 p2 rf) in *. clearbody c.
  rewrite !some_span. pose proof (anc_onPath m T j1 j2 H2) as O1. pose proof (anc_onPath m T j2 j1 H1) as O2.
  assert (Z : forall j, j < m_njoints m -> j <> 0 -> anc m j j = true) by (intros; now apply (anc_self m W T)).
  destruct t; cbn [canBuild]; [|rewrite <- O1, <- O2]; clear O1 O2.
  - split.
    + intros [N1 N2]. split; [exists j1 | exists j2].
      * destruct (P j1 ltac:(lia)) as [-> _]. now rewrite (Z j1 H1 N1).
      * destruct (P j2 ltac:(lia)) as [_ ->]. now rewrite (Z j2 H2 N2).
    + intros [(i & Hi) (k & Hk)]. pose proof (I1 i Hi). pose proof (I2 k Hk). destruct (P i ltac:(lia)) as [E _]. destruct (P k ltac:(lia)) as [_ E']. rewrite E, andb_true_r in Hi. rewrite E', andb_true_r in Hk.
      pose proof (anc_le m W T i j1 H1 Hi). pose proof (anc_le m W T k j2 H2 Hk). lia.
  - split.
    + intros [N1 N2]. assert (j1 <> 0) by (intros ->; apply N1, (anc_root m W T), H2). assert (j2 <> 0) by (intros ->; apply N2, (anc_root m W T), H1). split; [exists j1 | exists j2].
      * destruct (P j1 ltac:(lia)) as [-> _]. rewrite (Z j1 H1) by assumption. destruct (anc m j1 j2); [contradiction N1; reflexivity | reflexivity].
      * destruct (P j2 ltac:(lia)) as [_ ->]. rewrite (Z j2 H2) by assumption. destruct (anc m j2 j1); [contradiction N2; reflexivity | reflexivity].
    + intros [(i & Hi) (k & Hk)]. pose proof (I1 i Hi). pose proof (I2 k Hk). destruct (P i ltac:(lia)) as [E _]. destruct (P k ltac:(lia)) as [_ E']. rewrite E in Hi. rewrite E' in Hk. apply andb_true_iff in Hi, Hk. rewrite negb_true_iff in Hi, Hk.
      split; intros A.
      * rewrite (anc_trans m W T i j1 j2 H2 (proj1 Hi) A) in Hi. destruct Hi; discriminate.
      * rewrite (anc_trans m W T k j2 j1 H1 (proj1 Hk) A) in Hk. destruct Hk; discriminate.
Qed.
Theorem init_ok t j1 p1 j2 p2 rf : rf <> WORLD -> j1 < m_njoints m -> j2 < m_njoints m -> canBuild t j1 j2 ->
  exists c, rcInit m t j1 p1 j2 p2 rf = Ok tt c /\ (forall d b J, getConstraintJacobian m d c b J = getConstraintJacobian m d (rcFill m t j1 p1 j2 p2 rf) b J) /\
  rc_sparse c = rc_sparse (rcFill m t j1 p1 j2 p2 rf) /\ rc_loop c = rc_loop (rcFill m t j1 p1 j2 p2 rf) /\
  forall i, 0 < i < m_njoints m ->
    (In i (rc_js1 c) <-> onPath m i j1 /\ (t = CONTACT_6D -> ~ onPath m i j2)) /\ (In i (rc_js2 c) <-> onPath m i j2 /\ (t = CONTACT_6D -> ~ onPath m i j1)).
Proof.
  intros Hr H1 H2 HB. apply (spans_some t j1 p1 j2 p2 rf H1 H2) in HB. destruct HB as [B1 B2]. pose proof (proj2 (fill_pattern eps m Bt Vm NM t j1 p1 j2 p2 rf H1 H2)) as P. unfold rcInit. set (c := rcFill m t j1 p1 j2 p2 rf) in *.
  destruct (rotateSpan (rc_js1 c)) as [l1|] eqn:E1; [|congruence]. destruct (rotateSpan (rc_js2 c)) as [l2|] eqn:E2; [|congruence].
  assert (RI : forall l l', rotateSpan l = Some l' -> forall i, In i l' <-> inb i l = true).
  { intros l l' E i. rewrite inb_In. destruct l as [|x l]; [discriminate|]. injection E as <-. pose proof (app_removelast_last 0 (l := x :: l) ltac:(discriminate)) as EL. change (In i (last (x :: l) 0 :: removelast (x :: l)) <-> In i (x :: l)). assert (Q : forall y l0 l', l' = l0 ++ [y] -> (In i (y :: l0) <-> In i l')) by (intros y l0 l' ->; rewrite in_app_iff; cbn [In]; tauto). exact (Q _ _ _ EL). }
  exists (mkRC t j1 p1 j2 p2 rf (rc_s1 c) (rc_s2 c) l1 l2 (rc_span c) (rc_sparse c) (rc_loop c)).
  split; [destruct rf; [contradiction | reflexivity | reflexivity]|]. split; [reflexivity|]. split; [reflexivity|]. split; [reflexivity|]. intros i Hi. cbn [rc_js1 rc_js2].
  rewrite (RI _ _ E1), (RI _ _ E2). pose proof (anc_onPath m T i j1 H1) as A1. pose proof (anc_onPath m T i j2 H2) as A2. destruct (P i Hi) as [-> ->]. destruct t; destruct (anc m i j1), (anc m i j2); cbn; intuition congruence.
Qed.
Theorem init_undef t j1 p1 j2 p2 rf : rf <> WORLD -> j1 < m_njoints m -> j2 < m_njoints m -> ~ canBuild t j1 j2 -> rcInit m t j1 p1 j2 p2 rf = Undef.
Proof.
  intros Hr H1 H2 HB. rewrite (spans_some t j1 p1 j2 p2 rf H1 H2) in HB. unfold rcInit. cbv zeta.
  destruct (rotateSpan (rc_js1 (rcFill m t j1 p1 j2 p2 rf))); [destruct (rotateSpan (rc_js2 (rcFill m t j1 p1 j2 p2 rf)))|]; destruct rf; try reflexivity; try contradiction; exfalso; apply HB; split; discriminate.
Qed.
Theorem init_universe t j1 p1 p2 rf : rf <> WORLD -> j1 < m_njoints m -> rcInit m t j1 p1 0 p2 rf = Undef.
Proof.
  intros Hr H1. apply init_undef; [exact Hr | exact H1 | apply (wf_n _ W) |]. destruct t; cbn.
  - intros [_ H]. now apply H.
  - intros [_ H]. apply H. apply (anc_onPath m T 0 j1 H1). apply (anc_root m W T), H1.
Qed.
End C3.
