(* What jacobianSubtreeCenterOfMass leaves in data.J, and an example. *)
Require Import Reals List Arith ZArith Lia Lra Bool.
From Verif Require Import Vec3 Spatial Inertia InertiaFacts Joints Spec_Joints Deriv JointFacts JointFacts2 Model Spec_Model ModelFacts ModelTree ModelFacts2 ModelFacts3 Sums Data Kinematics Spec_Kin Spec_Mass KinFacts KinFacts2 KinFacts3 Spec_Dyn Rnea DynFacts DynFacts2 TreeSums MassFacts Crba CrbaFacts CrbaFacts2 CrbaFacts3 CrbaFacts4 Spec_Jac JacFacts JacFacts3 Spec_Com Com ComFacts ComFacts2 ComFacts3 ComFacts4 ComFacts5 ComFacts6 Jacobian CoriolisFacts CholFacts5 SubCom SubComFacts SubComFacts2 SubComFacts3.
Import ListNotations.
Local Open Scope nat_scope.

Lemma fold_gl (f : Data -> nat -> Data) l : (forall d i, gl (f d i) = gl d) -> forall d, gl (fold_left f l d) = gl d.
Proof. intros H. induction l as [|i l IH]; intros d; [reflexivity|]. cbn [fold_left]. rewrite IH. apply H. Qed.

Section Other.
Variable m : Model.
Hypothesis W : wellFormed m.
Hypothesis T : treeInv m.
Hypothesis Vm : validModel m.
Hypothesis NM : noMimic m.

Lemma back_other s i j c : 0 < i < m_njoints m -> 0 < j < m_njoints m -> c < nvOf m j -> i <> j -> co (gl (fst (subBack m s i))) F_J (idx_v m j + c) = co (gl (fst s)) F_J (idx_v m j + c).
Proof.
  intros Hi Hj Hc Hn. destruct (jm_v m W Vm NM i Hi) as (E1 & E2 & E3 & E4). unfold subBack. cbv zeta. cbn [fst]. rewrite E2, E4.
  match goal with |- co (gl (onRow ?x i (comDiv 0))) F_J ?k = _ => change (co (gl (onRow x i (comDiv 0))) F_J k) with (co (gl x) F_J k) end.
  cbn [gl onCo setGl]. unfold setCo. cbn. unfold setCols. rewrite (within_own m W NM i j c Hi Hj Hc). destruct (Nat.eqb_spec i j); [contradiction | reflexivity].
Qed.
Lemma up_other r s i j c : 0 < i < m_njoints m -> 0 < j < m_njoints m -> c < nvOf m j -> i <> j -> co (gl (fst (subUp m r s i))) F_J (idx_v m j + c) = co (gl (fst s)) F_J (idx_v m j + c).
Proof.
  intros Hi Hj Hc Hn. destruct (jm_v m W Vm NM i Hi) as (E1 & E2 & E3 & E4). unfold subUp. cbv zeta. cbn [fst]. rewrite E2, E4.
  cbn [gl onCo setGl]. unfold setCo. cbn. unfold setCols. rewrite (within_own m W NM i j c Hi Hj Hc). destruct (Nat.eqb_spec i j); [contradiction | reflexivity].
Qed.
Lemma ups_other r j c : 0 < j < m_njoints m -> c < nvOf m j -> forall fuel p s, p < m_njoints m -> anc m j p = false -> co (gl (fst (subUps m r fuel p s))) F_J (idx_v m j + c) = co (gl (fst s)) F_J (idx_v m j + c).
Proof.
  intros Hj Hc. induction fuel as [|fuel IH]; intros p s Hp Ha; [reflexivity|]. cbn [subUps]. destruct (Nat.ltb_spec 0 p); [|reflexivity].
  pose proof (wf_parent _ W p ltac:(lia)). rewrite (anc_step m W T j p ltac:(lia)), orb_false_iff in Ha. destruct Ha as [Ha1 Ha2]. apply Nat.eqb_neq in Ha1. rewrite IH; [|lia|exact Ha2]. apply up_other; auto; lia.
Qed.
Lemma backs_other j c l : 0 < j < m_njoints m -> c < nvOf m j -> (forall i, In i l -> 0 < i < m_njoints m /\ i <> j) -> forall s, co (gl (fst (fold_left (subBack m) l s))) F_J (idx_v m j + c) = co (gl (fst s)) F_J (idx_v m j + c).
Proof.
  intros Hj Hc. induction l as [|i l IH]; intros H s; [reflexivity|]. cbn [fold_left]. rewrite IH by (intros k Hk; apply H; right; exact Hk). destruct (H i (or_introl eq_refl)). apply back_other; auto.
Qed.
Theorem subcom_other q r d res d' J : r < m_njoints m -> jacobianSubtreeCenterOfMass m d q r res = Ok (d', J) tt ->
  forall j c, 0 < j < m_njoints m -> c < nvOf m j -> anc m r j = false -> anc m j r = false -> co (gl d') F_J (idx_v m j + c) = co (gl d) F_J (idx_v m j + c).
Proof.
  intros Hr E j c Hj Hc A1 A2. unfold jacobianSubtreeCenterOfMass, jacobianSubtreeCenterOfMassFK in E. cbv zeta in E. destruct (Nat.ltb_spec r (m_njoints m)); [|lia]. cbn [negb] in E.
  fold (start m r (forwardKinematics0 m d q)) in E.
  assert (E0 : co (gl (start m r (forwardKinematics0 m d q))) F_J = co (gl d) F_J).
  { unfold start. cbv zeta. cbn [gl setGl]. change (co (setJcom ?g ?x) F_J) with (co g F_J). rewrite (fold_gl (subFirst m)) by reflexivity.
    assert (EF : gl (forwardKinematics0 m d q) = gl d) by (unfold forwardKinematics0, upward; rewrite (fold_gl (rowStep m (fk0Row m q))) by reflexivity; reflexivity).
    destruct (r =? 0); cbn [gl onRow setRow]; now rewrite <- EF. }
  pose proof (backs_other j c (rev (subtree m r)) Hj Hc) as EB.
  specialize (EB ltac:(intros i Hin; apply in_rev in Hin; rewrite (subtree_anc m W T r Hr), filter_In, in_seq in Hin; split; [lia | intros ->; destruct Hin; congruence]) (start m r (forwardKinematics0 m d q), res)).
  cbn [fst] in EB. rewrite E0 in EB. set (s := fold_left (subBack m) _ _) in *. clearbody s.
  destruct (Rlt_dec 0 _); [|discriminate]. destruct (Nat.eqb_spec r 0) as [->|Hn].
  - injection E as E _. rewrite <- E. exact EB.
  - rewrite <- EB. injection E as E. pose proof (wf_parent _ W r ltac:(lia)). rewrite (anc_step m W T j r ltac:(lia)), orb_false_iff in A2. destruct A2 as [_ A2].
    match type of E with ?x = _ => change d' with (fst (d', J)); rewrite <- E end. rewrite (ups_other r j c Hj Hc) by (auto; lia). reflexivity.
Qed.
(* the columns of the other joints hold what an earlier call has left *)
Theorem subcom_stale q r res j c x : validState m q -> r < m_njoints m -> (0 < subtreeMass m r)%R -> 0 < j < m_njoints m -> c < nvOf m j -> ~ onPath m r j -> ~ onPath m j r -> forall d,
  exists d0 d' J, rows d0 = rows d /\ jacobianSubtreeCenterOfMass m d0 q r res = Ok (d', J) tt /\ co (gl d') F_J (idx_v m j + c) = x.
Proof.
  intros Hq Hr HM Hj Hc N1 N2 d.
  assert (A1 : anc m r j = false) by (destruct (anc m r j) eqn:E; [apply (anc_onPath m T) in E; [contradiction | lia] | reflexivity]).
  assert (A2 : anc m j r = false) by (destruct (anc m j r) eqn:E; [apply (anc_onPath m T) in E; [contradiction | lia] | reflexivity]).
  set (d0 := onCo d F_J (fun _ _ => x)). exists d0. pose proof (subcom_spec m W T Vm NM q r d0 res Hq Hr) as H. destruct (Rlt_dec 0 (subtreeMass m r)); [|contradiction].
  destruct H as (d' & J & E & _). exists d', J. split; [reflexivity|]. split; [exact E|]. rewrite (subcom_other q r d0 res d' J Hr E j c Hj Hc A1 A2). reflexivity.
Qed.
(* the result of a later getJacobianSubtreeCenterOfMass on the whole model *)
Theorem subcom_erases q r d res d' J : validState m q -> r < m_njoints m -> jacobianSubtreeCenterOfMass m d q r res = Ok (d', J) tt ->
  forall res', exists K, getJacobianSubtreeCenterOfMass m d' 0 res' = Ok tt K /\ forall k, K k = v3zero.
Proof.
  intros Hq Hr E res'. pose proof (subcom_spec m W T Vm NM q r d res Hq Hr) as H. destruct (Rlt_dec 0 (subtreeMass m r)).
  - destruct H as (d1 & J1 & E1 & (_ & _ & Z & _) & _). rewrite E1 in E. injection E as <- _. unfold getJacobianSubtreeCenterOfMass. destruct (Nat.ltb_spec 0 (m_njoints m)); [|lia]. cbn [negb Nat.eqb]. eexists. split; [reflexivity | exact Z].
  - destruct H as (s & H). congruence.
Qed.
Theorem subcom_data q r d res : validState m q -> r < m_njoints m -> (0 < subtreeMass m r)%R ->
  exists d' J, jacobianSubtreeCenterOfMass m d q r res = Ok (d', J) tt /\ sc (rows d' r) F_mass = subtreeMass m r /\
    (0 < r -> p3 (rows d' r) F_com = subtreeCom m q r) /\ (r = 0 -> p3 (rows d' r) F_com = v3scale (subtreeMass m 0) (subtreeCom m q 0)).
Proof.
  intros Hq Hr HM. pose proof (subcom_spec m W T Vm NM q r d res Hq Hr) as H. destruct (Rlt_dec 0 (subtreeMass m r)); [|contradiction].
  destruct H as (d' & J & E & (D1 & D2 & _) & _). exists d', J. split; [exact E|]. split; [exact D1|]. split; intros H0; rewrite D2; destruct (Nat.eqb_spec r 0); try lia; subst; reflexivity.
Qed.
Theorem subcom_throw q r d res : validState m q -> m_njoints m <= r \/ (r < m_njoints m /\ (subtreeMass m r <= 0)%R) -> exists s, jacobianSubtreeCenterOfMass m d q r res = Throw s.
Proof.
  intros Hq [Hr|[Hr HM]].
  - exists (forwardKinematics0 m d q, res). unfold jacobianSubtreeCenterOfMass, jacobianSubtreeCenterOfMassFK. destruct (Nat.ltb_spec r (m_njoints m)); [lia | reflexivity].
  - pose proof (subcom_spec m W T Vm NM q r d res Hq Hr) as H. destruct (Rlt_dec 0 (subtreeMass m r)); [lra | exact H].
Qed.
(* two calls with the same data but another content of the argument *)
Theorem subcom_uses q r d k : validState m q -> r < m_njoints m -> (0 < subtreeMass m r)%R -> k < m_nv m ->
  exists res res' s s', jacobianSubtreeCenterOfMass m d q r res = Ok s tt /\ jacobianSubtreeCenterOfMass m d q r res' = Ok s' tt /\ snd s k <> snd s' k.
Proof.
  intros Hq Hr HM Hk. destruct (subcom_res m W T Vm NM q r d (fun _ => mkV3 1 0 0) Hq Hr HM) as (s0 & s1 & E0 & E1 & E). exists (fun _ => v3zero), (fun _ => mkV3 1 0 0), s0, s1. split; [exact E0|]. split; [exact E1|].
  rewrite (E k Hk). generalize (snd s0 k). intros x Hx. apply (f_equal vx) in Hx. unfold kept in Hx. pose proof (Rinv_0_lt_compat _ HM). destruct (divided m r k); cbn in Hx; lra.
Qed.
End Other.

Lemma exD_mass1 : (0 < subtreeMass (exD (1/1000)) 1)%R.
Proof.
  unfold subtreeMass, subBodies, bodies. change (m_njoints (exD (1/1000)) - 1) with 3.
  rewrite (sumN_ext 3 _ (fun k => 2%R)); [cbn; lra|].
  intros k Hk. destruct k as [|[|[|k]]]; try lia; cbn; ring.
Qed.
Lemma exD_mass2 : (0 < subtreeMass (exD (1/1000)) 2)%R.
Proof.
  unfold subtreeMass, subBodies, bodies. change (m_njoints (exD (1/1000)) - 1) with 3.
  rewrite (sumN_ext 3 _ (fun k => if k =? 1 then 2%R else 0%R)); [cbn; lra|].
  intros k Hk. destruct k as [|[|[|k]]]; try lia; cbn; ring.
Qed.
Lemma exSub s : let m := exD (1/1000) in Built (1/1000) m /\ validModel m /\ noMimic m /\ noRigidJoint m /\ depthFirst m /\ (forall u, validState m (exQ u)) /\ moves m exQ (exV s) s /\
  1 < m_njoints m /\ (0 < subtreeMass m 1)%R /\ (0 < subtreeMass m 2)%R /\ subtreeMass m 0 <> 0%R /\ ~ onPath m 2 3 /\ ~ onPath m 3 2 /\ 0 < nvOf m 3.
Proof.
  cbv zeta. split; [apply exD_built|]. split; [apply exD_valid|]. split; [apply exD_noMimic|]. split; [apply exD_norigid|]. split; [apply exD_df|]. split; [intros; apply exD_validState|]. split; [apply exD_moves|].
  split; [cbn; lia|]. split; [apply exD_mass1|]. split; [apply exD_mass2|]. split; [apply exD_masses|]. 
  pose proof (Built_tree _ _ (exD_built (1/1000))) as T. split; [intros H; apply (anc_onPath _ T) in H; [discriminate H | cbn; lia]|]. split; [intros H; apply (anc_onPath _ T) in H; [discriminate H | cbn; lia]|]. cbn; lia.
Qed.
