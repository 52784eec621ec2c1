Require Import Reals String List Arith ZArith Lia Lra Bool.
From Verif Require Import Vec3 Spatial Inertia Joints Spec_Joints JointFacts Model Spec_Model ModelFacts ModelTree ModelFacts2 ModelFacts3 Data Kinematics Spec_Kin KinFacts Sums Spec_Dyn TreeSums Spec_Mass MassFacts Spec_Jac Crba CrbaFacts CrbaFacts2 CrbaFacts3 CrbaFacts4 Jacobian JacFacts CheckData Spec_Check CheckFacts CheckFacts2.
Import ListNotations.
Local Open Scope nat_scope.

(* ---- the Data of a model with the same tree is accepted ---- *)
Section Same.
Variables m m' : Model.
Hypothesis W : wellFormed m.
Hypothesis T : treeInv m.
Hypothesis Vm : validModel m.
Hypothesis NM : noMimic m.
Hypothesis Pos : noRigidJoint m.
Hypothesis W' : wellFormed m'.
Hypothesis T' : treeInv m'.
Hypothesis Vm' : validModel m'.
Hypothesis NM' : noMimic m'.
Hypothesis Pos' : noRigidJoint m'.
Hypothesis S : sameTree m m'.
Hypothesis DF : depthFirst m.
Lemma same_anc j d : d < m_njoints m -> anc m j d = anc m' j d.
Proof.
  destruct S as (E & _ & _ & K). induction d as [d IH] using (well_founded_induction Wf_nat.lt_wf). intros Hd. destruct (Nat.eq_dec d 0) as [->|Hn].
  - now rewrite (anc_0 m W T), (anc_0 m' W' T').
  - rewrite (anc_step m W T), (anc_step m' W' T') by lia. destruct (K d ltac:(lia)) as (<- & _). pose proof (wf_parent _ W d ltac:(lia)). rewrite IH by lia. reflexivity.
Qed.
Lemma same_last j : 0 < j < m_njoints m -> lastChild m' j = lastChild m j.
Proof.
  intros Hj. destruct S as (E & _). destruct (lastChild_spec m W T j Hj) as (b & -> & Hb & Ab & Mb). destruct (lastChild_spec m' W' T' j ltac:(lia)) as (c & -> & Hc & Ac & Mc).
  f_equal. rewrite same_anc in Ab by exact Hb. rewrite <- same_anc in Ac by lia. pose proof (Mb c ltac:(lia) Ac). pose proof (Mc b ltac:(lia) Ab). lia.
Qed.
Lemma same_nvs j : 0 < j < m_njoints m -> nvSubtree m' j = nvSubtree m j.
Proof.
  intros Hj. destruct S as (E & _ & _ & K). destruct (lastChild_spec m W T j Hj) as (b & Eb & Hb & Ab & _). pose proof (anc_le m W T j b Hb Ab).
  unfold nvSubtree. rewrite same_last by exact Hj. rewrite (NM j Hj), (NM' j), Eb, Nat2Z.id, (NM b), (NM' b) by lia.
  destruct (jm_v m W Vm NM b ltac:(lia)) as (-> & _ & -> & _). destruct (jm_v m W Vm NM j Hj) as (-> & _).
  destruct (jm_v m' W' Vm' NM' b ltac:(lia)) as (-> & _ & -> & _). destruct (jm_v m' W' Vm' NM' j ltac:(lia)) as (-> & _).
  destruct (K b ltac:(lia)) as (_ & -> & ->). destruct (K j Hj) as (_ & _ & ->). reflexivity.
Qed.
Lemma total_E (x : Model) : wellFormed x -> validModel x -> noMimic x -> m_nvE x = m_nv x.
Proof. intros Wx Vx Nx. destruct (wf_total _ Wx) as (_ & -> & ->). now rewrite (nvEs_nvs x Wx Vx Nx). Qed.
Lemma same_idxE j : 0 < j < m_njoints m -> idx_vE m j = idx_vE m' j.
Proof.
  intros Hj. destruct S as (E & _ & _ & K). rewrite (idx_vE_v m W Vm NM j Hj), (idx_vE_v m' W' Vm' NM' j) by lia. apply (K j Hj).
Qed.
Lemma same_rows j : 0 < j < m_njoints m -> checkRows m (fresh m') j = true.
Proof.
  intros Hj. pose proof (wf_parent _ W j Hj) as Hp. destruct S as (E & _ & _ & K). unfold checkRows, fresh. cbv zeta. cbn [s_par s_mim s_non]. destruct (jmE m W j Hj) as (-> & _ & _).
  rewrite (same_idxE j Hj). assert (Hj' : 0 < j < m_njoints m') by lia. rewrite !nth_table by now apply (row_bound m' W' Pos').
  destruct (tables_inv m' W' Pos') as (P1 & P2 & P3 & _).
  pose proof (P1 j 0 ltac:(lia) ltac:(lia) (Pos' j Hj')) as Q1. pose proof (P2 j 0 ltac:(lia) ltac:(lia) (Pos' j Hj')) as Q2. pose proof (P3 j 0 ltac:(lia) ltac:(lia) (Pos' j Hj')) as Q3.
  rewrite Nat.add_0_r in Q1, Q2, Q3. cbn [Nat.eqb] in Q1, Q2, Q3. rewrite Q1, Q2, Q3. clear Q1 Q2 Q3 P1 P2 P3. destruct (K j Hj) as (Ep & _ & _). rewrite <- Ep.
  destruct (Nat.eqb_spec (idx_vE m' j) 0) as [E0|_].
  - rewrite (idx_vE_v m' W' Vm' NM' j Hj') in E0. pose proof (row_first m' W' NM' Vm' Pos' j Hj' E0). subst j. replace (parent m 1) with 0 by lia. reflexivity.
  - remember (parent m j) as p. destruct p as [|p]; [reflexivity|].
    cbn [ancestorWith Nat.ltb Nat.leb]. rewrite (NM (Datatypes.S p)), (NM' (Datatypes.S p)) by lia. cbn [negb andb Nat.eqb].
    assert (EL : lastCol m' (Datatypes.S p) = lastRow m (Datatypes.S p)).
    { change (lastCol m' (Datatypes.S p)) with (lastRow m' (Datatypes.S p)). rewrite (lastRow_eq m' W' NM' Vm'), (lastRow_eq m W NM Vm) by lia. destruct (K (Datatypes.S p) ltac:(lia)) as (_ & -> & ->). reflexivity. }
    rewrite EL, !Z.eqb_refl. reflexivity.
Qed.
Lemma good_true j : 0 < j < m_njoints m -> good m j = true.
Proof.
  intros Hj. destruct (check_new m W T NM Vm Pos) as (s & b & E1 & E2 & E3). rewrite (newShape_fresh m T NM) in E1. injection E1 as <-.
  rewrite (proj2 E3 DF) in E2. apply (check_true m W T NM) in E2 as [_ E2]. specialize (E2 j Hj). rewrite (fresh_joint m W T NM Vm Pos j Hj) in E2. congruence.
Qed.
Theorem same_accepted : checkData m (fresh m') = Some true.
Proof.
  apply (check_true m W T NM). pose proof S as (E & E1 & E2 & K). split.
  - assert (EE : m_nvE m' = m_nvE m) by (rewrite (total_E m W Vm NM), (total_E m' W' Vm' NM'); now symmetry).
    pose proof (fresh_sizes m') as F. unfold checkSizes in *. rewrite E, E1, E2, <- EE. exact F.
  - intros j Hj. pose proof (good_true j Hj) as G. pose proof (fresh_joint m W T NM Vm Pos j Hj) as F. rewrite G in F.
    assert (A1 : nth j (s_last (fresh m')) 0%Z = nth j (s_last (fresh m)) 0%Z) by (unfold fresh; cbv zeta; cbn [s_last]; rewrite !nth_table by lia; now apply same_last).
    assert (A2 : nth j (s_nvs (fresh m')) 0%Z = nth j (s_nvs (fresh m)) 0%Z) by (unfold fresh; cbv zeta; cbn [s_nvs]; rewrite !nth_table by lia; now apply same_nvs).
    assert (A3 : nth (jm_idx_vE (joint m j)) (s_nvr (fresh m')) 0%Z = nth (jm_idx_vE (joint m j)) (s_nvr (fresh m)) 0%Z).
    { unfold fresh; cbv zeta; cbn [s_nvr]. destruct (jmE m W j Hj) as (-> & _ & _). rewrite (nth_table (m_nvE m)) by now apply (row_bound m W Pos). rewrite (same_idxE j Hj) at 1.
      rewrite nth_table by (apply (row_bound m' W' Pos'); lia).
      destruct (tables_inv m W Pos) as (_ & _ & _ & _ & H). specialize (H j 0 Hj (Pos j Hj)). rewrite Nat.add_0_r in H. rewrite H.
      destruct (tables_inv m' W' Pos') as (_ & _ & _ & _ & H'). specialize (H' j 0 ltac:(lia) (Pos' j ltac:(lia))). rewrite Nat.add_0_r in H'. rewrite H'. rewrite same_nvs by exact Hj. reflexivity. }
    unfold checkJoint in *. cbv zeta in *. rewrite A1, A2, A3, (same_rows j Hj). rewrite (fresh_rows m W NM Vm Pos j Hj) in F. exact F.
Qed.
End Same.
Theorem C85_other_iff eps m m' s : Built eps m -> validModel m -> noMimic m -> noRigidJoint m -> Built eps m' -> validModel m' -> noMimic m' -> noRigidJoint m' ->
  newShape m' = Some s -> checkData m s = Some true <-> sameTree m m' /\ depthFirst m.
Proof.
  intros B Vm NM P B' Vm' NM' P' E. split; [exact (C85_other_lemma eps m m' s B Vm NM P B' Vm' NM' P' E)|]. intros [S DF].
  rewrite (newShape_fresh m' (Built_tree eps m' B') NM') in E. injection E as <-.
  exact (same_accepted m m' (Built_wf eps m B) (Built_tree eps m B) Vm NM P (Built_wf eps m' B') (Built_tree eps m' B') Vm' NM' P' S DF).
Qed.
(* a chain of other joints, with the same tree *)
Definition ckR1 : Model := okModel (addJoint emptyModel 0 (freshJoint (JSimple (JRevolute 1))) se3_Identity "r" (exLim 1 1)) emptyModel.
Definition ckR : Model := okModel (addJoint ckR1 1 (freshJoint (JSimple (JRevolute 2))) se3_Identity "s" (exLim 1 1)) ckR1.
Lemma ckR_built eps : Built eps ckR.
Proof.
  assert (H1 : History eps ckR1 []).
  { apply (H_step eps emptyModel _ [] None); [constructor|]. apply (S_joint eps emptyModel _ 0 (JSimple (JRevolute 1)) se3_Identity "r"%string (exLim 1 1) 1); [exact I|reflexivity]. }
  eexists. apply (H_step eps ckR1 _ [] None); [exact H1|]. apply (S_joint eps ckR1 _ 1 (JSimple (JRevolute 2)) se3_Identity "s"%string (exLim 1 1) 2); [exact I|reflexivity].
Qed.
Lemma ckR_valid : validModel ckR.
Proof. intros i Hi. change (m_njoints ckR) with 3 in Hi. destruct i as [|[|[|i]]]; try lia; (split; [cbn; auto; lia | apply isRotation_id]). Qed.
Lemma ckR_noMimic : noMimic ckR.
Proof. intros i Hi. change (m_njoints ckR) with 3 in Hi. destruct i as [|[|[|i]]]; try lia; reflexivity. Qed.
Lemma ckR_pos : noRigidJoint ckR.
Proof. intros i Hi. change (m_njoints ckR) with 3 in Hi. destruct i as [|[|[|i]]]; try lia; cbn; lia. Qed.
Lemma ckR_example : exists s, newShape ckR = Some s /\ checkData ck2 s = Some true /\ ckR <> ck2 /\ sameTree ck2 ckR.
Proof.
  eexists. split; [reflexivity|]. split; [reflexivity|]. split; [intros E; apply (f_equal m_names) in E; discriminate|].
  split; [reflexivity|]. split; [reflexivity|]. split; [reflexivity|]. intros j Hj. change (m_njoints ck2) with 3 in Hj. destruct j as [|[|[|j]]]; try lia; repeat split.
Qed.
(* one joint with a body: Model::check() accepts it *)
Definition ckB (eps : R) : Model := okModel (appendBodyToJoint eps chain1 1 exY1 se3_Identity) chain1.
Lemma ckB_built eps : Built eps (ckB eps).
Proof.
  assert (H1 : History eps chain1 []).
  { apply (H_step eps emptyModel _ [] None); [constructor|]. apply (S_joint eps emptyModel _ 0 (JSimple (JPrismatic 0)) se3_Identity "a"%string (exLim 1 1) 1); [exact I|reflexivity]. }
  eexists. apply (H_step eps chain1 _ [] (Some (1, se3_Identity, exY1))); [exact H1|]. apply S_body. reflexivity.
Qed.
Lemma ckB_heavy eps : heavyBodies (ckB eps) /\ depthFirst (ckB eps).
Proof.
  split.
  - intros j Hj. change (m_njoints (ckB eps)) with 2 in Hj. replace j with 1 by lia.
    change (inertiaOf (ckB eps) 1) with (inertia_pequ eps inertia_Zero (inertia_act se3_Identity exY1)).
    unfold inertia_pequ, inertia_act, exY1, inertia_Zero, sym3_subAlphaSkewSquare, sym3_add. cbn. repeat split; lra.
  - apply (crbaCheck_spec _ (Built_wf _ _ (ckB_built eps)) (Built_tree _ _ (ckB_built eps))). reflexivity.
Qed.
