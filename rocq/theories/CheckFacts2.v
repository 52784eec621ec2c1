Require Import Reals String List Arith ZArith Lia Lra Bool.
From Verif Require Import Vec3 Spatial Inertia Joints Spec_Joints JointFacts Model Spec_Model ModelFacts ModelTree ModelFacts2 ModelFacts3 Data Kinematics Spec_Kin KinFacts Sums Spec_Dyn TreeSums Spec_Mass MassFacts Spec_Jac Crba CrbaFacts CrbaFacts2 CrbaFacts3 CrbaFacts4 Jacobian JacFacts CheckData Spec_Check CheckFacts.
Import ListNotations.
Local Open Scope nat_scope.

(* ---- the Data of another model ---- *)
Section Other.
Variables m m' : Model.
Hypothesis W : wellFormed m.
Hypothesis T : treeInv m.
Hypothesis Vm : validModel m.
Hypothesis NM : noMimic m.
Hypothesis Pos : noRigidJoint m.
Hypothesis W' : wellFormed m'.
Hypothesis T' : treeInv m'.
Hypothesis Vm' : validModel m'.
Hypothesis NM' : noMimic m'.
Hypothesis Pos' : noRigidJoint m'.
Hypothesis H : checkData m (fresh m') = Some true.
Lemma sizes_eq : m_njoints m' = m_njoints m /\ m_nv m' = m_nv m /\ m_nvE m' = m_nvE m /\ m_nframes m' = m_nframes m.
Proof.
  apply (check_true m W T NM) in H as [S _]. unfold checkSizes in S. cbv zeta in S. rewrite !andb_true_iff in S.
  cbn [fresh n_joints n_a n_a_gf n_v n_f n_oMi n_liMi n_Ycrb n_Yaba n_tau c_J n_oMf forallb] in S. rewrite !andb_true_iff in S.
  unfold fresh in S; cbv zeta in S; cbn [n_joints n_tau c_J n_oMf] in S.
  destruct S as (((((((((((((S1 & _) & _) & S2) & _) & S3) & _) & _) & _) & _) & S4) & _) & _) & _).
  destruct S1 as (S1 & _). destruct S2 as (S2 & _). apply Nat.eqb_eq in S1, S2, S3, S4. auto.
Qed.
Lemma last_ge j : 0 < j < m_njoints m -> (Z.of_nat j <= nth j (s_last (fresh m')) 0)%Z /\ nth j (s_last (fresh m')) 0%Z = lastChild m' j.
Proof.
  destruct sizes_eq as (E & _). intros Hj. assert (E1 : nth j (s_last (fresh m')) 0%Z = lastChild m' j) by (unfold fresh; cbv zeta; cbn [s_last]; apply nth_table; lia).
  rewrite E1. destruct (lastChild_spec m' W' T' j ltac:(lia)) as (b & Eb & Hb & Ab & _). pose proof (anc_le m' W' T' j b Hb Ab). split; [lia|reflexivity].
Qed.
Lemma sums_eq j : 0 < j < m_njoints m -> exists c, j <= c < m_njoints m /\ sum (map (nvOf m) (seq j (S c - j))) = sum (map (nvOf m') (seq j (S c - j))).
Proof.
  intros Hj. destruct sizes_eq as (E & _). destruct (last_ge j Hj) as [L1 L2]. apply (check_true m W T NM) in H as [_ K].
  destruct (joint_true m W (fresh m') j Hj (K j Hj)) as (c & Ec & Hc & I1 & I2 & E1 & _). exists c. split; [lia|].
  rewrite <- (countDofs_sum m W j c ltac:(lia) ltac:(lia) (NM j Hj)).
  assert (E2 : nth j (s_nvs (fresh m')) 0%Z = nvSubtree m' j) by (unfold fresh; cbv zeta; cbn [s_nvs]; apply nth_table; lia).
  rewrite E2 in E1. unfold nvSubtree in E1. rewrite L2 in Ec. rewrite (NM' j) in E1 by lia. rewrite Ec, Nat2Z.id, (NM' c) in E1 by lia.
  destruct (jm_v m' W' Vm' NM' c ltac:(lia)) as (Q1 & _ & Q2 & _). destruct (jm_v m' W' Vm' NM' j ltac:(lia)) as (Q3 & _). rewrite Q1, Q2, Q3 in E1.
  pose proof (sum_idx m' W' NM' j (c - j) ltac:(lia) ltac:(lia)) as SI. replace (j + (c - j)) with c in SI by lia. replace (S (c - j)) with (S c - j) in SI by lia. lia.
Qed.
Lemma nv_eq j : 0 < j < m_njoints m -> nvOf m j = nvOf m' j.
Proof.
  assert (K : forall k j, m_njoints m - j <= k -> 0 < j < m_njoints m -> nvOf m j = nvOf m' j).
  { induction k as [|k IH]; intros i Hk Hi; [lia|]. destruct (sums_eq i Hi) as (c & Hc & E). replace (S c - i) with (S (c - i)) in E by lia. cbn [seq map] in E.
    unfold sum in E. cbn [fold_right] in E.
    assert (E' : map (nvOf m) (seq (S i) (c - i)) = map (nvOf m') (seq (S i) (c - i))) by (apply map_ext_in; intros d Hd; apply in_seq in Hd; apply IH; lia).
    rewrite E' in E. lia. }
  intros Hj. apply (K (m_njoints m - j)); [lia|exact Hj].
Qed.
Lemma idx_1 (x : Model) : wellFormed x -> noMimic x -> 1 < m_njoints x -> idx_v x 1 = 0.
Proof.
  intros Wx Nx Hx. destruct (wf_range _ Wx 1 ltac:(lia) (Nx 1 ltac:(lia))) as [_ ->]. destruct (wf_zero _ Wx) as (_ & Z & _). unfold nvOf in Z.
  destruct (m_nvs x); [reflexivity|]. cbn in *. lia.
Qed.
Lemma idx_eq j : 0 < j < m_njoints m -> idx_v m j = idx_v m' j.
Proof.
  destruct sizes_eq as (E & _). induction j as [|j IH]; intros Hj; [lia|]. destruct (Nat.eq_dec j 0) as [->|Hn].
  - rewrite (idx_1 m W NM), (idx_1 m' W' NM') by lia. reflexivity.
  - rewrite (idx_v_next m W NM), (idx_v_next m' W' NM'), IH, nv_eq by lia. reflexivity.
Qed.
Lemma parent_eq j : 0 < j < m_njoints m -> parent m j = parent m' j.
Proof.
  intros Hj. destruct sizes_eq as (E & _ & EE & _). pose proof (wf_parent _ W j Hj) as P1. pose proof (wf_parent _ W' j ltac:(lia)) as P2.
  pose proof (proj1 (check_true m W T NM _) H) as [_ K]. destruct (joint_true m W (fresh m') j Hj (K j Hj)) as (c & _ & _ & _ & _ & _ & _ & R).
  apply (rows_true m W NM Vm Pos) in R; [|exact Hj].
  assert (R' : nth (idx_v m j) (s_par (fresh m')) 0%Z = if parent m' j =? 0 then (-1)%Z else (Z.of_nat (idx_v m' (parent m' j) + nvOf m' (parent m' j)) - 1)%Z).
  { rewrite idx_eq by exact Hj. rewrite <- (lastRow_eq m' W' NM' Vm') by lia. rewrite <- (idx_vE_v m' W' Vm' NM' j) by lia. unfold fresh; cbv zeta; cbn [s_par].
    rewrite nth_table by (apply (row_bound m' W' Pos'); lia). destruct (tables_inv m' W' Pos') as (Q & _). specialize (Q j 0 ltac:(lia) ltac:(lia) (Pos' j ltac:(lia))).
    rewrite Nat.add_0_r in Q. cbn [Nat.eqb] in Q. rewrite Q. destruct (parent m' j) as [|p] eqn:Ep; [reflexivity|]. cbn [ancestorWith Nat.ltb Nat.leb andb negb]. unfold lastCol, lastRow. reflexivity. }
  rewrite R in R'.
  assert (PV : forall p, 0 < p < m_njoints m -> 0 < nvOf m p) by (intros p Hp; rewrite <- (nvE_nv m W Vm p (NM p Hp) Hp); now apply Pos).
  destruct (Nat.eqb_spec (parent m j) 0) as [A|A], (Nat.eqb_spec (parent m' j) 0) as [B|B]; try lia.
  - pose proof (PV (parent m' j) ltac:(lia)). rewrite <- nv_eq in R' by lia. lia.
  - pose proof (PV (parent m j) ltac:(lia)). lia.
  - rewrite <- nv_eq, <- idx_eq in R' by lia. pose proof (PV (parent m j) ltac:(lia)). pose proof (PV (parent m' j) ltac:(lia)).
    destruct (Nat.lt_total (parent m j) (parent m' j)) as [L|[L|L]]; [|exact L|].
    + pose proof (idx_v_mono m W NM (parent m j) (parent m' j) ltac:(lia) L ltac:(lia)). lia.
    + pose proof (idx_v_mono m W NM (parent m' j) (parent m j) ltac:(lia) L ltac:(lia)). lia.
Qed.
Theorem other_same : sameTree m m' /\ depthFirst m.
Proof.
  destruct sizes_eq as (E1 & E2 & E3 & E4). split.
  - split; [now symmetry|]. split; [now symmetry|]. split; [now symmetry|]. intros j Hj. split; [now apply parent_eq|]. split; [now apply nv_eq | now apply idx_eq].
  - apply (check_sound m W T NM Vm Pos (fresh m') H). intros j Hj. now destruct (last_ge j Hj).
Qed.
End Other.

(* ---- statements for built models ---- *)
Theorem C85_new_lemma eps m : Built eps m -> validModel m -> noMimic m -> noRigidJoint m ->
  exists s b, newShape m = Some s /\ checkData m s = Some b /\ (b = true <-> depthFirst m).
Proof. exact (fun B Vm NM P => check_new m (Built_wf eps m B) (Built_tree eps m B) NM Vm P). Qed.
Theorem C85_other_lemma eps m m' s : Built eps m -> validModel m -> noMimic m -> noRigidJoint m -> Built eps m' -> validModel m' -> noMimic m' -> noRigidJoint m' ->
  newShape m' = Some s -> checkData m s = Some true -> sameTree m m' /\ depthFirst m.
Proof.
  intros B Vm NM P B' Vm' NM' P' E H. rewrite (newShape_fresh m' (Built_tree eps m' B') NM') in E. injection E as <-.
  exact (other_same m m' (Built_wf eps m B) (Built_tree eps m B) Vm NM P (Built_wf eps m' B') (Built_tree eps m' B') Vm' NM' P' H).
Qed.

(* ---- examples ---- *)
(* two prismatic joints in a chain *)
Definition ck2 : Model := okModel (addJoint chain1 1 pxJ se3_Identity "b" (exLim 1 1)) chain1.
Lemma ck2_built eps : Built eps ck2.
Proof.
  assert (H1 : History eps chain1 []).
  { apply (H_step eps emptyModel _ [] None); [constructor|]. apply (S_joint eps emptyModel _ 0 (JSimple (JPrismatic 0)) se3_Identity "a"%string (exLim 1 1) 1); [exact I|reflexivity]. }
  eexists. apply (H_step eps chain1 _ [] None); [exact H1|]. apply (S_joint eps chain1 _ 1 (JSimple (JPrismatic 0)) se3_Identity "b"%string (exLim 1 1) 2); [exact I|reflexivity].
Qed.
Lemma ck2_valid : validModel ck2.
Proof. intros i Hi. change (m_njoints ck2) with 3 in Hi. destruct i as [|[|[|i]]]; try lia; (split; [cbn; auto; lia | apply isRotation_id]). Qed.
Lemma ck2_noMimic : noMimic ck2.
Proof. intros i Hi. change (m_njoints ck2) with 3 in Hi. destruct i as [|[|[|i]]]; try lia; reflexivity. Qed.
Lemma ck2_pos : noRigidJoint ck2.
Proof. intros i Hi. change (m_njoints ck2) with 3 in Hi. destruct i as [|[|[|i]]]; try lia; cbn; lia. Qed.
(* the last joint of the subtree of joint 1 is said to be 0, and its subtree to have one dof *)
Definition setTables (s : Shape) (last nvs par nvr : list Z) : Shape :=
  mkShape (n_joints s) (n_a s) (n_a_gf s) (n_v s) (n_f s) (n_oMi s) (n_liMi s) (n_Ycrb s) (n_Yaba s) (c_Fcrb s) (n_iMf s) (n_com s) (n_vcom s) (n_acom s) (n_mass s)
    (n_tau s) (n_nle s) (n_ddq s) (n_u s) (r_M s) (c_M s) (c_Ag s) (c_U s) (r_U s) (n_D s) (n_tmp s) (c_J s) (c_Jcom s) (n_res s) (n_dqa s) (h0 s) (h1 s) (h2 s) (n_oMf s)
    last nvs par (s_mim s) par (n_red s) nvr (n_start s) (n_end s) (s_msub s).
Definition badTables : Shape := setTables (fresh ck2) [-1; 0; 2]%Z [0; 1; 1]%Z [-1; 0]%Z [1; 1]%Z.
Lemma bad_accepted : checkData ck2 badTables = Some true /\ nth 1 (s_last badTables) 0%Z = 0%Z /\ lastOf ck2 1 2 /\ nth 1 (s_nvs badTables) 0%Z = 1%Z /\ subtreeDofs ck2 1 = 2.
Proof.
  split; [reflexivity|]. split; [reflexivity|]. split; [|split; reflexivity]. pose proof (Built_tree 1 _ (ck2_built 1)) as T.
  split; [cbn; lia|]. split; [apply (anc_onPath ck2 T); [cbn; lia|reflexivity]|]. intros c Hc _. cbn in Hc. lia.
Qed.
(* a chain of two joints and a joint that mimics the first one *)
Definition ckM : Model := okModel (addJoint ck2 2 (mkMimic (JPrismatic 0) (joint ck2 1) 1 0) se3_Identity "c" (exLim 0 0)) ck2.
Lemma ckM_built eps : Built eps ckM.
Proof.
  destruct (ck2_built eps) as [l Hl]. exists l. apply (H_step eps ck2 _ l None); [exact Hl|].
  apply (S_mimic eps ck2 _ 2 (JPrismatic 0) 1 1 0 se3_Identity "c"%string (exLim 0 0) 3); try exact I; try reflexivity. cbn; lia.
Qed.
Lemma ckM_refused : exists s, newShape ckM = Some s /\ checkData ckM s = Some false /\ nth 1 (s_nvs s) 0%Z = 1%Z /\ subtreeDofs ckM 1 = 2.
Proof. eexists. split; [reflexivity|]. split; [reflexivity|]. split; reflexivity. Qed.
(* a joint, two mimics of it in a chain, and a last joint *)
Definition ckC2 : Model := okModel (addJoint chain1 1 (mkMimic (JPrismatic 0) (joint chain1 1) 1 0) se3_Identity "b" (exLim 0 0)) chain1.
Definition ckC3 : Model := okModel (addJoint ckC2 2 (mkMimic (JPrismatic 0) (joint ckC2 1) 1 0) se3_Identity "c" (exLim 0 0)) ckC2.
Definition ckC : Model := okModel (addJoint ckC3 3 pxJ se3_Identity "d" (exLim 1 1)) ckC3.
Lemma ckC_history eps : History eps ckC2 [] /\ History eps ckC3 [] /\ History eps ckC [].
Proof.
  assert (H1 : History eps chain1 []).
  { apply (H_step eps emptyModel _ [] None); [constructor|]. apply (S_joint eps emptyModel _ 0 (JSimple (JPrismatic 0)) se3_Identity "a"%string (exLim 1 1) 1); [exact I|reflexivity]. }
  assert (H2 : History eps ckC2 []).
  { apply (H_step eps chain1 _ [] None); [exact H1|]. apply (S_mimic eps chain1 _ 1 (JPrismatic 0) 1 1 0 se3_Identity "b"%string (exLim 0 0) 2); try exact I; try reflexivity. cbn; lia. }
  assert (H3 : History eps ckC3 []).
  { apply (H_step eps ckC2 _ [] None); [exact H2|]. apply (S_mimic eps ckC2 _ 2 (JPrismatic 0) 1 1 0 se3_Identity "c"%string (exLim 0 0) 3); try exact I; try reflexivity. cbn; lia. }
  split; [exact H2|]. split; [exact H3|].
  apply (H_step eps ckC3 _ [] None); [exact H3|]. apply (S_joint eps ckC3 _ 3 (JSimple (JPrismatic 0)) se3_Identity "d"%string (exLim 1 1) 4); [exact I|reflexivity].
Qed.
Lemma ckC_built eps : Built eps ckC.
Proof. exists []. apply ckC_history. Qed.
Lemma ckC3_built eps : Built eps ckC3.
Proof. exists []. apply ckC_history. Qed.
Lemma ckC_depthFirst : depthFirst ckC.
Proof. apply (crbaCheck_spec _ (Built_wf _ _ (ckC_built 1)) (Built_tree _ _ (ckC_built 1))). reflexivity. Qed.
Lemma ckM_depthFirst : depthFirst ckM.
Proof. apply (crbaCheck_spec _ (Built_wf _ _ (ckM_built 1)) (Built_tree _ _ (ckM_built 1))). reflexivity. Qed.
Lemma ckC_refused : exists s, newShape ckC = Some s /\ checkData ckC s = Some false /\ (forall j, 0 < j < 5 -> checkJoint ckC s j = Some true) /\ s_msub s = [4; 4].
Proof. eexists. split; [reflexivity|]. split; [reflexivity|]. split; [|reflexivity]. intros j Hj. destruct j as [|[|[|[|[|j]]]]]; try lia; reflexivity. Qed.
Lemma ckC3_undefined : newShape ckC3 = None.
Proof. reflexivity. Qed.
Lemma ck2_depthFirst : depthFirst ck2.
Proof. apply (crbaCheck_spec _ (Built_wf _ _ (ck2_built 1)) (Built_tree _ _ (ck2_built 1))). reflexivity. Qed.
