Require Import String.
Require Import Reals List Arith ZArith Lia Lra Bool.
From Verif Require Import Vec3 Spatial Inertia InertiaFacts Spec_Spatial SpatialFacts Joints Spec_Joints Deriv JointFacts JointFacts2 Model Spec_Model ModelFacts ModelTree ModelFacts2 ModelFacts3 Sums Data Kinematics Spec_Kin Spec_Mass KinFacts KinFacts2 KinFacts3 Spec_Dyn DynFacts DynFacts2 TreeSums MassFacts Crba CrbaFacts CrbaFacts2.
Import ListNotations.
Local Open Scope nat_scope.

Lemma v6_case v : v = v6zero \/ v <> v6zero.
Proof.
  destruct v as [a b]. unfold v6zero. destruct (v3_case a) as [->|Ha]; [|right; intros E; injection E; auto]. destruct (v3_case b) as [->|Hb]; [left; reflexivity | right; intros E; injection E; auto].
Qed.
(* ---- quadratic form ---- *)
Section Form.
Variable m : Model.
Hypothesis W : wellFormed m.
Hypothesis T : treeInv m.
Hypothesis Vm : validModel m.
Lemma armature_nonneg w : rotors m -> (0 <= armaturePower m w w)%R.
Proof.
  intros H. unfold armaturePower. apply sumN_nonneg. intros k Hk. rewrite Rmult_assoc. apply Rmult_le_pos; [now apply H | apply Rle_0_sqr].
Qed.
Theorem mass_psd q w : physical m -> rotors m -> (0 <= dotv (m_nv m) w (fun k => dotv (m_nv m) (massMatrix m q k) w))%R.
Proof.
  intros P Ro. rewrite (massMatrix_form m W T Vm). apply Rplus_le_le_0_compat; [|now apply armature_nonneg].
  unfold kineticForm, bodies. apply sumN_nonneg. intros k Hk. rewrite <- inertia_vtiv_spec. destruct (P (S k) ltac:(lia)). now apply inertia_vtiv_nonneg.
Qed.
Theorem mass_pd q w : validState m q -> noMimic m -> solid m -> rotors m -> regularJoints m q -> (exists k, k < m_nv m /\ w k <> 0%R) ->
  (0 < dotv (m_nv m) w (fun k => dotv (m_nv m) (massMatrix m q k) w))%R.
Proof.
  intros Hq NM P Ro Rg (k0 & Hk0 & Hw).
  assert (P' : physical m).
  { intros i Hi. destruct (P i Hi) as [A B]. split; [lra|]. intros x. destruct (v3_case x) as [->|Hx]; [|now apply Rlt_le, B]. rewrite v3dot_0_l. lra. }
  destruct (Rle_lt_or_eq_dec _ _ (mass_psd q w P' Ro)) as [H|H]; [exact H|]. exfalso.
  rewrite (massMatrix_form m W T Vm) in H. pose proof (armature_nonneg w Ro) as HA.
  assert (NN : forall k, k < m_njoints m - 1 -> (0 <= v6dot (bodyVel m q w (S k)) (inertia_mul (inertiaOf m (S k)) (bodyVel m q w (S k))))%R).
  { intros k Hk. rewrite <- inertia_vtiv_spec. destruct (P' (S k) ltac:(lia)). now apply inertia_vtiv_nonneg. }
  assert (K0 : kineticForm m q w w = 0%R) by (pose proof (sumN_nonneg _ _ NN) as HH; unfold kineticForm, bodies in *; lra).
  assert (V0 : forall i, i < m_njoints m -> bodyVel m q w i = v6zero).
  { intros [|i] Hi; [apply (bodyVel_0 m W T)|]. pose proof (sumN_nonneg_zero _ _ NN K0 i ltac:(lia)) as E. cbv beta in E. rewrite <- inertia_vtiv_spec in E.
    destruct (v6_case (bodyVel m q w (S i))) as [E'|E']; [exact E'|]. destruct (P (S i) ltac:(lia)). pose proof (inertia_vtiv_pos _ _ H0 H1 E'). lra. }
  destruct (dof_owner m W k0 Hk0) as (i & a & Hi & Ha & ->). apply Hw.
  pose proof (bodyVel_step m W T Vm q w i Hq Hi) as E. pose proof (wf_parent _ W i Hi). rewrite !V0 in E by lia. rewrite motion_actInv_0, v6add_0_r in E.
  exact (Rg i (shift (idx_v m i) w) Hi (eq_sym E) a Ha).
Qed.
End Form.

(* ---- dofs instead of joints ---- *)
Section Dofs.
Variables (eps : R) (m : Model).
Hypothesis W : wellFormed m.
Hypothesis T : treeInv m.
Hypothesis Vm : validModel m.
Hypothesis NM : noMimic m.
Lemma sameBranch_anc i a j c : 0 < i < m_njoints m -> a < nvOf m i -> 0 < j < m_njoints m -> c < nvOf m j -> idx_v m i + a <= idx_v m j + c ->
  sameBranch m (idx_v m i + a) (idx_v m j + c) <-> anc m i j = true.
Proof.
  intros Hi Ha Hj Hc Hle. rewrite (anc_onPath m T) by lia. split.
  - intros (i' & j' & (I1 & _ & I2) & (J1 & _ & J2) & H).
    assert (i = i') as <- by (apply (dof_unique m W NM i a i' (idx_v m i + a - idx_v m i') Hi I1 Ha); lia).
    assert (j = j') as <- by (apply (dof_unique m W NM j c j' (idx_v m j + c - idx_v m j') Hj J1 Hc); lia).
    destruct H as [H|H]; [exact H|]. apply (anc_onPath m T) in H; [|lia]. apply (anc_le m W T) in H; [|lia].
    destruct (Nat.eq_dec i j) as [->|Hn]; [apply (anc_onPath m T); [lia|]; apply (anc_self m W T); lia|].
    pose proof (idx_v_mono m W NM j i ltac:(lia) ltac:(lia) ltac:(lia)). lia.
  - intros H. exists i, j. split; [|split]; [| |now left]; (split; [assumption|]; split; [now apply NM | lia]).
Qed.
Lemma mass_off q k l : validState m q -> k < m_nv m -> l < m_nv m -> ~ sameBranch m k l -> massMatrix m q k l = 0%R.
Proof.
  intros Hq Hk Hl H. destruct (dof_owner m W k Hk) as (i & a & Hi & Ha & ->). destruct (dof_owner m W l Hl) as (j & c & Hj & Hc & ->).
  assert (O1 : ownsV m (idx_v m i + a) i) by (split; [exact Hi|]; split; [now apply NM | lia]).
  assert (O2 : ownsV m (idx_v m j + c) j) by (split; [exact Hj|]; split; [now apply NM | lia]).
  assert (N1 : anc m i j = false).
  { destruct (anc m i j) eqn:E; [|reflexivity]. exfalso. apply H. exists i, j. split; [exact O1|]. split; [exact O2|]. left. now apply (anc_onPath m T); [lia|]. }
  assert (N2 : anc m j i = false).
  { destruct (anc m j i) eqn:E; [|reflexivity]. exfalso. apply H. exists i, j. split; [exact O1|]. split; [exact O2|]. right. now apply (anc_onPath m T); [lia|]. }
  unfold massMatrix. rewrite (form_unit_off m W T Vm NM q i a j c Hq Hi Ha Hj Hc N1 N2).
  destruct (Nat.eqb_spec (idx_v m i + a) (idx_v m j + c)) as [E|]; [|ring].
  destruct (dof_unique m W NM i a j c Hi Hj Ha Hc E) as [-> _]. rewrite (anc_self m W T) in N1 by lia. discriminate.
Qed.
Definition upperIsMass (q : vec) (d d' : Data) : Prop := forall k l, k <= l < m_nv m ->
  (sameBranch m k l -> ma (gl d') F_M k l = massMatrix m q k l) /\ (~ sameBranch m k l -> massMatrix m q k l = 0%R /\ ma (gl d') F_M k l = ma (gl d) F_M k l).
Lemma upper_from q d d' : validState m q ->
  (forall i a j c, 0 < i < m_njoints m -> a < nvOf m i -> 0 < j < m_njoints m -> c < nvOf m j ->
    ma (gl d') F_M (idx_v m i + a) (idx_v m j + c) =
    if anc m i j then massMatrix m q (idx_v m i + a) (idx_v m j + c) else ma (gl d) F_M (idx_v m i + a) (idx_v m j + c)) ->
  upperIsMass q d d'.
Proof.
  intros Hq H k l Hkl. destruct (dof_owner m W k ltac:(lia)) as (i & a & Hi & Ha & ->). destruct (dof_owner m W l ltac:(lia)) as (j & c & Hj & Hc & ->).
  rewrite (H i a j c Hi Ha Hj Hc). pose proof (sameBranch_anc i a j c Hi Ha Hj Hc ltac:(lia)) as E. destruct (anc m i j) eqn:A.
  - split; [reflexivity|]. intros N. exfalso. apply N, E. reflexivity.
  - split; [intros B; apply E in B; discriminate|]. intros N. split; [apply mass_off; (exact Hq || lia || exact N) | reflexivity].
Qed.
Hypothesis RM : regularMasses eps m.
Hypothesis DF : depthFirst m.
Theorem crbaWorld_mass d q : validState m q -> exists d', crbaWorld eps m d q = Ok d' tt /\ upperIsMass q d d'.
Proof.
  intros Hq. destruct (crbaWorld_spec eps m W T Vm NM RM DF d q Hq) as (d' & E & H & _). exists d'. split; [exact E | now apply upper_from].
Qed.
Theorem crbaLocal_mass d q : validState m q -> exists d', crbaLocal eps m d q = Ok d' tt /\ upperIsMass q d d'.
Proof.
  intros Hq. destruct (crbaLocal_spec eps m W T Vm NM RM DF d q Hq) as (d' & E & H). exists d'. split; [exact E | now apply upper_from].
Qed.
End Dofs.

(* ---- CRBAChecker ---- *)
Section Check.
Variable m : Model.
Hypothesis W : wellFormed m.
Hypothesis T : treeInv m.
Lemma isDescendant_anc f j i : j <= f -> j < m_njoints m -> isDescendant m f j i = anc m i j.
Proof.
  revert j. induction f as [|f IH]; intros j Hf Hj.
  - assert (j = 0) as -> by lia. cbn [isDescendant]. destruct (Nat.leb_spec (m_njoints m) 0); [lia|]. rewrite (anc_0 m W T). reflexivity.
  - cbn [isDescendant]. destruct (Nat.leb_spec (m_njoints m) j); [lia|]. destruct (Nat.eqb_spec j 0) as [->|Hn]; [now rewrite (anc_0 m W T)|].
    rewrite (anc_step m W T i j) by lia. rewrite (Nat.eqb_sym i j). f_equal. pose proof (wf_parent _ W j ltac:(lia)). apply IH; lia.
Qed.
Lemma isDescendant_out f j i : m_njoints m <= j -> isDescendant m f j i = false.
Proof. intros H. destruct f; cbn [isDescendant]; destruct (Nat.leb_spec (m_njoints m) j); (reflexivity || lia). Qed.
Lemma skip_spec i n k : m_njoints m <= k + n -> let k' := skipDescendants m i k n in
  k <= k' /\ (forall j, k <= j < k' -> isDescendant m (m_njoints m) j i = true) /\ isDescendant m (m_njoints m) k' i = false.
Proof.
  revert k. induction n as [|n IH]; intros k H; cbn [skipDescendants].
  - split; [lia|]. split; [lia|]. apply isDescendant_out. lia.
  - destruct (isDescendant m (m_njoints m) k i) eqn:E.
    + destruct (IH (S k) ltac:(lia)) as (A & B & C). split; [lia|]. split; [|exact C]. intros j Hj. destruct (Nat.eq_dec j k) as [->|]; [exact E | apply B; lia].
    + split; [lia|]. split; [lia | exact E].
Qed.
Theorem crbaCheck_spec : crbaCheck m = true <-> depthFirst m.
Proof.
  unfold crbaCheck. rewrite forallb_forall. split.
  - intros H i b c Hi Hc P Hb. destruct (Nat.eq_dec i b) as [->|Hib]; [apply (anc_onPath m T); [lia|]; apply (anc_self m W T); lia|].
    destruct (Nat.eq_dec b c) as [->|Hbc]; [exact P|].
    assert (Hin : In i (seq 1 (m_njoints m - 2))) by (apply in_seq; lia). specialize (H i Hin). cbv zeta in H.
    destruct (skip_spec i (m_njoints m) (i + 1) ltac:(lia)) as (A & B & C). set (k := skipDescendants m i (i + 1) (m_njoints m)) in *. clearbody k.
    apply (anc_onPath m T) in P; [|lia]. rewrite forallb_forall in H.
    destruct (Nat.lt_ge_cases b k) as [Hbk|Hbk].
    + specialize (B b ltac:(lia)). rewrite isDescendant_anc in B by lia. apply (anc_onPath m T); [lia | exact B].
    + specialize (H c). rewrite isDescendant_anc in H by lia. rewrite P in H. cbn in H. assert (false = true) by (apply H, in_seq; lia). discriminate.
  - intros DF i Hi. apply in_seq in Hi. cbv zeta. rewrite forallb_forall. intros c Hc. apply in_seq in Hc.
    destruct (skip_spec i (m_njoints m) (i + 1) ltac:(lia)) as (A & B & C). set (k := skipDescendants m i (i + 1) (m_njoints m)) in *. clearbody k.
    rewrite isDescendant_anc by lia. destruct (anc m i c) eqn:E; [|reflexivity]. exfalso.
    assert (P : onPath m i k). { apply (DF i k c); try lia. apply (anc_onPath m T); [lia | exact E]. }
    apply (anc_onPath m T) in P; [|lia]. rewrite <- (isDescendant_anc (m_njoints m)) in P by lia. congruence.
Qed.
End Check.

(* ---- the mimicking pass reads before the beginning of the support when the mimicked joint is the first of the model ---- *)
Lemma wLoop1_first m i Ag s : jm_idx_v (joint m i) = 0 -> forall j d, crbaWLoop1 m i Ag s j d = Undef.
Proof. intros E. induction j as [|j IH]; intros d; cbn [crbaWLoop1]; rewrite E; cbn [Nat.leb]; destruct (_ || _); try reflexivity. apply IH. Qed.
Lemma lLoop1_first m i s : jm_idx_v (joint m i) = 0 -> forall j d, crbaLLoop1 m i s j d = Undef.
Proof. intros E. induction j as [|j IH]; intros d; cbn [crbaLLoop1]; rewrite E; cbn [Nat.leb]; destruct (_ || _); try reflexivity. apply IH. Qed.
Lemma mimicPass_undef step i l d : In i l -> (forall d, step d i = Undef) -> (forall d j s, step d j <> Throw s) -> mimicPass step l d = Undef.
Proof.
  intros Hi Hu Ht. revert d. induction l as [|a l IH]; intros d; [destruct Hi|]. cbn [mimicPass]. destruct Hi as [->|Hi]; [now rewrite Hu|].
  destruct (step d a) as [d' u|d'|] eqn:E; [now apply IH | exfalso; exact (Ht _ _ _ E) | reflexivity].
Qed.
Lemma wLoop1_noThrow m i Ag s j d x : crbaWLoop1 m i Ag s j d <> Throw x.
Proof. revert d. induction j as [|j IH]; intros d; cbn [crbaWLoop1]; destruct (_ <=? _); try discriminate; destruct (_ || _); try discriminate. apply IH. Qed.
Lemma lLoop1_noThrow m i s j d x : crbaLLoop1 m i s j d <> Throw x.
Proof. revert d. induction j as [|j IH]; intros d; cbn [crbaLLoop1]; destruct (_ <=? _); try discriminate; destruct (_ || _); try discriminate. apply IH. Qed.
Theorem crba_mimic_first eps m i d q : In i (m_mimicking m) -> jm_idx_v (joint m i) = 0 ->
  crbaWorld eps m d q = Undef /\ crbaLocal eps m d q = Undef.
Proof.
  intros Hi E. split.
  - unfold crbaWorld. rewrite (mimicPass_undef (crbaWMimic m) i); [reflexivity | exact Hi | |].
    + intros d'. unfold crbaWMimic. destruct (mimicSubtreeJoint m i); [|reflexivity]. now rewrite wLoop1_first.
    + intros d' j s. unfold crbaWMimic. destruct (mimicSubtreeJoint m j); [|discriminate].
      match goal with |- context [crbaWLoop1 ?a ?b ?c ?d ?e ?f] => pose proof (wLoop1_noThrow a b c d e f) as H; destruct (crbaWLoop1 a b c d e f) as [x y|x|] end; try discriminate.
      exfalso. exact (H x eq_refl).
  - unfold crbaLocal. rewrite (mimicPass_undef (crbaLMimic m) i); [reflexivity | exact Hi | |].
    + intros d'. unfold crbaLMimic. destruct (mimicSubtreeJoint m i); [|reflexivity]. now rewrite lLoop1_first.
    + intros d' j s. unfold crbaLMimic. destruct (mimicSubtreeJoint m j); [|discriminate]. apply lLoop1_noThrow.
Qed.

(* ---- a concrete tree without mimic joint: 1 revolute, 2 free flyer and 3 spherical on 1; one body on each ---- *)
Definition exD1 (eps : R) : Model := okModel (appendBodyToJoint eps ex3 1 exY1 se3_Identity) ex3.
Definition exD2 (eps : R) : Model := okModel (appendBodyToJoint eps (exD1 eps) 2 exY1 (mkSE3 m3id (mkV3 0 1 0))) (exD1 eps).
Definition exD (eps : R) : Model := okModel (appendBodyToJoint eps (exD2 eps) 3 exY1 (mkSE3 m3id (mkV3 0 1 0))) (exD2 eps).
Lemma exD_built eps : Built eps (exD eps).
Proof.
  assert (H1 : History eps ex1 []).
  { apply (H_step eps emptyModel _ [] None); [constructor|]. apply (S_joint eps emptyModel _ 0 (JSimple (JRevolute 2)) se3_Identity "a"%string (exLim 1 1) 1); [exact I|reflexivity]. }
  assert (H2 : History eps ex2 []).
  { apply (H_step eps ex1 _ [] None); [exact H1|]. apply (S_joint eps ex1 _ 1 (JSimple JFreeFlyer) (mkSE3 m3id (mkV3 1 2 3)) "b"%string (exLim 7 6) 2); [exact I|reflexivity]. }
  assert (H3 : History eps ex3 []).
  { apply (H_step eps ex2 _ [] None); [exact H2|]. apply (S_joint eps ex2 _ 1 (JSimple JSpherical) (mkSE3 m3id (mkV3 0 1 0)) "c"%string (exLim 4 3) 3); [exact I|reflexivity]. }
  assert (H4 := H_step eps ex3 (exD1 eps) _ _ H3 (S_body eps ex3 (exD1 eps) 1 exY1 se3_Identity eq_refl)).
  assert (H5 := H_step eps (exD1 eps) (exD2 eps) _ _ H4 (S_body eps (exD1 eps) (exD2 eps) 2 exY1 (mkSE3 m3id (mkV3 0 1 0)) eq_refl)).
  eexists. exact (H_step eps (exD2 eps) (exD eps) _ _ H5 (S_body eps (exD2 eps) (exD eps) 3 exY1 (mkSE3 m3id (mkV3 0 1 0)) eq_refl)).
Qed.
Lemma exD_shape eps : m_njoints (exD eps) = 4 /\ m_nv (exD eps) = 10 /\ m_nq (exD eps) = 12.
Proof. repeat split; reflexivity. Qed.
Lemma exD_types eps : (forall i, 0 < i < 4 -> jm_type (joint (exD eps) i) = nth i [JSimple (JRevolute 2); JSimple (JRevolute 2); JSimple JFreeFlyer; JSimple JSpherical] (JSimple (JRevolute 2)) /\
  idx_q (exD eps) i = nth i [0; 0; 1; 8] 0 /\ idx_v (exD eps) i = nth i [0; 0; 1; 7] 0).
Proof. intros i Hi. destruct i as [|[|[|[|i]]]]; try lia; repeat split; reflexivity. Qed.
Lemma exD_valid eps : validModel (exD eps).
Proof.
  intros i Hi. change (m_njoints (exD eps)) with 4 in Hi.
  destruct i as [|[|[|[|i]]]]; try lia; cbn; (split; [repeat split; auto; try lia; tauto | apply isRotation_id]).
Qed.
Lemma exD_noMimic eps : noMimic (exD eps).
Proof. intros i Hi. change (m_njoints (exD eps)) with 4 in Hi. destruct i as [|[|[|[|i]]]]; try lia; reflexivity. Qed.
Lemma exD_df eps : depthFirst (exD eps).
Proof.
  apply (crbaCheck_spec _ (Built_wf _ _ (exD_built eps)) (Built_tree _ _ (exD_built eps))). reflexivity.
Qed.
