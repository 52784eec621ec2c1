(* The universe frame, stale data, and a concrete tree with frames. *)
Require Import String FunctionalExtensionality.
Require Import Reals List Arith Lia Lra Bool.
From Verif Require Import Vec3 Spatial Inertia InertiaFacts Spec_Spatial Joints Spec_Joints Deriv JointFacts JointFacts2 Model Spec_Model ModelFacts ModelTree ModelFacts2 ModelFacts3 Sums Data Kinematics Spec_Kin Spec_Dyn Spec_Mass KinFacts KinFacts2 KinFacts3 Rnea DynFacts DynFacts2 TreeSums MassFacts Crba CrbaFacts CrbaFacts2 CrbaFacts3 CrbaFacts4 ComFacts3 Supported Spec_Supported SupportedFacts SupportedFacts2 SupportedFacts3.
Import ListNotations.
Local Open Scope nat_scope.

Lemma setMo_same r0 x : let r := setMo r0 F_f x in setMo r F_f (v6sub (mo r F_f) v6zero) = r.
Proof.
  cbv zeta. unfold setMo. cbn [mo pl yi m6 p3 sc jd jU jDinv jUDinv]. f_equal. apply functional_extensionality. intros t'. unfold put.
  destruct (MoT_beq F_f t'); [|reflexivity]. cbn [MoT_beq]. generalize x. sring.
Qed.
(* rnea without external forces is rnea with zero external forces *)
Lemma rnea_ext0 m d q v a : rneaDataExt m d q v a (fun _ => v6zero) = rneaData m d q v a.
Proof.
  unfold rneaDataExt, rneaData. do 3 f_equal. unfold rowStep. apply functional_extensionality. intros s. apply functional_extensionality. intros i. f_equal.
  cbv zeta. assert (H : exists r0 x, rneaRow m q v a i (rows s i) (rows s (parent m i)) = setMo r0 F_f x) by (unfold rneaRow; cbv zeta; do 2 eexists; reflexivity).
  destruct H as (r0 & x & ->). apply setMo_same.
Qed.

(* a frame fixed to the universe: the first joint is forgotten *)
Theorem universe_mass eps m d f : Built eps m -> framesOrdered m -> f < m_nframes m -> fr_parentJoint (frameAt m f) = 0 -> 1 < m_njoints m ->
  exists L K, enumerates L (carried m f) /\ enumerates (1 :: K) (fun b => 0 < b < m_njoints m) /\
  mass (computeSupportedInertiaByFrame eps m d f true) = (sumR (map (fun g => mass (fr_inertia (frameAt m g))) L) + sumR (map (fun b => mass (inertiaOf m b)) K))%R.
Proof.
  intros B FO Hf Ej Hn. pose proof (Built_tree eps m B) as T. destruct (frameInertias_sum eps m f FO Hf) as (L & En & E). exists (f :: L), (seq 2 (m_njoints m - 2)).
  split; [exact En|]. split.
  { assert (Es : 1 :: seq 2 (m_njoints m - 2) = seq 1 (m_njoints m - 1)) by (destruct (m_njoints m) as [|[|n]]; [lia|lia|]; cbn [Nat.sub]; rewrite Nat.sub_0_r; reflexivity).
    rewrite Es. split; [apply seq_NoDup|]. intros x. rewrite in_seq. lia. }
  unfold computeSupportedInertiaByFrame. rewrite Ej, (ti_subtree0 m T). cbn [negb]. rewrite actInv_mass.
  assert (G : forall (Y : nat -> Inertia) l I0, mass (fold_left (fun I x => inertia_pequ eps I (Y x)) l I0) = (mass I0 + sumR (map (fun x => mass (Y x)) l))%R).
  { intros Y l. unfold sumR. induction l as [|x l IH]; intros I0; cbn [fold_left map fold_right]; [ring|]. rewrite IH. unfold inertia_pequ at 1. cbn [mass]. ring. }
  rewrite G, act_mass, E, G. f_equal. f_equal. destruct (m_njoints m) as [|[|n]]; [lia|lia|]. cbn [Nat.sub seq skipn]. rewrite Nat.sub_0_r. reflexivity.
Qed.

Lemma shift_sum P x y s : orthogonal (rot P) -> v6sub (force_actInv P (v6add (force_act P x) s)) (force_actInv P (v6add (force_act P y) s)) = v6sub x y.
Proof. intros H. rewrite !force_actInv_add, !force_actInv_act by exact H. generalize (force_actInv P s). sring. Qed.
Lemma v6_cancel u A B g : v6sub (v6add u (v6sub A g)) (v6add u (v6sub B g)) = v6sub A B. Proof. sring. Qed.
Lemma actInv_sub P A B : motion_actInv P (v6sub A B) = v6sub (motion_actInv P A) (motion_actInv P B). Proof. sring. Qed.
(* rnea alone: the force depends on the acceleration left in the data by some earlier call *)
Section Stale.
Variables (eps : R) (m : Model).
Hypothesis B : Built eps m.
Hypothesis Vm : validModel m.
Let W : wellFormed m := Built_wf eps m B.
Let T : treeInv m := Built_tree eps m B.
Variables (q v a : vec) (f : nat).
Hypothesis Hq : validState m q.
Hypothesis Hf : f < m_nframes m.
Let j := fr_parentJoint (frameAt m f).
Let P := fr_placement (frameAt m f).
Hypothesis Hj : 0 < j.
Hypothesis RP : isRotation (rot P).
Theorem stale d A : let d2 := setRow d j (setMo (rows d j) F_a A) in
  v6sub (computeSupportedForceByFrame eps m (rneaData m d2 q v a) f) (computeSupportedForceByFrame eps m (rneaData m d q v a) f) =
  inertia_mul (computeSupportedInertiaByFrame eps m d f false) (motion_actInv P (v6sub A (mo (rows d j) F_a))).
Proof.
  cbv zeta. pose proof (joint_of_frame eps m B f Hf) as Hjn. fold j in Hjn. rewrite <- !rnea_ext0. set (fx := fun _ : nat => v6zero). set (d2 := setRow d j _).
  pose proof (rnea_rows eps m B Vm q v a fx Hq d) as R1. pose proof (rnea_rows eps m B Vm q v a fx Hq d2) as R2. cbv zeta in R1, R2.
  set (e1 := rneaDataExt m d q v a fx) in *. set (e2 := rneaDataExt m d2 q v a fx) in *. unfold computeSupportedForceByFrame. fold j P.
  change (computeSupportedInertiaByFrame eps m e2 f false) with (computeSupportedInertiaByFrame eps m d f false).
  change (computeSupportedInertiaByFrame eps m e1 f false) with (computeSupportedInertiaByFrame eps m d f false).
  set (fI := computeSupportedInertiaByFrame eps m d f false). rewrite !(fold_if_add (fun c => parent m c =? j)).
  assert (ES : sumV6 (map (fun c => if parent m c =? j then force_act (pl (rows e2 c) F_liMi) (mo (rows e2 c) F_f) else v6zero) (skipn 1 (subtree m j))) =
               sumV6 (map (fun c => if parent m c =? j then force_act (pl (rows e1 c) F_liMi) (mo (rows e1 c) F_f) else v6zero) (skipn 1 (subtree m j)))).
  { f_equal. apply map_ext_in. intros c Hc. destruct (parent m c =? j); [|reflexivity]. destruct (subtree_tl eps m B f Hf Hj) as [EK _]. fold j in EK.
    assert (Hcn : 0 < c < m_njoints m). { apply EK in Hc. destruct Hc as (K1 & K2 & K3). pose proof (proj2 (anc_onPath m T j c K1) K2) as H. pose proof (anc_le m W T j c K1 H). lia. }
    destruct (R1 c Hcn) as (_ & _ & C3 & _ & C5). destruct (R2 c Hcn) as (_ & _ & D3 & _ & D5). rewrite C3, D3. f_equal.
    pose proof (worldPl_rot m W T Vm q c Hq (proj2 Hcn)) as Rc. rewrite <- (force_actInv_act (worldPl m q c) (mo (rows e2 c) F_f) (proj1 Rc)), <- (force_actInv_act (worldPl m q c) (mo (rows e1 c) F_f) (proj1 Rc)).
    f_equal. apply v6_dot_ext. intros X. rewrite C5, D5. reflexivity. }
  match goal with |- v6sub (force_actInv P (v6add ?x ?s2)) (force_actInv P (v6add ?y ?s1)) = _ => replace s2 with s1 by (symmetry; exact ES) end. destruct (R1 j (conj Hj Hjn)) as (A1 & A2 & _ & A4 & _). destruct (R2 j (conj Hj Hjn)) as (B1 & B2 & _ & B4 & _).
  unfold getFrameVelocity, getFrameAcceleration. rewrite A1, A2, A4, B1, B2, B4.
  assert (E1 : pl (rows d2 j) F_oMi = pl (rows d j) F_oMi) by (unfold d2; mem; rewrite putn_same; mem; reflexivity).
  assert (E2 : mo (rows d2 j) F_a = A) by (unfold d2; mem; rewrite putn_same; mem; reflexivity). rewrite E1, E2.
  rewrite (shift_sum P _ _ _ (proj1 RP)), !inertia_mul_sub, v6_cancel, actInv_sub, inertia_mul_sub. reflexivity.
Qed.
End Stale.

(* the tree exD with three frames on joint 1: "t" carries "u", "w" is apart *)
Definition exFt : Frame := mkFrame "t" 1 0 (mkSE3 m3id (mkV3 0 0 1)) BODY exY1.
Definition exFu : Frame := mkFrame "u" 1 1 (mkSE3 m3id (mkV3 0 2 1)) BODY exY1.
Definition exFw : Frame := mkFrame "w" 1 0 (mkSE3 m3id (mkV3 1 0 0)) BODY exY1.
Definition withFrame (m : Model) (f : Frame) : Model := setFrames m (m_frames m ++ [f]) (S (m_nframes m)).
Definition exS (eps : R) : Model := withFrame (withFrame (withFrame (exD eps) exFt) exFu) exFw.
Lemma withFrame_built eps m f : Built eps m -> fr_parentJoint f < m_njoints m -> existFrame m (fr_name f) (fr_type f) = false -> Built eps (withFrame m f).
Proof.
  intros [l H] Hp He. exists l. apply (H_step eps m _ l None); [exact H|]. apply (S_frame_no_inertia eps m _ f (m_nframes m)). unfold addFrame.
  apply Nat.ltb_lt in Hp. rewrite Hp, He. reflexivity.
Qed.
Lemma exD_frames eps : m_frames (exD eps) = m_frames emptyModel /\ m_nframes (exD eps) = 1 /\ m_njoints (exD eps) = 4.
Proof. repeat split; reflexivity. Qed.
Lemma exS_built eps : Built eps (exS eps).
Proof.
  destruct (exD_frames eps) as (E1 & E2 & E3). apply withFrame_built; [apply withFrame_built; [apply withFrame_built; [apply exD_built| |]| |]| |];
    unfold withFrame, setFrames, existFrame; cbn [m_njoints m_frames]; rewrite ?E1, ?E3; try (cbn; lia); reflexivity.
Qed.
Lemma exS_ordered eps : framesOrdered (exS eps).
Proof. intros g Hg. change (m_nframes (exS eps)) with 4 in Hg. destruct g as [|[|[|[|g]]]]; try lia; cbn; lia. Qed.
Lemma exS_good : goodFrames (1/1000) (exS (1/1000)).
Proof.
  intros g Hg. change (m_nframes (exS (1/1000))) with 4 in Hg. destruct g as [|[|[|[|g]]]]; try lia; (split; [exact isRotation_id|]); cbn; unfold regularMass; lra.
Qed.
Lemma exS_all (s : R) : let m := exS (1/1000) in Built (1/1000) m /\ validModel m /\ framesOrdered m /\ goodFrames (1/1000) m /\ regularMasses (1/1000) m /\
  validState m (exQ s) /\ 1 < m_nframes m /\ 0 < fr_parentJoint (frameAt m 1) /\ carried m 1 2 /\ ~ carried m 1 3 /\ below m (fr_parentJoint (frameAt m 1)) 2.
Proof.
  cbv zeta. split; [apply exS_built|]. split; [exact (exD_valid (1/1000))|]. split; [apply exS_ordered|]. split; [apply exS_good|]. split; [exact exD_regularMasses|].
  split; [exact (exD_validState (1/1000) s)|]. split; [cbn; lia|]. split; [cbn; lia|]. split; [|split].
  - apply carried_on; [cbn; lia | reflexivity | apply carried_self].
  - intros H. inversion H as [E|g Hg Ej Hc E]. subst g. apply carried_ge in Hc; [cbn in Hc; lia | apply exS_ordered | cbn; lia].
  - split; [cbn; lia|]. split; [|cbn; lia]. apply (anc_onPath (exS (1/1000)) (Built_tree _ _ (exS_built _)) 1 2); [cbn; lia | reflexivity].
Qed.
Lemma exS_universe : let m := exS (1/1000) in framesOrdered m /\ 0 < m_nframes m /\ fr_parentJoint (frameAt m 0) = 0 /\ 1 < m_njoints m /\ mass (inertiaOf m 1) = 2%R.
Proof. cbv zeta. split; [apply exS_ordered|]. split; [cbn; lia|]. split; [reflexivity|]. split; [cbn; lia|]. cbn. ring. Qed.
Lemma exS_stale (s : R) (v a : vec) (d : Data) : exists d2, (forall i, i <> 1 -> rows d2 i = rows d i) /\
  computeSupportedForceByFrame (1/1000) (exS (1/1000)) (rneaData (exS (1/1000)) d2 (exQ s) v a) 1 <>
  computeSupportedForceByFrame (1/1000) (exS (1/1000)) (rneaData (exS (1/1000)) d (exQ s) v a) 1.
Proof.
  destruct (exS_all s) as (H1 & H2 & H3 & H4 & H5 & H6 & H7 & H8 & _).
  pose (A := v6add (mo (rows d 1) F_a) (mkV6 (mkV3 1 0 0) v3zero)). exists (setRow d 1 (setMo (rows d 1) F_a A)). split.
  { intros i Hi. mem. rewrite putn_other by congruence. reflexivity. }
  intros E. pose proof (stale (1/1000) (exS (1/1000)) H1 H2 (exQ s) v a 1 H6 H7 H8 isRotation_id d A) as S. cbv zeta in S.
  change (fr_parentJoint (frameAt (exS (1/1000)) 1)) with 1 in S. rewrite E in S.
  destruct (inertia_frame (1/1000) (exS (1/1000)) H1 H2 H3 H4 H5 (exQ s) 1 H6 H7 d) as (L & [NL CL] & EM & _).
  set (fI := computeSupportedInertiaByFrame (1/1000) (exS (1/1000)) d 1 false) in *.
  assert (M2 : mass fI = 4%R) by (unfold fI; cbn; ring).
  assert (SX : vx (lin (inertia_mul fI (motion_actInv (fr_placement (frameAt (exS (1/1000)) 1)) (v6sub A (mo (rows d 1) F_a))))) = 0%R).
  { rewrite <- S. generalize (computeSupportedForceByFrame (1/1000) (exS (1/1000)) (rneaData (exS (1/1000)) d (exQ s) v a) 1). intros x. ssimp. ring. }
  clear S E EM. unfold A in SX. generalize dependent (mo (rows d 1) F_a). intros x A SX. change (fr_placement (frameAt (exS (1/1000)) 1)) with (mkSE3 m3id (mkV3 0 0 1)) in SX.
  clearbody fI. destruct fI as [mm c Y]. cbn [mass] in M2. subst mm. cbv [inertia_mul motion_actInv v6sub v6add lin ang rot trans m3id m3tr m3vec v3sub v3add v3scale v3cross v3zero vx vy vz mass lever inertia] in SX. 
  destruct x as [[? ? ?] [? ? ?]]. cbv [m3vec v3dot] in SX. cbn in SX. lra.
Qed.
Lemma fk0_oMi eps m (B : Built eps m) d q : forall i, 0 < i < m_njoints m -> pl (rows (forwardKinematics0 m d q) i) F_oMi = worldPl m q i.
Proof. intros i Hi. apply (fk0_placed m (Built_wf eps m B) (Built_tree eps m B) d q); lia. Qed.
Lemma force_frame_free eps m (B : Built eps m) (Vm : validModel m) (FO : framesOrdered m) (GF : goodFrames eps m) (RM : regularMasses eps m) q v a f
  (Hq : validState m q) (Hf : f < m_nframes m) (Hj : 0 < fr_parentJoint (frameAt m f)) d :
  exists L K, enumerates L (carried m f) /\ enumerates K (below m (fr_parentJoint (frameAt m f))) /\
  force_act (worldFrame m q f) (computeSupportedForceByFrame eps m (rneaData m (forwardKinematics2 m d q v a) q v a) f) =
  v6add (sumV6 (map (frameWrench m q v a) L)) (sumV6 (map (jointWrench m q v a (fun _ => v6zero)) K)).
Proof. rewrite <- rnea_ext0. apply (force_frame eps m B Vm q v a (fun _ => v6zero) Hq FO GF RM f Hf Hj d). Qed.
