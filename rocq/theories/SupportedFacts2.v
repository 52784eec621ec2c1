(* The supported inertia and force are those of the bodies that the frame carries and of the joints below. *)
Require Import Reals List Arith Lia Lra Bool.
From Verif Require Import Vec3 Spatial Inertia InertiaFacts Spec_Spatial Joints Deriv JointFacts JointFacts2 Model Spec_Model ModelFacts ModelTree ModelFacts2 ModelFacts3 Sums Data Kinematics Spec_Kin Spec_Dyn Spec_Mass KinFacts KinFacts2 Rnea DynFacts DynFacts2 TreeSums MassFacts CrbaFacts CrbaFacts2 Supported Spec_Supported SupportedFacts.
Import ListNotations.
Local Open Scope nat_scope.

Lemma momentumAt_act Q Y V : isRotation (rot Q) -> momentumAt Q Y V = inertia_mul (inertia_act Q Y) V.
Proof.
  intros H. unfold momentumAt. rewrite <- (inertia_act_mul Q Y (motion_actInv Q V) H). now rewrite motion_act_actInv by apply H.
Qed.
Lemma wrench_world Q Y V A G : isRotation (rot Q) ->
  force_act Q (v6add (inertia_mul Y (v6sub A (motion_actInv Q G))) (force_cross V (inertia_mul Y V))) =
  v6add (momentumAt Q Y (v6sub (motion_act Q A) G)) (force_cross (motion_act Q V) (momentumAt Q Y (motion_act Q V))).
Proof.
  intros H. rewrite force_act_add, force_act_cross by exact H. rewrite !(momentumAt_act Q Y _ H).
  rewrite <- (motion_act_actInv Q G (proj1 H)) at 2. rewrite <- motion_act_sub, !(inertia_act_mul Q Y _ H). reflexivity.
Qed.
Lemma motion_act_chain A B v : isRotation (rot A) -> isRotation (rot B) -> motion_act (se3_mul A B) (motion_actInv B v) = motion_act A v.
Proof. intros HA HB. rewrite motion_act_mul by exact HA. now rewrite motion_act_actInv by apply HB. Qed.

Section Supp.
Variables (eps : R) (m : Model).
Hypothesis B : Built eps m.
Hypothesis Vm : validModel m.
Let W : wellFormed m := Built_wf eps m B.
Let T : treeInv m := Built_tree eps m B.
Hypothesis FO : framesOrdered m.
Hypothesis GF : goodFrames eps m.
Hypothesis RM : regularMasses eps m.
Variables (q : vec) (f : nat).
Hypothesis Hq : validState m q.
Hypothesis Hf : f < m_nframes m.
Let j := fr_parentJoint (frameAt m f).
Let P := fr_placement (frameAt m f).
Lemma joint_of_frame : j < m_njoints m.
Proof. destruct (wf_frames m W) as [E H]. apply H. unfold frameAt. apply nth_In. rewrite <- E. exact Hf. Qed.
Lemma carried_joint g : carried m f g -> fr_parentJoint (frameAt m g) = j.
Proof. intros H. destruct H; [reflexivity | assumption]. Qed.
Lemma HW : isRotation (rot (worldPl m q j)).
Proof. apply (worldPl_rot m W T Vm); [exact Hq | exact joint_of_frame]. Qed.
Lemma HP g : carried m f g -> isRotation (rot (fr_placement (frameAt m g))).
Proof. intros H. apply GF. apply (carried_ge m f FO Hf). exact H. Qed.
Lemma HWP g : carried m f g -> isRotation (rot (worldFrame m q g)).
Proof. intros H. unfold worldFrame. cbn [rot se3_mul]. apply isRotation_mul; [rewrite (carried_joint g H); exact HW | exact (HP g H)]. Qed.

(* the frames *)
Lemma frames_world : exists L, enumerates L (carried m f) /\ regularMass eps (mass (frameInertias eps m f)) /\
  mass (frameInertias eps m f) = sumR (map (fun g => mass (fr_inertia (frameAt m g))) L) /\
  forall V, inertia_mul (inertia_act (worldPl m q j) (frameInertias eps m f)) V = sumV6 (map (frameMomentum m q V) L).
Proof.
  destruct (frameInertias_sum eps m f FO Hf) as (L & En & E). exists (f :: L). split; [exact En|]. destruct En as [N C].
  assert (HC : forall x, In x L -> carried m f x) by (intros x Hx; apply C; right; exact Hx).
  assert (R0 : regularMass eps (mass (placedY m f))) by (apply (GF f Hf)).
  assert (RL : forall x, In x L -> regularMass eps (mass (placedY m x))) by (intros x Hx; apply (GF x), (carried_ge m f FO Hf), HC, Hx).
  destruct (pequ_list eps (placedY m) L (placedY m f) (proj1 RM) R0 RL) as (A1 & A2 & A3). rewrite E. split; [exact A1|]. split; [exact A2|].
  intros V. rewrite <- (momentumAt_act _ _ V HW). unfold momentumAt. rewrite A3, force_act_add.
  rewrite (sumV6_map_lin (force_act (worldPl m q j))) by first [apply force_act_0 | apply force_act_add].
  assert (One : forall g, carried m f g -> force_act (worldPl m q j) (inertia_mul (placedY m g) (motion_actInv (worldPl m q j) V)) = frameMomentum m q V g).
  { intros g Hg. unfold frameMomentum. rewrite (momentumAt_act _ _ V (HWP g Hg)). unfold worldFrame. rewrite (carried_joint g Hg).
    rewrite inertia_act_compose by (exact HW || exact (HP g Hg)). rewrite <- (momentumAt_act (worldPl m q j) _ V HW). reflexivity. }
  cbn [map sumV6]. rewrite (One f (carried_self m f)). f_equal. f_equal. apply map_ext_in. intros g Hg. apply One, HC, Hg.
Qed.
Lemma act_mass M Y : mass (inertia_act M Y) = mass Y. Proof. reflexivity. Qed.
Lemma actInv_mass M Y : mass (inertia_actInv M Y) = mass Y. Proof. reflexivity. Qed.
Lemma at_frame Y V : momentumAt (worldFrame m q f) (inertia_actInv (worldFrame m q f) Y) V = inertia_mul Y V.
Proof. rewrite momentumAt_act by apply HWP, carried_self. now rewrite inertia_act_actInv by apply HWP, carried_self. Qed.
Lemma at_frame_local Y V : momentumAt (worldFrame m q f) (inertia_actInv P Y) V = inertia_mul (inertia_act (worldPl m q j) Y) V.
Proof.
  rewrite momentumAt_act by apply HWP, carried_self. unfold worldFrame. fold j P. pose proof (HP f (carried_self m f)) as H. fold P in H.
  rewrite inertia_act_compose by (exact HW || exact H). now rewrite inertia_act_actInv by exact H.
Qed.

Theorem inertia_frame d : exists L, enumerates L (carried m f) /\
  let I := computeSupportedInertiaByFrame eps m d f false in
  mass I = sumR (map (fun g => mass (fr_inertia (frameAt m g))) L) /\
  forall V, momentumAt (worldFrame m q f) I V = sumV6 (map (frameMomentum m q V) L).
Proof.
  destruct frames_world as (L & En & _ & Em & E). exists L. split; [exact En|]. cbv zeta. unfold computeSupportedInertiaByFrame. fold j P. cbn [negb]. split.
  - rewrite actInv_mass. exact Em.
  - intros V. rewrite at_frame_local. apply E.
Qed.
Hypothesis Hj : 0 < j.
Lemma subtree_tl : enumerates (skipn 1 (subtree m j)) (below m j) /\ subtree m j = j :: skipn 1 (subtree m j).
Proof.
  destruct (subtree_spec m j j W T (conj Hj joint_of_frame)) as (_ & (l & E) & N). rewrite E in *. cbn [skipn]. split; [|reflexivity].
  inversion N as [|x l' Nx Nl]; subst. split; [exact Nl|]. intros b.
  destruct (subtree_spec m j b W T (conj Hj joint_of_frame)) as (S1 & _ & _). rewrite E in S1. cbn [In] in S1. unfold below. split.
  - intros H. destruct (proj1 S1 (or_intror H)) as [A1 A2]. split; [exact A1|]. split; [exact A2|]. intros ->. contradiction.
  - intros (A1 & A2 & A3). destruct (proj2 S1 (conj A1 A2)) as [H|H]; [congruence | exact H].
Qed.
Theorem inertia_subtree d : (forall i, 0 < i < m_njoints m -> pl (rows d i) F_oMi = worldPl m q i) ->
  exists L K, enumerates L (carried m f) /\ enumerates K (below m j) /\
  let I := computeSupportedInertiaByFrame eps m d f true in
  mass I = (sumR (map (fun g => mass (fr_inertia (frameAt m g))) L) + sumR (map (fun b => mass (inertiaOf m b)) K))%R /\
  forall V, momentumAt (worldFrame m q f) I V = v6add (sumV6 (map (frameMomentum m q V) L)) (sumV6 (map (jointMomentum m q V) K)).
Proof.
  intros Pl. destruct frames_world as (L & En & Rg & Em & E). destruct subtree_tl as [EK _]. exists L, (skipn 1 (subtree m j)). split; [exact En|]. split; [exact EK|].
  cbv zeta. unfold computeSupportedInertiaByFrame. fold j P. cbn [negb]. rewrite (Pl j (conj Hj joint_of_frame)).
  assert (HK : forall b, In b (skipn 1 (subtree m j)) -> 0 < b < m_njoints m).
  { intros b Hb. apply EK in Hb. destruct Hb as (H1 & H2 & H3). pose proof (proj2 (anc_onPath m T j b H1) H2) as H. pose proof (anc_le m W T j b H1 H). lia. }
  assert (RL : forall b, In b (skipn 1 (subtree m j)) -> regularMass eps (mass (inertia_act (pl (rows d b) F_oMi) (inertiaOf m b)))).
  { intros b Hb. rewrite act_mass. apply (proj2 RM), HK, Hb. }
  destruct (pequ_list eps (fun b => inertia_act (pl (rows d b) F_oMi) (inertiaOf m b)) _ (inertia_act (worldPl m q j) (frameInertias eps m f)) (proj1 RM) Rg RL) as (_ & A2 & A3). split.
  - rewrite actInv_mass, A2, act_mass, Em. reflexivity.
  - intros V. change (se3_mul (worldPl m q j) P) with (worldFrame m q f). rewrite at_frame, A3, E. f_equal. f_equal. apply map_ext_in. intros b Hb.
    rewrite (Pl b (HK b Hb)). unfold jointMomentum. rewrite momentumAt_act by (apply (worldPl_rot m W T Vm); [exact Hq | apply HK in Hb; lia]). reflexivity.
Qed.
End Supp.
