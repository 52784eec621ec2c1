(* Models where parts of computeAllTerms are not what the other algorithms give. *)
Require Import Reals List Arith ZArith Lia Lra Bool.
From Verif Require Import Vec3 Spatial Inertia InertiaFacts SpatialFacts Joints Spec_Joints JointFacts Model Spec_Model ModelFacts ModelTree ModelFacts2 ModelFacts3 Sums Data Kinematics Spec_Kin Spec_Mass KinFacts KinFacts2 KinFacts3 Spec_Dyn Rnea DynFacts DynFacts2 MassFacts Crba CrbaFacts2 CrbaFacts3 CrbaFacts4 Spec_Com Com ComFacts3 ComFacts5 Centroidal CentFacts DccrbaFacts3 AllTerms AllTermsFacts2 AllTermsFacts3.
Import ListNotations.
Local Open Scope nat_scope.

(* the same model with another gravity *)
Definition withGravity (m : Model) (g : Motion) : Model := setGravityArmature m g (m_armature m).
Lemma withGravity_path m g j l : path m j l <-> path (withGravity m g) j l.
Proof. split; intros H; induction H; constructor; assumption. Qed.
Lemma withGravity_on m g k j : onPath m k j <-> onPath (withGravity m g) k j.
Proof. unfold onPath. split; intros (l & H & HI); exists l; (split; [now apply (withGravity_path m g) | exact HI]). Qed.
Lemma withGravity_all eps m g q : Built eps m -> validModel m -> noMimic m -> depthFirst m -> regularMasses eps m -> validState m q ->
  Built eps (withGravity m g) /\ validModel (withGravity m g) /\ noMimic (withGravity m g) /\ depthFirst (withGravity m g) /\ regularMasses eps (withGravity m g) /\ validState (withGravity m g) q /\ subtreeMass (withGravity m g) 0 = subtreeMass m 0.
Proof.
  intros B V N D RM Q. split.
  { destruct B as (l & H). pose proof (Built_wf eps m (ex_intro _ l H)) as W. eexists. refine (H_step eps m _ l None H _). refine (S_set eps m _ g (m_armature m) _ eq_refl). exact (proj1 (wf_dofs _ W)). }
  split; [exact V|]. split; [exact N|]. split; [intros i b c Hi Hc Ho Hb; apply (withGravity_on m g); apply (D i b c Hi Hc); [now apply (withGravity_on m g) | exact Hb]|]. split; [exact RM|]. split; [exact Q|reflexivity].
Qed.

Theorem twice_refuted (d : Data) : exists m q v, Built (1/1000) m /\ validModel m /\ noMimic m /\ depthFirst m /\ regularMasses (1/1000) m /\ subtreeMass m 0 <> 0%R /\ validState m q /\
  let e := computeAllTerms (1/1000) m d q v in gv (gl (computeAllTerms (1/1000) m e q v)) F_dhg <> gv (gl e) F_dhg.
Proof.
  destruct (exD_all 0) as (B & V & N & D & RM & Q & _). pose proof exD_masses as HM.
  exists (exD (1/1000)), (exQ 0), (fun _ => 0%R). repeat (split; [assumption|]). cbv zeta. intros H. apply (f_equal lin) in H.
  rewrite (cat_twice (1/1000) (exD (1/1000)) B V N RM D HM d (exQ 0) eq_refl Q) in H.
  set (x := lin (gv (gl (computeAllTerms (1/1000) (exD (1/1000)) d (exQ 0) (fun _ => 0%R))) F_dhg)) in H. clearbody x.
  assert (G : vz (lin (m_gravity (exD (1/1000)))) <> 0%R) by (change (vz (lin (m_gravity (exD (1/1000))))) with (-981/100)%R; lra).
  apply (f_equal vz) in H. cbn [v3sub v3scale vz] in H.
  assert (Z : (subtreeMass (exD (1/1000)) 0 * vz (lin (m_gravity (exD (1/1000)))) = 0)%R) by lra. apply Rmult_integral in Z. destruct Z; contradiction.
Qed.
(* on fresh Data dhg is the rate of the momentum less the weight *)
Theorem rate_refuted (d0 : Data) : exists m q v, Built (1/1000) m /\ validModel m /\ noMimic m /\ depthFirst m /\ regularMasses (1/1000) m /\ subtreeMass m 0 <> 0%R /\ validState m q /\
  gv (gl (computeAllTerms (1/1000) m (newData m) q v)) F_dhg <> gv (gl (computeCentroidalMomentumTimeVariation m d0 q v (fun _ => 0%R))) F_dhg.
Proof.
  destruct (exD_all 0) as (B & V & N & D & RM & Q & _). pose proof exD_masses as HM.
  exists (exD (1/1000)), (exQ 0), (fun _ => 0%R). repeat (split; [assumption|]). intros H. apply (f_equal lin) in H.
  set (m := exD (1/1000)) in *. pose proof (Built_wf _ _ B) as W. pose proof (Built_tree _ _ B) as T.
  rewrite (cat_dhg (1/1000) m B V N RM D HM _ (exQ 0) _ Q) in H. unfold atPoint in H. cbn [lin v6add] in H.
  destruct (variation_spec m W T V (exQ 0) (fun _ => 0%R) (fun _ => 0%R) d0 Q HM) as (_ & _ & _ & E). rewrite E in H. unfold atPoint in H. cbn [lin] in H. clear E.
  rewrite (rest_forces (1/1000) m B V (exQ 0) eq_refl Q) in H. change (mo (rows (newData m) 0) F_f) with v6zero in H.
  assert (Z : lin (subBodies6 m 0 (fun i => force_act (worldPl m (exQ 0) i) (v6add (inertia_mul (inertiaOf m i) (bodyAcc m (exQ 0) (fun _ => 0%R) (fun _ => 0%R) i))
        (force_cross (bodyVel m (exQ 0) (fun _ => 0%R) i) (inertia_mul (inertiaOf m i) (bodyVel m (exQ 0) (fun _ => 0%R) i)))))) = v3zero).
  { apply v3_dot_ext. intros e. unfold subBodies6. cbn [lin]. rewrite subBodies3_dot. unfold subBodies, bodies. rewrite sumN_zero; [unfold v3dot; cbn; ring|]. intros k Hk.
    rewrite (bodyAcc_rest m W T V (exQ 0) (S k)) by lia. rewrite (bodyVel_zero m (exQ 0) (S k)), force_cross_0_l, inertia_mul_0. destruct (inSubtree m 0 (S k)); [|reflexivity].
    generalize (worldPl m (exQ 0) (S k)). clear. intros M. unfold v3dot; cbn; ring. }
  rewrite Z in H. assert (G : vz (lin (m_gravity m)) = (-981/100)%R) by reflexivity. apply (f_equal vz) in H. cbn [v3add v3scale vz v3zero v6zero lin] in H. rewrite G in H.
  assert (subtreeMass m 0 = 0)%R by lra. contradiction.
Qed.
(* an angular part of the gravity is left out of g *)
Theorem angular_refuted (d d0 : Data) : exists m q v k, Built (1/1000) m /\ validModel m /\ noMimic m /\ depthFirst m /\ regularMasses (1/1000) m /\ subtreeMass m 0 <> 0%R /\ validState m q /\ k < m_nv m /\
  ve (gl (computeAllTerms (1/1000) m d q v)) F_g k <> computeGeneralizedGravity m d0 q k.
Proof.
  destruct (one_all JSphericalZYX (or_introl eq_refl)) as (B & V & N & RM & Q & HM & N2 & E & P & J & I0 & N3 & S1).
  set (g := mkV6 v3zero (mkV3 0 0 1)).
  assert (D : depthFirst (one JSphericalZYX)).
  { intros i b c Hi Hc Ho Hb. rewrite N2 in Hc. replace b with c by lia. exact Ho. }
  destruct (withGravity_all (1/1000) _ g zeroV B V N D RM Q) as (B' & V' & N' & D' & RM' & Q' & HM'). rewrite HM in HM'.
  assert (H0 : subtreeMass (withGravity (one JSphericalZYX) g) 0 <> 0%R) by (rewrite HM'; lra).
  assert (Hk : 0 < m_nv (withGravity (one JSphericalZYX) g)) by (change (0 < m_nv (one JSphericalZYX)); rewrite N3; lia).
  exists (withGravity (one JSphericalZYX) g), zeroV, zeroV, 0. repeat (split; [assumption|]).
  assert (N2' : m_njoints (withGravity (one JSphericalZYX) g) = 2) by exact N2. assert (E' : inertiaOf (withGravity (one JSphericalZYX) g) 1 = oneBody) by exact E.
  assert (P' : worldPl (withGravity (one JSphericalZYX) g) zeroV 1 = se3_Identity) by exact P. assert (S1' : tl (support (withGravity (one JSphericalZYX) g) 1) = [1]) by exact S1.
  assert (I0' : idx_v (withGravity (one JSphericalZYX) g) 1 = 0) by exact I0.
  assert (T1 : jm_type (joint (withGravity (one JSphericalZYX) g) 1) = JSimple JSphericalZYX) by reflexivity.
  assert (G1 : m_gravity (withGravity (one JSphericalZYX) g) = g) by reflexivity.
  set (m := withGravity (one JSphericalZYX) g) in *. clearbody m. pose proof (Built_wf _ _ B') as W. pose proof (Built_tree _ _ B') as T.
  destruct (cat_all (1/1000) m W T V' N' RM' D' H0 zeroV zeroV d Q') as (_ & _ & _ & _ & K & _). destruct (K 0 Hk) as (_ & _ & _ & _ & ->).
  rewrite <- (dotv_unit (m_nv m) 0 (computeGeneralizedGravity m d0 zeroV) Hk), (gravity_power m W T V' d0 zeroV _ Q'). rewrite G1.
  unfold power, bodies. rewrite N2'. cbn [Nat.sub sumN]. unfold weight, gravityAt. rewrite P', E', G1.
  assert (BV : bodyVel m zeroV (unitv 0) 1 = mkV6 v3zero (mkV3 0 0 1)).
  { unfold bodyVel. rewrite S1'. cbn [map sumV6]. rewrite P'. unfold jointTwist. rewrite I0'. unfold jointAt. rewrite T1. cbn [jcalc jS calcS1].
    unfold zeroV, shift. cbn. unfold shift. rewrite ?sin_0, ?cos_0. unfold unitv. apply v6_ext; apply v3_ext; cbn; ring. }
  rewrite BV. unfold g, oneBody, v6dot, v3dot. cbn. lra.
Qed.
Lemma exD_gravity0 (s : R) : let m := withGravity (exD (1/1000)) v6zero in Built (1/1000) m /\ validModel m /\ noMimic m /\ depthFirst m /\ regularMasses (1/1000) m /\ validState m (exQ s) /\ subtreeMass m 0 <> 0%R /\
  m_gravity m = v6zero /\ mo (rows (newData m) 0) F_f = v6zero.
Proof.
  cbv zeta. destruct (exD_all s) as (B & V & N & D & RM & Q & _). pose proof exD_masses as HM.
  destruct (withGravity_all (1/1000) _ v6zero (exQ s) B V N D RM Q) as (B' & V' & N' & D' & RM' & Q' & HM').
  split; [exact B'|]. split; [exact V'|]. split; [exact N'|]. split; [exact D'|]. split; [exact RM'|]. split; [exact Q'|]. split; [rewrite HM'; exact HM|]. split; reflexivity.
Qed.
