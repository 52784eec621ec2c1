(* Centre of mass, energies and centroidal quantities of built models. *)
Require Import Reals String List Arith ZArith Lia Lra Bool.
From Verif Require Import Vec3 Spatial Inertia InertiaFacts Joints Spec_Joints Deriv JointFacts JointFacts2 Model Spec_Model ModelFacts ModelTree ModelFacts2 ModelFacts3 Sums Data Kinematics Spec_Kin Spec_Mass KinFacts KinFacts2 KinFacts3 Spec_Dyn Rnea DynFacts DynFacts2 TreeSums MassFacts Crba CrbaFacts CrbaFacts2 CrbaFacts3 CrbaFacts4 Spec_Jac JacFacts JacFacts3 Spec_Com Com ComFacts ComFacts2 ComFacts3 ComFacts4 Centroidal CentFacts CentFacts2 ComFacts5.
Import ListNotations.
Local Open Scope nat_scope.
Section Built.
Variable eps : R.
Variable m : Model.
Hypothesis B : Built eps m.
Hypothesis Vm : validModel m.
Let W := Built_wf _ _ B.
Let T := Built_tree _ _ B.

Lemma b_com0 d q sub : subtreeMass m 0 <> 0%R -> exists d', centerOfMass0 m d q sub = Ok d' (subtreeCom m q 0) /\
  (forall j, j < m_njoints m -> sc (rows d' j) F_mass = subtreeMass m j) /\ p3 (rows d' 0) F_com = subtreeCom m q 0 /\
  (forall j, j < m_njoints m -> subtreeMass m j <> 0%R -> sub = true -> se3_actPoint (worldPl m q j) (p3 (rows d' j) F_com) = subtreeCom m q j).
Proof.
  intros HM. destruct (com_spec m W T 0 sub q _ ltac:(lia) (fk0_placed m W T d q) HM) as (d' & E & A1 & A2 & _). exists d'. split; [exact E|]. split; [exact A1|]. split; [|auto].
  rewrite <- (A2 0) by (auto; pose proof (wf_n _ W); lia). rewrite (worldPl_0 m W T). unfold se3_actPoint. apply v3_ext; cbn; ring.
Qed.
Lemma b_com1 (q : R -> vec) v t d sub : subtreeMass m 0 <> 0%R -> (forall s, validState m (q s)) -> moves m q v t ->
  exists d', centerOfMass1 m d (q t) v sub = Ok d' (subtreeCom m (q t) 0) /\ deriv3 (fun s => subtreeCom m (q s) 0) (p3 (rows d' 0) F_vcom) t /\
  (forall j, j < m_njoints m -> subtreeMass m j <> 0%R -> sub = true -> deriv3 (fun s => subtreeCom m (q s) j) (m3vec (rot (worldPl m (q t) j)) (p3 (rows d' j) F_vcom)) t).
Proof.
  intros HM Hq Hm. destruct (com_spec m W T 1 sub (q t) _ ltac:(lia) (fk1_placed m W T d (q t) v) HM) as (d' & E & _ & _ & A3 & _).
  destruct (fk1_vel m W d (q t) v) as (V0 & V1 & _). pose proof (vel_body m W T Vm (q t) v _ (Hq t) V0 V1) as HV.
  exists d'. split; [exact E|].
  assert (G : forall j, j < m_njoints m -> j = 0 \/ sub = true -> deriv3 (fun s => subtreeCom m (q s) j) (m3vec (rot (worldPl m (q t) j)) (p3 (rows d' j) F_vcom)) t).
  { intros j Hj Hs. rewrite (A3 v j (le_n 1)); auto; [|intros i Hi; apply HV; lia]. apply (subtreeCom_deriv m W T Vm); auto. }
  split; [|auto]. pose proof (G 0 ltac:(pose proof (wf_n _ W); lia) (or_introl eq_refl)) as G0. rewrite (worldPl_0 m W T) in G0.
  eapply deriv3_eq; [exact G0|]. apply v3_ext; cbn; ring.
Qed.
Lemma b_com2 (q v : R -> vec) a t d (sub : bool) : subtreeMass m 0 <> 0%R -> (forall s, validState m (q s)) -> (forall s, moves m q (v s) s) -> accelerates m v a t ->
  exists d' (vel : R -> nat -> V3), centerOfMass2 m d (q t) (v t) a sub = Ok d' (subtreeCom m (q t) 0) /\
  (forall s j, j < m_njoints m -> subtreeMass m j <> 0%R -> deriv3 (fun s => subtreeCom m (q s) j) (vel s j) s) /\
  p3 (rows d' 0) F_vcom = vel t 0 /\ deriv3 (fun s => vel s 0) (p3 (rows d' 0) F_acom) t /\
  (forall j, j < m_njoints m -> subtreeMass m j <> 0%R -> sub = true -> m3vec (rot (worldPl m (q t) j)) (p3 (rows d' j) F_vcom) = vel t j /\ 
     deriv3 (fun s => vel s j) (m3vec (rot (worldPl m (q t) j)) (p3 (rows d' j) F_acom)) t).
Proof.
  intros HM Hq Hm Ha. destruct (fk2_all m W T d (q t) (v t) a) as (HP & V0 & A0 & V1 & AE).
  pose proof (vel_body m W T Vm (q t) (v t) _ (Hq t) V0 V1) as HV. pose proof (acc_body m W T Vm (q t) (v t) a _ (Hq t) V0 V1 A0 AE) as HA.
  destruct (com_spec m W T 2 sub (q t) _ ltac:(lia) HP HM) as (d' & E & _ & _ & A3 & A4).
  exists d', (fun s j => subtreeVel m (q s) (v s) j). split; [exact E|]. split; [intros s j Hj _; apply (subtreeCom_deriv m W T Vm); auto|].
  assert (G : forall j, j < m_njoints m -> j = 0 \/ sub = true -> m3vec (rot (worldPl m (q t) j)) (p3 (rows d' j) F_vcom) = subtreeVel m (q t) (v t) j /\
    deriv3 (fun s => subtreeVel m (q s) (v s) j) (m3vec (rot (worldPl m (q t) j)) (p3 (rows d' j) F_acom)) t).
  { intros j Hj Hs. split; [apply (A3 (v t) j); auto; intros i Hi; apply HV; lia|]. rewrite (A4 (v t) a j (le_n 2)); auto; [|intros i Hi; split; [apply HV | apply HA]; lia].
    apply (subtreeVel_deriv m W T Vm); auto. }
  destruct (G 0 ltac:(pose proof (wf_n _ W); lia) (or_introl eq_refl)) as [G0 G1]. rewrite (worldPl_0 m W T) in G0, G1.
  assert (EI : forall x, m3vec (rot se3_Identity) x = x) by (intros; apply v3_ext; cbn; ring). rewrite EI in G0, G1. auto.
Qed.
Lemma b_throw d lvl sub : 2 < lvl -> centerOfMass m d lvl sub = Throw d.
Proof. intros H. unfold centerOfMass. destruct lvl as [|[|[|l]]]; try lia. reflexivity. Qed.
Lemma deriv_jac (q : R -> vec) (v : vec) t J : (forall s, validState m (q s)) -> moves m q v t ->
  cols3Mul (m_nv m) J v = subtreeVel m (q t) v 0 -> deriv3 (fun s => subtreeCom m (q s) 0) (cols3Mul (m_nv m) J v) t.
Proof. intros Hq Hm ->. apply (subtreeCom_deriv m W T Vm); auto. Qed.
Lemma b_jcom (q : R -> vec) v t d sub : subtreeMass m 0 <> 0%R -> (forall s, validState m (q s)) -> moves m q v t ->
  deriv3 (fun s => subtreeCom m (q s) 0) (cols3Mul (m_nv m) (jcom (gl (jacobianCenterOfMass m d (q t) sub))) v) t.
Proof. intros HM Hq Hm. apply deriv_jac; auto. apply (jcom_spec m W T Vm (q t) d sub (Hq t)). Qed.
Lemma b_jcom_com q d sub : subtreeMass m 0 <> 0%R -> validState m q -> let d' := jacobianCenterOfMass m d q sub in
  (forall j, j < m_njoints m -> sc (rows d' j) F_mass = subtreeMass m j) /\
  (forall j, j < m_njoints m -> subtreeMass m j <> 0%R -> j = 0 \/ sub = true -> p3 (rows d' j) F_com = subtreeCom m q j).
Proof. intros HM Hq. destruct (jcom_spec m W T Vm q d sub Hq) as (_ & A & C). split; auto. Qed.
Lemma b_jcrba (q : R -> vec) v t d : noMimic m -> regularMasses eps m -> depthFirst m -> subtreeMass m 0 <> 0%R -> (forall s, validState m (q s)) -> moves m q v t ->
  exists d', crbaWorld eps m d (q t) = Ok d' tt /\ p3 (rows (getJacobianComFromCrba d') 0) F_com = subtreeCom m (q t) 0 /\
  deriv3 (fun s => subtreeCom m (q s) 0) (cols3Mul (m_nv m) (jcom (gl (getJacobianComFromCrba d'))) v) t.
Proof.
  intros N RM DF HM Hq Hm. destruct (jcom_crba eps m W T Vm N RM DF d (q t) (Hq t) HM) as (d' & E & E2 & E3). exists d'. split; [exact E|]. split; [exact E2|].
  apply deriv_jac; auto.
Qed.
Lemma b_linear (q : R -> vec) v t d : subtreeMass m 0 <> 0%R -> (forall s, validState m (q s)) -> moves m q v t ->
  let d' := computeCentroidalMomentum m d (q t) v in
  lin (gv (gl d') F_hg) = v3scale (computeTotalMass m) (p3 (rows d' 0) F_vcom) /\ deriv3 (fun s => subtreeCom m (q s) 0) (p3 (rows d' 0) F_vcom) t.
Proof.
  intros HM Hq Hm. destruct (momentum_spec m W T Vm (q t) v d (Hq t) HM) as (_ & E2 & E3). cbv zeta. rewrite E2, E3, (total_mass m W T). split.
  - cbn [atPoint lin]. apply (lin_total m); auto.
  - apply (subtreeCom_deriv m W T Vm); auto.
Qed.
Lemma b_mass d : computeTotalMass m = bodies m (fun b => mass (inertiaOf m b)) /\
  forall j, j < m_njoints m -> sc (rows (computeSubtreeMasses m d) j) F_mass = subtreeMass m j.
Proof.
  split; [|intros j Hj; apply (subtree_masses m W T); exact Hj]. rewrite (total_mass m W T). unfold subtreeMass. apply (subBodies_root m W T).
Qed.
Lemma b_map d d0 q v w : regularMasses eps m -> validState m q -> subtreeMass m 0 <> 0%R ->
  let h := fun x => gv (gl (computeCentroidalMomentum m d0 q x)) F_hg in
  colsMul (m_nv m) (co (gl (computeCentroidalMap eps m d q)) F_Ag) w = h w /\
  colsMul (m_nv m) (co (gl (ccrba eps m d q v)) F_Ag) w = h w /\ gv (gl (ccrba eps m d q v)) F_hg = h v.
Proof.
  intros RM Hq HM. cbv zeta. destruct (map_spec eps m W T Vm RM q d v Hq HM) as (A1 & A2 & A3 & _).
  destruct (momentum_spec m W T Vm q w d0 Hq HM) as (_ & -> & _). destruct (momentum_spec m W T Vm q v d0 Hq HM) as (_ & -> & _).
  split; [apply A1|]. split; [apply A2 | exact A3].
Qed.
Lemma b_inertia d q v V : regularMasses eps m -> validState m q -> subtreeMass m 0 <> 0%R -> let c := subtreeCom m q 0 in
  inertia_mul (ig (gl (ccrba eps m d q v))) V =
  atPoint c (subBodies6 m 0 (fun b => inertia_mul (worldInertia m q b) (mkV6 (v3add (lin V) (v3cross c (ang V))) (ang V)))).
Proof. intros RM Hq HM. cbv zeta. apply v6_dot_ext. intros A. apply (map_spec eps m W T Vm RM q d v Hq HM). Qed.
End Built.

(* ---- examples ---- *)
Lemma exCom eps t : Built eps (exTree eps) /\ validModel (exTree eps) /\ massive (exTree eps) /\ plainRotors (exTree eps) /\ ang (m_gravity (exTree eps)) = v3zero /\
  (forall s, validState (exTree eps) (exQ s)) /\ (forall s, moves (exTree eps) exQ (exV s) s) /\ accelerates (exTree eps) exV exA t /\ isMimic (joint (exTree eps) 4) = true.
Proof. destruct (exKin eps t) as (A1 & A2 & A3 & A4 & A5 & _). destruct (exTree_rotors eps) as [R1 R2]. pose proof (exTree_masses eps). repeat split; try assumption; try reflexivity; try apply A1; try apply A2; auto. Qed.
Lemma exCom_reg : regularMasses (1/1000) (exTree (1/1000)).
Proof. exact exTree_regular. Qed.
Lemma exD_moves s : moves (exD (1/1000)) exQ (exV s) s.
Proof.
  intros i k Hi. destruct (exKin (1/1000) 0) as (_ & _ & _ & A4 & _). specialize (A4 s).
  change (m_njoints (exD (1/1000))) with 4 in Hi. assert (H5 : m_njoints (exTree (1/1000)) = 5) by reflexivity.
  destruct i as [|[|[|[|i]]]]; try lia; [refine (A4 1 k _) | refine (A4 2 k _) | refine (A4 3 k _)]; rewrite H5; lia.
Qed.
