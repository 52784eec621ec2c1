(* Centre of mass from the composite inertias, and concrete trees. *)
Require Import Reals String List Arith ZArith Lia Lra Bool.
From Verif Require Import Vec3 Spatial Inertia InertiaFacts Joints Spec_Joints Deriv JointFacts JointFacts2 Model Spec_Model ModelFacts ModelTree ModelFacts2 ModelFacts3 Sums Data Kinematics Spec_Kin Spec_Mass KinFacts KinFacts2 KinFacts3 Spec_Dyn Rnea DynFacts DynFacts2 TreeSums MassFacts Crba CrbaFacts CrbaFacts2 CrbaFacts3 CrbaFacts4 Spec_Jac JacFacts JacFacts3 Spec_Com Com ComFacts ComFacts2 ComFacts3 ComFacts4 Centroidal CentFacts CentFacts2.
Import ListNotations.
Local Open Scope nat_scope.

Section Crba.
Variable eps : R.
Variable m : Model.
Hypothesis W : wellFormed m.
Hypothesis T : treeInv m.
Hypothesis Vm : validModel m.
Hypothesis NM : noMimic m.
Hypothesis RM : regularMasses eps m.
Hypothesis DF : depthFirst m.
Theorem jcom_crba d q : validState m q -> subtreeMass m 0 <> 0%R -> exists d', crbaWorld eps m d q = Ok d' tt /\
  p3 (rows (getJacobianComFromCrba d') 0) F_com = subtreeCom m q 0 /\
  forall v, cols3Mul (m_nv m) (jcom (gl (getJacobianComFromCrba d'))) v = subtreeVel m q v 0.
Proof.
  intros Hq HM. destruct (crbaWorld_spec eps m W T Vm NM RM DF d q Hq) as (d' & E & _ & A1 & A2 & _ & _ & A3). exists d'. split; [exact E|].
  assert (EM : mass (yi (rows d' 0) F_oYcrb) = subtreeMass m 0) by (unfold subtreeMass; rewrite (subBodies_root m W T); exact A2).
  split.
  - change (p3 (rows (getJacobianComFromCrba d') 0) F_com) with (lever (yi (rows d' 0) F_oYcrb)). apply (lever_com m W T q); assumption.
  - intros v. 
    change (jcom (gl (getJacobianComFromCrba d'))) with (fun k => v3div (mass (yi (rows d' 0) F_oYcrb)) (lin (co (gl d') F_Ag k))).
    rewrite EM, (cols3_ext _ _ (fun k => v3scale (/ subtreeMass m 0) (lin (co (gl d') F_Ag k)))) by (intros; apply v3div_scale).
    rewrite cols3_scale. unfold subtreeVel. f_equal. apply v3_dot_ext. intros e. rewrite cols3_dot, (dof_sum_all m W).
    assert (ET : v3dot e (subBodies3 m 0 (fun b => v3scale (mass (inertiaOf m b)) (comVel m q v b))) = v6dot (mkV6 e v3zero) (totalMomentum m q v)).
    { unfold totalMomentum. rewrite subBodies6_dot, subBodies3_dot. apply subBodies_ext. intros b Hb _. rewrite <- lin_momentum.
      generalize (worldMomentum m q v b). clear. intros f. unfold v6dot, v3dot; cbn; ring. }
    rewrite ET, <- (colMom_sum m W T Vm q v _ Hq). apply sumN_ext. intros i Hi. destruct (Nat.ltb_spec 0 i) as [Hi0|]; [|destruct (Nat.leb_spec 1 i); reflexivity].
    destruct (Nat.leb_spec 1 i); [|lia]. rewrite (NM i (conj Hi0 Hi)). cbn [andb negb].
    unfold colMom. 
    rewrite (sumN_ext (nvOf m i) _ (fun c => v (idx_v m i + c)%nat * subSum m i (fun b => v6dot (mkV6 e v3zero) (inertia_mul (worldInertia m q b) (worldCol m q i c))))%R).
    + unfold subSum. rewrite (sumN_ext (nvOf m i) _ (fun c => sumN (m_njoints m) (fun b => v (idx_v m i + c)%nat * (if anc m i b then v6dot (mkV6 e v3zero) (inertia_mul (worldInertia m q b) (worldCol m q i c)) else 0)))%R) by (intros; now rewrite sumN_scale).
      rewrite sumN_swap. apply sumN_ext. intros b Hb. destruct (anc m i b); [|apply sumN_zero; intros; ring].
      unfold jointTwist. rewrite <- colsMul_Smul, (jS_len m W Vm NM q noVel i (conj Hi0 Hi)).
      generalize (nvOf m i). intros n. induction n as [|n IH]; cbn [colsMul sumN].
      * now rewrite motion_act_0, inertia_mul_0, v6dot_0_r.
      * rewrite IH, motion_act_add, inertia_mul_add, motion_act_scale, inertia_mul_scale, v6dot_add_r, v6dot_scale_r. reflexivity.
    + intros c Hc. f_equal. destruct (A3 i c (conj Hi0 Hi) Hc) as (h & Hh & ->). rewrite <- Hh. cbn [lin]. unfold v6dot, v3dot; cbn; ring.
Qed.
End Crba.

(* ---- concrete trees ---- *)
Lemma exTree_masses eps : forall j, j < m_njoints (exTree eps) -> subtreeMass (exTree eps) j <> 0%R.
Proof.
  intros j Hj. change (m_njoints (exTree eps)) with 5 in Hj.
  assert (G : forall b, 0 < b < 5 -> mass (inertiaOf (exTree eps) b) = nth b [0; 0; 2; 0; 2]%R 0%R).
  { intros b Hb. destruct b as [|[|[|[|[|b]]]]]; try lia; cbn; ring. }
  unfold subtreeMass, subBodies, bodies. change (m_njoints (exTree eps) - 1) with 4. 
  rewrite (sumN_ext 4 _ (fun k => if inSubtree (exTree eps) j (S k) then nth (S k) [0; 0; 2; 0; 2]%R 0%R else 0%R)).
  - destruct j as [|[|[|[|[|j]]]]]; try lia; cbn; lra.
  - intros k Hk. rewrite G by lia. reflexivity.
Qed.
Lemma exTree_rotors eps : plainRotors (exTree eps) /\ ang (m_gravity (exTree eps)) = v3zero.
Proof.
  split; [|reflexivity]. intros i k Hi Hm Hk. change (m_njoints (exTree eps)) with 5 in Hi.
  destruct i as [|[|[|[|[|i]]]]]; try lia; try discriminate Hm. change (nvEOf (exTree eps) 4) with 1 in Hk. destruct k; [reflexivity|lia].
Qed.
Lemma exTree_regular : regularMasses (1/1000) (exTree (1/1000)).
Proof.
  split; [lra|]. intros i Hi. change (m_njoints (exTree (1/1000))) with 5 in Hi. destruct i as [|[|[|[|[|i]]]]]; try lia; cbn; unfold regularMass; try (right; lra); left; reflexivity.
Qed.
Lemma exD_masses : subtreeMass (exD (1/1000)) 0 <> 0%R.
Proof.
  unfold subtreeMass, subBodies, bodies. change (m_njoints (exD (1/1000)) - 1) with 3.
  rewrite (sumN_ext 3 _ (fun k => 2%R)); [cbn; lra|].
  intros k Hk. destruct k as [|[|[|k]]]; try lia; cbn; ring.
Qed.

(* one prismatic joint carrying a body *)
Definition exP (eps : R) : Model := okModel (appendBodyToJoint eps chain1 1 exY1 se3_Identity) chain1.
Definition exPq : vec := fun _ => 1%R.
Lemma exP_built eps : Built eps (exP eps).
Proof.
  assert (H1 : History eps chain1 []).
  { apply (H_step eps emptyModel _ [] None); [constructor|]. apply (S_joint eps emptyModel _ 0 (JSimple (JPrismatic 0)) se3_Identity "a"%string (exLim 1 1) 1); [exact I|reflexivity]. }
  eexists. exact (H_step eps chain1 (exP eps) _ _ H1 (S_body eps chain1 (exP eps) 1 exY1 se3_Identity eq_refl)).
Qed.
Lemma exP_refuted d : let eps := (1/1000)%R in let m := exP eps in
  Built eps m /\ validModel m /\ noMimic m /\ depthFirst m /\ regularMasses eps m /\ validState m exPq /\ (forall j, j < m_njoints m -> subtreeMass m j = 2%R) /\
  exists d', crbaWorld eps m d exPq = Ok d' tt /\ subtreeCom m exPq 0 = mkV3 2 0 0 /\ p3 (rows (getComFromCrba d') 0) F_com = mkV3 3 0 0.
Proof.
  cbv zeta. assert (B := exP_built (1/1000)).
  split; [exact B|]. split; [|split; [|split; [|split; [|split; [|split]]]]].
  - intros i Hi. change (m_njoints (exP (1/1000))) with 2 in Hi. destruct i as [|[|i]]; try lia; cbn; (split; [repeat split; auto; try lia; tauto | apply isRotation_id]).
  - intros i Hi. change (m_njoints (exP (1/1000))) with 2 in Hi. destruct i as [|[|i]]; try lia; reflexivity.
  - apply (crbaCheck_spec _ (Built_wf _ _ B) (Built_tree _ _ B)). reflexivity.
  - split; [lra|]. intros i Hi. change (m_njoints (exP (1/1000))) with 2 in Hi. destruct i as [|[|i]]; try lia; cbn; unfold regularMass; right; lra.
  - intros i Hi. change (m_njoints (exP (1/1000))) with 2 in Hi. destruct i as [|[|i]]; try lia; exact I.
  - intros j Hj. change (m_njoints (exP (1/1000))) with 2 in Hj. unfold subtreeMass, subBodies, bodies. change (m_njoints (exP (1/1000)) - 1) with 1.
    destruct j as [|[|j]]; try lia; cbn; ring.
  - exists (okData (crbaWorld (1/1000) (exP (1/1000)) d exPq) d). split; [reflexivity|].
    assert (EY : inertiaOf (exP (1/1000)) 1 = inertia_pequ (1/1000) inertia_Zero (inertia_act se3_Identity exY1)) by reflexivity.
    assert (ML : mass (inertiaOf (exP (1/1000)) 1) = 2%R /\ lever (inertiaOf (exP (1/1000)) 1) = mkV3 1 0 0).
    { rewrite EY. unfold inertia_pequ. cbn [mass lever]. 
      assert (E : inertia_act se3_Identity exY1 = exY1) by (unfold inertia_act, exY1; cbn; f_equal; [apply v3_ext; cbn; ring | unfold sym3_rotate; cbn; f_equal; ring]).
      rewrite E. unfold exY1, inertia_Zero. cbn; unfold Rmax; repeat match goal with |- context [Rle_dec ?a ?b] => destruct (Rle_dec a b); try lra end; (split; [ring | apply v3_ext; cbn; field; lra]). }
    split.
    + unfold subtreeCom, subtreeMass, subBodies3, subBodies, bodies. change (m_njoints (exP (1/1000)) - 1) with 1. cbn [sumN].
      change (inSubtree (exP (1/1000)) 0 1) with true. cbv iota. unfold bodyCom. destruct ML as [-> ->].
      assert (EW : worldPl (exP (1/1000)) exPq 1 = mkSE3 m3id (mkV3 1 0 0)).
      { unfold worldPl. change (tl (support (exP (1/1000)) 1)) with (1 :: nil). cbn [product]. apply se3_ext; [apply m3_ext; cbn; ring | apply v3_ext; cbn; unfold shift, exPq; ring]. }
      rewrite EW. apply v3_ext; cbn; field.
    + match goal with |- p3 (rows (getComFromCrba ?d1) 0) F_com = _ => set (dd := d1) end.
      assert (E1 : pl (rows dd 1) F_liMi = mkSE3 m3id (mkV3 1 0 0)).
      { subst dd. cbn. apply se3_ext; [apply m3_ext; cbn; ring | apply v3_ext; cbn; unfold shift, exPq; ring]. }
      assert (E2 : lever (yi (rows dd 1) F_oYcrb) = mkV3 2 0 0).
      { change (lever (yi (rows dd 1) F_oYcrb)) with (v3add (trans (pl (rows dd 1) F_oMi)) (m3vec (rot (pl (rows dd 1) F_oMi)) (lever (inertiaOf (exP (1/1000)) 1)))). destruct ML as [_ ->].
        subst dd. cbn. apply v3_ext; cbn; unfold shift, exPq; ring. }
      change (p3 (rows (getComFromCrba dd) 0) F_com) with (se3_actPoint (pl (rows dd 1) F_liMi) (lever (yi (rows dd 1) F_oYcrb))). rewrite E1, E2.
      apply v3_ext; cbn; ring.
Qed.

(* a prismatic joint with a rotor and a mimic of it *)
Definition exR1 : Model := okModel (addJoint chain1 1 (mkMimic (JPrismatic 0) (joint chain1 1) 1 0) se3_Identity "d" (exLim 0 0)) chain1.
Definition exR : Model := setGravityArmature exR1 (m_gravity exR1) [1%R].
Lemma exR_built eps : Built eps exR.
Proof.
  assert (H1 : History eps chain1 []).
  { apply (H_step eps emptyModel _ [] None); [constructor|]. apply (S_joint eps emptyModel _ 0 (JSimple (JPrismatic 0)) se3_Identity "a"%string (exLim 1 1) 1); [exact I|reflexivity]. }
  assert (H2 : History eps exR1 []).
  { apply (H_step eps chain1 _ [] None); [exact H1|]. apply (S_mimic eps chain1 _ 1 (JPrismatic 0) 1 1 0 se3_Identity "d"%string (exLim 0 0) 2); try exact I; try reflexivity. cbn; lia. }
  eexists. apply (H_step eps exR1 _ [] None H2). apply (S_set eps exR1 _ (m_gravity exR1) [1%R]); reflexivity.
Qed.
Lemma exR_refuted eps d : Built eps exR /\ validModel exR /\ validState exR exPq /\
  computeKineticEnergy exR d exPq exPq = 1%R /\ (/2 * dotv (m_nv exR) exPq (fun k => dotv (m_nv exR) (massMatrix exR exPq k) exPq))%R = (1/2)%R.
Proof.
  assert (B := exR_built eps).
  assert (V : validModel exR).
  { intros i Hi. change (m_njoints exR) with 3 in Hi. destruct i as [|[|[|i]]]; try lia; cbn; (split; [repeat split; auto; try lia; tauto | apply isRotation_id]). }
  assert (Q : validState exR exPq).
  { intros i Hi. change (m_njoints exR) with 3 in Hi. destruct i as [|[|[|i]]]; try lia; cbn; exact I || (split; exact I). }
  assert (K : forall x y, kineticForm exR exPq x y = 0%R).
  { intros x y. unfold kineticForm, bodies. change (m_njoints exR - 1) with 2. cbn [sumN]. change (inertiaOf exR 1) with inertia_Zero. change (inertiaOf exR 2) with inertia_Zero.
    rewrite !inertia_mul_Zero, !v6dot_0_r. ring. }
  split; [exact B|]. split; [exact V|]. split; [exact Q|]. split.
  - rewrite (kinetic_energy exR (Built_wf _ _ B) (Built_tree _ _ B) V d exPq exPq Q), K.
    assert (E : bodies exR (armSum exR exPq) = 2%R) by (cbn; unfold armatureOf, exPq; cbn; ring). rewrite E. lra.
  - unfold massMatrix, dotv. change (m_nv exR) with 1. cbn [sumN]. rewrite K. cbn. unfold exPq. lra.
Qed.
