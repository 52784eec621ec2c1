Require Import String.
Require Import Reals List Arith ZArith Lia Lra Bool.
From Verif Require Import Vec3 Spatial Inertia InertiaFacts Spec_Spatial SpatialFacts Joints Spec_Joints Deriv JointFacts JointFacts2 Model Spec_Model ModelFacts ModelTree ModelFacts2 ModelFacts3 Sums Data Kinematics Spec_Kin Spec_Mass KinFacts KinFacts2 KinFacts3 Spec_Dyn DynFacts DynFacts2 TreeSums MassFacts Crba CrbaFacts CrbaFacts2 CrbaFacts3.
Import ListNotations.
Local Open Scope nat_scope.

Lemma exD_inertia eps i : 0 < i < 4 -> exists P, rot P = m3id /\ inertiaOf (exD eps) i = inertia_pequ eps inertia_Zero (inertia_act P exY1).
Proof.
  intros Hi. destruct i as [|[|[|[|i]]]]; try lia; eexists; (split; [|reflexivity]); reflexivity.
Qed.
Lemma exD_solid eps : solid (exD eps).
Proof.
  intros i Hi. destruct (exD_inertia eps i Hi) as (P & HP & ->). unfold inertia_pequ, inertia_act. cbn [mass inertia]. rewrite HP. split.
  - unfold exY1. cbn. lra.
  - match goal with |- pd3 (sym3_matrix ?S) => replace S with (mkSym3 1 0 1 0 0 1) end; [apply (pd3_diag 1 1 1); lra|].
    unfold sym3_subAlphaSkewSquare, sym3_add, inertia_Zero, sym3_rotate, m3id, exY1. cbn. f_equal; ring.
Qed.
Lemma exD_regularMasses : regularMasses (1/1000) (exD (1/1000)).
Proof.
  split; [lra|]. intros i Hi. destruct (exD_inertia (1/1000) i Hi) as (P & HP & ->). right. unfold inertia_pequ, inertia_act, exY1. cbn. lra.
Qed.
Lemma exD_rotors eps : rotors (exD eps).
Proof. intros k Hk. change (m_nv (exD eps)) with 10 in Hk. do 10 (destruct k as [|k]; [cbn; lra|]). lia. Qed.
Lemma exD_validState eps s : validState (exD eps) (exQ s).
Proof.
  intros i Hi. change (m_njoints (exD eps)) with 4 in Hi. destruct (exD_types eps i Hi) as (-> & -> & _).
  destruct i as [|[|[|[|i]]]]; try lia; cbn [nth validConfig validConfig1]; try exact I; unfold shift; cbn [Nat.add exQ]; try ring.
  pose proof (sin2_cos2 (s / 2)) as H. unfold Rsqr in H. lra.
Qed.
Lemma exD_regular eps q : regularJoints (exD eps) q.
Proof.
  intros i x Hi H k Hk. change (m_njoints (exD eps)) with 4 in Hi. unfold jointAt in H. destruct (exD_types eps i Hi) as (E1 & E2 & E3). rewrite E1 in H.
  destruct i as [|[|[|[|i]]]]; try lia; cbn [nth] in H.
  - change (nvOf (exD eps) 1) with 1 in Hk. destruct k as [|k]; [|lia]. cbn in H. unfold v6add, v6scale, v6zero, v3add, v3scale, v3zero, angCol, linCol, shift in H. cbn in H. injection H. intros. lra.
  - change (nvOf (exD eps) 2) with 6 in Hk. cbn in H. unfold v6add, v6scale, v6zero, v3add, v3scale, v3zero, angCol, linCol, shift in H. cbn in H. injection H. intros. do 6 (destruct k as [|k]; [lra|]). lia.
  - change (nvOf (exD eps) 3) with 3 in Hk. cbn in H. unfold v6add, v6scale, v6zero, v3add, v3scale, v3zero, angCol, linCol, shift in H. cbn in H. injection H. intros. do 3 (destruct k as [|k]; [lra|]). lia.
Qed.
Lemma exD_all (s : R) : Built (1/1000) (exD (1/1000)) /\ validModel (exD (1/1000)) /\ noMimic (exD (1/1000)) /\ depthFirst (exD (1/1000)) /\
  regularMasses (1/1000) (exD (1/1000)) /\ validState (exD (1/1000)) (exQ s) /\ solid (exD (1/1000)) /\ rotors (exD (1/1000)) /\ regularJoints (exD (1/1000)) (exQ s) /\
  m_njoints (exD (1/1000)) = 4 /\ m_nv (exD (1/1000)) = 10.
Proof.
  split; [apply exD_built|]. split; [apply exD_valid|]. split; [apply exD_noMimic|]. split; [apply exD_df|]. split; [apply exD_regularMasses|].
  split; [apply exD_validState|]. split; [apply exD_solid|]. split; [apply exD_rotors|]. split; [apply exD_regular|]. split; reflexivity.
Qed.

(* ---- a chain of three prismatic joints and a mimic of the second one at its end ---- *)
Definition pxJ : JointM := freshJoint (JSimple (JPrismatic 0)).
Definition chain1 : Model := okModel (addJoint emptyModel 0 pxJ se3_Identity "a" (exLim 1 1)) emptyModel.
Definition chain2 : Model := okModel (addJoint chain1 1 pxJ se3_Identity "b" (exLim 1 1)) chain1.
Definition chain3 : Model := okModel (addJoint chain2 2 pxJ se3_Identity "c" (exLim 1 1)) chain2.
Definition chain4 : Model := okModel (addJoint chain3 3 (mkMimic (JPrismatic 0) (joint chain3 2) 1 0) se3_Identity "d" (exLim 0 0)) chain3.
Definition exMC (eps : R) : Model := okModel (appendBodyToJoint eps chain4 3 exY1 se3_Identity) chain4.
Lemma chain3_history eps : History eps chain3 [].
Proof.
  assert (H1 : History eps chain1 []).
  { apply (H_step eps emptyModel _ [] None); [constructor|]. apply (S_joint eps emptyModel _ 0 (JSimple (JPrismatic 0)) se3_Identity "a"%string (exLim 1 1) 1); [exact I|reflexivity]. }
  assert (H2 : History eps chain2 []).
  { apply (H_step eps chain1 _ [] None); [exact H1|]. apply (S_joint eps chain1 _ 1 (JSimple (JPrismatic 0)) se3_Identity "b"%string (exLim 1 1) 2); [exact I|reflexivity]. }
  apply (H_step eps chain2 _ [] None); [exact H2|]. apply (S_joint eps chain2 _ 2 (JSimple (JPrismatic 0)) se3_Identity "c"%string (exLim 1 1) 3); [exact I|reflexivity].
Qed.
Lemma exMC_built eps : Built eps (exMC eps).
Proof.
  pose proof (chain3_history eps) as H3.
  assert (H4 : History eps chain4 []).
  { apply (H_step eps chain3 _ [] None); [exact H3|]. apply (S_mimic eps chain3 _ 3 (JPrismatic 0) 2 1 0 se3_Identity "d"%string (exLim 0 0) 4); try exact I; try reflexivity. cbn; lia. }
  eexists. apply (H_step eps chain4 _ [] (Some (3, se3_Identity, exY1))); [exact H4|]. apply S_body. reflexivity.
Qed.
Lemma exMC_valid eps : validModel (exMC eps).
Proof.
  intros i Hi. change (m_njoints (exMC eps)) with 5 in Hi.
  destruct i as [|[|[|[|[|i]]]]]; try lia; cbn; (split; [repeat split; auto; try lia; tauto | apply isRotation_id]).
Qed.
Lemma exMC_df eps : depthFirst (exMC eps).
Proof. apply (crbaCheck_spec _ (Built_wf _ _ (exMC_built eps)) (Built_tree _ _ (exMC_built eps))). reflexivity. Qed.
Lemma exMC_validState eps q : validState (exMC eps) q.
Proof. intros i Hi. change (m_njoints (exMC eps)) with 5 in Hi. destruct i as [|[|[|[|[|i]]]]]; try lia; cbn; exact I || (split; exact I). Qed.
Definition okData (r : Res Data unit) (d : Data) : Data := match r with Ok d' _ => d' | _ => d end.
Lemma exMC_world eps d q : exists d', crbaWorld eps (exMC eps) d q = Ok d' tt /\ ma (gl d') F_M 0 2 = ma (gl d) F_M 0 2.
Proof. exists (okData (crbaWorld eps (exMC eps) d q) d). split; reflexivity. Qed.
Lemma exMC_local eps d q : exists d', crbaLocal eps (exMC eps) d q = Ok d' tt /\ ma (gl d') F_M 0 2 = ma (gl d) F_M 0 2.
Proof. exists (okData (crbaLocal eps (exMC eps) d q) d). split; reflexivity. Qed.

Definition pxV (x : R) : V6 := mkV6 (mkV3 x 0 0) v3zero.
Ltac px := unfold pxV, motion_actInv, motion_act, v6add, v6scale, v6sub, v6zero, v3add, v3sub, v3scale, v3zero, v3cross, m3vec, m3tr, m3id; cbn; f_equal; f_equal; ring.
Lemma px_step p x y : rot p = m3id -> v6add (pxV y) (motion_actInv p (pxV x)) = pxV (x + y).
Proof. destruct p as [r t]. cbn [rot]. intros ->. px. Qed.
Lemma px_step0 p y : rot p = m3id -> v6add (pxV y) (motion_actInv p v6zero) = pxV y.
Proof. destruct p as [r t]. cbn [rot]. intros ->. px. Qed.
Lemma se3_mul_id_rot t u : rot (se3_mul (mkSE3 m3id t) (mkSE3 m3id u)) = m3id.
Proof. unfold se3_mul, m3mul, m3id. cbn. f_equal; ring. Qed.
Lemma exMC_joint eps q w i : 0 < i < 4 -> rot (relPl (exMC eps) q i) = m3id /\ jointTwist (exMC eps) q w i = pxV (w (i - 1)).
Proof.
  intros Hi. destruct i as [|[|[|[|i]]]]; try lia; (split; [unfold relPl; apply (se3_mul_id_rot v3zero) | unfold jointTwist, jointAt; cbn; unfold linCol, shift; px]).
Qed.
Lemma exMC_vel eps q w : bodyVel (exMC eps) q w 3 = pxV (w 0 + w 1 + w 2).
Proof.
  pose proof (Built_wf _ _ (exMC_built eps)) as W. pose proof (Built_tree _ _ (exMC_built eps)) as T. pose proof (exMC_valid eps) as Vm.
  pose proof (exMC_validState eps q) as Hq.
  assert (N : m_njoints (exMC eps) = 5) by reflexivity.
  rewrite (bodyVel_step _ W T Vm q w 3 Hq) by (rewrite N; lia). change (parent (exMC eps) 3) with 2.
  rewrite (bodyVel_step _ W T Vm q w 2 Hq) by (rewrite N; lia). change (parent (exMC eps) 2) with 1.
  rewrite (bodyVel_step _ W T Vm q w 1 Hq) by (rewrite N; lia). change (parent (exMC eps) 1) with 0. rewrite (bodyVel_0 _ W T).
  destruct (exMC_joint eps q w 1 ltac:(lia)) as [R1 ->]. destruct (exMC_joint eps q w 2 ltac:(lia)) as [R2 ->]. destruct (exMC_joint eps q w 3 ltac:(lia)) as [R3 ->].
  rewrite px_step0, !px_step by assumption. reflexivity.
Qed.
Lemma exMC_mass eps q : massMatrix (exMC eps) q 0 2 = 2%R.
Proof.
  unfold massMatrix, kineticForm, bodies. change (m_njoints (exMC eps) - 1) with 4. cbn [sumN Nat.eqb].
  rewrite !exMC_vel. change (inertiaOf (exMC eps) 1) with inertia_Zero. change (inertiaOf (exMC eps) 2) with inertia_Zero. change (inertiaOf (exMC eps) 4) with inertia_Zero.
  rewrite !inertia_mul_Zero, !v6dot_0_r. change (inertiaOf (exMC eps) 3) with (inertia_pequ eps inertia_Zero (inertia_act se3_Identity exY1)).
  unfold inertia_mul, inertia_pequ, pxV, unitv, v6dot, v3dot. cbn. ring.
Qed.
Lemma exMC_branch eps : sameBranch (exMC eps) 0 2.
Proof.
  exists 1, 3. split; [|split; [|left]].
  - split; [|split]; [cbn; lia | reflexivity | cbn; lia].
  - split; [|split]; [cbn; lia | reflexivity | cbn; lia].
  - apply (anc_onPath _ (Built_tree _ _ (exMC_built eps))); [cbn; lia | reflexivity].
Qed.

(* ---- three prismatic joints that are not numbered depth first: 1 and 2 on the universe, 3 on 1 ---- *)
Definition exN2 : Model := okModel (addJoint chain1 0 pxJ se3_Identity "b" (exLim 1 1)) chain1.
Definition exN3 : Model := okModel (addJoint exN2 1 pxJ se3_Identity "c" (exLim 1 1)) exN2.
Definition exN (eps : R) : Model := okModel (appendBodyToJoint eps exN3 2 exY1 se3_Identity) exN3.
Lemma exN_built eps : Built eps (exN eps).
Proof.
  assert (H1 : History eps chain1 []).
  { apply (H_step eps emptyModel _ [] None); [constructor|]. apply (S_joint eps emptyModel _ 0 (JSimple (JPrismatic 0)) se3_Identity "a"%string (exLim 1 1) 1); [exact I|reflexivity]. }
  assert (H2 : History eps exN2 []).
  { apply (H_step eps chain1 _ [] None); [exact H1|]. apply (S_joint eps chain1 _ 0 (JSimple (JPrismatic 0)) se3_Identity "b"%string (exLim 1 1) 2); [exact I|reflexivity]. }
  assert (H3 : History eps exN3 []).
  { apply (H_step eps exN2 _ [] None); [exact H2|]. apply (S_joint eps exN2 _ 1 (JSimple (JPrismatic 0)) se3_Identity "c"%string (exLim 1 1) 3); [exact I|reflexivity]. }
  eexists. apply (H_step eps exN3 _ [] (Some (2, se3_Identity, exY1))); [exact H3|]. apply S_body. reflexivity.
Qed.
Lemma exN_valid eps : validModel (exN eps).
Proof.
  intros i Hi. change (m_njoints (exN eps)) with 4 in Hi.
  destruct i as [|[|[|[|i]]]]; try lia; cbn; (split; [repeat split; auto; try lia; tauto | apply isRotation_id]).
Qed.
Lemma exN_noMimic eps : noMimic (exN eps).
Proof. intros i Hi. change (m_njoints (exN eps)) with 4 in Hi. destruct i as [|[|[|[|i]]]]; try lia; reflexivity. Qed.
Lemma exN_validState eps q : validState (exN eps) q.
Proof. intros i Hi. change (m_njoints (exN eps)) with 4 in Hi. destruct i as [|[|[|[|i]]]]; try lia; cbn; exact I. Qed.
Lemma exN_mass eps q : massMatrix (exN eps) q 0 1 = 0%R.
Proof.
  pose proof (Built_wf _ _ (exN_built eps)) as W. pose proof (Built_tree _ _ (exN_built eps)) as T.
  unfold massMatrix. change 0 with (idx_v (exN eps) 1 + 0) at 1. change 1 with (idx_v (exN eps) 2 + 0) at 2.
  rewrite (form_unit_off _ W T (exN_valid eps) (exN_noMimic eps) q 1 0 2 0 (exN_validState eps q)); try (cbn; lia); try reflexivity. cbn. ring.
Qed.
Lemma exN_world eps d q : exists d', crbaWorld eps (exN eps) d q = Ok d' tt /\ ma (gl d') F_M 0 1 = 2%R.
Proof.
  exists (okData (crbaWorld eps (exN eps) d q) d). split; [reflexivity|].
  transitivity (let M1 := se3_mul se3_Identity (jM (jcalc (JSimple (JPrismatic 0)) (shift 0 q) noVel)) in
                let M2 := se3_mul se3_Identity (jM (jcalc (JSimple (JPrismatic 0)) (shift 1 q) noVel)) in
                let P := inertia_pequ eps inertia_Zero (inertia_act se3_Identity exY1) in
     v6dot (motion_act M1 (pxV 1)) (inertia_mul (inertia_act M2 P) (motion_act M2 (pxV 1)))).
  - reflexivity.
  - cbv zeta. unfold inertia_mul, inertia_act, inertia_pequ, motion_act, se3_mul, pxV, v6dot, v3dot. cbn. ring.
Qed.
