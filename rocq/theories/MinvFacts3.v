(* computeMinverse on joints that are not numbered depth first *)
Require Import String.
Require Import Reals List Arith ZArith Lia Lra Bool.
From Verif Require Import Vec3 Spatial Inertia InertiaFacts Spec_Spatial SpatialFacts Joints Spec_Joints Deriv JointFacts JointFacts2 Model Spec_Model ModelFacts ModelTree ModelFacts2 ModelFacts3 Sums Data Kinematics Spec_Kin Spec_Mass KinFacts KinFacts2 KinFacts3 Spec_Dyn DynFacts DynFacts2 TreeSums MassFacts Crba CrbaFacts CrbaFacts2 CrbaFacts3 CrbaFacts4 Aba Spec_Aba AbaFacts4 Spec_Deriv Minverse.
Import ListNotations.
Local Open Scope nat_scope.

(* three prismatic joints, 1 and 2 on the universe, 3 on 1, with a body each *)
Definition exV1 (eps : R) : Model := okModel (appendBodyToJoint eps exN3 1 exY1 se3_Identity) exN3.
Definition exV2 (eps : R) : Model := okModel (appendBodyToJoint eps (exV1 eps) 2 exY1 se3_Identity) (exV1 eps).
Definition exV (eps : R) : Model := okModel (appendBodyToJoint eps (exV2 eps) 3 exY1 se3_Identity) (exV2 eps).
Lemma exV_built eps : Built eps (exV eps).
Proof.
  assert (H1 : History eps chain1 []).
  { apply (H_step eps emptyModel _ [] None); [constructor|]. apply (S_joint eps emptyModel _ 0 (JSimple (JPrismatic 0)) se3_Identity "a"%string (exLim 1 1) 1); [exact I|reflexivity]. }
  assert (H2 : History eps exN2 []).
  { apply (H_step eps chain1 _ [] None); [exact H1|]. apply (S_joint eps chain1 _ 0 (JSimple (JPrismatic 0)) se3_Identity "b"%string (exLim 1 1) 2); [exact I|reflexivity]. }
  assert (H3 : History eps exN3 []).
  { apply (H_step eps exN2 _ [] None); [exact H2|]. apply (S_joint eps exN2 _ 1 (JSimple (JPrismatic 0)) se3_Identity "c"%string (exLim 1 1) 3); [exact I|reflexivity]. }
  pose proof (H_step eps exN3 (exV1 eps) _ _ H3 (S_body eps exN3 (exV1 eps) 1 exY1 se3_Identity eq_refl)) as H4.
  pose proof (H_step eps (exV1 eps) (exV2 eps) _ _ H4 (S_body eps (exV1 eps) (exV2 eps) 2 exY1 se3_Identity eq_refl)) as H5.
  eexists. exact (H_step eps (exV2 eps) (exV eps) _ _ H5 (S_body eps (exV2 eps) (exV eps) 3 exY1 se3_Identity eq_refl)).
Qed.
Lemma exV_valid eps : validModel (exV eps).
Proof.
  intros i Hi. change (m_njoints (exV eps)) with 4 in Hi.
  destruct i as [|[|[|[|i]]]]; try lia; cbn; (split; [repeat split; auto; try lia; tauto | apply isRotation_id]).
Qed.
Lemma exV_noMimic eps : noMimic (exV eps).
Proof. intros i Hi. change (m_njoints (exV eps)) with 4 in Hi. destruct i as [|[|[|[|i]]]]; try lia; reflexivity. Qed.
Lemma exV_validState eps q : validState (exV eps) q.
Proof. intros i Hi. change (m_njoints (exV eps)) with 4 in Hi. destruct i as [|[|[|[|i]]]]; try lia; cbn; exact I. Qed.
Lemma exV_inertia eps i : 0 < i < 4 -> inertiaOf (exV eps) i = inertia_pequ eps inertia_Zero (inertia_act se3_Identity exY1).
Proof. intros Hi. destruct i as [|[|[|[|i]]]]; try lia; reflexivity. Qed.
Lemma exV_solid eps : solid (exV eps).
Proof.
  intros i Hi. change (m_njoints (exV eps)) with 4 in Hi. rewrite (exV_inertia eps i Hi). unfold inertia_pequ, inertia_act. cbn [mass inertia]. split.
  - unfold exY1. cbn. lra.
  - match goal with |- pd3 (sym3_matrix ?S) => replace S with (mkSym3 1 0 1 0 0 1) end; [apply (pd3_diag 1 1 1); lra|].
    unfold sym3_subAlphaSkewSquare, sym3_add, inertia_Zero, sym3_rotate, m3id, exY1. cbn. f_equal; ring.
Qed.
Lemma exV_rotors eps : rotors (exV eps).
Proof. intros k Hk. change (m_nv (exV eps)) with 3 in Hk. do 3 (destruct k as [|k]; [cbn; lra|]). lia. Qed.
Lemma exV_joint eps q w i : 0 < i < 4 -> rot (relPl (exV eps) q i) = m3id /\ jointTwist (exV eps) q w i = pxV (w (i - 1)).
Proof.
  intros Hi. destruct i as [|[|[|[|i]]]]; try lia; (split; [unfold relPl; apply (se3_mul_id_rot v3zero) | unfold jointTwist, jointAt; cbn; unfold linCol, shift; px]).
Qed.
Lemma exV_regular eps q : regularJoints (exV eps) q.
Proof.
  intros i x Hi H k Hk. change (m_njoints (exV eps)) with 4 in Hi. unfold jointAt in H.
  destruct i as [|[|[|[|i]]]]; try lia; (destruct k as [|k]; [|cbn in Hk; lia]);
    cbn in H; unfold v6add, v6scale, v6zero, v3add, v3scale, v3zero, linCol, shift in H; cbn in H; injection H; intros; lra.
Qed.
Lemma exV_vel eps q w : bodyVel (exV eps) q w 1 = pxV (w 0) /\ bodyVel (exV eps) q w 2 = pxV (w 1) /\ bodyVel (exV eps) q w 3 = pxV (w 0 + w 2).
Proof.
  pose proof (Built_wf _ _ (exV_built eps)) as W. pose proof (Built_tree _ _ (exV_built eps)) as T. pose proof (exV_valid eps) as Vm.
  pose proof (exV_validState eps q) as Hq. assert (N : m_njoints (exV eps) = 4) by reflexivity.
  destruct (exV_joint eps q w 1 ltac:(lia)) as [R1 J1]. destruct (exV_joint eps q w 2 ltac:(lia)) as [R2 J2]. destruct (exV_joint eps q w 3 ltac:(lia)) as [R3 J3].
  assert (E1 : bodyVel (exV eps) q w 1 = pxV (w 0)).
  { rewrite (bodyVel_step _ W T Vm q w 1 Hq) by (rewrite N; lia). change (parent (exV eps) 1) with 0. rewrite (bodyVel_0 _ W T), J1. now apply px_step0. }
  split; [exact E1|]. split.
  - rewrite (bodyVel_step _ W T Vm q w 2 Hq) by (rewrite N; lia). change (parent (exV eps) 2) with 0. rewrite (bodyVel_0 _ W T), J2. now apply px_step0.
  - rewrite (bodyVel_step _ W T Vm q w 3 Hq) by (rewrite N; lia). change (parent (exV eps) 3) with 1. rewrite E1, J3. now apply px_step.
Qed.
Lemma exV_mass eps q : let M := massMatrix (exV eps) q in M 0 1 = 0%R /\ M 1 0 = 0%R /\ M 1 1 = 2%R /\ M 1 2 = 0%R /\ M 2 0 = 2%R /\ M 2 1 = 0%R /\ M 2 2 = 2%R.
Proof.
  cbv zeta. unfold massMatrix, kineticForm, bodies. change (m_njoints (exV eps) - 1) with 3. cbn [sumN Nat.eqb].
  destruct (exV_vel eps q (unitv 0)) as (-> & -> & ->). destruct (exV_vel eps q (unitv 1)) as (-> & -> & ->). destruct (exV_vel eps q (unitv 2)) as (-> & -> & ->).
  rewrite !exV_inertia by lia. unfold inertia_mul, inertia_pequ, pxV, unitv, v6dot, v3dot. cbn. repeat split; ring.
Qed.
Lemma exV_positive eps q : positiveM (m_nv (exV eps)) (massMatrix (exV eps) q).
Proof.
  pose proof (exV_built eps) as B. apply (solid_positive _ (Built_wf _ _ B) (Built_tree _ _ B) (exV_valid eps) (exV_noMimic eps) q (exV_validState eps q) (exV_solid eps) (exV_rotors eps) (exV_regular eps q)).
Qed.
Lemma exV_down eps (f : Data -> nat -> Data) d : downward (exV eps) f d = f (f (f d 3) 2) 1.
Proof. reflexivity. Qed.
Lemma exV_up eps (f : Data -> nat -> Data) d : upward (exV eps) f d = f (f (f d 1) 2) 3.
Proof. reflexivity. Qed.
Lemma exV_fill1 eps j U D g : let X := ma (minvFill (exV eps) 1 [j] U D g) F_Minv in
  X 0 0 = D 0 0 /\ X 0 1 = (- v6dot (v6add (v6scale (D 0%nat 0%nat) j) v6zero) (fcrb g 0 1))%R /\ X 1 1 = ma g F_Minv 1 1.
Proof. split; [|split]; reflexivity. Qed.
Lemma exV_fill2 eps j u D g : let g' := minvFill (exV eps) 2 [j] [u] D g in
  ma g' F_Minv 1 1 = D 0 0 /\ fcrb g' 0 1 = v6add (v6scale (D 0 0) u) v6zero.
Proof. split; reflexivity. Qed.
Lemma exV_fwd eps i J UD g k l : 0 < i < 4 -> k <= l < 2 -> ma (minvFwdG (exV eps) i J UD g) F_Minv k l = ma g F_Minv k l.
Proof. intros Hi Hk. destruct i as [|[|[|[|i]]]]; try lia; (destruct k as [|[|k]]; [| |lia]; destruct l as [|[|l]]; try lia; reflexivity). Qed.
Lemma exV_J eps q d : let d' := setGl (upward (exV eps) (rowStepG (exV eps) (minvRow1 (exV eps) q) (crbaWCols (exV eps))) d) (onFcrb (gl (upward (exV eps) (rowStepG (exV eps) (minvRow1 (exV eps) q) (crbaWCols (exV eps))) d)) 0 (fun _ _ => v6zero)) in
  co (gl d') F_J 0 = pxV 1 /\ co (gl d') F_J 1 = pxV 1 /\
  m6 (rows d' 2) F_oYaba = inertia_matrix (inertia_act (se3_mul se3_Identity (jM (jcalc (JSimple (JPrismatic 0)) (shift 1 q) noVel))) (inertia_pequ eps inertia_Zero (inertia_act se3_Identity exY1))).
Proof.
  cbv zeta. rewrite !exV_up. split; [|split].
  - transitivity (motion_act (se3_mul se3_Identity (jM (jcalc (JSimple (JPrismatic 0)) (shift 0 q) noVel))) (pxV 1)); [reflexivity|]. unfold se3_mul. cbn. px.
  - transitivity (motion_act (se3_mul se3_Identity (jM (jcalc (JSimple (JPrismatic 0)) (shift 1 q) noVel))) (pxV 1)); [reflexivity|]. unfold se3_mul. cbn. px.
  - reflexivity.
Qed.
Lemma exV_back3 inv eps d : co (gl (minvBack inv (exV eps) d 3)) F_J = co (gl d) F_J /\ m6 (rows (minvBack inv (exV eps) d 3) 2) F_oYaba = m6 (rows d 2) F_oYaba.
Proof. split; reflexivity. Qed.
Lemma exV_back2 inv eps d : let J := co (gl d) F_J 1 in let U := m6vec (m6 (rows d 2) F_oYaba) J in
  let d' := minvBack inv (exV eps) d 2 in let D := inv 1 (StU [J] [U] (armSel (exV eps) 2)) in
  co (gl d') F_J = co (gl d) F_J /\ ma (gl d') F_Minv 1 1 = D 0 0 /\ fcrb (gl d') 0 1 = v6add (v6scale (D 0 0) U) v6zero.
Proof. cbv zeta. split; [reflexivity|]. exact (exV_fill2 eps (co (gl d) F_J 1) (m6vec (m6 (rows d 2) F_oYaba) (co (gl d) F_J 1)) _ (gl d)). Qed.
Lemma exV_back1 inv eps d : let J := co (gl d) F_J 0 in let X := ma (gl (minvBack inv (exV eps) d 1)) F_Minv in
  X 0 1 = (- v6dot (v6add (v6scale (X 0%nat 0%nat) J) v6zero) (fcrb (gl d) 0 1))%R /\ X 1 1 = ma (gl d) F_Minv 1 1.
Proof.
  cbv zeta. pose proof (exV_fill1 eps (co (gl d) F_J 0) [m6vec (m6 (rows d 1) F_oYaba) (co (gl d) F_J 0)]
    (inv 1 (StU [co (gl d) F_J 0] [m6vec (m6 (rows d 1) F_oYaba) (co (gl d) F_J 0)] (armSel (exV eps) 1))) (gl d)) as H.
  cbv zeta in H. destruct H as (H1 & H2 & H3).
  change (gl (minvBack inv (exV eps) d 1)) with (minvFill (exV eps) 1 [co (gl d) F_J 0] [m6vec (m6 (rows d 1) F_oYaba) (co (gl d) F_J 0)]
    (inv 1 (StU [co (gl d) F_J 0] [m6vec (m6 (rows d 1) F_oYaba) (co (gl d) F_J 0)] (armSel (exV eps) 1))) (gl d)).
  rewrite H1. split; [exact H2 | exact H3].
Qed.
Lemma exV_fwdD eps d i k l : 0 < i < 4 -> k <= l < 2 -> ma (gl (minvFwd (exV eps) d i)) F_Minv k l = ma (gl d) F_Minv k l.
Proof. intros Hi Hk. apply (exV_fwd eps i _ _ (gl d) k l Hi Hk). Qed.
Lemma exV_entry inv eps d q : let X := ma (gl (computeMinverse inv (exV eps) d q)) F_Minv in X 0 1 = (- 2 * (X 0%nat 0%nat * X 1%nat 1%nat))%R.
Proof.
  cbv zeta. cbv beta delta [computeMinverse]. set (d0 := setGl d _). cbv zeta. pose proof (exV_J eps q d0) as HJ. cbv zeta in HJ.
  set (d2 := setGl (upward _ _ d0) _) in *. rewrite exV_up, exV_down, !exV_fwdD by lia. clearbody d2. clear d0.
  destruct HJ as (J0 & J1 & Y). destruct (exV_back3 inv eps d2) as [K1 K2]. set (d3 := minvBack inv (exV eps) d2 3) in *. rewrite <- K1 in J0, J1. rewrite <- K2 in Y. clearbody d3. clear K1 K2.
  destruct (exV_back2 inv eps d3) as (L1 & L2 & L3). set (d4 := minvBack inv (exV eps) d3 2) in *. clearbody d4.
  destruct (exV_back1 inv eps d4) as (N1 & N2). rewrite N1. rewrite N2, L3, L1, L2, J0, J1, Y.
  generalize (ma (gl (minvBack inv (exV eps) d4 1)) F_Minv 0 0). intros x. set (y := inv 1 _ 0 0). clearbody y.
  unfold inertia_mul, inertia_act, inertia_pequ, motion_act, se3_mul, pxV, v6dot, v3dot. cbn. ring.
Qed.
Theorem exV_wrong inv eps d q : ~ identityM (m_nv (exV eps)) (matMul (m_nv (exV eps)) (massMatrix (exV eps) q) (symUpper (ma (gl (computeMinverse inv (exV eps) d q)) F_Minv))).
Proof.
  intros H. assert (N : m_nv (exV eps) = 3) by reflexivity. rewrite N in H.
  pose proof (exV_mass eps q) as E. pose proof (exV_entry inv eps d q) as Z. cbv zeta in E, Z.
  generalize dependent (massMatrix (exV eps) q). generalize dependent (ma (gl (computeMinverse inv (exV eps) d q)) F_Minv).
  intros X Z M H (E01 & E10 & E11 & E12 & E20 & E21 & E22).
  pose proof (H 1 0 ltac:(lia) ltac:(lia)) as A. pose proof (H 1 1 ltac:(lia) ltac:(lia)) as B. pose proof (H 2 0 ltac:(lia) ltac:(lia)) as C. pose proof (H 0 0 ltac:(lia) ltac:(lia)) as D.
  unfold matMul, symUpper in A, B, C, D. cbn [sumN Nat.leb Nat.eqb] in A, B, C, D. rewrite E10, E11, E12 in A, B. rewrite E20, E21, E22 in C. rewrite E01 in D.
  assert (X 0 1 = (0)%R) by lra. assert (X 1 1 = (1 / 2)%R) by lra. assert (X 0 0 = (0)%R) by (rewrite H1 in Z; lra). assert (X 0 2 = (0)%R) by lra.
  rewrite H2, H3 in D. lra.
Qed.
