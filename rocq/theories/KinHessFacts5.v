(* The statements of C71 and the model on which the LOCAL Hessian is wrong. *)
Require Import Reals List Arith ZArith Lia Lra Bool.
From Verif Require Import Vec3 Spatial Inertia SpatialFacts Joints Spec_Joints Deriv JointFacts Model Spec_Model ModelFacts ModelTree ModelFacts2 ModelFacts3 Sums Data Kinematics Spec_Kin Spec_Mass KinFacts KinFacts3 TreeSums MassFacts Crba CrbaFacts CrbaFacts2 CrbaFacts3 CrbaFacts4 Jacobian Spec_Jac JacFacts JacFacts2 JacFacts3 JacFacts5 JacFacts6 CholFacts5 ComFacts6 DccrbaFacts DccrbaFacts3 RneaDerFacts3 RneaDerFacts8 KinDerFacts KinDerFacts2 KinDerFacts4 Spec_KinDer KinDerFacts7 KinHess KinHessFacts KinHessFacts2 KinHessFacts3 KinHessFacts4 KinDerEx.
Import ListNotations.
Local Open Scope nat_scope.

Lemma anc_onPath eps m (Bt : Built eps m) i j : j < m_njoints m -> (anc m i j = true <-> onPath m i j).
Proof. intros Hj. rewrite (onPath_support m i j (Built_tree eps m Bt) Hj). unfold anc. apply inb_In. Qed.
Lemma hessians_content eps m (Bt : Built eps m) (NM : noMimic m) J K0 i s o k : 0 < i < m_njoints m -> 0 < s < m_njoints m -> columnOf m i o -> columnOf m s k ->
  ((onPath m i s \/ onPath m s i) /\ o <> k -> computeJointKinematicHessians m J K0 o k = motion_cross (J o) (J k)) /\
  (~ ((onPath m i s \/ onPath m s i) /\ o <> k) -> computeJointKinematicHessians m J K0 o k = K0 o k).
Proof.
  intros Hi Hs Ho Hk. unfold columnOf in *. destruct (hessians_spec eps m Bt NM J K0 i (o - idx_v m i) k Hi ltac:(lia)) as [H1 H2].
  replace (idx_v m i + (o - idx_v m i)) with o in * by lia. split.
  - intros [H N]. apply H1. exists s, (k - idx_v m s). repeat split; try lia. destruct H as [H|H]; [right | left]; apply (anc_onPath eps m Bt); (exact H || lia).
  - intros H. apply H2. intros (s' & c & Hs' & Hc & -> & A & N). apply H. destruct (col_owner eps m Bt NM s' s c (idx_v m s' + c - idx_v m s) Hs' Hs Hc ltac:(lia) ltac:(lia)) as [-> _]. split; [|lia].
    destruct A as [A|A]; [right | left]; apply (anc_onPath eps m Bt); (exact A || lia).
Qed.
Lemma hessian_zero eps m (Bt : Built eps m) (Vm : validModel m) (NM : noMimic m) (Pos : noRigidJoint m) d K j rf i o k : 0 < j < m_njoints m -> 0 < i < m_njoints m -> ~ onPath m i j ->
  columnOf m i o \/ columnOf m i k -> getJointKinematicHessian m d K j rf zeroH o k = v6zero.
Proof.
  intros Hj Hi N H. apply (getter_off eps m Bt Vm NM Pos d K j Hj).
  assert (E : forall x, columnOf m i x -> ~ In x (pathCols m j)).
  { intros x Hx h. apply (pathCols_in m j) in h as (s & c & Hs & Hc & ->); [|lia]. pose proof (tail_range m (Built_wf eps m Bt) (Built_tree eps m Bt) j s ltac:(lia) Hs) as Rs. unfold columnOf in Hx.
    destruct (col_owner eps m Bt NM s i c (idx_v m s + c - idx_v m i) ltac:(lia) Hi Hc ltac:(lia) ltac:(lia)) as [-> _]. apply N. apply (tail_onPath eps m Bt i j ltac:(lia)) in Hs. apply Hs. }
  destruct H as [H|H]; [left | right]; auto.
Qed.
Lemma exD_S2 s : nth 3 (jS (jointAt (exD (1/1000)) (exQ s) noVel 2)) v6zero = angCol (unitAxis 0).
Proof. unfold jointAt. destruct (exD_types (1/1000) 2 ltac:(lia)) as (-> & _ & ->). reflexivity. Qed.
Lemma local_bug : exists (m : Model) (q : R -> vec) (v : vec) (t : R) (j k : nat),
  Built (1/1000) m /\ validModel m /\ noMimic m /\ noRigidJoint m /\ (forall i, 0 < i < m_njoints m -> fixedAxes (jm_type (joint m i))) /\ (forall s, validState m (q s)) /\
  moves m q v t /\ 0 < j < m_njoints m /\ k < m_nv m /\
  forall d d0 K0, ~ deriv6 (fun s => getJointJacobian m (computeJointJacobians m d (q s)) j LOCAL zeroJ k)
    (colsMul (m_nv m) (fun o => getJointKinematicHessian m (fst (computeJointKinematicHessiansQ m d0 (q t) K0)) (snd (computeJointKinematicHessiansQ m d0 (q t) K0)) j LOCAL zeroH o k) v) t.
Proof.
  exists (exD (1/1000)), exQ, (exV 0), 0%R, 2, 4.
  refine (conj (exD_built _) (conj (exD_valid _) (conj (exD_noMimic _) (conj (exD_norigid _) (conj (exD_fixed _) (conj (exD_validState _) (conj (exD_moves 0) (conj (conj (le_S _ _ (le_n 1)) (le_S 3 3 (le_n 3))) (conj _ _))))))))).
  - change (m_nv (exD (1/1000))) with 10. lia.
  - intros d d0 K0 H. set (m := exD (1/1000)) in *. pose proof (exD_built (1/1000)) as Bt. fold m in Bt. assert (H2 : 0 < 2 < m_njoints m) by (split; [lia | change (m_njoints m) with 4; lia]).
    assert (Hp : 0 < parent m 2) by (change (parent m 2) with 1; lia). assert (Ha : 3 < nvOf m 2) by (change (nvOf m 2) with 6; lia).
    destruct (local_own (1/1000) m Bt (exD_valid _) (exD_noMimic _) (exD_norigid _) (exQ 0) d0 K0 (exD_validState _ 0%R) 2 3 (exV 0) d0 H2 Hp Ha) as [E1 E2].
    change (idx_v m 2 + 3) with 4 in E1, E2. rewrite E1 in H.
    pose proof (joint_variation (1/1000) m Bt (exD_valid _) (exD_norigid _) d d0 exQ (exV 0) (unitv 4) 0 2 LOCAL (exD_fixed _) (exD_validState _) (exD_moves 0) H2) as D.
    rewrite colsMul_unit in D. assert (L : (4 <? m_nv m) = true) by (change (m_nv m) with 10; reflexivity). rewrite L, E2 in D.
    assert (D2 : deriv6 (fun s => getJointJacobian m (computeJointJacobians m d (exQ s)) 2 LOCAL zeroJ 4) v6zero 0).
    { eapply deriv6_ext; [|exact D]. intros s. cbv beta. rewrite colsMul_unit, L. reflexivity. }
    pose proof (deriv6_unique _ _ _ _ H D2) as E. unfold m in E. rewrite exD_S2, exD_twist in E. apply (f_equal (fun x => vy (ang x))) in E. cbn in E. lra.
Qed.
