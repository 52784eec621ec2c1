(* A chain of three joints with one degree of freedom. *)
Require Import Reals List Arith ZArith Lia Lra Bool String.
From Verif Require Import Vec3 Spatial Inertia Joints Spec_Joints Deriv JointFacts Model Spec_Model ModelFacts ModelTree ModelFacts2 ModelFacts3 Sums Data Kinematics Spec_Kin Spec_Mass KinFacts3 MassFacts Crba CrbaFacts CrbaFacts3 Jacobian Spec_Jac DccrbaFacts2 JacFacts7 ComFacts6 DccrbaFacts3 KinDer KinDerFacts3 KinDerFacts4 CrbaFacts4 Spec_KinDer.
Import ListNotations.
Local Open Scope nat_scope.

Definition exR2 : Model := okModel (addJoint ex1 1 (freshJoint (JSimple (JRevolute 0))) (mkSE3 m3id (mkV3 1 2 3)) "b"%string (exLim 1 1)) ex1.
Definition exR : Model := okModel (addJoint exR2 2 (freshJoint (JSimple (JPrismatic 1))) (mkSE3 m3id (mkV3 0 1 0)) "c"%string (exLim 1 1)) exR2.
Lemma exR_built eps : Built eps exR.
Proof.
  assert (H1 : History eps ex1 []).
  { apply (H_step eps emptyModel _ [] None); [constructor|]. apply (S_joint eps emptyModel _ 0 (JSimple (JRevolute 2)) se3_Identity "a"%string (exLim 1 1) 1); [exact I|reflexivity]. }
  assert (H2 : History eps exR2 []).
  { apply (H_step eps ex1 _ [] None); [exact H1|]. apply (S_joint eps ex1 _ 1 (JSimple (JRevolute 0)) (mkSE3 m3id (mkV3 1 2 3)) "b"%string (exLim 1 1) 2); [exact I|reflexivity]. }
  eexists. apply (H_step eps exR2 _ [] None); [exact H2|]. apply (S_joint eps exR2 _ 2 (JSimple (JPrismatic 1)) (mkSE3 m3id (mkV3 0 1 0)) "c"%string (exLim 1 1) 3); [exact I|reflexivity].
Qed.
Lemma exR_types : forall i, 0 < i < 4 -> jm_type (joint exR i) = nth i [JSimple (JRevolute 2); JSimple (JRevolute 2); JSimple (JRevolute 0); JSimple (JPrismatic 1)] (JSimple (JRevolute 2)) /\
  idx_q exR i = nth i [0; 0; 1; 2] 0 /\ idx_v exR i = nth i [0; 0; 1; 2] 0.
Proof. intros i Hi. destruct i as [|[|[|[|i]]]]; try lia; repeat split; reflexivity. Qed.
Lemma exR_valid : validModel exR.
Proof.
  intros i Hi. change (m_njoints exR) with 4 in Hi.
  destruct i as [|[|[|[|i]]]]; try lia; cbn; (split; [repeat split; auto; try lia; tauto | apply isRotation_id]).
Qed.
Lemma exR_noMimic : noMimic exR.
Proof. intros i Hi. change (m_njoints exR) with 4 in Hi. destruct i as [|[|[|[|i]]]]; try lia; reflexivity. Qed.
Lemma exR_norigid : noRigidJoint exR.
Proof. intros i Hi. change (m_njoints exR) with 4 in Hi. destruct i as [|[|[|[|i]]]]; try lia; cbn; lia. Qed.
Lemma exR_fixed : forall i, 0 < i < m_njoints exR -> fixedAxes (jm_type (joint exR i)).
Proof.
  intros i Hi. change (m_njoints exR) with 4 in Hi. destruct (exR_types i Hi) as (-> & _).
  destruct i as [|[|[|[|i]]]]; try lia; cbn [nth]; apply fixedAxes_simple; discriminate.
Qed.
Definition exRQ (s : R) : vec := fun _ => s.
Definition exRV : vec := fun _ => 1%R.
Lemma exR_validState s : validState exR (exRQ s).
Proof. intros i Hi. change (m_njoints exR) with 4 in Hi. destruct (exR_types i Hi) as (-> & _). destruct i as [|[|[|[|i]]]]; try lia; cbn [nth validConfig validConfig1]; exact I. Qed.
Lemma exR_moves s : moves exR exRQ exRV s.
Proof.
  intros i k Hi Hk. change (m_njoints exR) with 4 in Hi. destruct (exR_types i Hi) as (E & _). rewrite E in *.
  apply (deriv_eq _ 1%R); [exact (derivable_pt_lim_id s)|]. destruct i as [|[|[|[|i]]]]; try lia; cbn [nth] in *; cbn in Hk; destruct k as [|k]; try lia; reflexivity.
Qed.
Lemma exR_commute s : commutingAxes exR (exRQ s).
Proof.
  apply (one_dof_commute 1 exR (exR_built 1) exR_valid exR_noMimic); [|apply exR_validState].
  intros i Hi _. change (m_njoints exR) with 4 in Hi. destruct i as [|[|[|[|i]]]]; try lia; reflexivity.
Qed.
Lemma acceleration_bug : exists (m : Model) (q v a : R -> vec) (w v' a' : vec) (t : R) (j : nat),
  Built (1/1000) m /\ validModel m /\ noMimic m /\ (forall i, 0 < i < m_njoints m -> fixedAxes (jm_type (joint m i))) /\ (forall s, validState m (q s)) /\
  moves m q w t /\ accelerates m v v' t /\ accelerates m a a' t /\ 0 < j < m_njoints m /\
  forall d d0, ~ exists D, getJointAccelerationDerivatives m (computeForwardKinematicsDerivatives m d (q t) (v t) (a t)) j WORLD zeroAD = Ok tt D /\
    deriv6 (fun s => getAcceleration (forwardKinematics2 m d0 (q s) (v s) (a s)) j WORLD)
      (v6add (v6add (colsMul (m_nv m) (ad_aq D) w) (colsMul (m_nv m) (ad_av D) v')) (colsMul (m_nv m) (ad_aa D) a')) t.
Proof.
  exists (exD (1/1000)), exQ, (fun _ => kdV), (fun _ _ => 0%R), (exV 0), (fun _ => 0%R), (fun _ => 0%R), 0%R, 2.
  exact (conj (exD_built _) (conj (exD_valid _) (conj (exD_noMimic _) (conj (exD_fixed _) (conj (exD_validState _) (conj (exD_moves 0) (conj (const_accelerates _ kdV 0) (conj (const_accelerates _ _ 0)
    (conj (conj (le_S _ _ (le_n 1)) (le_S 3 3 (le_n 3))) (acceleration_refuted 0)))))))))).
Qed.
Definition exM : SE3 := mkSE3 m3id (mkV3 1 2 3).
Lemma exM_rot : isRotation (rot exM).
Proof. exact isRotation_id. Qed.
Lemma local_frames : LOCAL <> WORLD /\ LOCAL_WORLD_ALIGNED <> WORLD.
Proof. split; discriminate. Qed.
