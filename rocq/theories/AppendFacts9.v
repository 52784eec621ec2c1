(* Appending a model: concrete models, and the inputs for which appending goes wrong. *)
Require Import Reals String List Arith Bool Lia Lra.
From Verif Require Import Vec3 Spatial Inertia InertiaFacts Joints Spec_Joints JointFacts Model Spec_Model ModelFacts ModelFacts2 ModelTree ModelFacts3 Spec_Kin Spec_Dyn Mimic CrbaFacts4 MimicFacts5 Reduce Spec_Append AppendFacts AppendFacts2 ReduceFacts6 ReduceFacts7 LieGroup Append Spec_Attach AppendEval.
Import ListNotations.
Local Open Scope nat_scope.

(* two branches, s - u and t - v (v mimics t); a frame to mount a model on s *)
Definition aps : Model := ltac:(lit (okModel (addJoint emptyModel 0 (freshJoint (JSimple (JRevolute 2))) (lkP 0 0 1) "s" (exLim 1 1)) emptyModel)).
Definition apt : Model := ltac:(lit (okModel (addJoint aps 0 (freshJoint (JSimple (JPrismatic 0))) (lkP 1 0 0) "t" (exLim 1 1)) aps)).
Definition apu : Model := ltac:(lit (okModel (addJoint apt 1 (freshJoint (JSimple (JRevolute 1))) (lkP 0 2 0) "u" (exLim 1 1)) apt)).
Definition apv : Model := ltac:(lit (okModel (addJoint apu 2 (mkMimic (JPrismatic 0) (joint apu 2) 2 1) (lkP 1 1 0) "v" (exLim 0 0)) apu)).
Definition mountF : Frame := mkFrame "mount" 1 0 (mkSE3 m3id (mkV3 0 0 1)) OP_FRAME inertia_Zero.
Definition tipF : Frame := mkFrame "tip" 4 1 (mkSE3 m3id (mkV3 1 0 0)) OP_FRAME inertia_Zero.
Definition ap1 : Model := ltac:(lit (okModel (addFrame 1 apv mountF false) apv)).
Definition ap2 : Model := ltac:(lit (okModel (addFrame 1 ap1 tipF false) ap1)).
Definition apRefs : list (string * list R) := [("home"%string, [1; 2; 3]%R); ("park"%string, [4; 5; 6]%R)].
Definition exTree : Model := setRefs (setRotor ap2 [4; 5; 6]%R [1; 2; 3]%R) apRefs.
Lemma apu_history eps : History eps apu [].
Proof.
  assert (Ha : History eps aps []) by (apply (H_step eps emptyModel _ [] None); [constructor | apply (S_joint eps emptyModel _ 0 (JSimple (JRevolute 2)) (lkP 0 0 1) "s"%string (exLim 1 1) 1); [cbn; tauto|reflexivity]]).
  assert (Hb : History eps apt []) by (apply (H_step eps aps _ [] None); [exact Ha | apply (S_joint eps aps _ 0 (JSimple (JPrismatic 0)) (lkP 1 0 0) "t"%string (exLim 1 1) 2); [cbn; tauto|reflexivity]]).
  apply (H_step eps apt _ [] None); [exact Hb | apply (S_joint eps apt _ 1 (JSimple (JRevolute 1)) (lkP 0 2 0) "u"%string (exLim 1 1) 3); [cbn; tauto|reflexivity]].
Qed.
Lemma ap2_built eps : Built eps ap2.
Proof.
  exists []. assert (Hd : History eps apv []).
  { apply (H_step eps apu _ [] None); [apply apu_history|]. apply (S_mimic eps apu _ 2 (JPrismatic 0) 2 2 1 (lkP 1 1 0) "v"%string (exLim 0 0) 4); try exact I; try reflexivity. cbn; lia. }
  assert (H1 : History eps ap1 []) by (apply (H_step eps apv _ [] None); [exact Hd | apply (S_frame_no_inertia eps apv _ mountF 1); reflexivity]).
  apply (H_step eps ap1 _ [] None); [exact H1 | apply (S_frame_no_inertia eps ap1 _ tipF 2); reflexivity].
Qed.
Lemma exTree_configured eps : Configured eps exTree.
Proof. exists ap2, [4; 5; 6]%R, [1; 2; 3]%R, apRefs. repeat split; try reflexivity. apply ap2_built. Qed.
Lemma exTree_named : wellNamed exTree.
Proof.
  constructor.
  - cbn. repeat constructor; cbn; intuition discriminate.
  - cbn. repeat constructor; cbn; intuition discriminate.
  - intros f. cbn. intuition (subst; cbn; auto 10).
  - intros f. cbn. intuition (subst; cbn; lia).
  - intros key c [E|[E|[]]]; injection E as <- <-; reflexivity.
Qed.
Lemma exTree_appendable eps : appendable eps exTree (exLock eps) 1 mountF.
Proof.
  constructor.
  - split; [apply exTree_configured | apply exLock_configured].
  - split; [apply exTree_named | apply exLock_named].
  - cbn. repeat constructor; cbn; intuition discriminate.
  - cbn. repeat constructor; cbn; intuition discriminate.
  - cbn. split; repeat constructor; cbn; intuition discriminate.
  - reflexivity.
  - intros i Hi Hm Hp. exfalso. change (m_njoints exTree) with 5 in Hi. destruct i as [|[|[|[|[|i]]]]]; try discriminate; try lia.
    apply (hasAncestor_spec exTree 1 4 (proj1 (proj2 (Configured_facts eps exTree (exTree_configured eps)))) ltac:(cbn; lia)) in Hp. discriminate Hp.
Qed.
Definition apM : SE3 := lkP 0 1 0.
Definition rTree (eps : R) : Model := okModel (appendModelP eps neutralVector exTree (exLock eps) 1 apM) emptyModel.
Lemma rTree_plain eps : plainFrames exTree /\ plainFrames (exLock eps).
Proof.
  split; [intros f; cbn; intuition (subst; reflexivity)|]. intros f. change (In f (m_frames (exLock eps))) with (In f (m_frames lk5)). cbn. intuition (subst; reflexivity).
Qed.
Lemma rTree_ok eps : appendModel eps neutralVector exTree (exLock eps) 1 apM = Ok (rTree eps) tt.
Proof. destruct (rTree_plain eps). rewrite appendModel_P by assumption. apply ok_model. reflexivity. Qed.
Lemma rTree_shape eps : m_names (rTree eps) = ["universe"; "s"; "u"; "a"; "b"; "c"; "d"; "t"; "v"]%string /\ m_parents (rTree eps) = [0; 0; 1; 1; 3; 4; 5; 0; 7].
Proof. split; reflexivity. Qed.
Lemma rTree_copied_a eps i k : copied exTree i (rTree eps) k -> (i = 1 /\ k = 1) \/ (i = 2 /\ k = 7) \/ (i = 3 /\ k = 2) \/ (i = 4 /\ k = 8).
Proof.
  intros [[H1 H2] H3 _ _ _ _ _ _]. change (m_njoints exTree) with 5 in H1. change (m_njoints (rTree eps)) with 9 in H2. unfold nameOf in H3.
  change (m_names (rTree eps)) with ["universe"; "s"; "u"; "a"; "b"; "c"; "d"; "t"; "v"]%string in H3. change (m_names exTree) with ["universe"; "s"; "t"; "u"; "v"]%string in H3.
  destruct i as [|[|[|[|[|i]]]]]; try lia; destruct k as [|[|[|[|[|[|[|[|[|k]]]]]]]]]; try lia; cbn in H3; try discriminate; auto.
Qed.
Lemma rTree_copied_b eps i k : copied (exLock eps) i (rTree eps) k -> 0 < i < 5 /\ k = i + 2.
Proof.
  intros [[H1 H2] H3 _ _ _ _ _ _]. change (m_njoints (exLock eps)) with 5 in H1. change (m_njoints (rTree eps)) with 9 in H2. unfold nameOf in H3.
  change (m_names (rTree eps)) with ["universe"; "s"; "u"; "a"; "b"; "c"; "d"; "t"; "v"]%string in H3. change (m_names (exLock eps)) with ["universe"; "a"; "b"; "c"; "d"]%string in H3.
  destruct i as [|[|[|[|[|i]]]]]; try lia; destruct k as [|[|[|[|[|[|[|[|[|k]]]]]]]]]; try lia; cbn in H3; try discriminate; auto.
Qed.
(* the coordinates of the copies: s, u, a, b, c, t *)
Definition apQa : nat -> R := coord [1; 2; 3]%R.
Definition apQb : nat -> R := coord [4; 5; 6]%R.
Definition apQr : nat -> R := coord [1; 3; 4; 5; 6; 2]%R.
Lemma rTree_states eps : validModel exTree /\ validModel (exLock eps) /\ validState exTree apQa /\ validState (exLock eps) apQb /\
  sameCoordinates exTree (rTree eps) apQa apQr /\ sameCoordinates (exLock eps) (rTree eps) apQb apQr /\
  sameVelocities exTree (rTree eps) apQa apQr /\ sameVelocities (exLock eps) (rTree eps) apQb apQr /\ isRotation (rot (fr_placement mountF)) /\ isRotation (rot apM).
Proof.
  split; [|split; [apply exLock_valid|split; [|split; [|split; [|split; [|split; [|split; [|split; apply isRotation_id]]]]]]]].
  - intros i Hi. change (m_njoints exTree) with 5 in Hi. destruct i as [|[|[|[|[|i]]]]]; try lia; cbn; (split; [repeat split; auto; try lia; tauto | apply isRotation_id]).
  - intros i Hi. change (m_njoints exTree) with 5 in Hi. destruct i as [|[|[|[|[|i]]]]]; try lia; cbn; tauto.
  - intros i Hi. change (m_njoints (exLock eps)) with 5 in Hi. destruct i as [|[|[|[|[|i]]]]]; try lia; cbn; tauto.
  - intros i k c H Hm Hc. destruct (rTree_copied_a eps i k H) as [[-> ->]|[[-> ->]|[[-> ->]|[-> ->]]]]; try discriminate; cbn in Hc; (destruct c; [reflexivity|lia]).
  - intros i k c H Hm Hc. destruct (rTree_copied_b eps i k H) as [Hi ->]. destruct i as [|[|[|[|[|i]]]]]; try lia; try discriminate; cbn in Hc; (destruct c; [reflexivity|lia]).
  - intros i k c H Hm Hc. destruct (rTree_copied_a eps i k H) as [[-> ->]|[[-> ->]|[[-> ->]|[-> ->]]]]; try discriminate; cbn in Hc; (destruct c; [reflexivity|lia]).
  - intros i k c H Hm Hc. destruct (rTree_copied_b eps i k H) as [Hi ->]. destruct i as [|[|[|[|[|i]]]]]; try lia; try discriminate; cbn in Hc; (destruct c; [reflexivity|lia]).
Qed.
Lemma rTree_masses eps : (0 < eps <= 2)%R -> regularMasses eps exTree /\ regularMasses eps (exLock eps) /\ plainFrames exTree /\ plainFrames (exLock eps).
Proof.
  intros H. split; [|split; [now apply exLock_masses|apply rTree_plain]].
  - split; [apply H|]. intros i Hi. change (m_njoints exTree) with 5 in Hi. five Hi; cbn; left; reflexivity.
Qed.
(* the reference configuration "home" of both models, and "park" of the first *)
Lemma rTree_refs eps : lookup "home" (m_refs (rTree eps)) = Some [1; 3; 7; 8; 9; 2]%R /\ lookup "park" (m_refs (rTree eps)) = Some [4; 6; 0; 0; 0; 5]%R.
Proof. split; reflexivity. Qed.

(* ---- what goes wrong ---- *)
(* gravity, name and armature *)
Definition apG : Model := setGravityArmature ap2 (mkV6 v3zero v3zero) [1; 1; 1]%R.
Lemma apG_appendable eps : appendable eps apG emptyModel 1 mountF.
Proof.
  assert (C : Configured eps apG).
  { exists apG, (m_rotorInertia apG), (m_rotorGearRatio apG), []. split; [|repeat split; reflexivity]. destruct (ap2_built eps) as [l H]. exists l. apply (H_step eps ap2 _ l None); [exact H|]. eapply S_set; [|reflexivity]. reflexivity. }
  destruct exTree_named as [N1 N2 N3 N4 N5]. constructor.
  - split; [exact C|]. exists emptyModel, [], [], []. split; [exists []; constructor|]. repeat split; reflexivity.
  - split; [constructor; [exact N1 | exact N2 | exact N3 | exact N4 | intros ? ? []]|]. constructor; cbn; try (intuition (subst; cbn; auto; lia)); repeat constructor; cbn; intuition discriminate.
  - cbn. repeat constructor; cbn; intuition discriminate.
  - cbn. repeat constructor; cbn; intuition discriminate.
  - split; constructor.
  - reflexivity.
  - intros i Hi Hm Hp. exfalso. change (m_njoints apG) with 5 in Hi. destruct i as [|[|[|[|[|i]]]]]; try discriminate; try lia.
    apply (hasAncestor_spec apG 1 4 (proj1 (proj2 (Configured_facts eps apG C))) ltac:(cbn; lia)) in Hp. discriminate Hp.
Qed.
Lemma apG_lost eps : exists r, appendModel eps neutralVector apG emptyModel 1 apM = Ok r tt /\ m_gravity apG = mkV6 v3zero v3zero /\ m_gravity r <> m_gravity apG /\
  copied apG 1 r 1 /\ segV apG 1 (m_armature apG) = [1%R] /\ segV r 1 (m_armature r) = [0%R].
Proof.
  exists (okModel (appendModelP eps neutralVector apG emptyModel 1 apM) emptyModel). split; [rewrite appendModel_P by (intros f; cbn; intuition (subst; reflexivity)); apply ok_model; reflexivity|]. split; [reflexivity|]. split; [|split; [|split; reflexivity]].
  - change (m_gravity (okModel (appendModelP eps neutralVector apG emptyModel 1 apM) emptyModel)) with (m_gravity emptyModel). intros E. apply (f_equal (fun x => vz (lin x))) in E. cbn in E. lra.
  - constructor; try (split; reflexivity); try reflexivity. change (m_njoints apG) with 5. change (m_njoints (okModel (appendModelP eps neutralVector apG emptyModel 1 apM) emptyModel)) with 5. lia.
Qed.
(* a mimic joint below the mounting point follows a joint of another branch: the joint it follows is not there yet *)
Definition apw : Model := ltac:(lit (okModel (addJoint apu 3 (mkMimic (JPrismatic 0) (joint apu 2) 2 1) (lkP 1 1 0) "w" (exLim 0 0)) apu)).
Definition apw1 : Model := ltac:(lit (okModel (addFrame 1 apw mountF false) apw)).
Lemma followed_later eps : Built eps apw1 /\ appendModel eps neutralVector apw1 emptyModel 1 apM = Undef.
Proof.
  split; [|rewrite appendModel_P by (intros f; cbn; intuition (subst; reflexivity)); reflexivity]. exists []. apply (H_step eps apw _ [] None); [|apply (S_frame_no_inertia eps apw _ mountF 1); reflexivity].
  apply (H_step eps apu _ [] None); [apply apu_history|]. apply (S_mimic eps apu _ 3 (JPrismatic 0) 2 2 1 (lkP 1 1 0) "w"%string (exLim 0 0) 4); try exact I; try reflexivity. cbn; lia.
Qed.
(* a point mass 1 at the origin of a joint, and a frame at (0,0,1) that carries a point mass 1 *)
Definition unitMass : Inertia := mkInertia 1 v3zero (mkSym3 0 0 0 0 0 0).
Definition massF : Frame := mkFrame "load" 1 0 (mkSE3 m3id (mkV3 0 0 1)) OP_FRAME unitMass.
Definition apm1 (eps : R) : Model := okModel (appendBodyToJoint eps aps 1 unitMass (lkP 0 0 0)) aps.
Definition apm2 (eps : R) : Model := okModel (addFrame eps (apm1 eps) massF true) aps.
Lemma apm2_built eps : Built eps (apm2 eps).
Proof.
  exists [(1, lkP 0 0 0, unitMass); (1, fr_placement massF, fr_inertia massF)]. apply (H_step eps (apm1 eps) _ [(1, lkP 0 0 0, unitMass)] (Some (1, fr_placement massF, fr_inertia massF))).
  - apply (H_step eps aps _ [] (Some (1, lkP 0 0 0, unitMass))); [|apply S_body; reflexivity].
    apply (H_step eps emptyModel _ [] None); [constructor | apply (S_joint eps emptyModel _ 0 (JSimple (JRevolute 2)) (lkP 0 0 1) "s"%string (exLim 1 1) 1); [cbn; tauto|reflexivity]].
  - apply (S_frame eps (apm1 eps) _ massF 1); reflexivity.
Qed.
Definition apm3 (eps : R) : Model := ltac:(lit (apm2 eps)).
Lemma zero_test : isZeroInertia (mkInertia 1 (mkV3 0 0 0) (mkSym3 0 0 0 0 0 0)) = false.
Proof. unfold isZeroInertia. cbn. destruct (Req_EM_T 1 0); [lra|reflexivity]. Qed.
Ltac run E := let x := eval cbv -[isZeroInertia IZR Rplus Rmult Rminus Ropp Rinv inertia_pequ inertia_act inertia_mequ se3_mul neutralVector] in E in change E with x.
Lemma apm2_lever eps : (0 < eps <= 1)%R -> vz (lever (inertiaOf (apm2 eps) 1)) = (1 / 2)%R.
Proof.
  intros He. cbv -[IZR Rplus Rmult Rminus Ropp Rinv Rdiv Rmax]. rewrite ?Rmult_0_l, ?Rmult_0_r, ?Rplus_0_l, ?Rplus_0_r.
  rewrite (Rmax_left 1 eps), (Rmax_left (1 + 1) eps) by lra. lra.
Qed.
Lemma frame_inertia_moved eps : (0 < eps <= 1)%R -> exists r, appendModel eps neutralVector (apm2 eps) emptyModel 0 se3_Identity = Ok r tt /\ vz (lever (inertiaOf r 1)) = 1%R.
Proof.
  intros He. change (apm2 eps) with (apm3 eps). eexists. split.
  - set (E := appendModel _ _ _ _ _ _). run E. rewrite zero_test. match goal with |- ?E = _ => run E end. reflexivity.
  - unfold inertiaOf. cbn [m_inertias nth].
    cbv -[IZR Rplus Rmult Rminus Ropp Rinv Rdiv Rmax]. rewrite ?Rmult_0_l, ?Rmult_0_r, ?Rplus_0_l, ?Rplus_0_r.
    replace (1 + 1 - 1)%R with 1%R by ring. rewrite (Rmax_left 1 eps), (Rmax_left (1 + 1) eps) by lra. lra.
Qed.
