(* Locking joints: concrete models, and the inputs for which locking goes wrong. *)
Require Import Reals String List Arith Bool Lia Lra.
From Verif Require Import Vec3 Spatial Inertia InertiaFacts Joints Spec_Joints JointFacts Model Spec_Model ModelFacts ModelFacts2 ModelTree ModelFacts3 Spec_Kin Spec_Dyn Mimic CrbaFacts4 MimicFacts5 Reduce Spec_Append AppendFacts AppendFacts2 AppendFacts3 ReduceFacts ReduceFacts2 ReduceFacts3 ReduceFacts4 ReduceFacts5 ReduceFacts6.
Import ListNotations.
Local Open Scope nat_scope.

(* a chain a, b, c, d (d mimics b), with the frames of its joints, a body and a tool frame *)
Definition lkP (x y z : R) : SE3 := mkSE3 m3id (mkV3 x y z).
Ltac lit m := let x := eval cbv -[IZR Rplus Rmult Rminus Ropp Rinv inertia_pequ inertia_act] in m in exact x.
Definition lka : Model := ltac:(lit (okModel (addJoint emptyModel 0 (freshJoint (JSimple (JRevolute 2))) (lkP 0 0 1) "a" (exLim 1 1)) emptyModel)).
Definition lkb : Model := ltac:(lit (okModel (addJoint lka 1 (freshJoint (JSimple (JPrismatic 0))) (lkP 1 0 0) "b" (exLim 1 1)) lka)).
Definition lkc : Model := ltac:(lit (okModel (addJoint lkb 2 (freshJoint (JSimple (JRevolute 1))) (lkP 0 2 0) "c" (exLim 1 1)) lkb)).
Definition lkd : Model := ltac:(lit (okModel (addJoint lkc 3 (mkMimic (JPrismatic 0) (joint lkc 2) 2 1) (lkP 1 1 0) "d" (exLim 0 0)) lkc)).
Definition jf (nm : string) (j : nat) : Frame := mkFrame nm j (j - 1) se3_Identity JOINT inertia_Zero.
Definition toolF : Frame := mkFrame "tool" 3 3 (mkSE3 m3id (mkV3 0 0 1)) OP_FRAME inertia_Zero.
Definition lk1 : Model := ltac:(lit (okModel (addFrame 1 lkd (jf "a" 1) false) lkd)).
Definition lk2 : Model := ltac:(lit (okModel (addFrame 1 lk1 (jf "b" 2) false) lk1)).
Definition lk3 : Model := ltac:(lit (okModel (addFrame 1 lk2 (jf "c" 3) false) lk2)).
Definition lk4 : Model := ltac:(lit (okModel (addFrame 1 lk3 (jf "d" 4) false) lk3)).
Definition lk5 : Model := ltac:(lit (okModel (addFrame 1 lk4 toolF false) lk4)).
Definition lk6 (eps : R) : Model := setInertias lk5 [inertia_Zero; inertia_Zero; inertia_Zero; inertia_pequ eps inertia_Zero (inertia_act (lkP 0 1 0) exY1); inertia_Zero] (S (m_nbodies lk5)).
Definition lkRefs : list (string * list R) := [("home"%string, [7; 8; 9]%R)].
Definition exLock (eps : R) : Model := setRefs (setRotor (lk6 eps) [4; 5; 6]%R [1; 2; 3]%R) lkRefs.
Lemma lk5_history eps : History eps lk5 [].
Proof.
  assert (Ha : History eps lka []) by (apply (H_step eps emptyModel _ [] None); [constructor | apply (S_joint eps emptyModel _ 0 (JSimple (JRevolute 2)) (lkP 0 0 1) "a"%string (exLim 1 1) 1); [cbn; tauto|reflexivity]]).
  assert (Hb : History eps lkb []) by (apply (H_step eps lka _ [] None); [exact Ha | apply (S_joint eps lka _ 1 (JSimple (JPrismatic 0)) (lkP 1 0 0) "b"%string (exLim 1 1) 2); [cbn; tauto|reflexivity]]).
  assert (Hc : History eps lkc []) by (apply (H_step eps lkb _ [] None); [exact Hb | apply (S_joint eps lkb _ 2 (JSimple (JRevolute 1)) (lkP 0 2 0) "c"%string (exLim 1 1) 3); [cbn; tauto|reflexivity]]).
  assert (Hd : History eps lkd []).
  { apply (H_step eps lkc _ [] None); [exact Hc|]. apply (S_mimic eps lkc _ 3 (JPrismatic 0) 2 2 1 (lkP 1 1 0) "d"%string (exLim 0 0) 4); try exact I; try reflexivity. cbn; lia. }
  assert (H1 : History eps lk1 []) by (apply (H_step eps lkd _ [] None); [exact Hd | apply (S_frame_no_inertia eps lkd _ (jf "a" 1) 1); reflexivity]).
  assert (H2 : History eps lk2 []) by (apply (H_step eps lk1 _ [] None); [exact H1 | apply (S_frame_no_inertia eps lk1 _ (jf "b" 2) 2); reflexivity]).
  assert (H3 : History eps lk3 []) by (apply (H_step eps lk2 _ [] None); [exact H2 | apply (S_frame_no_inertia eps lk2 _ (jf "c" 3) 3); reflexivity]).
  assert (H4 : History eps lk4 []) by (apply (H_step eps lk3 _ [] None); [exact H3 | apply (S_frame_no_inertia eps lk3 _ (jf "d" 4) 4); reflexivity]).
  apply (H_step eps lk4 _ [] None); [exact H4 | apply (S_frame_no_inertia eps lk4 _ toolF 5); reflexivity].
Qed.
Lemma lk6_built eps : Built eps (lk6 eps).
Proof.
  eexists. apply (H_step eps lk5 _ [] (Some (3, lkP 0 1 0, exY1))); [apply lk5_history|]. apply S_body. reflexivity.
Qed.
Lemma exLock_configured eps : Configured eps (exLock eps).
Proof. exists (lk6 eps), [4; 5; 6]%R, [1; 2; 3]%R, lkRefs. repeat split; try reflexivity. apply lk6_built. Qed.
Ltac five H := match type of H with ?i < 5 => destruct i as [|[|[|[|[|i]]]]]; [| | | | |exfalso; lia] end.
Lemma exLock_named eps : wellNamed (exLock eps).
Proof.
  constructor.
  - cbn. repeat constructor; cbn; intuition discriminate.
  - cbn. repeat constructor; cbn; intuition discriminate.
  - intros f. change (In f (m_frames (exLock eps))) with (In f (m_frames (lk5))). cbn. intuition (subst; cbn; auto 10).
  - intros f. change (In f (m_frames (exLock eps))) with (In f (m_frames (lk5))). change (m_nframes (exLock eps)) with 6. cbn. intuition (subst; cbn; lia).
  - intros key c [E|[]]. injection E as <- <-. reflexivity.
Qed.
Definition lkL : list nat := [3; 1].
Definition lkQ0 : list R := [1; 2; 3]%R.
Lemma exLock_lockable eps : lockable (exLock eps) lkL.
Proof.
  constructor.
  - repeat constructor; cbn; intuition discriminate.
  - intros j. change (m_njoints (exLock eps)) with 5. cbn. lia.
  - intros j [<-|[<-|[]]].
    + exists 3, 2, inertia_Zero. split; [reflexivity|]. intros [|[|[|k]]] f Hk E; cbn in E; try (injection E as <-; cbn; lia); lia.
    + exists 1, 0, inertia_Zero. split; [reflexivity|]. intros [|k] f Hk E; cbn in E; try (injection E as <-; cbn; lia); lia.
  - intros i Hi. change (m_njoints (exLock eps)) with 5 in Hi. destruct Hi as [Hi0 Hi]. five Hi; cbn; intros H1 H2; try discriminate; try lia. 
Qed.
Lemma exLock_valid eps : validModel (exLock eps).
Proof.
  intros i Hi. change (m_njoints (exLock eps)) with 5 in Hi.
  destruct i as [|[|[|[|[|i]]]]]; try lia; cbn; (split; [repeat split; auto; try lia; tauto | apply isRotation_id]).
Qed.
Lemma exLock_masses eps : (0 < eps <= 2)%R -> regularMasses eps (exLock eps).
Proof.
  intros [H1 H2]. split; [exact H1|]. intros i Hi. change (m_njoints (exLock eps)) with 5 in Hi. five Hi; cbn; try (left; reflexivity). right. lra.
Qed.
Lemma exLock_hyps eps : Configured eps (exLock eps) /\ wellNamed (exLock eps) /\ lockable (exLock eps) lkL /\ length lkQ0 = m_nq (exLock eps) /\ validModel (exLock eps).
Proof. exact (conj (exLock_configured eps) (conj (exLock_named eps) (conj (exLock_lockable eps) (conj eq_refl (exLock_valid eps))))). Qed.
Definition rLock (eps : R) : Model := okModel (buildReducedModel eps (exLock eps) lkL lkQ0) emptyModel.
Lemma rLock_ok eps : buildReducedModel eps (exLock eps) lkL lkQ0 = Ok (rLock eps) tt.
Proof. apply ok_model. reflexivity. Qed.
Lemma rLock_shape eps : m_njoints (rLock eps) = 3 /\ m_names (rLock eps) = ["universe"; "b"; "d"]%string /\ m_nq (rLock eps) = 1 /\
  map fr_name (m_frames (rLock eps)) = ["universe"; "a"; "b"; "c"; "d"; "tool"]%string.
Proof. repeat split; reflexivity. Qed.
Lemma rLock_copied eps i k : copied (exLock eps) i (rLock eps) k -> (i = 2 /\ k = 1) \/ (i = 4 /\ k = 2).
Proof.
  intros [[H1 H2] H3 _ _ _ _ _ _]. change (m_njoints (exLock eps)) with 5 in H1. change (m_njoints (rLock eps)) with 3 in H2. unfold nameOf in H3.
  change (m_names (rLock eps)) with ["universe"; "b"; "d"]%string in H3. change (m_names (exLock eps)) with ["universe"; "a"; "b"; "c"; "d"]%string in H3.
  destruct k as [|[|[|k]]]; try lia; destruct i as [|[|[|[|[|i]]]]]; try lia; cbn in H3; try discriminate; auto.
Qed.
Definition lkQ : nat -> R := coord [1; 5; 3]%R.
Definition lkQr : nat -> R := coord [5]%R.
Definition lkV : nat -> R := coord [0; 7; 0]%R.
Definition lkVr : nat -> R := coord [7]%R.
Lemma rLock_states eps : validState (exLock eps) lkQ /\ lockedAt (exLock eps) lkL (coord lkQ0) lkQ /\ sameCoordinates (exLock eps) (rLock eps) lkQ lkQr /\
  lockedStill (exLock eps) lkL lkV /\ sameVelocities (exLock eps) (rLock eps) lkV lkVr.
Proof.
  split; [|split; [|split; [|split]]].
  - intros i Hi. change (m_njoints (exLock eps)) with 5 in Hi. destruct i as [|[|[|[|[|i]]]]]; try lia; cbn; tauto.
  - intros i c [<-|[<-|[]]] Hc; cbn in Hc; destruct c; try lia; reflexivity.
  - intros i k c H Hm Hc. destruct (rLock_copied eps i k H) as [[-> ->]|[-> ->]]; [|discriminate]. cbn in Hc. destruct c; [reflexivity|lia].
  - intros i c [<-|[<-|[]]] Hc; cbn in Hc; destruct c; try lia; reflexivity.
  - intros i k c H Hm Hc. destruct (rLock_copied eps i k H) as [[-> ->]|[-> ->]]; [|discriminate]. cbn in Hc. destruct c; [reflexivity|lia].
Qed.

(* ---- what goes wrong ---- *)
Lemma reduce_armature eps m L q0l r : Configured eps m -> wellNamed m -> lockable m L -> length q0l = m_nq m -> buildReducedModel eps m L q0l = Ok r tt ->
  m_armature r = repeat 0%R (m_nv r).
Proof. intros C WN LO Hq HB. destruct (inv eps m L q0l r C WN LO Hq HB) as [J _]. apply (lay_arm _ _ (ji_lay _ _ _ _ _ _ J)). Qed.
Definition armLock (eps : R) : Model := setGravityArmature (lk6 eps) (m_gravity (lk6 eps)) [1; 1; 1]%R.
Lemma armLock_built eps : Built eps (armLock eps).
Proof. destruct (lk6_built eps) as [l H]. exists l. apply (H_step eps (lk6 eps) _ l None); [exact H|]. eapply S_set; [|reflexivity]. reflexivity. Qed.
Lemma armLock_lost eps : exists r, buildReducedModel eps (armLock eps) lkL lkQ0 = Ok r tt /\ copied (armLock eps) 2 r 1 /\
  segV (armLock eps) 2 (m_armature (armLock eps)) = [1%R] /\ segV r 1 (m_armature r) = [0%R].
Proof.
  exists (okModel (buildReducedModel eps (armLock eps) lkL lkQ0) emptyModel). split; [apply ok_model; reflexivity|]. split; [|split; reflexivity].
  constructor; try (split; reflexivity); try reflexivity. split; [change (m_njoints (armLock eps)) with 5; lia|].
  change (m_njoints (okModel (buildReducedModel eps (armLock eps) lkL lkQ0) emptyModel)) with 3. lia.
Qed.
Definition threw (r : Res Model unit) : bool := match r with Throw _ => true | _ => false end.
Lemma threw_ex r : threw r = true -> exists m, r = Throw m.
Proof. destruct r as [m []|m|]; try discriminate. intros _. now exists m. Qed.
Lemma zero_blocks eps : buildReducedModel eps (exLock eps) [0; 1; 3] lkQ0 = Undef /\
  exists r, buildReducedModel eps lkd [0; 1; 3] lkQ0 = Ok r tt /\ m_names r = m_names lkd.
Proof.
  split; [reflexivity|]. exists (okModel (buildReducedModel eps lkd [0; 1; 3] lkQ0) emptyModel). split; [apply ok_model; reflexivity|]. reflexivity.
Qed.
Lemma range_ignored eps : exists r, buildReducedModel eps (exLock eps) [3; 8] lkQ0 = Ok r tt /\ m_names r = ["universe"; "a"; "b"; "d"]%string.
Proof. exists (okModel (buildReducedModel eps (exLock eps) [3; 8] lkQ0) emptyModel). split; [apply ok_model; reflexivity|]. reflexivity. Qed.
(* a joint that has no frame of its name *)
Lemma frameless eps : Built eps lkd /\ buildReducedModel eps lkd [1] lkQ0 = Undef.
Proof.
  split; [|reflexivity]. exists [].
  apply (H_step eps lkc _ [] None); [|apply (S_mimic eps lkc _ 3 (JPrismatic 0) 2 2 1 (lkP 1 1 0) "d"%string (exLim 0 0) 4); try exact I; try reflexivity; cbn; lia].
  apply (H_step eps lkb _ [] None); [|apply (S_joint eps lkb _ 2 (JSimple (JRevolute 1)) (lkP 0 2 0) "c"%string (exLim 1 1) 3); [cbn; tauto|reflexivity]].
  apply (H_step eps lka _ [] None); [|apply (S_joint eps lka _ 1 (JSimple (JPrismatic 0)) (lkP 1 0 0) "b"%string (exLim 1 1) 2); [cbn; tauto|reflexivity]].
  apply (H_step eps emptyModel _ [] None); [constructor | apply (S_joint eps emptyModel _ 0 (JSimple (JRevolute 2)) (lkP 0 0 1) "a"%string (exLim 1 1) 1); [cbn; tauto|reflexivity]].
Qed.
(* the mimicked joint is locked, the joint that follows it is not *)
Lemma followed_locked eps : buildReducedModel eps (exLock eps) [2] lkQ0 = Undef.
Proof. reflexivity. Qed.
(* a body frame with the name of a locked joint: frames of different types may share a name *)
Definition bodyF : Frame := mkFrame "a" 1 1 se3_Identity BODY inertia_Zero.
Definition markF : Frame := mkFrame "mark" 1 1 se3_Identity OP_FRAME inertia_Zero.
Definition lkS1 : Model := ltac:(lit (okModel (addFrame 1 lk5 bodyF false) lk5)).
Definition lkS : Model := ltac:(lit (okModel (addFrame 1 lkS1 markF false) lkS1)).
Lemma shared_name eps : Built eps lkS /\ exists r, buildReducedModel eps lkS [1] lkQ0 = Throw r.
Proof.
  split.
  - exists []. apply (H_step eps lkS1 _ [] None); [|apply (S_frame_no_inertia eps lkS1 _ markF 7); reflexivity].
    apply (H_step eps lk5 _ [] None); [apply lk5_history | apply (S_frame_no_inertia eps lk5 _ bodyF 6); reflexivity].
  - apply threw_ex. reflexivity.
Qed.
