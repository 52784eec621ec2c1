(* Instances and counterexamples for the transformations into mimic joints. *)
Require Import Reals String List Arith Bool Lia Lra.
From Verif Require Import Vec3 Spatial Inertia InertiaFacts Joints Spec_Joints JointFacts Model Spec_Model ModelFacts ModelFacts2 ModelTree ModelFacts3 Data Kinematics Spec_Kin KinFacts Mimic Spec_Mimic MimicFacts MimicFacts2 MimicFacts3 MimicFacts4 CrbaFacts4.
Import ListNotations.
Local Open Scope nat_scope.

Lemma chain4_built eps : Built eps chain4.
Proof.
  exists []. apply (H_step eps chain3 _ [] None); [apply chain3_history|].
  apply (S_mimic eps chain3 _ 3 (JPrismatic 0) 2 1 0 se3_Identity "d"%string (exLim 0 0) 4); try exact I; try reflexivity. cbn; lia.
Qed.
Lemma chain4_valid : validModel chain4.
Proof.
  intros i Hi. change (m_njoints chain4) with 5 in Hi.
  destruct i as [|[|[|[|[|i]]]]]; try lia; cbn; (split; [repeat split; auto; try lia; tauto | apply isRotation_id]).
Qed.
Definition isOk {S A} (r : Res S A) : bool := match r with Ok _ _ => true | _ => false end.
Lemma ok_model (r : Res Model unit) m0 : isOk r = true -> r = Ok (okModel r m0) tt.
Proof. destruct r as [m1 []| |]; cbn; [reflexivity | discriminate | discriminate]. Qed.
(* joint 3 becomes a mimic of joint 1; joint 4 keeps following joint 2 *)
Lemma chain4_pair : mimicPair chain4 1 3.
Proof.
  split; [lia|]. split; [change (m_njoints chain4) with 5; lia|]. split; [reflexivity|]. split; [exists (JPrismatic 0); repeat split|].
  intros k Hk. change (m_njoints chain4) with 5 in Hk. destruct k as [|[|[|[|[|k]]]]]; try lia; cbn; discriminate.
Qed.
(* configuration (1,2,3) of the three ordinary joints, 3 = 2 * 1 + 1 *)
Definition chQ : vec := fun k => nth k [1; 2; 3]%R 0%R.
Definition chQ' : vec := fun k => nth k [1; 2]%R 0%R.
Definition chV : vec := fun k => nth k [1; 5; 2]%R 0%R.
Definition chV' : vec := fun k => nth k [1; 5]%R 0%R.
Lemma chain4_motion out : exists m', transformJointIntoMimic out chain4 1 3 2 1 = Ok m' tt /\ sameConfigBut chain4 m' 3 chQ chQ' /\
  driven (JPrismatic 0) 2 1 (shift (idx_q chain4 1) chQ) (shift (idx_q chain4 3) chQ) /\
  sameVelocityBut chain4 m' 3 chV chV' /\ chV (idx_v chain4 3) = (2 * chV (idx_v chain4 1))%R.
Proof.
  exists (okModel (transformJointIntoMimic out chain4 1 3 2 1) out). split; [apply ok_model; reflexivity|].
  assert (X : forall i k, 0 < i < 5 -> i <> 3 -> isMimic (joint chain4 i) = false -> k < 1 -> (i = 1 \/ i = 2) /\ k = 0).
  { intros i k Hi Hi3 Hm Hk. destruct i as [|[|[|[|[|i]]]]]; try lia. cbn in Hm. discriminate. }
  split; [|split; [|split]].
  - intros i k Hi Hib Hm Hk. change (m_njoints chain4) with 5 in Hi. assert (Hk1 : k < 1) by (destruct i as [|[|[|[|[|i]]]]]; cbn in Hk; lia).
    destruct (X i k Hi Hib Hm Hk1) as [[-> | ->] ->]; reflexivity.
  - cbn. unfold shift, chQ. cbn. lra.
  - intros i k Hi Hib Hm Hk. change (m_njoints chain4) with 5 in Hi. assert (Hk1 : k < 1) by (destruct i as [|[|[|[|[|i]]]]]; cbn in Hk; lia).
    destruct (X i k Hi Hib Hm Hk1) as [[-> | ->] ->]; reflexivity.
  - unfold chV. cbn. lra.
Qed.

(* ---- two pairs at once: joint 3 follows joint 2, joint 4 follows joint 1 ---- *)
Definition chain4o : Model := okModel (addJoint chain3 3 pxJ se3_Identity "d" (exLim 1 1)) chain3.
Lemma chain4o_built eps : Built eps chain4o.
Proof.
  exists []. apply (H_step eps chain3 _ [] None); [apply chain3_history|].
  apply (S_joint eps chain3 _ 3 (JSimple (JPrismatic 0)) se3_Identity "d"%string (exLim 1 1) 4); [exact I|reflexivity].
Qed.
Lemma chain4o_valid : validModel chain4o.
Proof.
  intros i Hi. change (m_njoints chain4o) with 5 in Hi.
  destruct i as [|[|[|[|[|i]]]]]; try lia; cbn; (split; [repeat split; auto; try lia; tauto | apply isRotation_id]).
Qed.
Lemma chain4o_free k : 0 < k < m_njoints chain4o -> isMimic (joint chain4o k) = true -> False.
Proof. intros Hk. change (m_njoints chain4o) with 5 in Hk. destruct k as [|[|[|[|[|k]]]]]; try lia; cbn; discriminate. Qed.
Lemma chain4o_pair a b : 0 < a < b -> b < 5 -> mimicPair chain4o a b.
Proof.
  intros H1 H2. assert (Z : forall i, 0 < i < 5 -> jm_type (joint chain4o i) = JSimple (JPrismatic 0) /\ nqOf chain4o i = 1 /\ nvOf chain4o i = 1).
  { intros i Hi. destruct i as [|[|[|[|[|i]]]]]; try lia; repeat split; reflexivity. }
  split; [lia|]. split; [exact H2|]. split; [unfold isMimic; now rewrite (proj1 (Z a ltac:(lia)))|]. split.
  - exists (JPrismatic 0). destruct (Z a ltac:(lia)) as (_ & -> & ->). destruct (Z b ltac:(lia)) as (-> & _). repeat split.
  - intros k Hk Hm. destruct (chain4o_free k Hk Hm).
Qed.
Definition twoPairs : list (nat * nat * R * R) := [(1, 4, 1%R, 0%R); (2, 3, 2%R, 1%R)].
Lemma chain4o_pairs : mimicPairs chain4o twoPairs /\ noHelical chain4o twoPairs.
Proof.
  split.
  - cbn. split; [apply chain4o_pair; lia|]. split; [|split; [apply chain4o_pair; lia|]; split; [tauto|exact I]].
    intros a' b' s' o' [H|[]]. injection H as <- <- _ _. lia.
  - intros a b s o j [H|[H|[]]]; injection H as _ <- _ _; intros E; injection E as <-; cbn; tauto.
Qed.
Definition c4Q : vec := fun k => nth k [1; 2; 5; 1]%R 0%R.
Lemma chain4o_driven : allDriven chain4o twoPairs c4Q (fun _ => 0%R).
Proof.
  intros a b s o [H|[H|[]]]; injection H as <- <- <- <-; exists (JPrismatic 0); (split; [reflexivity|]); (split; [cbn; unfold shift, c4Q; cbn; lra | lra]).
Qed.

(* ---- counterexamples ---- *)
Lemma se3_mul_id_l N : se3_mul se3_Identity N = N. Proof. exact (se3_mul_1_l N). Qed.
Lemma se3_mul_pure t u : se3_mul (mkSE3 m3id t) (mkSE3 m3id u) = mkSE3 m3id (v3add t u).
Proof. unfold se3_mul, m3mul, m3vec, v3add, m3id. cbn. f_equal; [f_equal; ring | f_equal; ring]. Qed.
Ltac pxPl := cbv -[se3_mul m3id se3_Identity v3scale Rplus Rmult Ropp IZR vx trans]; rewrite ?se3_mul_id_l, !se3_mul_pure; cbn; lra.
(* the bound check accepts the number of joints *)
Lemma bound_undefined out m a s o : wellFormed m -> a < m_njoints m -> transformJointIntoMimic out m a (m_njoints m) s o = Undef.
Proof.
  intros W Ha. destruct (wf_lengths _ W) as (L1&L2&L3&_). unfold transformJointIntoMimic.
  destruct (Nat.leb_spec a (m_njoints m)); cbn [negb]; [|lia]. rewrite Nat.leb_refl. cbn [negb]. destruct (Nat.ltb_spec a (m_njoints m)); cbn [negb]; [|lia].
  assert (N : nth_error (m_joints m) (m_njoints m) = None) by (apply nth_error_None; lia). now rewrite N.
Qed.
(* joint 2 of chain4 is followed by joint 4; after turning joint 2 into a mimic of joint 1 (scaling 2) joint 4 reads
   the coordinate of joint 1 with its own scaling only *)
Definition folQ : vec := fun k => nth k [1; 2; 0]%R 0%R.
Definition folQ' : vec := fun k => nth k [1; 0]%R 0%R.
Lemma fol_motion out d d' : exists m', transformJointIntoMimic out chain4 1 2 2 0 = Ok m' tt /\ sameConfigBut chain4 m' 2 folQ folQ' /\
  driven (JPrismatic 0) 2 0 (shift (idx_q chain4 1) folQ) (shift (idx_q chain4 2) folQ) /\
  vx (trans (pl (rows (forwardKinematics0 chain4 d folQ) 4) F_oMi)) = 5%R /\ vx (trans (pl (rows (forwardKinematics0 m' d' folQ') 4) F_oMi)) = 4%R /\ ~ wellFormed m'.
Proof.
  exists (okModel (transformJointIntoMimic out chain4 1 2 2 0) out). split; [apply ok_model; reflexivity|]. split; [|split; [|split; [|split]]].
  - intros i k Hi Hib Hm Hk. change (m_njoints chain4) with 5 in Hi. destruct i as [|[|[|[|[|i]]]]]; try lia; cbn in Hk; try (replace k with 0 by lia; reflexivity). lia.
  - cbn. unfold shift, folQ. cbn. lra.
  - pxPl.
  - pxPl.
  - assert (E1 : m_njoints (okModel (transformJointIntoMimic out chain4 1 2 2 0) out) = 5) by reflexivity.
    assert (E2 : joint (okModel (transformJointIntoMimic out chain4 1 2 2 0) out) 4 = mkJointM (JMimic (JPrismatic 0) 1 0) 4 0 0 3 2) by (cbv -[IZR]; reflexivity).
    assert (E3 : isMimic (joint (okModel (transformJointIntoMimic out chain4 1 2 2 0) out) 2) = true) by reflexivity.
    revert E1 E2 E3. generalize (okModel (transformJointIntoMimic out chain4 1 2 2 0) out) as M. intros M E1 E2 E3 W.
    pose proof (wf_mimic _ W 4 (JPrismatic 0) 1 0 ltac:(lia) ltac:(now rewrite E2)) as (_ & _ & X & _). rewrite E2 in X. cbn [jm_ref] in X. congruence.
Qed.
(* a joint that mimics a mimic joint follows the ordinary joint, without the first joint's scaling *)
Definition mmQ : vec := fun k => nth k [1; 2; 2]%R 0%R.
Definition mmQ' : vec := fun k => nth k [1]%R 0%R.
Definition mmPairs : list (nat * nat * R * R) := [(1, 2, 2%R, 0%R); (2, 3, 1%R, 0%R)].
Lemma mm_motion out d d' : exists m', buildMimicModel out chain3 mmPairs = Ok m' tt /\ allDriven chain3 mmPairs mmQ (fun _ => 0%R) /\ sameConfigElse chain3 m' mmPairs mmQ mmQ' /\
  vx (trans (pl (rows (forwardKinematics0 chain3 d mmQ) 3) F_oMi)) = 5%R /\ vx (trans (pl (rows (forwardKinematics0 m' d' mmQ') 3) F_oMi)) = 4%R.
Proof.
  exists (okModel (buildMimicModel out chain3 mmPairs) out). split; [apply ok_model; reflexivity|]. split; [|split; [|split]].
  - intros a b s o [H|[H|[]]]; injection H as <- <- <- <-; exists (JPrismatic 0); (split; [reflexivity|]); (split; [cbn; unfold shift, mmQ; cbn; lra | lra]).
  - intros i k Hi Ht Hm Hk. change (m_njoints chain3) with 4 in Hi.
    assert (T2 : isTarget mmPairs 2) by (exists 1, 2%R, 0%R; now left). assert (T3 : isTarget mmPairs 3) by (exists 2, 1%R, 0%R; right; now left).
    destruct i as [|[|[|[|i]]]]; try lia; try tauto. cbn in Hk. replace k with 0 by lia. reflexivity.
  - pxPl.
  - pxPl.
Qed.
(* the two lists are sorted separately *)
Lemma pairing out : exists m', buildMimicModel out chain4o twoPairs = Ok m' tt /\ m_mimicking m' = [3; 4] /\ m_mimicked m' = [1; 2] /\
  jm_ref (joint m' 3) = 2 /\ jm_ref (joint m' 4) = 1.
Proof. exists (okModel (buildMimicModel out chain4o twoPairs) out). split; [apply ok_model; reflexivity|]. repeat split; reflexivity. Qed.
Lemma twoPairs_nil : twoPairs <> []. Proof. discriminate. Qed.
Lemma chain4_no_type : 1 < 4 < m_njoints chain4 /\ forall j, jm_type (joint chain4 4) = JSimple j -> ~ mimicable j.
Proof. split; [change (m_njoints chain4) with 5; lia | discriminate]. Qed.
