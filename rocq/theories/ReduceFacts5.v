(* Locking joints: what the reduced model means. *)
Require Import Reals String List Arith Bool Lia Lra Sorted Permutation.
From Verif Require Import Vec3 Spatial Inertia InertiaFacts Joints Spec_Joints JointFacts Model Spec_Model ModelFacts ModelFacts2 ModelTree ModelFacts3 Data Spec_Kin KinFacts Sums Spec_Dyn DynFacts DynFacts2 Mimic MimicFacts MimicFacts2 Reduce Spec_Append AppendFacts AppendFacts2 AppendFacts3 ReduceFacts ReduceFacts2 ReduceFacts3 ReduceFacts4.
Import ListNotations.
Local Open Scope nat_scope.

Lemma validConfig_ext j q q' : (forall k, k < rnq j -> q k = q' k) -> validJoint j -> validConfig j q -> validConfig j q'.
Proof.
  assert (H1 : forall j q q', (forall k, k < nq1 j -> q k = q' k) -> validConfig1 j q -> validConfig1 j q').
  { intros j0 a b H. destruct j0; cbn [nq1 validConfig1] in *; try tauto; rewrite ?(H 0), ?(H 1), ?(H 2), ?(H 3), ?(H 4), ?(H 5), ?(H 6) by lia; tauto. }
  revert q q'. induction j as [j|j s o|l IH] using Joint_ind'; intros q q' Hq Hj.
  - cbn [validConfig rnq jnq] in *. now apply H1.
  - cbn [validConfig rnq] in *. destruct Hj as (_ & Hm & _). intros [A B]. split; [now apply (H1 j q)|].
    destruct j; cbn [awayFromCut nq1] in *; try tauto; rewrite <- ?(Hq 0), <- ?(Hq 1) by lia; exact B.
  - change (rnq (JComposite l)) with (lnq l) in Hq. revert q q' Hj Hq. induction IH as [|[P j] l Hx Hl IHl]; intros q q' Hj Hq; [trivial|].
    apply -> validJoint_cons in Hj. destruct Hj as [[HP [Hn Hj]] Hl']. rewrite lnq_cons in Hq. intros [A B]. cbn in Hx. split.
    + apply (Hx q q'); [intros k Hk; apply Hq; rewrite rnq_notMimic in Hk by exact Hn; lia | exact Hj | exact A].
    + apply (IHl (shift (jnq j) q) (shift (jnq j) q') Hl'); [|exact B]. intros k Hk. unfold shift. apply Hq. lia.
Qed.

(* the sum over the bodies of r of the forms of the attached bodies *)
Lemma attached_sum (V V' : nat -> V6) N l : (forall x, In x l -> fst (fst x) < N) ->
  sumN N (fun j => v6dot (V j) (m6vec (attachedMatrix j l) (V' j))) =
  fold_right Rplus 0%R (map (fun x => v6dot (V (fst (fst x))) (inertia_mul (inertia_act (snd (fst x)) (snd x)) (V' (fst (fst x))))) l).
Proof.
  induction l as [|[[k pl] Y] l IH]; intros H.
  - cbn [attachedMatrix map fold_right]. apply sumN_zero. intros j _. rewrite <- inertia_mul_spec, inertia_mul_Zero. apply v6dot_0_r.
  - cbn [map fold_right fst snd]. rewrite <- IH by (intros x Hx; apply H; now right).
    rewrite (sumN_one N k _ (fun j => v6dot (V j) (m6vec (attachedMatrix j l) (V' j)))).
    + cbn [attachedMatrix]. rewrite Nat.eqb_refl, m6vec_add_l, v6dot_add_r, <- inertia_mul_spec. ring.
    + exact (H _ (or_introl eq_refl)).
    + intros j _ Hj. cbn [attachedMatrix]. destruct (Nat.eqb_spec k j); [congruence|reflexivity].
Qed.
Lemma fold_sumN f n : fold_right Rplus 0%R (map f (seq 0 n)) = sumN n f.
Proof.
  induction n as [|n IH]; [reflexivity|]. rewrite List.seq_S, map_app, rsum_app, IH. cbn. ring.
Qed.
Lemma act_form M Y v v' : isRotation (rot M) -> v6dot (motion_actInv M v) (inertia_mul Y (motion_actInv M v')) = v6dot v (inertia_mul (inertia_act M Y) v').
Proof.
  intros HM. rewrite act_dot_dual. rewrite <- (inertia_act_mul M Y _ HM). rewrite motion_act_actInv by apply HM. reflexivity.
Qed.

Section Meaning.
Variables (eps : R) (m : Model) (lk : list nat) (q0l : list R).
Notation q0 := (coord q0l).
Hypotheses (W : wellFormed m) (T : treeInv m) (WN : wellNamed m) (LO : lockable m lk).
Variable r : Model.
Notation n := (m_njoints m).
Hypothesis J : JInv eps m lk q0 n r.
Hypothesis F : FInv m lk q0l (length (m_frames m) - 1) r.
Notation NI := (newIx lk).
Notation AF := (ancF m lk q0).
Notation items := (itemsOf m lk q0 n).
Let HL := lo_joints _ _ LO.
Let Y : Layout r items := ji_lay _ _ _ _ _ _ J.
Let Wr : wellFormed r := lay_wf _ _ Y.
Let Tr : treeInv r := lay_tree _ _ Y.
Let LK : Linked items := Linked_items m lk q0 W LO n (le_n n).

Lemma kept_item a : 0 < a < n -> keptb lk a = true -> nth_error items (NI a - 1) = Some (mkIt m lk q0 a) /\ S (NI a - 1) = NI a.
Proof. intros Ha Hk. split; [now apply item_nth|]. pose proof (newIx_pos lk a (proj1 Ha) Hk). lia. Qed.
Lemma kept_copied a : 0 < a < n -> keptb lk a = true -> copied m a r (NI a).
Proof.
  intros Ha Hk. destruct (kept_item a Ha Hk) as [H1 H2]. rewrite <- H2. exact (item_copied r items Y LK _ _ H1).
Qed.
Lemma kept_stands a : a < n -> (a = 0 \/ keptb lk a = true) -> stands m r a (NI a).
Proof. intros Ha [->|Hk]; [left; split; reflexivity|]. destruct (Nat.eq_dec a 0) as [->|]; [left; split; reflexivity|]. right. apply kept_copied; [lia|exact Hk]. Qed.
Lemma stands_unique a k : stands m r a k -> keptb lk a = true -> k = NI a.
Proof.
  intros [[-> ->]|C] Hk; [reflexivity|]. destruct (cp_range _ _ _ _ C) as [R1 R2].
  destruct (wf_lengths _ Wr) as (_&_&_&_&_&_&_&_&_&_&_&L12&_).
  apply (proj1 (NoDup_nth (m_names r) ""%string) (names_NoDup eps m lk q0 W WN n r (le_n n) J)); [lia | |].
  - rewrite L12, (njoints_r eps m lk q0 n r J). apply newIx_lt; [lia | now right].
  - fold (nameOf r k). fold (nameOf r (NI a)). rewrite (cp_name _ _ _ _ C). symmetry. apply (cp_name _ _ _ _ (kept_copied a R1 Hk)).
Qed.
Lemma copied_kept i k : copied m i r k -> keptb lk i = true.
Proof.
  intros C. destruct (cp_range _ _ _ _ C) as [R1 R2]. destruct (kept_or_locked lk i) as [H|H]; [exact H|]. exfalso.
  pose proof (noJoint eps m lk q0 W WN LO n r i (le_n n) J H) as X. rewrite <- (cp_name _ _ _ _ C) in X.
  destruct (wf_lengths _ Wr) as (_&_&_&_&_&_&_&_&_&_&_&L12&_).
  assert (Hin : In (nameOf r k) (m_names r)) by (apply nth_In; lia). apply (getJointId_spec r (nameOf r k) Wr) in Hin. congruence.
Qed.
Lemma stands_kept a k : stands m r a k -> keptb lk a = true.
Proof. intros [[-> _]|C]; [apply (kept0 m lk LO) | now apply (copied_kept a k)]. Qed.
Lemma every_joint k : 0 < k < m_njoints r -> exists i, 0 < i < n /\ keptb lk i = true /\ k = NI i /\ copied m i r k.
Proof.
  intros Hk. rewrite (njoints_r eps m lk q0 n r J) in Hk. destruct (nth_error (keptList lk n) (k - 1)) as [i|] eqn:E; [|apply nth_error_None in E; lia].
  pose proof (nth_error_In _ _ E) as Hin. apply keptList_In in Hin. destruct Hin as [Hi Hkb]. exists i. split; [exact Hi|]. split; [exact Hkb|].
  assert (Ek : k = NI i).
  { pose proof (keptList_nth lk n i Hi Hkb) as E2. pose proof (newIx_pos lk i (proj1 Hi) Hkb).
    assert (ND : NoDup (keptList lk n)) by (unfold keptList; apply NoDup_filter, seq_NoDup).
    assert (k - 1 = NI i - 1) by (apply (proj1 (NoDup_nth_error _) ND); [apply nth_error_Some; congruence | congruence]). lia. }
  split; [exact Ek|]. rewrite Ek. now apply kept_copied.
Qed.
Lemma count : m_njoints r + length lk = n.
Proof.
  rewrite (njoints_r eps m lk q0 n r J). pose proof (wf_n _ W) as Hn.
  assert (E : length (filter (keptb lk) (seq 1 (n - 1))) + length (filter (lockedb lk) (seq 1 (n - 1))) = n - 1).
  { rewrite <- (seq_length (n - 1) 1) at 3. unfold keptb. induction (seq 1 (n - 1)) as [|x l IH]; [reflexivity|]. cbn. destruct (lockedb lk x); cbn; lia. }
  assert (E2 : length (filter (lockedb lk) (seq 1 (n - 1))) = length lk).
  { apply Permutation_length, NoDup_Permutation; [apply NoDup_filter, seq_NoDup | apply (lo_distinct _ _ LO)|]. intros x. rewrite filter_In, in_seq, lockedb_In.
    split; [tauto|]. intros Hx. pose proof (HL x Hx). split; [lia|exact Hx]. }
  unfold keptList. lia.
Qed.
Lemma tree_of i k a M : copied m i r k -> attached m lk q0 (parent m i) a M ->
  stands m r a (parent r k) /\ placementOf r k = se3_mul M (placementOf m i).
Proof.
  intros C A. pose proof (copied_kept i k C) as Hk. destruct (cp_range _ _ _ _ C) as [R1 R2]. pose proof (wf_parent _ W i R1) as Hp.
  destruct (attached_fun m lk q0 W HL (parent m i) a M ltac:(lia) A) as [-> ->].
  rewrite (stands_unique i k (or_intror C) Hk). destruct (kept_item i R1 Hk) as [H1 H2].
  pose proof (item_parent r items Y _ _ H1) as P. pose proof (item_placement r items Y _ _ H1) as Q. rewrite H2 in P, Q. rewrite P, Q. split; [|reflexivity].
  cbn [mkIt it_par]. destruct (ancF_le m lk q0 W HL (parent m i) ltac:(lia)) as [A1 A2]. apply kept_stands; [lia | exact A2].
Qed.

(* ---- motion ---- *)
Section Motion.
Variables (q qr : nat -> R).
Hypotheses (V : validModel m) (LQ : lockedAt m lk q0 q) (SQ : sameCoordinates m r q qr).
Lemma locked_same i : In i lk -> relPl m q i = relPl m q0 i.
Proof.
  intros Hi. unfold relPl, jointAt. do 2 f_equal. apply jcalc_ext; [apply (V i (HL i Hi)) | |reflexivity]. intros k Hk. unfold shift. apply (LQ i k Hi). exact Hk.
Qed.
Lemma kept_rel i : 0 < i < n -> keptb lk i = true -> relPl r qr (NI i) = se3_mul (se3_mul (snd (AF (parent m i))) (placementOf m i)) (jM (jointAt m q noVel i)).
Proof.
  intros Hi Hk. destruct (kept_item i Hi Hk) as [H1 H2]. rewrite <- H2. exact (item_relPl r items Y LK _ _ q qr H1 (proj1 (V i Hi)) SQ).
Qed.
Lemma kept_parent i : 0 < i < n -> keptb lk i = true -> parent r (NI i) = NI (fst (AF (parent m i))).
Proof. intros Hi Hk. destruct (kept_item i Hi Hk) as [H1 H2]. rewrite <- H2. exact (item_parent r items Y _ _ H1). Qed.
Lemma NI_range i : 0 < i < n -> keptb lk i = true -> 0 < NI i < m_njoints r.
Proof. intros Hi Hk. apply (cp_range _ _ _ _ (kept_copied i Hi Hk)). Qed.
Lemma world_AF i : i < n -> worldPl m q i = se3_mul (worldPl r qr (NI (fst (AF i)))) (snd (AF i)).
Proof.
  revert i. refine (tree_ind m _ W _ _).
  - rewrite (ancF_0 m lk q0 HL). cbn [fst snd]. rewrite newIx_0. rewrite (worldPl_0 m W T), (worldPl_0 r Wr Tr). symmetry. apply se3_mul_1_r.
  - intros i Hi IH. rewrite (worldPl_step m W T q i Hi), IH. destruct (kept_or_locked lk i) as [Hk|Hk].
    + rewrite (ancF_kept m lk q0 i Hk). cbn [fst snd]. rewrite se3_mul_1_r. rewrite (worldPl_step r Wr Tr qr (NI i) (NI_range i Hi Hk)), (kept_parent i Hi Hk), (kept_rel i Hi Hk).
      unfold relPl. rewrite !se3_mul_assoc. reflexivity.
    + rewrite (ancF_locked m lk q0 W HL i Hk). cbn [fst snd]. rewrite (locked_same i Hk), !se3_mul_assoc. reflexivity.
Qed.
Lemma world_ok i a M k : i < n -> attached m lk q0 i a M -> stands m r a k -> worldPl m q i = se3_mul (worldPl r qr k) M.
Proof.
  intros Hi A S. destruct (attached_fun m lk q0 W HL i a M Hi A) as [-> ->]. rewrite (stands_unique _ k S (stands_kept _ _ S)). now apply world_AF.
Qed.

Hypothesis Q : validState m q.
Lemma AF_rot i : i < n -> isRotation (rot (snd (AF i))).
Proof.
  revert i. refine (tree_ind m _ W _ _).
  - rewrite (ancF_0 m lk q0 HL). exact isRotation_id.
  - intros i Hi IH. destruct (kept_or_locked lk i) as [Hk|Hk].
    + rewrite (ancF_kept m lk q0 i Hk). exact isRotation_id.
    + rewrite (ancF_locked m lk q0 W HL i Hk). cbn [snd]. apply isRotation_se3_mul; [exact IH|]. rewrite <- (locked_same i Hk). now apply relPl_rot.
Qed.
Lemma valid_r : validModel r.
Proof.
  intros k Hk. destruct (every_joint k Hk) as (i & Hi & Hkb & -> & C). rewrite (cp_type _ _ _ _ C). destruct (V i Hi) as [V1 V2]. split; [exact V1|].
  destruct (kept_item i Hi Hkb) as [H1 H2]. pose proof (item_placement r items Y _ _ H1) as P. rewrite H2 in P. rewrite P. cbn [mkIt it_pl].
  pose proof (wf_parent _ W i Hi). apply isRotation_se3_mul; [apply AF_rot; lia | exact V2].
Qed.
Lemma state_r : validState r qr.
Proof.
  intros k Hk. destruct (every_joint k Hk) as (i & Hi & Hkb & -> & C). rewrite (cp_type _ _ _ _ C).
  apply (validConfig_ext _ (shift (idx_q m i) q)); [|apply (V i Hi) | apply (Q i Hi)]. intros c Hc. unfold shift.
  destruct (isMimic (joint m i)) eqn:Em.
  - destruct (isMimic_inv _ Em) as (j & s & o & Ej). destruct (mimic_ok m lk W LO i j s o Hi Hkb Ej) as [M1 M2].
    pose proof (wf_mimic _ W i j s o Hi Ej) as (_ & _ & Sm & Sq & _ & Sd & _). pose proof (cp_type _ _ _ _ C) as Ty. rewrite Ej in Ty.
    pose proof (wf_mimic _ Wr (NI i) j s o Hk Ty) as (_ & _ & _ & Rq & _).
    destruct (kept_item i Hi Hkb) as [H1 H2]. pose proof (lay_refs _ _ Y _ _ H1 Em) as Rr. rewrite H2 in Rr. cbn [mkIt it_ref] in Rr.
    rewrite Rq, Sq, Rr. symmetry. apply (SQ (jm_ref (joint m i)) _ c (kept_copied (jm_ref (joint m i)) ltac:(lia) M2) Sm). rewrite Ej in Hc. cbn [rnq] in Hc. lia.
  - symmetry. apply (SQ i _ c C Em). destruct (wf_joint _ W i Hi) as (_ & _ & _ & _ & E1 & _). rewrite <- E1.
    unfold isMimic in Em. destruct (jm_type (joint m i)); try discriminate; exact Hc.
Qed.
Section Velocity.
Variables (w wr : nat -> R).
Hypotheses (LS : lockedStill m lk w) (SW : sameVelocities m r w wr).
Lemma locked_twist i : In i lk -> jointTwist m q w i = v6zero.
Proof.
  intros Hi. pose proof (HL i Hi) as Hr. rewrite <- (jv_twist m V q w i Hr).
  assert (E : jointAt m q w i = jointAt m q noVel i).
  { unfold jointAt. apply jcalc_ext; [apply (V i Hr) | reflexivity|]. intros k Hk. unfold shift. rewrite (LS i k Hi); [reflexivity|]. exact Hk. }
  rewrite E, (jv_twist m V q noVel i Hr). unfold jointTwist. apply Smul_0.
Qed.
Lemma kept_twist i : 0 < i < n -> keptb lk i = true -> jointTwist r qr wr (NI i) = jointTwist m q w i.
Proof.
  intros Hi Hk. rewrite <- (jv_twist m V q w i Hi), <- (jv_twist r valid_r qr wr (NI i) (NI_range i Hi Hk)). destruct (kept_item i Hi Hk) as [H1 H2]. rewrite <- H2.
  f_equal. exact (item_jointAt r items Y LK _ _ q qr w wr H1 (proj1 (V i Hi)) SQ SW).
Qed.
Lemma vel_AF i : i < n -> bodyVel m q w i = motion_actInv (snd (AF i)) (bodyVel r qr wr (NI (fst (AF i)))).
Proof.
  revert i. refine (tree_ind m _ W _ _).
  - rewrite (ancF_0 m lk q0 HL). cbn [fst snd]. rewrite newIx_0. rewrite (bodyVel_0 m W T), (bodyVel_0 r Wr Tr). symmetry. apply motion_actInv_0.
  - intros i Hi IH. rewrite (bodyVel_step m W T V q w i Q Hi), IH. pose proof (wf_parent _ W i Hi) as Hp. destruct (kept_or_locked lk i) as [Hk|Hk].
    + rewrite (ancF_kept m lk q0 i Hk). cbn [fst snd]. rewrite motion_actInv_1. rewrite (bodyVel_step r Wr Tr valid_r qr wr (NI i) state_r (NI_range i Hi Hk)), (kept_twist i Hi Hk), (kept_parent i Hi Hk).
      f_equal. rewrite (kept_rel i Hi Hk). rewrite <- se3_mul_assoc. fold (relPl m q i). rewrite motion_actInv_mul; [reflexivity | apply AF_rot; lia | now apply relPl_rot].
    + rewrite (ancF_locked m lk q0 W HL i Hk). cbn [fst snd]. rewrite (locked_twist i Hk), v6add_0_l, <- (locked_same i Hk). rewrite motion_actInv_mul; [reflexivity | apply AF_rot; lia | now apply relPl_rot].
Qed.
Lemma vel_ok i a M k : i < n -> attached m lk q0 i a M -> stands m r a k -> bodyVel m q w i = motion_actInv M (bodyVel r qr wr k).
Proof.
  intros Hi A S. destruct (attached_fun m lk q0 W HL i a M Hi A) as [-> ->]. rewrite (stands_unique _ k S (stands_kept _ _ S)). now apply vel_AF.
Qed.
End Velocity.
Lemma kinetic_ok w wr w' wr' : (0 < eps)%R -> (forall k, k < n -> regular eps (inertiaOf m k)) ->
  lockedStill m lk w -> sameVelocities m r w wr -> lockedStill m lk w' -> sameVelocities m r w' wr' -> kineticForm r qr wr wr' = kineticForm m q w w'.
Proof.
  intros He Hreg L1 S1 L2 S2. pose proof (wf_n _ W) as Hn. pose proof (wf_n _ Wr) as Hnr.
  assert (H0 : forall x (Wx : wellFormed x) (Tx : treeInv x) qx wx wx', kineticForm x qx wx wx' = sumN (m_njoints x) (fun i => v6dot (bodyVel x qx wx i) (inertia_mul (inertiaOf x i) (bodyVel x qx wx' i)))).
  { intros x Wx Tx qx wx wx'. unfold kineticForm, Spec_Dyn.bodies. pose proof (wf_n _ Wx). replace (m_njoints x) with (S (m_njoints x - 1)) at 2 by lia. rewrite sumN_shift1.
    rewrite (bodyVel_0 x Wx Tx). rewrite v6dot_0_l. ring. }
  rewrite (H0 r Wr Tr), (H0 m W T).
  transitivity (sumN (m_njoints r) (fun j => v6dot (bodyVel r qr wr j) (m6vec (attachedMatrix j (bodies m lk q0 n)) (bodyVel r qr wr' j)))).
  { apply sumN_ext. intros j Hj. destruct (ji_body _ _ _ _ _ _ J He Hreg j Hj) as [E _]. rewrite <- E, inertia_mul_spec. reflexivity. }
  rewrite attached_sum.
  - unfold bodies. rewrite map_map, fold_sumN. apply sumN_ext. intros i Hi. cbn [fst snd].
    rewrite (vel_AF w wr L1 S1 i Hi), (vel_AF w' wr' L2 S2 i Hi). symmetry. apply act_form. now apply AF_rot.
  - intros x Hx. unfold bodies in Hx. apply in_map_iff in Hx. destruct Hx as (k & <- & Hin). apply in_seq in Hin. cbn [fst]. apply (anc_lt eps m lk q0 W LO n r k (le_n n) J). lia.
Qed.
End Motion.
End Meaning.
