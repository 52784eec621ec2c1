(* Locking joints: the list of joints to lock, the joints that carry the others, lookup by name. *)
Require Import Reals String List Arith Bool Lia Sorted Permutation.
From Verif Require Import Vec3 Spatial Inertia InertiaFacts Joints Spec_Joints Model Spec_Model ModelFacts ModelFacts2 ModelTree ModelFacts3 Spec_Kin Mimic MimicFacts Reduce Spec_Append AppendFacts AppendFacts2 AppendFacts3.
Import ListNotations.
Local Open Scope nat_scope.

(* ---- sorting ---- *)
Lemma insertSort_perm v l : Permutation (insertSort v l) (v :: l).
Proof.
  induction l as [|x l IH]; cbn [insertSort]; [apply Permutation_refl|]. destruct (x <? v); [|apply Permutation_refl].
  eapply perm_trans; [apply perm_skip, IH | apply perm_swap].
Qed.
Lemma sort_perm l : Permutation (sortIndexes l) l.
Proof.
  induction l as [|v l IH]; cbn [sortIndexes fold_right]; [constructor|]. eapply perm_trans; [apply insertSort_perm | now apply perm_skip].
Qed.
Lemma insertSort_sorted v l : StronglySorted lt l -> ~ In v l -> StronglySorted lt (insertSort v l).
Proof.
  induction l as [|x l IH]; cbn [insertSort]; intros H Hn; [repeat constructor|]. cbn in Hn. inversion H as [|? ? Hl Hx]; subst. destruct (Nat.ltb_spec x v).
  - constructor; [apply IH; tauto|]. rewrite Forall_forall in *. intros y Hy. apply (Permutation_in _ (insertSort_perm v l)) in Hy.
    destruct Hy as [<-|Hy]; [assumption | now apply Hx].
  - assert (v < x) by lia. constructor; [exact H|]. constructor; [assumption|]. rewrite Forall_forall in *. intros y Hy. specialize (Hx y Hy). lia.
Qed.
Lemma sort_sorted l : NoDup l -> StronglySorted lt (sortIndexes l).
Proof.
  induction l as [|v l IH]; intros H; cbn [sortIndexes fold_right]; [constructor|]. inversion H; subst. apply insertSort_sorted; [now apply IH|].
  intros Hin. apply (Permutation_in _ (sort_perm l)) in Hin. contradiction.
Qed.
Lemma sorted_increasing l : StronglySorted lt l -> increasing l = true.
Proof.
  induction l as [|a [|b l] IH]; intros H; try reflexivity. inversion H as [|? ? Hl Ha]; subst. inversion Ha; subst.
  change (increasing (a :: b :: l)) with ((a <? b) && increasing (b :: l)). rewrite IH by assumption. rewrite andb_true_r. now apply Nat.ltb_lt.
Qed.
Lemma NoDup_range l n : NoDup l -> (forall x, In x l -> x < n) -> length l <= n.
Proof.
  intros H Hr. rewrite <- (seq_length n 0). apply NoDup_incl_length; [exact H|]. intros x Hx. apply in_seq. specialize (Hr x Hx). lia.
Qed.

(* ---- lookup by name ---- *)
Lemma getJointId_unique r k nm : wellFormed r -> NoDup (m_names r) -> nth_error (m_names r) k = Some nm -> getJointId r nm = k /\ existJointName r nm = true.
Proof.
  intros W ND Hk. destruct (getJointId_spec r nm W) as (G1 & G2 & G3 & G4).
  assert (Hin : In nm (m_names r)) by (eapply nth_error_In; exact Hk). split; [|now apply G4].
  assert (Hlt : getJointId r nm < m_njoints r). { destruct (Nat.eq_dec (getJointId r nm) (m_njoints r)) as [E|]; [|lia]. apply G2 in E. contradiction. }
  destruct (G1 _ eq_refl Hlt) as [G5 _]. apply (proj1 (NoDup_nth_error (m_names r)) ND); [|congruence].
  apply nth_error_Some. congruence.
Qed.
Definition okType (ty : nat) : Prop := In ty [OP_FRAME; JOINT; FIXED_JOINT; BODY; SENSOR].
Lemma okType_any f : okType (fr_type f) -> matches (fr_name f) ANY_FRAME f.
Proof.
  intros H. split; [reflexivity|]. unfold okType in H. destruct H as [E|[E|[E|[E|[E|[]]]]]]; rewrite <- E; intros X; vm_compute in X; discriminate X.
Qed.
Lemma frameNames_inj (l : list Frame) a b f g : NoDup (map fr_name l) -> nth_error l a = Some f -> nth_error l b = Some g -> fr_name f = fr_name g -> a = b.
Proof.
  intros ND Ha Hb E. apply (proj1 (NoDup_nth_error (map fr_name l)) ND).
  - apply nth_error_Some. rewrite nth_error_map, Ha. discriminate.
  - rewrite !nth_error_map, Ha, Hb. cbn. now rewrite E.
Qed.
Lemma getFrameId_some r nm mask : wellFormed r -> NoDup (map fr_name (m_frames r)) -> exists k, getFrameId r nm mask = Some k.
Proof.
  intros W ND. pose proof (getFrameId_spec r nm mask W) as G. destruct (getFrameId r nm mask) as [k|]; [eauto|].
  destruct G as (i & j & f & g & Hij & Hi & Hj & [Mf _] & [Mg _]). pose proof (frameNames_inj _ i j f g ND Hi Hj). exfalso.
  assert (i = j) by (apply H; congruence). lia.
Qed.
Lemma getFrameId_unique r k f : wellFormed r -> NoDup (map fr_name (m_frames r)) -> nth_error (m_frames r) k = Some f -> okType (fr_type f) ->
  getFrameId r (fr_name f) ANY_FRAME = Some k.
Proof.
  intros W ND Hk Ht. pose proof (getFrameId_spec r (fr_name f) ANY_FRAME W) as G. destruct (getFrameId_some r (fr_name f) ANY_FRAME W ND) as [j Ej].
  rewrite Ej in G |- *. destruct G as [(_ & g & Hg & Mg & U) | (_ & N)].
  - f_equal. symmetry. apply (U k f Hk). now apply okType_any.
  - exfalso. apply (N f); [eapply nth_error_In; exact Hk | now apply okType_any].
Qed.
Lemma addFrame_fresh eps r f b : wellFormed r -> fr_parentJoint f < m_njoints r -> (forall g, In g (m_frames r) -> fr_name g <> fr_name f) ->
  addFrame eps r f b = Ok (if b then setInertias (setFrames r (m_frames r ++ [f]) (S (m_nframes r)))
                                       (upd (m_inertias r) (fr_parentJoint f) (fun Y0 => inertia_pequ eps Y0 (inertia_act (fr_placement f) (fr_inertia f)))) (m_nbodies r)
                           else setFrames r (m_frames r ++ [f]) (S (m_nframes r))) (m_nframes r).
Proof.
  intros W Hj Hn. unfold addFrame. rewrite (proj2 (Nat.ltb_lt _ _) Hj). cbn [negb].
  assert (Hx : existFrame r (fr_name f) (fr_type f) = false).
  { apply not_true_is_false. rewrite existFrame_spec. intros [g [Hg [Hm _]]]. now apply (Hn g). }
  rewrite Hx. destruct (wf_lengths _ W) as (L1&_). destruct b; [|reflexivity]. rewrite (proj2 (Nat.ltb_lt _ _)) by lia. reflexivity.
Qed.

(* ---- layouts do not depend on frames and inertias ---- *)
Lemma Layout_setInertias r items l n : Layout r items -> length l = m_njoints r -> Layout (setInertias r l n) items.
Proof.
  intros [A1 A2 A3 A4 A5 A6 A7 A8 A9 A10 A11 A12] H. constructor; try assumption; try (now apply treeInv_setInertias); try (now apply wf_setInertias).
  - intros g Hg. specialize (A10 g Hg). cbn in Hg. destruct Hg as [<-|[<-|[<-|[<-|[<-|[<-|[]]]]]]]; exact A10.
  - intros g Hg. specialize (A11 g Hg). cbn in Hg. destruct Hg as [<-|[<-|[]]]; exact A11.
Qed.
Lemma wf_setFrames' r l n : wellFormed r -> n = length l -> (forall f, In f l -> fr_parentJoint f < m_njoints r) -> wellFormed (setFrames r l n).
Proof. intros W Hn H. destruct W as [A1 A2 A3 A4 A5 A6 A7 A8 A9 A10 A11 A12]. constructor; try assumption. split; assumption. Qed.
Lemma Layout_setFrames r items l n : Layout r items -> n = length l -> (forall f, In f l -> fr_parentJoint f < m_njoints r) -> Layout (setFrames r l n) items.
Proof.
  intros [A1 A2 A3 A4 A5 A6 A7 A8 A9 A10 A11 A12] Hn H. constructor; try assumption; try (now apply wf_setFrames').
  - apply (treeInv_same r); try reflexivity. exact A2.
  - intros g Hg. specialize (A10 g Hg). cbn in Hg. destruct Hg as [<-|[<-|[<-|[<-|[<-|[<-|[]]]]]]]; exact A10.
  - intros g Hg. specialize (A11 g Hg). cbn in Hg. destruct Hg as [<-|[<-|[]]]; exact A11.
Qed.
Lemma Layout_setRefs r items l : Layout r items -> Layout (setRefs r l) items.
Proof.
  intros [A1 A2 A3 A4 A5 A6 A7 A8 A9 A10 A11 A12]. constructor; try assumption.
  - destruct A1. constructor; assumption.
  - apply (treeInv_same r); try reflexivity. exact A2.
  - intros g Hg. specialize (A10 g Hg). cbn in Hg. destruct Hg as [<-|[<-|[<-|[<-|[<-|[<-|[]]]]]]]; exact A10.
  - intros g Hg. specialize (A11 g Hg). cbn in Hg. destruct Hg as [<-|[<-|[]]]; exact A11.
Qed.

(* ---- carriers ---- *)
Section Carriers.
Variables (m : Model) (L : list nat) (q0 : nat -> R).
Hypothesis W : wellFormed m.
Hypothesis HL : forall j, In j L -> 0 < j < m_njoints m.
Definition lockedb (i : nat) : bool := existsb (fun k => k =? i) L.
Definition keptb (i : nat) : bool := negb (lockedb i).
Lemma lockedb_In i : lockedb i = true <-> In i L.
Proof. unfold lockedb. rewrite existsb_exists. split; [intros (x & Hx & E); apply Nat.eqb_eq in E; now subst | intros H; exists i; split; [exact H | apply Nat.eqb_refl]]. Qed.
Lemma keptb_In i : keptb i = true <-> ~ In i L.
Proof. unfold keptb. rewrite negb_true_iff, <- not_true_iff_false, lockedb_In. reflexivity. Qed.
Definition newIx (i : nat) : nat := length (filter keptb (seq 1 i)).
Definition keptList (i : nat) : list nat := filter keptb (seq 1 (i - 1)).
Lemma keptList_S i : 0 < i -> keptList (S i) = keptList i ++ (if keptb i then [i] else []).
Proof. intros H. unfold keptList. replace (S i - 1) with (S (i - 1)) by lia. rewrite List.seq_S, filter_app. f_equal. cbn. replace (S (i - 1)) with i by lia. destruct (keptb i); reflexivity. Qed.
Lemma newIx_kept i : 0 < i -> keptb i = true -> newIx i = S (length (keptList i)).
Proof.
  intros H Hk. unfold newIx, keptList. replace i with (S (i - 1)) at 1 by lia. rewrite List.seq_S, filter_app, app_length. cbn. replace (S (i - 1)) with i by lia. rewrite Hk. cbn. lia.
Qed.
Lemma newIx_0 : newIx 0 = 0. Proof. reflexivity. Qed.
Lemma keptList_In i a : In a (keptList i) <-> 0 < a < i /\ keptb a = true.
Proof. unfold keptList. rewrite filter_In, in_seq. split; intros [H1 H2]; (split; [lia|exact H2]). Qed.
Lemma keptList_nth i a : 0 < a < i -> keptb a = true -> nth_error (keptList i) (newIx a - 1) = Some a.
Proof. clear q0.
  intros Ha Hk. unfold keptList. replace (i - 1) with ((a - 1) + S (i - 1 - a)) by lia. rewrite seq_app, filter_app.
  rewrite (newIx_kept a) by tauto. unfold keptList. replace (S (length (filter keptb (seq 1 (a - 1)))) - 1) with (length (filter keptb (seq 1 (a - 1)))) by lia.
  rewrite nth_error_app2, Nat.sub_diag by lia. cbn. replace (S (a - 1)) with a by lia. rewrite Hk. reflexivity.
Qed.
Lemma newIx_lt i a : a < i -> (a = 0 \/ keptb a = true) -> newIx a < S (length (keptList i)).
Proof. clear q0.
  intros Ha Hk. destruct (Nat.eq_dec a 0) as [->|]; [rewrite newIx_0; lia|]. destruct Hk as [|Hk]; [contradiction|].
  pose proof (keptList_nth i a ltac:(lia) Hk) as H. assert (newIx a - 1 < length (keptList i)) by (apply nth_error_Some; congruence). lia.
Qed.
Lemma newIx_pos a : 0 < a -> keptb a = true -> 0 < newIx a. Proof. intros H1 H2. rewrite (newIx_kept a H1 H2). lia. Qed.
Lemma newIx_inj i a b : a < i -> b < i -> (a = 0 \/ keptb a = true) -> (b = 0 \/ keptb b = true) -> newIx a = newIx b -> a = b.
Proof. clear q0.
  intros Ha Hb Ka Kb E. destruct (Nat.eq_dec a 0) as [->|Na], (Nat.eq_dec b 0) as [->|Nb]; try reflexivity.
  - exfalso. destruct Kb as [|Kb]; [contradiction|]. pose proof (newIx_pos b ltac:(lia) Kb). rewrite newIx_0 in E. lia.
  - exfalso. destruct Ka as [|Ka]; [contradiction|]. pose proof (newIx_pos a ltac:(lia) Ka). rewrite newIx_0 in E. lia.
  - destruct Ka as [|Ka]; [contradiction|]. destruct Kb as [|Kb]; [contradiction|].
    pose proof (keptList_nth i a ltac:(lia) Ka) as H1. pose proof (keptList_nth i b ltac:(lia) Kb) as H2. rewrite E in H1. congruence.
Qed.

Fixpoint anc (fuel i : nat) : nat * SE3 :=
  match fuel with
  | 0 => (0, se3_Identity)
  | S f => if lockedb i then let p := anc f (parent m i) in (fst p, se3_mul (snd p) (relPl m q0 i)) else (i, se3_Identity)
  end.
Definition ancF (i : nat) : nat * SE3 := anc (S i) i.
Lemma anc_fuel f f' i : i < f -> i < f' -> anc f i = anc f' i.
Proof.
  revert f' i. induction f as [|f IH]; intros f' i H H'; [lia|]. destruct f' as [|f']; [lia|]. cbn. destruct (lockedb i) eqn:E; [|reflexivity].
  apply lockedb_In in E. pose proof (wf_parent _ W i (HL i E)). rewrite (IH f' (parent m i)) by lia. reflexivity.
Qed.
Lemma ancF_kept i : keptb i = true -> ancF i = (i, se3_Identity).
Proof. intros H. unfold ancF. cbn. unfold keptb in H. apply negb_true_iff in H. now rewrite H. Qed.
Lemma ancF_0 : ancF 0 = (0, se3_Identity).
Proof. apply ancF_kept, keptb_In. intros H. specialize (HL 0 H). lia. Qed.
Lemma ancF_locked i : In i L -> ancF i = (fst (ancF (parent m i)), se3_mul (snd (ancF (parent m i))) (relPl m q0 i)).
Proof.
  intros H. unfold ancF. cbn [anc]. rewrite (proj2 (lockedb_In i) H). pose proof (wf_parent _ W i (HL i H)).
  rewrite (anc_fuel i (S (parent m i)) (parent m i)) by lia. reflexivity.
Qed.
Lemma ancF_le i : i < m_njoints m -> fst (ancF i) <= i /\ (fst (ancF i) = 0 \/ keptb (fst (ancF i)) = true).
Proof.
  induction i as [i IH] using lt_wf_ind. intros Hi. destruct (lockedb i) eqn:E.
  - apply lockedb_In in E. rewrite (ancF_locked i E). cbn [fst]. pose proof (wf_parent _ W i (HL i E)). destruct (IH (parent m i)) as [I1 I2]; [lia|lia|]. split; [lia|exact I2].
  - assert (K : keptb i = true) by (unfold keptb; now rewrite E). rewrite (ancF_kept i K). cbn. auto.
Qed.
Lemma ancF_attached i : i < m_njoints m -> attached m L q0 i (fst (ancF i)) (snd (ancF i)).
Proof.
  induction i as [i IH] using lt_wf_ind. intros Hi. destruct (lockedb i) eqn:E.
  - apply lockedb_In in E. rewrite (ancF_locked i E). cbn [fst snd]. pose proof (wf_parent _ W i (HL i E)). apply att_locked; [exact E|]. apply IH; lia.
  - assert (K : keptb i = true) by (unfold keptb; now rewrite E). rewrite (ancF_kept i K). apply att_kept, keptb_In, K.
Qed.
Lemma attached_fun i a M : i < m_njoints m -> attached m L q0 i a M -> a = fst (ancF i) /\ M = snd (ancF i).
Proof.
  intros Hi H. induction H as [i Hk | i a M Hl H IH].
  - rewrite (ancF_kept i) by now apply keptb_In. split; reflexivity.
  - pose proof (wf_parent _ W i (HL i Hl)). rewrite (ancF_locked i Hl). cbn [fst snd]. destruct IH as [<- <-]; [lia|]. split; reflexivity.
Qed.
End Carriers.
