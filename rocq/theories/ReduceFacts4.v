(* Locking joints: the remaining frames, the reference configurations, and the whole function. *)
Require Import Reals String List Arith Bool Lia Lra Sorted Permutation.
From Verif Require Import Vec3 Spatial Inertia InertiaFacts Joints Spec_Joints Model Spec_Model ModelFacts ModelFacts2 ModelTree ModelFacts3 Spec_Kin Mimic MimicFacts Reduce Spec_Append AppendFacts AppendFacts2 AppendFacts3 ReduceFacts ReduceFacts2 ReduceFacts3.
Import ListNotations.
Local Open Scope nat_scope.

Lemma writeSeg_mid l d i x : length l = i -> length x <= length d -> writeSeg (l ++ d) i x = Some (l ++ x ++ skipn (length x) d).
Proof.
  intros <- Hd. unfold writeSeg. rewrite app_length. replace (length l + length x <=? length l + length d) with true by (symmetry; apply Nat.leb_le; lia).
  rewrite orb_true_r. unfold setSegment. rewrite firstn_app, Nat.sub_diag, firstn_all. cbn [firstn]. rewrite app_nil_r.
  rewrite skipn_app, (skipn_all2 l) by lia. replace (length l + length x - length l) with (length x) by lia. reflexivity.
Qed.

(* ---- a configuration restricted to the joints of a layout ---- *)
Section Restrict.
Variables (m r : Model) (items : list Item) (c : list R).
Hypotheses (Y : Layout r items) (Wm : wellFormed m) (ND : NoDup (m_names m)) (Hsrc : forall it, In it items -> it_src it = m) (Hc : length c = m_nq m).
Let W : wellFormed r := lay_wf _ _ Y.
Definition restricted : list R := flat_map (fun it => segQ (it_src it) (it_ix it) c) items.
Lemma seg_length it : In it items -> length (segQ (it_src it) (it_ix it) c) = nqOf (it_src it) (it_ix it).
Proof.
  intros Hin. destruct (lay_src _ _ Y it Hin) as [W1 Hi]. rewrite (Hsrc it Hin) in *. destruct (wf_joint _ Wm _ Hi) as (_ & _ & _ & _ & E1 & _). rewrite <- E1.
  apply (selQ_ok m Wm _ Hi (joint m (it_ix it)) c Hc). now left.
Qed.
Lemma flat_length l : incl l items -> length (flat_map (fun it => segQ (it_src it) (it_ix it) c) l) = sum (map (fun it => nqOf (it_src it) (it_ix it)) l).
Proof.
  induction l as [|it l IH]; intros H; [reflexivity|]. cbn [flat_map map]. rewrite app_length, seg_length by (apply H; now left). rewrite IH by (intros x Hx; apply H; now right). reflexivity.
Qed.
Lemma nq_layout : m_nq r = sum (map (fun it => nqOf (it_src it) (it_ix it)) items).
Proof. destruct (wf_total _ W) as [-> _]. rewrite (proj1 (layout_dims r items Y)). reflexivity. Qed.
Lemma restricted_length : length restricted = m_nq r.
Proof. unfold restricted. rewrite flat_length, nq_layout; [reflexivity | intros x Hx; exact Hx]. Qed.
Lemma restrict_step l2 : forall l1, items = l1 ++ l2 ->
  restrictConfig m r c (seq (S (length l1)) (length l2)) (flat_map (fun it => segQ (it_src it) (it_ix it) c) l1 ++ repeat 0%R (sum (map (fun it => nqOf (it_src it) (it_ix it)) l2))) = Some restricted.
Proof.
  destruct (wf_lengths _ W) as (R1&R2&R3&R4&R5&R6&R7&R8&R9&R10&R11&R12&_). destruct (wf_lengths _ Wm) as (L1&L2&L3&L4&L5&L6&L7&L8&L9&L10&L11&L12&_).
  induction l2 as [|it l2 IH]; intros l1 E.
  - cbn. unfold restricted. rewrite app_nil_r. rewrite E, app_nil_r. reflexivity.
  - assert (Hn : nth_error items (length l1) = Some it) by (rewrite E, nth_error_app2, Nat.sub_diag by lia; reflexivity).
    pose proof (nth_error_In _ _ Hn) as Hin. pose proof (item_k r items Y _ _ Hn) as Hk. pose proof (Hsrc it Hin) as Es.
    destruct (lay_src _ _ Y it Hin) as [_ Hi]. rewrite Es in Hi.
    cbn [length seq restrictConfig]. rewrite (nth_error_nth' (m_names r) _ ""%string) by lia. rewrite (nth_error_nth' (m_joints r) _ dJ) by lia.
    change (nth (S (length l1)) (m_names r) ""%string) with (nameOf r (S (length l1))). rewrite (item_name r items Y _ _ Hn), Es.
    assert (Hnm : nth_error (m_names m) (it_ix it) = Some (nameOf m (it_ix it))) by (apply nth_error_nth'; lia).
    rewrite (proj1 (getJointId_unique m _ _ Wm ND Hnm)). rewrite (nth_error_nth' (m_joints m) _ dJ) by lia. fold dJ.
    change (nth (it_ix it) (m_joints m) dJ) with (joint m (it_ix it)). change (nth (S (length l1)) (m_joints r) dJ) with (joint r (S (length l1))).
    rewrite (proj1 (selQ_ok m Wm _ Hi (joint m (it_ix it)) c Hc (or_introl eq_refl))).
    pose proof (seg_length it Hin) as Hlen. rewrite Es in Hlen.
    assert (Hw : writeSeg (flat_map (fun it => segQ (it_src it) (it_ix it) c) l1 ++ repeat 0%R (sum (map (fun it => nqOf (it_src it) (it_ix it)) (it :: l2)))) (jm_idx_q (joint r (S (length l1)))) (segQ m (it_ix it) c)
      = Some (flat_map (fun it => segQ (it_src it) (it_ix it) c) (l1 ++ [it]) ++ repeat 0%R (sum (map (fun it => nqOf (it_src it) (it_ix it)) l2)))).
    { rewrite flat_map_app. cbn [flat_map map sum]. rewrite Es, app_nil_r. change (fold_right Nat.add 0) with sum.
      replace (sum (nqOf m (it_ix it) :: map (fun it0 => nqOf (it_src it0) (it_ix it0)) l2)) with (nqOf m (it_ix it) + sum (map (fun it0 => nqOf (it_src it0) (it_ix it0)) l2)) by reflexivity.
      destruct (isMimic (joint m (it_ix it))) eqn:Em.
      - destruct (proj1 (src_inrange m Wm _ Hi) Em) as [Z _]. rewrite Z in *. destruct (segQ m (it_ix it) c); [|discriminate]. rewrite app_nil_r. cbn [Nat.add]. apply writeSeg_nil.
      - rewrite writeSeg_mid; [| | rewrite repeat_length; lia].
        + rewrite Hlen, repeat_app, skipn_app, repeat_length, Nat.sub_diag, skipn_all2 by (rewrite repeat_length; lia). cbn [skipn app]. now rewrite app_assoc.
        + rewrite flat_length by (rewrite E; apply incl_appl, incl_refl). destruct (wf_joint _ W _ Hk) as (_ & -> & _).
          assert (Em' : isMimic (joint r (S (length l1))) = false) by (rewrite (item_mimic r items Y _ _ Hn), Es; exact Em).
          rewrite (proj1 (wf_range _ W _ Hk Em')). rewrite (proj1 (layout_dims r items Y)). cbn [firstn]. rewrite E, map_app, firstn_app, map_length, Nat.sub_diag.
          cbn [firstn]. rewrite app_nil_r. rewrite firstn_all2 by (rewrite map_length; lia). reflexivity. }
    rewrite Hw. replace (S (S (length l1))) with (S (length (l1 ++ [it]))) by (rewrite app_length; cbn; lia).
    apply IH. rewrite <- app_assoc. exact E.
Qed.
Lemma restrict_ok : restrictConfig m r c (seq 1 (length (m_joints r) - 1)) (repeat 0%R (m_nq r)) = Some restricted.
Proof.
  destruct (wf_lengths _ W) as (R1&R2&R3&_). rewrite R3, (lay_n _ _ Y), nq_layout. replace (S (length items) - 1) with (length items) by lia. apply (restrict_step items []). reflexivity.
Qed.
Lemma restricted_seg n it : nth_error items n = Some it -> segQ r (S n) restricted = segQ m (it_ix it) c.
Proof.
  intros Hn. pose proof (nth_error_In _ _ Hn) as Hin. pose proof (item_k r items Y _ _ Hn) as Hk. pose proof (Hsrc it Hin) as Es.
  pose proof (seg_length it Hin) as Hlen. unfold segQ at 1. destruct (item_dims r items Y _ _ Hn) as [Dq _]. rewrite Dq, Es.
  destruct (lay_src _ _ Y it Hin) as [_ Hi]. rewrite Es in Hi, Hlen.
  destruct (isMimic (joint m (it_ix it))) eqn:Em.
  - destruct (proj1 (src_inrange m Wm _ Hi) Em) as [Z _]. rewrite Z in *. destruct (segQ m (it_ix it) c); [reflexivity|discriminate].
  - assert (Em' : isMimic (joint r (S n)) = false) by (rewrite (item_mimic r items Y _ _ Hn), Es; exact Em).
    rewrite (proj1 (wf_range _ W _ Hk Em')), (proj1 (layout_dims r items Y)). cbn [firstn]. unfold restricted.
    destruct (nth_error_split _ _ Hn) as (l1 & l2 & E & El). rewrite E, map_app, <- El. cbn [map]. rewrite firstn_app, map_length, Nat.sub_diag. cbn [firstn]. rewrite app_nil_r.
    rewrite (firstn_all2 (map (fun it0 => nqOf (it_src it0) (it_ix it0)) l1)) by (rewrite map_length; lia). cbn [sum fold_right Nat.add].
    change (sum (0 :: map (fun it0 => nqOf (it_src it0) (it_ix it0)) l1)) with (sum (map (fun it0 => nqOf (it_src it0) (it_ix it0)) l1)).
    rewrite <- flat_length by (rewrite E; apply incl_appl, incl_refl). rewrite flat_map_app, skipn_app, skipn_all, Nat.sub_diag. cbn [skipn app flat_map].
    rewrite Es, firstn_app, <- Hlen, Nat.sub_diag, firstn_all. cbn [firstn]. apply app_nil_r.
Qed.
End Restrict.

Lemma restricts_ok m r items : Layout r items -> wellFormed m -> NoDup (m_names m) -> (forall it, In it items -> it_src it = m) ->
  forall l, (forall key c, In (key, c) l -> length c = m_nq m) -> restrictConfigs m r l = Some (map (fun e => (fst e, restricted items (snd e))) l).
Proof.
  intros Y W ND Hs. induction l as [|[key c] l IH]; intros H; [reflexivity|]. cbn [restrictConfigs map fst snd].
  rewrite (restrict_ok m r items c Y W ND Hs (H key c (or_introl eq_refl))). rewrite IH; [reflexivity|]. intros k' c' Hc. apply (H k' c'). now right.
Qed.

Section Left.
Variables (eps : R) (m : Model) (lk : list nat) (q0l : list R).
Notation q0 := (coord q0l).
Hypotheses (W : wellFormed m) (T : treeInv m) (PR : plainRefs m) (WN : wellNamed m) (LO : lockable m lk) (SS : StronglySorted lt lk).
Hypothesis F0 : nth_error (m_frames m) 0 = Some universeFrame.
Notation JI := (JInv eps m lk q0).
Notation FI := (FInv m lk q0l).
Notation n := (m_njoints m).

Lemma left_tail d : forall p r, JI n r -> FI p r -> PInv m lk n p \/ (forall k, In k lk -> k < n -> exists p', p' <= p /\ ownAt m k p') ->
  S p + d = length (m_frames m) ->
  exists r', framesLeft eps m lk r (skipn (S p) (m_frames m)) = Ok r' tt /\ JI n r' /\ FI (p + d) r' /\ m_refs r' = m_refs r.
Proof.
  induction d as [|d IH]; intros p r J F HP Ed.
  - rewrite skipn_all2 by lia. cbn. exists r. rewrite Nat.add_0_r. split; [reflexivity|]. split; [exact J|]. split; [exact F|reflexivity].
  - assert (Hd : forall k, In k lk -> k < n -> exists p', p' <= p /\ ownAt m k p') by (destruct HP as [[_ P2 _]|P2]; exact P2).
    destruct (nth_error (m_frames m) (S p)) as [f|] eqn:Ef; [|apply nth_error_None in Ef; lia]. rewrite (skipn_cons_nth _ _ _ Ef). cbn [framesLeft].
    pose proof (proj2 (wf_frames _ W) f (nth_error_In _ _ Ef)) as Hf.
    assert (Hno : ~ ownLocked m lk f).
    { intros Ho. destruct (Hd _ (proj1 Ho) Hf) as (p' & Hp' & Ho'). pose proof (ownAt_unique m WN _ _ _ (ownLocked_pos m lk WN LO _ _ Ef Ho) Ho'). lia. }
    destruct (addInput_ok eps m lk q0l W WN LO n p r f ltac:(lia) J F Ef Hf Hno Hd) as (r1 & E1 & J1 & F1 & Rf & _). rewrite E1.
    destruct (IH (S p) r1 J1 F1) as (r2 & E2 & J2 & F2 & Rf2); [|lia|].
    { right. intros k K1 K2. destruct (Hd k K1 K2) as (p' & Hp' & Ho). exists p'. split; [lia|exact Ho]. }
    exists r2. split; [exact E2|]. split; [exact J2|]. split; [replace (p + S d) with (S p + d) by lia; exact F2|congruence].
Qed.
Lemma left_ok p r : JI n r -> FI p r -> PInv m lk n p -> exists r', framesLeft eps m lk r (skipn p (m_frames m)) = Ok r' tt /\ JI n r' /\ FI (length (m_frames m) - 1) r' /\ m_refs r' = m_refs r.
Proof.
  intros J F PI. destruct PI as [P1 P2 P3] eqn:EP. clear EP.
  destruct (nth_error (m_frames m) p) as [f|] eqn:Ef; [|apply nth_error_None in Ef; lia]. rewrite (skipn_cons_nth _ _ _ Ef). cbn [framesLeft].
  pose proof (nth_error_In _ _ Ef) as Hin. pose proof (proj2 (wf_frames _ W) f Hin) as Hf. pose proof (lay_wf _ _ (ji_lay _ _ _ _ _ _ J)) as Wr.
  destruct (wf_lengths _ W) as (L1&L2&L3&L4&L5&L6&L7&L8&L9&L10&L11&L12&_). destruct (wf_frames _ W) as [WF1 WF2]. pose proof (wf_n _ W) as Wn.
  destruct (fi_image _ _ _ _ _ F p f (le_n p) Ef) as (g & Hg & C1 & C2 & C3 & C4 & C5).
  assert (Hsame : addInputFrame eps m lk r f = Ok r tt).
  { unfold addInputFrame. rewrite (nth_error_nth' (m_names m) _ ""%string) by lia. change (nth (fr_parentJoint f) (m_names m) ""%string) with (nameOf m (fr_parentJoint f)).
    rewrite kept_existsb. destruct P3 as [E|(k & K1 & K2 & (pf & Y & K3))].
    - rewrite E, F0 in Ef. injection Ef as <-. cbn [fr_parentJoint universeFrame] in *. rewrite (kept0 m lk LO). cbn [negb fr_parentFrame universeFrame]. rewrite F0.
      destruct (getFrameId_some r (fr_name universeFrame) ANY_FRAME Wr (fi_nodup _ _ _ _ _ F)) as [pk ->].
      rewrite (proj1 (findJoint eps m lk q0 W WN n r 0 (le_n _) J Hf (or_introl eq_refl))). rewrite newIx_0. unfold addFrame. cbn [fr_parentJoint fr_name fr_type universeFrame].
      destruct (In_nth_error _ _ Hg) as [ng Eg].
      assert (Hlt : 0 < m_njoints r) by (pose proof (wf_n _ Wr); lia). rewrite (proj2 (Nat.ltb_lt _ _) Hlt). cbn [negb].
      assert (Hno : ~ ownLocked m lk universeFrame) by (intros [X _]; cbn in X; pose proof (lo_joints _ _ LO 0 X); lia).
      destruct (C4 Hno) as [C41 _]. cbn in C1, C41.
      assert (Hx : existFrame r "universe" FIXED_JOINT = true).
      { apply existFrame_spec. exists g. split; [exact Hg|]. split; [exact C1|]. rewrite C41. intros X; vm_compute in X; discriminate X. }
      rewrite Hx. destruct (getFrameId_some r "universe"%string FIXED_JOINT Wr (fi_nodup _ _ _ _ _ F)) as [pk2 ->]. reflexivity.
    - rewrite Ef in K3. injection K3 as ->. cbn [fr_parentJoint fr_type fr_name] in *.
      assert (Ek : keptb lk k = false) by (unfold keptb; rewrite (proj2 (lockedb_In lk _) K1); reflexivity). rewrite Ek. cbn [negb]. rewrite String.eqb_refl.
      assert (Hx : existFrame r (nameOf m k) ANY_FRAME = true).
      { apply existFrame_spec. exists g. split; [exact Hg|]. rewrite <- C1. apply okType_any. apply (fi_from _ _ _ _ _ F g Hg). }
      rewrite Hx. reflexivity. }
  rewrite Hsame. destruct (left_tail (length (m_frames m) - S p) p r J F (or_introl PI) ltac:(lia)) as (r' & E & J' & F' & Rf).
  exists r'. split; [exact E|]. split; [exact J'|]. split; [|exact Rf]. replace (length (m_frames m) - 1) with (p + (length (m_frames m) - S p)) by lia. exact F'.
Qed.

Lemma FInv_start : FI 0 (copyUniverse m emptyModel).
Proof.
  constructor.
  - cbn. constructor; [intros []|constructor].
  - intros g [<-|[]]. split; [right; right; left; reflexivity|]. exists 0, universeFrame. repeat split; [lia | exact F0].
  - intros k f Hk Ef. assert (k = 0) by lia. subst k. rewrite F0 in Ef. injection Ef as <-. exists universeFrame. split; [now left|].
    unfold carries. cbn [fr_parentJoint universeFrame]. rewrite (ancF_0 m lk q0 (lo_joints _ _ LO)). cbn [fst snd].
    split; [reflexivity|]. split; [reflexivity|]. split; [symmetry; apply se3_mul_1_l|]. split; [intros _; split; reflexivity|].
    intros [X _]. cbn in X. pose proof (lo_joints _ _ LO 0 X). lia.
Qed.
Lemma PInv_start : PInv m lk 1 0.
Proof.
  constructor; [apply nth_error_Some; rewrite F0; discriminate| | now left]. intros k K1 K2. pose proof (lo_joints _ _ LO k K1). lia.
Qed.
End Left.

Lemma lockable_perm m L L' : Permutation L L' -> lockable m L -> lockable m L'.
Proof.
  intros P [A B C D]. assert (Hin : forall x, In x L' -> In x L) by (intros x; apply Permutation_in, Permutation_sym, P).
  assert (Hin' : forall x, In x L -> In x L') by (intros x; now apply Permutation_in).
  constructor; [apply (Permutation_NoDup P A) | intros j Hj; apply B, Hin, Hj | intros j Hj; apply C, Hin, Hj |].
  intros i Hi Hn Hm Hx. apply (D i Hi); [intros X; apply Hn, Hin', X | exact Hm | now apply Hin].
Qed.

Lemma reduce_ok eps m L q0l : wellFormed m -> plainRefs m -> wellNamed m -> lockable m L -> nth_error (m_frames m) 0 = Some universeFrame -> length q0l = m_nq m ->
  exists r, buildReducedModel eps m L q0l = Ok r tt /\ JInv eps m (sortIndexes L) (coord q0l) (m_njoints m) r /\
    FInv m (sortIndexes L) q0l (length (m_frames m) - 1) r /\
    m_refs r = map (fun e => (fst e, restricted (itemsOf m (sortIndexes L) (coord q0l) (m_njoints m)) (snd e))) (m_refs m).
Proof.
  intros W PR WN LO F0 Hq. unfold buildReducedModel. rewrite (proj2 (Nat.eqb_eq _ _) Hq). cbn [negb].
  assert (Hl : length L <= m_njoints m) by (apply NoDup_range; [apply (lo_distinct _ _ LO) | intros x Hx; apply (lo_joints _ _ LO x Hx)]).
  rewrite (proj2 (Nat.leb_le _ _) Hl). cbn [negb]. pose proof (sort_sorted L (lo_distinct _ _ LO)) as SS. rewrite (sorted_increasing _ SS). cbn [negb].
  pose proof (lockable_perm m L _ (Permutation_sym (sort_perm L)) LO) as LO'. set (lk := sortIndexes L) in *.
  pose proof (wf_n _ W) as Hn.
  destruct (loop_ok eps m lk q0l W PR WN LO' SS F0 (m_njoints m - 1) 1 (copyUniverse m emptyModel) 0 [] lk ltac:(lia) ltac:(lia) eq_refl) as (r1 & p & E1 & J1 & F1 & P1).
  - intros x [].
  - intros x Hx. pose proof (lo_joints _ _ LO' x Hx). lia.
  - apply (JInv_start eps m lk (coord q0l) W LO').
  - apply (FInv_start m lk q0l LO' F0).
  - apply (PInv_start m lk LO' F0).
  - cbn [skipn] in E1. rewrite E1.
    rewrite (restricts_ok m r1 (itemsOf m lk (coord q0l) (m_njoints m)) (ji_lay _ _ _ _ _ _ J1) W (wn_joints _ WN)) with (l := m_refs m); [| |apply (wn_refs _ WN)].
    + destruct (left_ok eps m lk q0l W WN LO' F0 p (setRefs r1 (map (fun e => (fst e, restricted (itemsOf m lk (coord q0l) (m_njoints m)) (snd e))) (m_refs m)))) as (r2 & E2 & J2 & F2 & R2).
      * now apply JInv_setRefs.
      * now apply (FInv_same m lk q0l p r1).
      * exact P1.
      * exists r2. split; [exact E2|]. split; [exact J2|]. split; [exact F2|exact R2].
    + intros it Hit. unfold itemsOf in Hit. apply in_map_iff in Hit. destruct Hit as (k & <- & _). reflexivity.
Qed.
