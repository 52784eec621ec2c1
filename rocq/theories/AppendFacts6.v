(* Appending a model: reference configurations, and the whole function. *)
Require Import Reals String List Arith Bool Lia Lra.
From Verif Require Import Vec3 Spatial Inertia InertiaFacts Joints Spec_Joints Model Spec_Model ModelFacts ModelFacts2 ModelTree ModelFacts3 Spec_Kin Mimic MimicFacts Reduce Spec_Append AppendFacts AppendFacts2 AppendFacts3 ReduceFacts ReduceFacts2 Append AppendFacts4 AppendFacts5.
Import ListNotations.
Local Open Scope nat_scope.

(* ---- writing the segment of one joint ---- *)
Lemma nth_seg (l : list R) i n k : k < n -> nth k (firstn n (skipn i l)) 0%R = nth (i + k) l 0%R.
Proof.
  intros Hk. rewrite <- (firstn_skipn i l) at 2. destruct (Nat.le_gt_cases (length l) i) as [H|H].
  - rewrite skipn_all2 by exact H. rewrite firstn_nil. cbn [nth]. rewrite app_nil_r, firstn_all2, nth_overflow by lia. destruct k; reflexivity.
  - rewrite app_nth2 by (rewrite firstn_length; lia). rewrite firstn_length, Nat.min_l by lia. replace (i + k - i) with k by lia.
    rewrite <- (firstn_skipn n (skipn i l)) at 2. destruct (Nat.lt_ge_cases k (length (firstn n (skipn i l)))) as [Hl|Hl]; [now rewrite app_nth1|].
    rewrite firstn_length in Hl. assert (length (skipn i l) <= k) by lia. rewrite firstn_skipn. rewrite !nth_overflow; [reflexivity | lia | rewrite firstn_length; lia].
Qed.
Lemma nth_set (l x : list R) i k : i + length x <= length l ->
  nth k (setSegment l i x) 0%R = if (i <=? k) && (k <? i + length x) then nth (k - i) x 0%R else nth k l 0%R.
Proof.
  intros H. unfold setSegment. destruct (Nat.leb_spec i k) as [H1|H1]; cbn [andb].
  - rewrite app_nth2 by (rewrite firstn_length; lia). rewrite firstn_length, Nat.min_l by lia. destruct (Nat.ltb_spec k (i + length x)) as [H2|H2].
    + now rewrite app_nth1 by lia.
    + rewrite app_nth2 by lia. rewrite <- (firstn_skipn (i + length x) l) at 2. rewrite app_nth2 by (rewrite firstn_length; lia). rewrite firstn_length, Nat.min_l by lia. f_equal. lia.
  - rewrite app_nth1 by (rewrite firstn_length; lia). rewrite <- (firstn_skipn i l) at 2. rewrite app_nth1 by (rewrite firstn_length; lia). reflexivity.
Qed.
Lemma segs_apart r k k' : wellFormed r -> 0 < k -> k < k' -> k' < m_njoints r -> isMimic (joint r k) = false -> isMimic (joint r k') = false -> idx_q r k + nqOf r k <= idx_q r k'.
Proof.
  intros W Hk Hkk Hk' M M'. destruct (wf_lengths _ W) as (L1&L2&L3&L4&L5&L6&L7&_).
  rewrite (proj1 (wf_range _ W k ltac:(lia) M)), (proj1 (wf_range _ W k' ltac:(lia) M')).
  pose proof (sum_firstn_S (m_nqs r) k ltac:(lia)) as F1. pose proof (sum_firstn_mono (m_nqs r) (S k) k' ltac:(lia)) as F2. unfold nqOf. lia.
Qed.
Lemma seg_write r out k0 x : wellFormed r -> length out = m_nq r -> 0 < k0 < m_njoints r -> length x = nqOf r k0 ->
  exists out', writeSeg out (jm_idx_q (joint r k0)) x = Some out' /\ length out' = m_nq r /\ segQ r k0 out' = x /\
    forall k, 0 < k < m_njoints r -> k <> k0 -> segQ r k out' = segQ r k out.
Proof.
  intros W Ho Hk Hx. destruct (wf_joint _ W k0 Hk) as (_ & -> & _). destruct (src_inrange r W k0 Hk) as [S1 S2]. destruct (isMimic (joint r k0)) eqn:M.
  - destruct (S1 eq_refl) as [Z _]. rewrite Z in Hx. destruct x; [|discriminate]. exists out. split; [apply writeSeg_nil|]. split; [exact Ho|]. split; [|reflexivity]. unfold segQ. now rewrite Z.
  - destruct (S2 eq_refl) as [S3 _]. exists (setSegment out (idx_q r k0) x). unfold writeSeg. rewrite Ho, Hx. rewrite (proj2 (Nat.leb_le _ _) S3), orb_true_r. split; [reflexivity|].
    assert (Hl : idx_q r k0 + length x <= length out) by lia. split; [rewrite setSegment_length; lia|].
    assert (Sl : forall k o, 0 < k < m_njoints r -> isMimic (joint r k) = false -> length o = m_nq r -> length (segQ r k o) = nqOf r k).
    { intros k o Hk' Mk Hol. destruct (src_inrange r W k Hk') as [_ S5]. destruct (S5 Mk) as [S6 _]. unfold segQ. rewrite firstn_length, skipn_length. lia. }
    assert (Hol : length (setSegment out (idx_q r k0) x) = m_nq r) by (rewrite setSegment_length; lia). split.
    + apply (nth_ext _ _ 0%R 0%R); [rewrite Sl by assumption; now symmetry|]. intros t Ht. rewrite Sl in Ht by assumption. unfold segQ. rewrite nth_seg by exact Ht. rewrite nth_set by exact Hl.
      rewrite (proj2 (Nat.leb_le _ _)) by lia. rewrite (proj2 (Nat.ltb_lt _ _)) by lia. cbn [andb]. f_equal. lia.
    + intros k Hk' Hne. destruct (isMimic (joint r k)) eqn:Mk.
      * destruct (src_inrange r W k Hk') as [S5 _]. destruct (S5 Mk) as [Z _]. unfold segQ. now rewrite Z.
      * apply (nth_ext _ _ 0%R 0%R); [rewrite !Sl by assumption; reflexivity|]. intros t Ht. rewrite Sl in Ht by assumption. unfold segQ. rewrite !nth_seg by exact Ht. rewrite nth_set by exact Hl.
        replace ((idx_q r k0 <=? idx_q r k + t) && (idx_q r k + t <? idx_q r k0 + length x)) with false; [reflexivity|]. symmetry. apply andb_false_iff.
        destruct (Nat.lt_total k k0) as [H|[H|H]]; [left; apply Nat.leb_gt | contradiction | right; apply Nat.ltb_ge].
        -- pose proof (segs_apart r k k0 W ltac:(lia) H ltac:(lia) Mk M). lia.
        -- pose proof (segs_apart r k0 k W ltac:(lia) H ltac:(lia) M Mk). lia.
Qed.
Lemma lookup_store key c l k : lookup k (store key c l) = if String.eqb key k then Some c else lookup k l.
Proof.
  induction l as [|[k0 c0] l IH]; cbn; [reflexivity|]. destruct (String.eqb_spec k0 key) as [->|Hne]; cbn.
  - destruct (String.eqb key k); reflexivity.
  - destruct (String.eqb_spec k0 k) as [->|]; [|exact IH]. destruct (String.eqb_spec key k) as [->|]; [contradiction|reflexivity].
Qed.
Lemma lookup_none key (l : list (string * list R)) : ~ In key (map fst l) -> lookup key l = None.
Proof. induction l as [|[k c] l IH]; intros H; [reflexivity|]. cbn in *. destruct (String.eqb_spec k key) as [->|]; [exfalso; tauto|]. apply IH. tauto. Qed.
Lemma lookup_some key (l : list (string * list R)) c : lookup key l = Some c -> In (key, c) l.
Proof. induction l as [|[k x] l IH]; intros H; [discriminate|]. cbn in *. destruct (String.eqb_spec k key) as [->|]; [injection H as ->; now left | right; now apply IH]. Qed.

Section Append.
Variables (eps : R) (a b : Model) (f0 : Frame) (aMb : SE3).
Notation p := (fr_parentJoint f0).
Notation KSab := (KS a b p).
Notation posK := (pos a b p).
Notation src := (srcOf a b).
Hypotheses (W : forall c, wellFormed (src c)) (Ta : treeInv a) (PR : forall c, plainRefs (src c)) (WN : forall c, wellNamed (src c)).
Hypothesis U : forall c, nameOf (src c) 0 = "universe"%string /\ nth_error (m_frames (src c)) 0 = Some universeFrame.
Hypothesis NJ : NoDup (m_names a ++ tl (m_names b)).
Hypothesis NF : NoDup (map fr_name (m_frames a ++ tl (m_frames b))).
Hypothesis Hp : p < m_njoints a.
Hypothesis MI : forall i, 0 < i < m_njoints a -> isMimic (joint a i) = true -> onPath a p i -> jm_ref (joint a i) <= p \/ onPath a p (jm_ref (joint a i)).
Hypothesis RK : forall c, NoDup (map fst (m_refs (src c))).
Notation AI := (AInv eps a b f0 aMb).
Notation dn := (dnOf a b).

(* ---- reference configurations ---- *)
Section Refs.
Variable r : Model.
Hypothesis J : AI KSab (dn KSab) r.
Let Wr : wellFormed r := lay_wf _ _ (ai_lay _ _ _ _ _ _ _ _ J).
Lemma end_key c i : 0 < i < m_njoints (src c) -> In (c, i) KSab /\ isJ (c, i) = true.
Proof. intros Hi. split; [apply (KS_In a b p (W true) (W false) Hp c i); lia | unfold isJ; cbn; destruct i; [lia|reflexivity]]. Qed.
Lemma end_item c i : 0 < i < m_njoints (src c) -> nth_error (map (itemOf a b f0 aMb) (joints KSab)) (posK (c, i) - 1) = Some (itemOf a b f0 aMb (c, i)) /\ S (posK (c, i) - 1) = posK (c, i) /\ 0 < posK (c, i) < m_njoints r.
Proof.
  intros Hi. destruct (end_key c i Hi) as [K1 K2]. destruct (pos_prefix a b p (W true) Hp KSab [] (c, i) (eq_sym (app_nil_r _)) K1 K2) as (P1 & P2 & P3).
  rewrite nth_error_map, P1. split; [reflexivity|]. split; [lia|]. split; [exact P2|]. rewrite (njoints_r _ _ _ _ _ _ _ _ J). exact P3.
Qed.
Lemma end_find c i : 0 < i < m_njoints (src c) -> getJointId r (nameOf (src c) i) = posK (c, i).
Proof. intros Hi. destruct (end_key c i Hi) as [K1 K2]. apply (findJoint eps a b f0 aMb W WN U NJ Hp KSab [] _ r (c, i) (eq_sym (app_nil_r _)) J K1 K2). Qed.
Lemma fill_ok c q : length q = m_nq (src c) -> forall ids, NoDup ids -> (forall i, In i ids -> 0 < i < m_njoints (src c)) -> forall out, length out = m_nq r ->
  exists out', fillConfig (src c) r q ids out = Some out' /\ length out' = m_nq r /\ (forall i, In i ids -> segQ r (posK (c, i)) out' = segQ (src c) i q) /\
    forall k, 0 < k < m_njoints r -> (forall i, In i ids -> k <> posK (c, i)) -> segQ r k out' = segQ r k out.
Proof.
  intros Hq. destruct (wf_lengths _ (W c)) as (L1&L2&L3&L4&L5&L6&L7&L8&L9&L10&L11&L12&_). destruct (wf_lengths _ Wr) as (R1&R2&R3&_).
  induction ids as [|i ids IH]; intros ND Hr out Ho.
  - exists out. split; [reflexivity|]. split; [exact Ho|]. split; [intros i []|reflexivity].
  - inversion ND as [|? ? Hni ND']; subst. pose proof (Hr i (or_introl eq_refl)) as Hi. destruct (end_item c i Hi) as (I1 & I2 & I3).
    cbn [fillConfig]. rewrite (nth_error_nth' (m_names (src c)) i ""%string) by lia. rewrite (nth_error_nth' (m_joints (src c)) i dJ) by lia.
    change (nth i (m_names (src c)) ""%string) with (nameOf (src c) i). change (nth i (m_joints (src c)) dJ) with (joint (src c) i). rewrite (end_find c i Hi).
    rewrite (nth_error_nth' (m_joints r) _ dJ) by lia. change (nth (posK (c, i)) (m_joints r) dJ) with (joint r (posK (c, i))).
    destruct (selQ_ok (src c) (W c) i Hi (joint (src c) i) q Hq (or_introl eq_refl)) as [-> Hlen]. destruct (wf_joint _ (W c) i Hi) as (_ & _ & _ & _ & E1 & _).
    assert (Hlen' : length (segQ (src c) i q) = nqOf r (posK (c, i))).
    { rewrite Hlen, E1. pose proof (proj1 (item_dims r _ (ai_lay _ _ _ _ _ _ _ _ J) _ _ I1)) as X. rewrite I2 in X. symmetry. exact X. }
    destruct (seg_write r out (posK (c, i)) (segQ (src c) i q) Wr Ho I3 Hlen') as (o1 & -> & O1 & O2 & O3).
    destruct (IH ND' (fun x Hx => Hr x (or_intror Hx)) o1 O1) as (o2 & -> & Q1 & Q2 & Q3). exists o2. split; [reflexivity|]. split; [exact Q1|].
    assert (Hdiff : forall x, In x ids -> posK (c, i) <> posK (c, x)).
    { intros x Hx E. pose proof (Hr x (or_intror Hx)) as Hxr. destruct (end_key c i Hi) as [K1 K2]. destruct (end_key c x Hxr) as [K3 K4]. pose proof (pos_inj a b p (W true) Hp _ _ K1 K3 K2 K4 E) as X. injection X as X. subst x. contradiction. }
    split.
    + intros x [<-|Hx]; [|now apply Q2]. rewrite Q3; [exact O2 | exact I3 | exact Hdiff].
    + intros k Hk Hno. rewrite Q3; [|exact Hk|intros x Hx; apply Hno; now right]. apply O3; [exact Hk|]. apply Hno. now left.
Qed.
Variable neu : list R.
Hypothesis Hneu : length neu = m_nq r.
Definition okRefs (refs : list (string * list R)) : Prop := forall key x, lookup key refs = Some x -> length x = m_nq r.
Definition baseOf (refs : list (string * list R)) (key : string) : list R := match lookup key refs with Some x => x | None => neu end.
Lemma base_length refs key : okRefs refs -> length (baseOf refs key) = m_nq r.
Proof. intros H. unfold baseOf. destruct (lookup key refs) eqn:E; [now apply (H key) | exact Hneu]. Qed.
Lemma merge_ok c l : NoDup (map fst l) -> (forall key q, In (key, q) l -> length q = m_nq (src c)) -> forall refs, okRefs refs ->
  exists refs', mergeConfigs (src c) r neu l refs = Some refs' /\ okRefs refs' /\
    forall key, match lookup key l with
                | None => lookup key refs' = lookup key refs
                | Some q => exists x, lookup key refs' = Some x /\ (forall i, 0 < i < m_njoints (src c) -> segQ r (posK (c, i)) x = segQ (src c) i q) /\
                    forall k, 0 < k < m_njoints r -> (forall i, 0 < i < m_njoints (src c) -> k <> posK (c, i)) -> segQ r k x = segQ r k (baseOf refs key)
                end.
Proof.
  destruct (wf_lengths _ (W c)) as (L1&L2&L3&_). induction l as [|[key q] l IH]; intros ND Hl refs Ok.
  - exists refs. split; [reflexivity|]. split; [exact Ok|]. reflexivity.
  - cbn [map fst] in ND. inversion ND as [|? ? Hni ND']; subst. cbn [mergeConfigs]. fold (baseOf refs key).
    destruct (fill_ok c q (Hl key q (or_introl eq_refl)) (seq 1 (length (m_joints (src c)) - 1))) with (out := baseOf refs key) as (x & Ex & X1 & X2 & X3).
    + apply seq_NoDup.
    + intros i Hi. apply in_seq in Hi. lia.
    + now apply base_length.
    + rewrite Ex. assert (X2' : forall i, 0 < i < m_njoints (src c) -> segQ r (posK (c, i)) x = segQ (src c) i q) by (intros i Hi; apply X2, in_seq; lia).
      assert (X3' : forall k, 0 < k < m_njoints r -> (forall i, 0 < i < m_njoints (src c) -> k <> posK (c, i)) -> segQ r k x = segQ r k (baseOf refs key)).
      { intros k Hk Hno. apply X3; [exact Hk|]. intros i Hi. apply Hno. apply in_seq in Hi. lia. }
      assert (Ok' : okRefs (store key x refs)). { intros k y. rewrite lookup_store. destruct (String.eqb key k); [intros E; injection E as <-; exact X1 | apply Ok]. }
      destruct (IH ND' (fun k y H => Hl k y (or_intror H)) (store key x refs) Ok') as (refs' & -> & Ok2 & HR). exists refs'. split; [reflexivity|]. split; [exact Ok2|].
      intros k. cbn [lookup]. destruct (String.eqb_spec key k) as [<-|Hne].
      * specialize (HR key). rewrite (lookup_none key l Hni), lookup_store, String.eqb_refl in HR. exists x. auto.
      * specialize (HR k). destruct (lookup k l) as [y|].
        -- destruct HR as (z & Z1 & Z2 & Z3). exists z. split; [exact Z1|]. split; [exact Z2|]. intros j Hj Hno. rewrite (Z3 j Hj Hno). unfold baseOf. rewrite lookup_store. destruct (String.eqb_spec key k); [contradiction|reflexivity].
        -- rewrite HR, lookup_store. destruct (String.eqb_spec key k); [contradiction|reflexivity].
Qed.
Lemma refs_ok : exists refs1 refs, mergeConfigs a r neu (m_refs a) (m_refs r) = Some refs1 /\ mergeConfigs b r neu (m_refs b) refs1 = Some refs /\
  forall key, if match lookup key (m_refs a), lookup key (m_refs b) with None, None => true | _, _ => false end
    then lookup key refs = None
    else exists x, lookup key refs = Some x /\ length x = m_nq r /\
       forall c i, 0 < i < m_njoints (src c) -> segQ r (posK (c, i)) x = match lookup key (m_refs (src c)) with Some q => segQ (src c) i q | None => segQ r (posK (c, i)) neu end.
Proof.
  assert (E0 : m_refs r = []) by apply (ai_const _ _ _ _ _ _ _ _ J). rewrite E0.
  destruct (merge_ok true (m_refs a) (RK true) (wn_refs _ (WN true)) []) as (r1 & E1 & O1 & H1); [intros key x; discriminate|].
  destruct (merge_ok false (m_refs b) (RK false) (wn_refs _ (WN false)) r1 O1) as (r2 & E2 & O2 & H2).
  assert (Hd : forall i i', 0 < i < m_njoints a -> 0 < i' < m_njoints b -> posK (true, i) <> posK (false, i')).
  { intros i i' Hi Hi' E. destruct (end_key true i Hi) as [K1 K2]. destruct (end_key false i' Hi') as [K3 K4]. pose proof (pos_inj a b p (W true) Hp _ _ K1 K3 K2 K4 E) as X. discriminate. }
  assert (HS : forall c i, 0 < i < m_njoints (src c) -> 0 < posK (c, i) < m_njoints r) by (intros c i Hi; apply (end_item c i Hi)).
  exists r1, r2. split; [exact E1|]. split; [exact E2|]. intros key. specialize (H1 key). specialize (H2 key).
  destruct (lookup key (m_refs a)) as [qa|] eqn:Ea, (lookup key (m_refs b)) as [qb|] eqn:Eb.
  - destruct H2 as (x & X1 & X2 & X3). exists x. split; [exact X1|]. split; [now apply (O2 key)|]. intros c i Hi. destruct c; cbn [srcOf] in *.
    + rewrite Ea. rewrite (X3 (posK (true, i)) (HS true i Hi) (fun i' Hi' => Hd i i' Hi Hi')). destruct H1 as (y & Y1 & Y2 & _). unfold baseOf. rewrite Y1. now apply Y2.
    + rewrite Eb. now apply X2.
  - destruct H1 as (y & Y1 & Y2 & Y3). rewrite Y1 in H2. exists y. split; [exact H2|]. split; [now apply (O2 key)|]. intros c i Hi. destruct c; cbn [srcOf] in *.
    + rewrite Ea. now apply Y2.
    + rewrite Eb. rewrite (Y3 (posK (false, i)) (HS false i Hi)); [reflexivity|]. intros i' Hi' E. apply (Hd i' i Hi' Hi). now symmetry.
  - destruct H2 as (x & X1 & X2 & X3). exists x. split; [exact X1|]. split; [now apply (O2 key)|]. intros c i Hi. destruct c; cbn [srcOf] in *.
    + rewrite Ea. rewrite (X3 (posK (true, i)) (HS true i Hi) (fun i' Hi' => Hd i i' Hi Hi')). unfold baseOf. rewrite H1. reflexivity.
    + rewrite Eb. now apply X2.
  - rewrite H2, H1. reflexivity.
Qed.
End Refs.

(* ---- the frame the second model is mounted on ---- *)
Lemma frames_NoDup ks ds r : AI ks ds r -> NoDup (map fr_name (m_frames r)).
Proof.
  intros J. destruct (ai_frames _ _ _ _ _ _ _ _ J) as (gs & Eg & Fg). rewrite Eg. cbn [map].
  assert (Em : map fr_name gs = map (fun x => fr_name (snd x)) ds) by (clear -Fg; induction Fg as [|y g ds gs Hy Fg IHF]; [reflexivity|]; cbn; rewrite IHF; f_equal; apply Hy).
  rewrite Em. constructor; [|apply (ai_nodup _ _ _ _ _ _ _ _ J)]. intros H. apply in_map_iff in H. destruct H as ([c' x] & Ex & Hxx). apply (ai_dn _ _ _ _ _ _ _ _ J) in Hxx. now apply (frame_not_universe a b WN U c' x Hxx).
Qed.
Lemma getFrameId_mask r k f mask : wellFormed r -> NoDup (map fr_name (m_frames r)) -> nth_error (m_frames r) k = Some f -> matches (fr_name f) mask f ->
  getFrameId r (fr_name f) mask = Some k.
Proof.
  intros Wr ND Hk Hm. pose proof (getFrameId_spec r (fr_name f) mask Wr) as G. destruct (getFrameId_some r (fr_name f) mask Wr ND) as [j Ej].
  rewrite Ej in G |- *. destruct G as [(_ & g & Hg & Mg & Uq) | (_ & N)].
  - f_equal. symmetry. apply (Uq k f Hk). exact Hm.
  - exfalso. apply (N f); [eapply nth_error_In; exact Hk | exact Hm].
Qed.
Lemma okType_self f : okType (fr_type f) -> matches (fr_name f) (fr_type f) f.
Proof.
  intros H. split; [reflexivity|]. unfold okType in H. destruct H as [E|[E|[E|[E|[E|[]]]]]]; rewrite <- E; intros X; vm_compute in X; discriminate X.
Qed.
Lemma img_In ds gs x : Forall2 (img a b f0 aMb) ds gs -> In x ds -> exists g, In g gs /\ img a b f0 aMb x g.
Proof. induction 1 as [|y g ds gs Hy F IH]; intros H; [destruct H|]. destruct H as [->|H]; [exists g; split; [now left|exact Hy]|]. destruct (IH H) as (g' & G1 & G2). exists g'. split; [now right|exact G2]. Qed.
Lemma mountFrame r fi : nth_error (m_frames a) fi = Some f0 -> AI (ks1 a p) (dn (ks1 a p)) r ->
  exists pf pframe, outFrameId a r (fr_name f0) (fr_type f0) = Some pf /\ nth_error (m_frames r) pf = Some pframe /\ fr_parentJoint pframe = p /\ fr_placement pframe = fr_placement f0.
Proof.
  intros Hfi J. pose proof (lay_wf _ _ (ai_lay _ _ _ _ _ _ _ _ J)) as Wr. pose proof (frames_NoDup _ _ _ J) as ND. destruct (ai_frames _ _ _ _ _ _ _ _ J) as (gs & Eg & Fg).
  pose proof (nth_error_In _ _ Hfi) as Hin. pose proof (wn_types _ (WN true) f0 Hin) as Ht. pose proof (frames_cons a b U true) as Fa. cbn [srcOf] in Fa.
  unfold outFrameId. rewrite (getFrameId_unique a fi f0 (W true) (wn_frames _ (WN true)) Hfi Ht). replace (nth 0 (m_frames a) universeFrame) with universeFrame by (rewrite Fa; reflexivity). cbn [universeFrame fr_parentFrame fr_parentJoint]. rewrite Nat.eqb_refl, !andb_true_r.
  destruct (Nat.eqb_spec fi 0) as [E0|Hne].
  - subst fi. rewrite Fa in Hfi. cbn in Hfi. injection Hfi as Hf0. rewrite Eg. cbn [nth]. exists 0, universeFrame.
    assert (Hg : nth_error (m_frames r) 0 = Some universeFrame) by (rewrite Eg; reflexivity).
    split; [|rewrite <- Hf0; split; [reflexivity|split; reflexivity]]. rewrite <- Hf0. apply (getFrameId_mask r 0 universeFrame _ Wr ND Hg). apply okType_self. right; right; left; reflexivity.
  - assert (Htl : In f0 (tl (m_frames a))). { destruct fi as [|fi]; [contradiction|]. rewrite Fa in Hfi. cbn in Hfi. eapply nth_error_In. exact Hfi. }
    assert (Hd : In (true, f0) (dn (ks1 a p))).
    { apply dnOf_In. split; [|exact Htl]. unfold ks1. destruct (Nat.eq_dec p 0) as [->|Hp0]; [now left|]. right. apply in_map. unfold beforeB. apply in_or_app. left. apply in_seq. lia. }
    destruct (img_In _ _ _ Fg Hd) as (g & G1 & G2 & G3 & _ & G4 & G5). cbn [fst snd] in *. assert (Hg : In g (m_frames r)) by (rewrite Eg; now right).
    destruct (In_nth_error _ _ Hg) as [k Ek]. exists k, g. split; [|split; [exact Ek|split]].
    + rewrite <- G2, <- G3. apply (getFrameId_mask r k g _ Wr ND Ek). apply okType_self. rewrite G3. exact Ht.
    + rewrite G4. apply (pos_p a b p (W true) Hp).
    + rewrite G5. unfold mount. apply se3_mul_1_l.
Qed.

(* ---- the whole function ---- *)
Lemma AInv_start : AI [] [] emptyModel.
Proof.
  constructor.
  - constructor; try reflexivity.
    + constructor; cbn; try lia; try (repeat split; lia); try (repeat split; reflexivity); try reflexivity; intros; try lia.
      split; [reflexivity|]. intros f [<-|[]]. cbn. lia.
    + constructor; cbn; try reflexivity.
      * intros j Hj. destruct j; [constructor | lia].
      * intros i Hi. destruct i; [reflexivity | lia].
      * intros i Hi. lia.
      * intros i Hi. destruct i; [reflexivity | lia].
      * split; reflexivity.
    + intros it [].
    + intros n it Hn. destruct n; discriminate.
    + intros g Hg. cbn in Hg. destruct Hg as [<-|[<-|[<-|[<-|[<-|[<-|[]]]]]]]; reflexivity.
    + intros g Hg. cbn in Hg. destruct Hg as [<-|[<-|[]]]; reflexivity.
  - reflexivity.
  - exists []. split; [reflexivity|constructor].
  - intros c f [].
  - constructor.
  - repeat split.
  - unfold totalMass, massSum. cbn. ring.
  - intros He Hr Hz j Hj. cbn in Hj. assert (j = 0) by lia. subst j. split; [reflexivity|]. split; [reflexivity|]. left. reflexivity.
Qed.
Lemma append_ok neutralOf fi : nth_error (m_frames a) fi = Some f0 -> (forall m, length (neutralOf m) = m_nq m) ->
  exists r refs, appendModel eps neutralOf a b fi aMb = Ok (setRefs r refs) tt /\ AI KSab (dn KSab) r /\
  forall key, if match lookup key (m_refs a), lookup key (m_refs b) with None, None => true | _, _ => false end
    then lookup key refs = None
    else exists x, lookup key refs = Some x /\ length x = m_nq r /\
       forall c i, 0 < i < m_njoints (src c) -> segQ r (posK (c, i)) x = match lookup key (m_refs (src c)) with Some q => segQ (src c) i q | None => segQ r (posK (c, i)) (neutralOf r) end.
Proof.
  intros Hfi Hneu. unfold appendModel. assert (Hfl : fi < length (m_frames a)) by (apply nth_error_Some; congruence).
  pose proof (proj1 (wf_frames _ (W true))) as Hnf. cbn [srcOf] in Hnf. rewrite (proj2 (Nat.ltb_lt _ _)) by lia. cbn [negb]. rewrite Hfi.
  destruct (appendUniverse_ok eps a b f0 aMb W WN U NF Hp true [] (tl KSab) emptyModel 0 universeFrame se3_Identity) as (r1 & E1 & J1); try reflexivity.
  { apply AInv_start. }
  { apply se3_mul_1_l. }
  cbn [srcOf] in E1. rewrite E1. cbn [app] in J1.
  destruct (appendJoints_ok eps a b f0 aMb W PR WN U NJ NF Hp true (beforeB a p) (fun _ => se3_Identity) [(true, 0)] ((false, 0) :: ks2 b ++ ks3 a p) r1) as (r2 & E2 & J2).
  { reflexivity. }
  { exact J1. }
  { reflexivity. }
  { intros l1 i l2 El. apply (closed_before a p (W true) Ta Hp MI l1 i l2 El). }
  change (posK (true, 0)) with 0 in E2. cbn [srcOf] in E2. rewrite E2. change ([(true, 0)] ++ map (pair true) (beforeB a p)) with (ks1 a p) in J2.
  destruct (mountFrame r2 fi Hfi J2) as (pf & pframe & -> & F1 & F2 & F3).
  destruct (appendUniverse_ok eps a b f0 aMb W WN U NF Hp false (ks1 a p) (ks2 b ++ ks3 a p) r2 pf pframe aMb) as (r3 & E3 & J3); try assumption.
  { reflexivity. }
  { rewrite F3. reflexivity. }
  cbn [srcOf] in E3. rewrite E3.
  destruct (wf_lengths _ (W false)) as (_&_&L3&_). cbn [srcOf] in L3. rewrite L3.
  destruct (appendJoints_ok eps a b f0 aMb W PR WN U NJ NF Hp false (seq 1 (m_njoints b - 1)) (fun j => if nth j (m_parents b) 0 =? 0 then se3_mul (fr_placement f0) aMb else se3_Identity) (ks1 a p ++ [(false, 0)]) (ks3 a p) r3) as (r4 & E4 & J4).
  { unfold KS. rewrite <- app_assoc. reflexivity. }
  { exact J3. }
  { reflexivity. }
  { intros l1 i l2 El. destruct (closed_b a b p (W false) Hp l1 i l2 El) as (C1 & C2 & C3). split; [exact C1|]. rewrite <- app_assoc. split; [apply in_or_app; right; exact C2 | intros Hm; apply in_or_app; right; now apply C3]. }
  change (posK (false, 0)) with p in E4. cbn [srcOf] in E4. rewrite E4.
  destruct (appendJoints_ok eps a b f0 aMb W PR WN U NJ NF Hp true (afterB a p) (fun _ => se3_Identity) ((ks1 a p ++ [(false, 0)]) ++ map (pair false) (seq 1 (m_njoints b - 1))) [] r4) as (r5 & E5 & J5).
  { unfold KS. rewrite <- !app_assoc, app_nil_r. reflexivity. }
  { exact J4. }
  { reflexivity. }
  { intros l1 i l2 El. destruct (closed_after a p (W true) Hp l1 i l2 El) as (C1 & C2 & C3). split; [exact C1|].
    assert (X : forall k, In k (ks1 a p ++ map (pair true) l1) -> In k (((ks1 a p ++ [(false, 0)]) ++ map (pair false) (seq 1 (m_njoints b - 1))) ++ map (pair true) l1)).
    { intros k Hk. apply in_app_or in Hk. destruct Hk as [Hk|Hk]; apply in_or_app; [left; apply in_or_app; left; apply in_or_app; now left | now right]. }
    split; [apply X, C2 | intros Hm; apply X; now apply C3]. }
  change (posK (true, 0)) with 0 in E5. cbn [srcOf] in E5. rewrite E5.
  assert (EK : ((ks1 a p ++ [(false, 0)]) ++ map (pair false) (seq 1 (m_njoints b - 1))) ++ map (pair true) (afterB a p) = KSab) by (unfold KS; rewrite <- !app_assoc; reflexivity).
  assert (J6 : AI KSab (dn KSab) r5) by (rewrite <- EK; exact J5). clear J5. rename J6 into J5. destruct (refs_ok r5 J5 (neutralOf r5) (Hneu r5)) as (refs1 & refs & -> & -> & HR). exists r5, refs. split; [reflexivity|]. split; [exact J5|exact HR].
Qed.
End Append.
