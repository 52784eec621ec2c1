(* Locking joints: the frames of the reduced model, and the main loop. *)
Require Import Reals String List Arith Bool Lia Lra Sorted.
From Verif Require Import Vec3 Spatial Inertia InertiaFacts Joints Spec_Joints Model Spec_Model ModelFacts ModelFacts2 ModelTree ModelFacts3 Spec_Kin Mimic MimicFacts Reduce Spec_Append AppendFacts AppendFacts2 AppendFacts3 ReduceFacts ReduceFacts2.
Import ListNotations.
Local Open Scope nat_scope.

Lemma upd_last {A} (l : list A) x n f : n = length l -> upd (l ++ [x]) n f = l ++ [f x].
Proof.
  intros ->. unfold upd. rewrite nth_error_app2, Nat.sub_diag by lia. cbn [nth_error]. rewrite firstn_app, Nat.sub_diag, firstn_all.
  rewrite skipn_all2 by (rewrite app_length; cbn; lia). cbn [firstn]. now rewrite app_nil_r.
Qed.
Lemma skipn_cons_nth {A} (l : list A) n x : nth_error l n = Some x -> skipn n l = x :: skipn (S n) l.
Proof. revert n. induction l; intros [|n] H; try discriminate; cbn in *; [now injection H as -> | now apply IHl]. Qed.

Section Frames.
Variables (eps : R) (m : Model) (lk : list nat) (q0l : list R).
Notation q0 := (coord q0l).
Hypotheses (W : wellFormed m) (T : treeInv m) (PR : plainRefs m) (WN : wellNamed m) (LO : lockable m lk) (SS : StronglySorted lt lk).
Hypothesis F0 : nth_error (m_frames m) 0 = Some universeFrame.
Let HL := lo_joints _ _ LO.
Notation NI := (newIx lk).
Notation AF := (ancF m lk q0).
Notation JI := (JInv eps m lk q0).

Definition ownLocked (f : Frame) : Prop := In (fr_parentJoint f) lk /\ fr_name f = nameOf m (fr_parentJoint f).
Definition carries (f g : Frame) : Prop :=
  fr_name g = fr_name f /\ fr_parentJoint g = NI (fst (AF (fr_parentJoint f))) /\
  fr_placement g = se3_mul (snd (AF (fr_parentJoint f))) (fr_placement f) /\
  (~ ownLocked f -> fr_type g = fr_type f /\ fr_inertia g = fr_inertia f) /\ (ownLocked f -> fr_type g = FIXED_JOINT).

Record FInv (p : nat) (r : Model) : Prop := {
  fi_nodup : NoDup (map fr_name (m_frames r));
  fi_from : forall g, In g (m_frames r) -> okType (fr_type g) /\ exists n f, n <= p /\ nth_error (m_frames m) n = Some f /\ fr_name f = fr_name g;
  fi_image : forall n f, n <= p -> nth_error (m_frames m) n = Some f -> exists g, In g (m_frames r) /\ carries f g
}.
(* the own frame of joint k is the one at position p *)
Definition ownAt (k p : nat) : Prop := exists pf Y, nth_error (m_frames m) p = Some (mkFrame (nameOf m k) k pf se3_Identity JOINT Y).
Record PInv (i p : nat) : Prop := {
  pi_range : p < length (m_frames m);
  pi_done : forall k, In k lk -> k < i -> exists p', p' <= p /\ ownAt k p';
  pi_last : p = 0 \/ exists k, In k lk /\ k < i /\ ownAt k p
}.
Lemma kept_or_locked k : keptb lk k = true \/ In k lk.
Proof. unfold keptb. destruct (lockedb lk k) eqn:E; [right; now apply lockedb_In | left; reflexivity]. Qed.
Lemma kept_existsb k : existsb (fun x => x =? k) lk = negb (keptb lk k).
Proof. unfold keptb, lockedb. now rewrite negb_involutive. Qed.
Lemma kept0 : keptb lk 0 = true.
Proof. apply keptb_In. intros H. specialize (HL 0 H). lia. Qed.
Lemma ownLocked_pos p f : nth_error (m_frames m) p = Some f -> ownLocked f -> ownAt (fr_parentJoint f) p.
Proof.
  intros Hp [H1 H2]. destruct (lo_frames _ _ LO _ H1) as (p' & pf & Y & E & _). exists pf, Y.
  rewrite (frameNames_inj (m_frames m) p p' _ _ (wn_frames _ WN) Hp E H2). exact E.
Qed.
Lemma ownAt_unique k p p' : ownAt k p -> ownAt k p' -> p = p'.
Proof. intros (pf & Y & E) (pf' & Y' & E'). exact (frameNames_inj (m_frames m) p p' _ _ (wn_frames _ WN) E E' eq_refl). Qed.
Lemma frame_range f : In f (m_frames m) -> fr_parentJoint f < m_njoints m.
Proof. apply (wf_frames _ W). Qed.

Lemma FInv_same p r r' : m_frames r' = m_frames r -> FInv p r -> FInv p r'.
Proof. intros E [A B C]. constructor; rewrite E; assumption. Qed.
Lemma fresh_name p r f : FInv p r -> nth_error (m_frames m) (S p) = Some f -> forall g, In g (m_frames r) -> fr_name g <> fr_name f.
Proof.
  intros [A B C] Hf g Hg E. destruct (B g Hg) as (_ & n & f' & Hn & Ef & En).
  pose proof (frameNames_inj (m_frames m) n (S p) _ _ (wn_frames _ WN) Ef Hf (eq_trans En E)). lia.
Qed.
Lemma FInv_add p r r' f g : FInv p r -> m_frames r' = m_frames r ++ [g] -> nth_error (m_frames m) (S p) = Some f -> carries f g -> okType (fr_type g) -> FInv (S p) r'.
Proof.
  intros FI E Hf Hg Ht. pose proof (fresh_name p r f FI Hf) as Hfr. destruct FI as [A B C]. pose proof Hg as (G1 & _). constructor; rewrite E.
  - rewrite map_app. cbn. apply (NoDup_Add (a := fr_name g) (l := map fr_name (m_frames r))).
    + rewrite <- (app_nil_r (map fr_name (m_frames r))) at 1. apply Add_app.
    + split; [exact A|]. intros Hin. apply in_map_iff in Hin. destruct Hin as (x & Ex & Hx). apply (Hfr x Hx). congruence.
  - intros x Hx. apply in_app_or in Hx. destruct Hx as [Hx|[<-|[]]].
    + destruct (B x Hx) as (B1 & n & f' & B2 & B3). split; [exact B1|]. exists n, f'. split; [lia|exact B3].
    + split; [exact Ht|]. exists (S p), f. split; [lia|]. split; [exact Hf | now rewrite G1].
  - intros n x Hn Hx. destruct (Nat.eq_dec n (S p)) as [->|].
    + rewrite Hf in Hx. injection Hx as <-. exists g. split; [apply in_or_app; right; now left | exact Hg].
    + destruct (C n x ltac:(lia) Hx) as (g' & C1 & C2). exists g'. split; [apply in_or_app; now left | exact C2].
Qed.
(* looking up the frame that carries a locked joint *)
Lemma lookup_own p i r k p' : JI i r -> FInv p r -> In k lk -> p' <= p -> ownAt k p' ->
  exists n g, getFrameId r (nameOf m k) ANY_FRAME = Some n /\ nth_error (m_frames r) n = Some g /\
    fr_parentJoint g = NI (fst (AF k)) /\ fr_placement g = snd (AF k).
Proof.
  intros J FI Hk Hp (pf & Y & E). destruct (fi_image _ _ FI p' _ Hp E) as (g & Hg & C1 & C2 & C3 & _). cbn in C1, C2, C3.
  destruct (In_nth_error _ _ Hg) as [n En]. exists n, g. split; [|split; [exact En|split; [exact C2|rewrite C3; apply se3_mul_1_r]]].
  rewrite <- C1. apply (getFrameId_unique r n g (lay_wf _ _ (ji_lay _ _ _ _ _ _ J)) (fi_nodup _ _ FI) En). apply (fi_from _ _ FI g Hg).
Qed.
(* one frame that is not the frame of a locked joint *)
Lemma addInput_ok i p r f : i <= m_njoints m -> JI i r -> FInv p r -> nth_error (m_frames m) (S p) = Some f -> fr_parentJoint f < i -> ~ ownLocked f ->
  (forall k, In k lk -> k < i -> exists p', p' <= p /\ ownAt k p') ->
  exists r', addInputFrame eps m lk r f = Ok r' tt /\ JI i r' /\ FInv (S p) r' /\ m_refs r' = m_refs r /\ m_njoints r' = m_njoints r.
Proof.
  intros Hi J FI Hf Hj Hn Hd. pose proof (nth_error_In _ _ Hf) as Hin. pose proof (lay_wf _ _ (ji_lay _ _ _ _ _ _ J)) as Wr.
  destruct (wf_lengths _ W) as (L1&L2&L3&L4&L5&L6&L7&L8&L9&L10&L11&L12&L13&L14&L15). destruct (wf_frames _ W) as [WF1 WF2]. destruct (wf_frames _ Wr) as [RF1 RF2].
  pose proof (wn_parents _ WN f Hin) as Hpf.
  assert (Hanc : NI (fst (AF (fr_parentJoint f))) < m_njoints r) by (apply (anc_lt eps m lk q0 W LO i r _ Hi J Hj)).
  assert (Hadd : forall pk, exists r', addFrame eps r (mkFrame (fr_name f) (NI (fst (AF (fr_parentJoint f)))) pk (se3_mul (snd (AF (fr_parentJoint f))) (fr_placement f)) (fr_type f) (fr_inertia f)) false = Ok r' (m_nframes r)
     /\ JI i r' /\ FInv (S p) r' /\ m_refs r' = m_refs r /\ m_njoints r' = m_njoints r).
  { intros pk. rewrite addFrame_fresh; [|exact Wr|exact Hanc|exact (fresh_name p r f FI Hf)]. eexists. split; [reflexivity|]. split; [|split; [|split; reflexivity]].
    - apply JInv_setFrames; [exact J | rewrite app_length, <- RF1; cbn; lia|]. intros g Hg. apply in_app_or in Hg. destruct Hg as [Hg|[<-|[]]]; [now apply RF2 | exact Hanc].
    - eapply FInv_add; [exact FI | reflexivity | exact Hf | | apply (wn_types _ WN f Hin)].
      split; [reflexivity|]. split; [reflexivity|]. split; [reflexivity|]. split; [intros _; split; reflexivity | intros X; contradiction]. }
  unfold addInputFrame. rewrite (nth_error_nth' (m_names m) _ ""%string) by lia. change (nth (fr_parentJoint f) (m_names m) ""%string) with (nameOf m (fr_parentJoint f)).
  rewrite kept_existsb. destruct (kept_or_locked (fr_parentJoint f)) as [Hk|Hk].
  - rewrite Hk. cbn [negb]. rewrite (nth_error_nth' (m_frames m) (fr_parentFrame f) universeFrame) by lia.
    destruct (getFrameId_some r (fr_name (nth (fr_parentFrame f) (m_frames m) universeFrame)) ANY_FRAME Wr (fi_nodup _ _ FI)) as [pk ->].
    rewrite (proj1 (findJoint eps m lk q0 W WN i r (fr_parentJoint f) Hi J Hj (or_intror Hk))).
    destruct (Hadd pk) as (r' & E & R). rewrite (ancF_kept m lk q0 _ Hk) in E. cbn [fst snd] in E. rewrite se3_mul_1_l in E. rewrite E. exists r'. split; [reflexivity|exact R].
  - assert (Ek : keptb lk (fr_parentJoint f) = false) by (unfold keptb; rewrite (proj2 (lockedb_In lk _) Hk); reflexivity). rewrite Ek. cbn [negb].
    assert (En : String.eqb (nameOf m (fr_parentJoint f)) (fr_name f) = false) by (apply String.eqb_neq; intros E; apply Hn; split; [exact Hk | symmetry; exact E]).
    rewrite En, andb_false_r. destruct (Hd _ Hk Hj) as (p' & Hp' & Ho).
    destruct (lookup_own p i r _ p' J FI Hk Hp' Ho) as (n & g & G1 & G2 & G3 & G4). rewrite G1, G2.
    rewrite (nth_error_nth' (m_frames m) (fr_parentFrame f) universeFrame) by lia.
    destruct (getFrameId_some r (fr_name (nth (fr_parentFrame f) (m_frames m) universeFrame)) ANY_FRAME Wr (fi_nodup _ _ FI)) as [pk ->].
    rewrite G3, G4. destruct (Hadd pk) as (r' & E & R). rewrite E. exists r'. split; [reflexivity|exact R].
Qed.

(* the frames before the frame of joint i *)
Lemma framesUpTo_ok i pi : i < m_njoints m -> In i lk -> ownAt i pi -> (forall n f, n < pi -> nth_error (m_frames m) n = Some f -> fr_parentJoint f < i) ->
  forall d p r, pi = S (p + d) -> JI i r -> FInv p r -> (forall k, In k lk -> k < i -> exists p', p' <= p /\ ownAt k p') ->
  exists r', framesUpTo eps m lk (nameOf m i) r (skipn p (m_frames m)) = Ok r' (skipn pi (m_frames m)) /\ JI i r' /\ FInv (p + d) r' /\ m_njoints r' = m_njoints r.
Proof.
  intros Hi Hk (pf & Y & Hown) Hbef. assert (Hlen : pi < length (m_frames m)) by (apply nth_error_Some; congruence).
  induction d as [|d IH]; intros p r Ep J FI Hd.
  - destruct (nth_error (m_frames m) p) as [f|] eqn:Ef; [|apply nth_error_None in Ef; lia].
    rewrite (skipn_cons_nth _ _ _ Ef). cbn [framesUpTo].
    assert (Enf : String.eqb (fr_name f) (nameOf m i) = false).
    { apply String.eqb_neq. intros E. pose proof (frameNames_inj _ p pi _ _ (wn_frames _ WN) Ef Hown E). lia. }
    rewrite Enf. rewrite Nat.add_0_r in Ep |- *. subst pi. rewrite (skipn_cons_nth _ _ _ Hown). cbn [fr_name]. rewrite String.eqb_refl.
    exists r. split; [reflexivity|]. split; [exact J|]. split; [exact FI|reflexivity].
  - destruct (nth_error (m_frames m) p) as [f|] eqn:Ef; [|apply nth_error_None in Ef; lia].
    destruct (nth_error (m_frames m) (S p)) as [g|] eqn:Eg; [|apply nth_error_None in Eg; lia].
    rewrite (skipn_cons_nth _ _ _ Ef). cbn [framesUpTo].
    assert (Enf : String.eqb (fr_name f) (nameOf m i) = false).
    { apply String.eqb_neq. intros E. pose proof (frameNames_inj _ p pi _ _ (wn_frames _ WN) Ef Hown E). lia. }
    assert (Eng : String.eqb (fr_name g) (nameOf m i) = false).
    { apply String.eqb_neq. intros E. pose proof (frameNames_inj _ (S p) pi _ _ (wn_frames _ WN) Eg Hown E). lia. }
    rewrite Enf. rewrite (skipn_cons_nth _ _ _ Eg). rewrite Eng. rewrite <- (skipn_cons_nth _ _ _ Eg).
    pose proof (Hbef (S p) g ltac:(lia) Eg) as Hg.
    assert (Hno : ~ ownLocked g).
    { intros Ho. destruct (Hd _ (proj1 Ho) Hg) as (p' & Hp' & Ho'). pose proof (ownAt_unique _ _ _ (ownLocked_pos _ _ Eg Ho) Ho'). lia. }
    destruct (addInput_ok i p r g ltac:(lia) J FI Eg Hg Hno Hd) as (r1 & E1 & J1 & FI1 & _ & N1). rewrite E1.
    destruct (IH (S p) r1 ltac:(lia) J1 FI1) as (r2 & E2 & J2 & FI2 & N2).
    { intros k Hk1 Hk2. destruct (Hd k Hk1 Hk2) as (p' & Hp' & Ho'). exists p'. split; [lia|exact Ho']. }
    exists r2. split; [exact E2|]. split; [exact J2|]. split; [replace (p + S d) with (S p + d) by lia; exact FI2 | congruence].
Qed.

(* the joint that carries the parent of joint i *)
Lemma carrier_ok i p r a : i <= m_njoints m -> JI i r -> FInv p r -> a < i -> (forall k, In k lk -> k < i -> exists p', p' <= p /\ ownAt k p') ->
  exists prev, carrier r (nameOf m a) = Ok r (NI (fst (AF a)), snd (AF a), prev).
Proof.
  intros Hi J FI Ha Hd. unfold carrier. destruct (kept_or_locked a) as [Hk|Hk].
  - destruct (findJoint eps m lk q0 W WN i r a Hi J Ha (or_intror Hk)) as [E1 E2]. rewrite E1, E2, (ancF_kept m lk q0 a Hk). eauto.
  - rewrite (noJoint eps m lk q0 W WN LO i r a Hi J Hk). destruct (Hd a Hk Ha) as (p' & Hp' & Ho).
    destruct (lookup_own p i r a p' J FI Hk Hp' Ho) as (n & g & -> & -> & -> & ->). eauto.
Qed.

(* joint i is locked *)
Lemma lock_ok i p r prev : 0 < i < m_njoints m -> In i lk -> JI i r -> FInv p r -> PInv i p ->
  exists r' p', lockJoint eps m lk q0l r (skipn p (m_frames m)) i (nameOf m i) (joint m i) (NI (fst (AF (parent m i)))) (snd (AF (parent m i))) prev = Ok r' (skipn p' (m_frames m)) /\
    JI (S i) r' /\ FInv p' r' /\ PInv (S i) p'.
Proof.
  intros Hi Hk J FI [P1 P2 P3]. destruct (lo_frames _ _ LO i Hk) as (pi & pf & Y & Hown & Hbef).
  assert (Hlen : pi < length (m_frames m)) by (apply nth_error_Some; congruence).
  assert (Hoi : ownAt i pi) by (exists pf, Y; exact Hown).
  assert (Hlt : p < pi).
  { destruct P3 as [->|(k & K1 & K2 & (pf' & Y' & K3))].
    - destruct pi; [|lia]. rewrite F0 in Hown. discriminate.
    - destruct (Nat.lt_trichotomy p pi) as [H|[->|H]]; [exact H| |].
      + rewrite Hown in K3. injection K3 as _ E _ _. lia.
      + destruct (lo_frames _ _ LO k K1) as (pk & pf2 & Y2 & Hk1 & Hk2).
        assert (pk = p) by (apply (ownAt_unique k); [exists pf2, Y2; exact Hk1 | exists pf', Y'; exact K3]). subst pk.
        specialize (Hk2 pi _ H Hown). cbn in Hk2. lia. }
  destruct (framesUpTo_ok i pi ltac:(lia) Hk Hoi Hbef (pi - p - 1) p r ltac:(lia) J FI P2) as (r1 & E1 & J1 & FI1 & N1).
  replace (p + (pi - p - 1)) with (pi - 1) in FI1 by lia.
  unfold lockJoint. rewrite E1. destruct (wf_lengths _ W) as (L1&L2&L3&_).
  rewrite (nth_error_nth' (m_placements m) i se3_Identity) by lia. rewrite (nth_error_nth' (m_inertias m) i inertia_Zero) by lia.
  pose proof (lay_wf _ _ (ji_lay _ _ _ _ _ _ J1)) as W1. destruct (wf_frames _ W1) as [RF1 RF2]. destruct (wf_joint _ W i Hi) as (_ & Iq & _).
  pose proof (ancF_locked m lk q0 W HL i Hk) as EA.
  assert (Epl : se3_mul (se3_mul (snd (AF (parent m i))) (nth i (m_placements m) se3_Identity)) (jM (jcalc (jm_type (joint m i)) (shift (jm_idx_q (joint m i)) (fun k => nth k q0l 0%R)) (fun _ => 0%R))) = snd (AF i)).
  { rewrite EA. cbn [snd]. unfold relPl, jointAt. rewrite <- Iq. rewrite se3_mul_assoc. reflexivity. }
  assert (Efst : NI (fst (AF (parent m i))) = NI (fst (AF i))) by (rewrite EA; reflexivity).
  assert (Hanc : NI (fst (AF i)) < m_njoints r1).
  { rewrite <- Efst. pose proof (wf_parent _ W i Hi). apply (anc_lt eps m lk q0 W LO i r1); [lia|exact J1|lia]. }
  rewrite Epl, Efst. assert (Eo : nth_error (m_frames m) (S (pi - 1)) = Some (mkFrame (nameOf m i) i pf se3_Identity JOINT Y)) by (replace (S (pi - 1)) with pi by lia; exact Hown).
  rewrite addFrame_fresh; [|exact W1|exact Hanc|exact (fresh_name (pi - 1) r1 _ FI1 Eo)]. cbn [fr_parentJoint fr_placement fr_inertia].
  exists (setInertias (setFrames r1 (m_frames r1 ++ [mkFrame (nameOf m i) (NI (fst (AF i))) (m_nframes r1) (snd (AF i)) FIXED_JOINT (inertiaOf m i)]) (S (m_nframes r1)))
     (upd (m_inertias r1) (NI (fst (AF i))) (fun Y0 => inertia_pequ eps Y0 (inertia_act (snd (AF i)) (inertiaOf m i)))) (m_nbodies r1)), pi.
  split; [|split; [|split]].
  - f_equal. unfold setInertias, setFrames. cbn [m_frames]. rewrite upd_last by exact RF1. reflexivity.
  - apply (lock_inv eps m lk q0 W LO i r1 (m_nframes r1) Hi J1 Hk).
  - replace pi with (S (pi - 1)) by lia. eapply FInv_add; [exact FI1 | reflexivity | exact Eo | | right; right; left; reflexivity].
    split; [reflexivity|]. split; [reflexivity|]. split; [cbn [fr_placement fr_parentJoint]; now rewrite se3_mul_1_r|]. split; [intros X; exfalso; apply X; split; [exact Hk|reflexivity] | reflexivity].
  - constructor; [exact Hlen| |right; exists i; split; [exact Hk|split; [lia|exact Hoi]]]. intros k K1 K2. destruct (Nat.eq_dec k i) as [->|]; [exists pi; split; [lia|exact Hoi]|].
    destruct (P2 k K1 ltac:(lia)) as (p' & Hp' & Ho). exists p'. split; [lia|exact Ho].
Qed.

Lemma sorted_filter l n : StronglySorted lt l -> exists l1 l2, l = l1 ++ l2 /\ (forall x, In x l1 -> x < n) /\ (forall x, In x l2 -> n <= x).
Proof.
  intros H. induction H as [|a l H IH Ha]; [exists [], []; repeat split; intros x []|]. destruct IH as (l1 & l2 & E & H1 & H2).
  destruct (Nat.lt_ge_cases a n) as [Hlt|Hge].
  - exists (a :: l1), l2. subst l. split; [reflexivity|]. split; [intros x [<-|Hx]; [exact Hlt | now apply H1] | exact H2].
  - exists [], (a :: l). split; [reflexivity|]. split; [intros x []|]. intros x [<-|Hx]; [exact Hge|]. rewrite Forall_forall in Ha. specialize (Ha x Hx). lia.
Qed.

(* the main loop *)
Lemma loop_ok d : forall i r p l1 l2, i + d = m_njoints m -> 0 < i -> lk = l1 ++ l2 -> (forall x, In x l1 -> x < i) -> (forall x, In x l2 -> i <= x) ->
  JI i r -> FInv p r -> PInv i p ->
  exists r' p', reduceLoop eps m lk q0l (seq i d) r (skipn p (m_frames m)) l2 = Ok r' (skipn p' (m_frames m)) /\ JI (m_njoints m) r' /\ FInv p' r' /\ PInv (m_njoints m) p'.
Proof.
  destruct (wf_lengths _ W) as (L1&L2&L3&L4&L5&L6&L7&L8&L9&L10&L11&L12&L13&L14&L15).
  induction d as [|d IH]; intros i r p l1 l2 Hd Hi El H1 H2 J FI PI.
  - cbn [seq reduceLoop]. assert (Ei : m_njoints m = i) by lia. rewrite Ei. eauto 6.
  - cbn [seq reduceLoop]. assert (Hr : 0 < i < m_njoints m) by lia. pose proof (wf_parent _ W i Hr) as Hp.
    rewrite (nth_error_nth' (m_parents m) i 0) by lia. rewrite (nth_error_nth' (m_names m) i ""%string) by lia. rewrite (nth_error_nth' (m_joints m) i (freshJoint (JSimple (JRevolute 0)))) by lia.
    change (nth i (m_parents m) 0) with (parent m i). change (nth i (m_names m) ""%string) with (nameOf m i).
    change (nth i (m_joints m) (freshJoint (JSimple (JRevolute 0)))) with (joint m i).
    rewrite (nth_error_nth' (m_names m) (parent m i) ""%string) by lia. change (nth (parent m i) (m_names m) ""%string) with (nameOf m (parent m i)).
    destruct (carrier_ok i p r (parent m i) ltac:(lia) J FI Hp (pi_done _ _ PI)) as [prev ->].
    pose proof SS as SS2. rewrite El in SS2.
    assert (SSl2 : StronglySorted lt l2). { clear -SS2. induction l1; [exact SS2|]. inversion SS2; subst. now apply IHl1. }
    destruct l2 as [|a l2].
    + cbn [hd]. assert (Ne : (i =? 0) = false) by (apply Nat.eqb_neq; lia). rewrite Ne.
      assert (Hk : keptb lk i = true). { apply keptb_In. rewrite El, app_nil_r. intros Hx. specialize (H1 i Hx). lia. }
      destruct (keep_ok eps m lk q0 W PR WN LO i r Hr J Hk) as (r' & -> & J' & Ef & En).
      apply (IH (S i) r' p l1 []); try lia; try assumption; [intros x Hx; specialize (H1 x Hx); lia | intros x [] | now apply (FInv_same p r) |].
      destruct PI as [P1 P2 P3]. constructor; [exact P1| |].
      * intros k K1 K2. apply P2; [exact K1|]. specialize (H1 k). rewrite El, app_nil_r in K1. specialize (H1 K1). exact H1.
      * destruct P3 as [P3|(k & K1 & K2 & K3)]; [now left|]. right. exists k. repeat split; [exact K1|lia|exact K3].
    + cbn [hd tl]. destruct (Nat.eqb_spec i a) as [<-|Hne].
      * assert (Hk : In i lk) by (rewrite El; apply in_or_app; right; now left).
        destruct (lock_ok i p r prev Hr Hk J FI PI) as (r' & p' & -> & J' & FI' & PI').
        apply (IH (S i) r' p' (l1 ++ [i]) l2); try lia; try assumption; [rewrite <- app_assoc; exact El| |].
        -- intros x Hx. apply in_app_or in Hx. destruct Hx as [Hx|[<-|[]]]; [specialize (H1 x Hx); lia | lia].
        -- inversion SSl2; subst. match goal with X : Forall _ _ |- _ => rewrite Forall_forall in X; intros x Hx; specialize (X x Hx); lia end.
      * assert (Hk : keptb lk i = true).
        { apply keptb_In. rewrite El. intros Hx. apply in_app_or in Hx. destruct Hx as [Hx|[Hx|Hx]]; [specialize (H1 i Hx); lia | congruence|].
          inversion SSl2; subst. match goal with X : Forall _ _ |- _ => rewrite Forall_forall in X; specialize (X i Hx) end. specialize (H2 a (or_introl eq_refl)). lia. }
        destruct (keep_ok eps m lk q0 W PR WN LO i r Hr J Hk) as (r' & -> & J' & Ef & En).
        assert (Hnl : forall k, In k lk -> k < S i -> k < i).
        { intros k K1 K2. destruct (Nat.eq_dec k i) as [->|]; [|lia]. apply keptb_In in Hk. contradiction. }
        apply (IH (S i) r' p l1 (a :: l2)); try lia; try assumption; [intros x Hx; specialize (H1 x Hx); lia | | now apply (FInv_same p r) |].
        -- intros x Hx. specialize (H2 x Hx). destruct (Nat.eq_dec x i) as [->|]; [|lia]. apply keptb_In in Hk. exfalso. apply Hk. rewrite El. apply in_or_app. now right.
        -- destruct PI as [P1 P2 P3]. constructor; [exact P1| |].
           ++ intros k K1 K2. apply P2; [exact K1|]. now apply Hnl.
           ++ destruct P3 as [P3|(k & K1 & K2 & K3)]; [now left|]. right. exists k. repeat split; [exact K1|lia|exact K3].
Qed.
End Frames.
