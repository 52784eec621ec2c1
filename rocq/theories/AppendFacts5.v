(* Appending a model: the invariant on the result, and the steps that keep it. *)
Require Import Reals String List Arith Bool Lia Lra.
From Verif Require Import Vec3 Spatial Inertia InertiaFacts Joints Spec_Joints Model Spec_Model ModelFacts ModelFacts2 ModelTree ModelFacts3 Spec_Kin Mimic MimicFacts Reduce Spec_Append AppendFacts AppendFacts2 AppendFacts3 ReduceFacts ReduceFacts2 Append AppendFacts4.
Import ListNotations.
Local Open Scope nat_scope.

Lemma isZero_Zero : isZeroInertia inertia_Zero = true.
Proof. unfold isZeroInertia, inertia_Zero. cbn. repeat (destruct (Req_EM_T _ _) as [|X]; [|exfalso; apply X; reflexivity]). reflexivity. Qed.
Lemma inertia_act_zero M : inertia_matrix (inertia_act M inertia_Zero) = inertia_matrix inertia_Zero.
Proof. unfold inertia_act. iring. Qed.

(* one frame is added; its inertia leaves the joint and comes back *)
Lemma moveFrame_ok eps r g : wellFormed r -> fr_parentJoint g < m_njoints r -> (forall x, In x (m_frames r) -> fr_name x <> fr_name g) ->
  exists l, moveFrame eps r g = Ok (setInertias (setFrames r (m_frames r ++ [g]) (S (m_nframes r))) l (m_nbodies r)) tt /\ length l = m_njoints r /\
    fold_right Rplus 0%R (map mass l) = fold_right Rplus 0%R (map mass (m_inertias r)) /\
    ((0 < eps)%R -> fr_inertia g = inertia_Zero -> forall j, (mass (inertiaOf r j) = 0 \/ eps <= mass (inertiaOf r j))%R ->
       inertia_matrix (nth j l inertia_Zero) = inertia_matrix (inertiaOf r j) /\ mass (nth j l inertia_Zero) = mass (inertiaOf r j)).
Proof.
  intros W Hj Hn. destruct (wf_lengths _ W) as (L1&_). assert (Hj' : fr_parentJoint g < length (m_inertias r)) by lia. unfold moveFrame. destruct (isZeroInertia (fr_inertia g)) eqn:Ez.
  - rewrite addFrame_fresh by assumption. eexists. split; [reflexivity|]. split; [rewrite upd_length; exact L1|]. split.
    + rewrite (rsum_upd _ _ (fun Y0 => inertia_pequ eps Y0 (inertia_act (fr_placement g) (fr_inertia g))) Hj' (mass (fr_inertia g))) by reflexivity.
      assert (E0 : mass (fr_inertia g) = 0%R) by (unfold isZeroInertia in Ez; destruct (Req_EM_T (mass (fr_inertia g)) 0); [assumption|discriminate]). rewrite E0. ring.
    + intros He Hz j Hr. rewrite nth_upd. destruct ((j =? fr_parentJoint g) && (fr_parentJoint g <? length (m_inertias r))) eqn:Eb; [|split; reflexivity].
      fold (inertiaOf r j). rewrite Hz, inertia_pequ_plus. split.
      * rewrite inertia_plus_matrix; [rewrite inertia_act_zero; apply m6add_zero_r|]. split; [exact He|]. cbn. lra.
      * cbn. ring.
  - rewrite (proj2 (Nat.ltb_lt _ _)) by lia. rewrite addFrame_fresh; [|apply wf_setInertias; [exact W|rewrite upd_length; exact L1]|exact Hj|exact Hn].
    eexists. split; [reflexivity|]. cbn [setInertias m_inertias]. split; [rewrite !upd_length; exact L1|]. split.
    + assert (Hj2 : fr_parentJoint g < length (upd (m_inertias r) (fr_parentJoint g) (fun Y => inertia_mequ eps Y (fr_inertia g)))) by (rewrite upd_length; exact Hj').
      rewrite (rsum_upd _ _ (fun Y0 => inertia_pequ eps Y0 (inertia_act (fr_placement g) (fr_inertia g))) Hj2 (mass (fr_inertia g))) by reflexivity.
      rewrite (rsum_upd _ _ (fun Y => inertia_mequ eps Y (fr_inertia g)) Hj' (- mass (fr_inertia g))) by reflexivity. ring.
    + intros He Hz. rewrite Hz, isZero_Zero in Ez. discriminate.
Qed.

Section Append.
Variables (eps : R) (a b : Model) (f0 : Frame) (aMb : SE3).
Notation p := (fr_parentJoint f0).
Notation KSab := (KS a b p).
Notation posK := (pos a b p).
Notation src := (srcOf a b).
Hypotheses (W : forall c, wellFormed (src c)) (Ta : treeInv a) (PR : forall c, plainRefs (src c)) (WN : forall c, wellNamed (src c)).
Hypothesis U : forall c, nameOf (src c) 0 = "universe"%string /\ nth_error (m_frames (src c)) 0 = Some universeFrame.
Hypothesis NJ : NoDup (m_names a ++ tl (m_names b)).
Hypothesis NF : NoDup (map fr_name (m_frames a ++ tl (m_frames b))).
Hypothesis Hp : p < m_njoints a.

Definition mount (c : bool) (j : nat) : SE3 := if c then se3_Identity else if j =? 0 then se3_mul (fr_placement f0) aMb else se3_Identity.
Definition keyName (k : Key) : string := nameOf (src (fst k)) (snd k).
Definition itemOf (k : Key) : Item :=
  mkItem (src (fst k)) (snd k) (posK (fst k, parent (src (fst k)) (snd k)))
    (se3_mul (mount (fst k) (parent (src (fst k)) (snd k))) (placementOf (src (fst k)) (snd k))) (posK (fst k, jm_ref (joint (src (fst k)) (snd k)))).
Definition bodiesOf (ks : list Key) : list (nat * SE3 * Inertia) := map (fun k => (posK k, mount (fst k) (snd k), inertiaOf (src (fst k)) (snd k))) ks.
Definition framesOf (k : Key) : list (bool * Frame) := map (pair (fst k)) (filter (fun f => fr_parentJoint f =? snd k) (tl (m_frames (src (fst k))))).
Definition img (x : bool * Frame) (g : Frame) : Prop :=
  fr_name g = fr_name (snd x) /\ fr_type g = fr_type (snd x) /\ fr_inertia g = fr_inertia (snd x) /\
  fr_parentJoint g = posK (fst x, fr_parentJoint (snd x)) /\ fr_placement g = se3_mul (mount (fst x) (fr_parentJoint (snd x))) (fr_placement (snd x)).
Definition zeroFrames : Prop := forall c f, In f (m_frames (src c)) -> fr_inertia f = inertia_Zero.

Record AInv (ks : list Key) (dn : list (bool * Frame)) (r : Model) : Prop := {
  ai_lay : Layout r (map itemOf (joints ks));
  ai_names : m_names r = "universe"%string :: map keyName (joints ks);
  ai_frames : exists gs, m_frames r = universeFrame :: gs /\ Forall2 img dn gs;
  ai_dn : forall c f, In (c, f) dn -> In f (tl (m_frames (src c)));
  ai_nodup : NoDup (map (fun x => fr_name (snd x)) dn);
  ai_const : m_gravity r = m_gravity emptyModel /\ m_name r = m_name emptyModel /\ m_refs r = [];
  ai_mass : totalMass r = massSum (bodiesOf ks);
  ai_body : (0 < eps)%R -> (forall c k, k < m_njoints (src c) -> regular eps (inertiaOf (src c) k)) -> zeroFrames -> forall j, j < m_njoints r ->
     inertia_matrix (inertiaOf r j) = attachedMatrix j (bodiesOf ks) /\ mass (inertiaOf r j) = attachedMass j (bodiesOf ks) /\ regular eps (inertiaOf r j)
}.
Lemma njoints_r ks dn r : AInv ks dn r -> m_njoints r = S (length (joints ks)).
Proof. intros J. rewrite (lay_n _ _ (ai_lay _ _ _ J)). now rewrite map_length. Qed.
Lemma frames_cons c : m_frames (src c) = universeFrame :: tl (m_frames (src c)).
Proof. destruct (U c) as [_ E]. destruct (m_frames (src c)); [discriminate|]. cbn in *. now injection E as ->. Qed.
Lemma frame_not_universe c f : In f (tl (m_frames (src c))) -> fr_name universeFrame <> fr_name f.
Proof.
  intros H E. pose proof (wn_frames _ (WN c)) as ND. rewrite frames_cons in ND. cbn [map] in ND. apply NoDup_cons_iff in ND. apply (proj1 ND). rewrite E. now apply in_map.
Qed.
Lemma names_same {A B} (g : A -> B) l x y : NoDup (map g l) -> In x l -> In y l -> g x = g y -> x = y.
Proof.
  intros ND Hx Hy E. destruct (In_nth_error _ _ Hx) as [n Hn]. destruct (In_nth_error _ _ Hy) as [n' Hn'].
  assert (n = n'); [|congruence]. apply (proj1 (NoDup_nth_error (map g l)) ND); [apply nth_error_Some; rewrite nth_error_map, Hn; discriminate | rewrite !nth_error_map, Hn, Hn'; cbn; now rewrite E].
Qed.
Lemma frame_key c c' f f' : In f (tl (m_frames (src c))) -> In f' (tl (m_frames (src c'))) -> fr_name f = fr_name f' -> c = c' /\ f = f'.
Proof.
  intros H H' E. assert (X : forall g g', In g (tl (m_frames a)) -> In g' (tl (m_frames b)) -> fr_name g <> fr_name g').
  { intros g g' G G' Eg. rewrite map_app in NF. apply (NoDup_app_disj _ _ (fr_name g) NF); [apply in_map; change a with (src true); rewrite (frames_cons true); now right | rewrite Eg; now apply in_map]. }
  assert (Y : forall c, NoDup (map fr_name (tl (m_frames (src c))))). { intros d. pose proof (wn_frames _ (WN d)) as ND. rewrite frames_cons in ND. now inversion ND. }
  destruct c, c'; cbn [srcOf] in *.
  - split; [reflexivity|]. now apply (names_same fr_name _ _ _ (Y true)).
  - exfalso. now apply (X f f').
  - exfalso. now apply (X f' f).
  - split; [reflexivity|]. now apply (names_same fr_name _ _ _ (Y false)).
Qed.
Lemma key_names k k' : snd k < m_njoints (src (fst k)) -> snd k' < m_njoints (src (fst k')) -> isJ k = true -> isJ k' = true -> keyName k = keyName k' -> k = k'.
Proof.
  destruct k as [c i], k' as [c' i']. unfold keyName, isJ. cbn [fst snd]. intros Hi Hi' J J' E. apply negb_true_iff, Nat.eqb_neq in J. apply negb_true_iff, Nat.eqb_neq in J'.
  assert (Lc : forall d, length (m_names (src d)) = m_njoints (src d)) by (intros d; destruct (wf_lengths _ (W d)) as (_&_&_&_&_&_&_&_&_&_&_&L12&_); exact L12).
  assert (X : forall j j', j < m_njoints a -> 0 < j' < m_njoints b -> nameOf a j <> nameOf b j').
  { intros j j' Hj Hj' En. apply (NoDup_app_disj _ _ (nameOf a j) NJ).
    - apply nth_In. pose proof (Lc true) as X. cbn [srcOf] in X. rewrite X. exact Hj.
    - rewrite En. unfold nameOf. replace j' with (S (j' - 1)) by lia. rewrite nth_S_tl. apply nth_In. pose proof (Lc false) as X. cbn [srcOf] in X. destruct (m_names b); cbn in *; lia. }
  assert (Y : forall d j j', j < m_njoints (src d) -> j' < m_njoints (src d) -> nameOf (src d) j = nameOf (src d) j' -> j = j').
  { intros d j j' Hj Hj' En. apply (proj1 (NoDup_nth (m_names (src d)) ""%string) (wn_joints _ (WN d))); [now rewrite Lc | now rewrite Lc | exact En]. }
  destruct c, c'.
  - f_equal. now apply (Y true).
  - exfalso. apply (X i i'); cbn [srcOf] in *; try lia; assumption.
  - exfalso. apply (X i' i); cbn [srcOf] in *; try lia. now symmetry.
  - f_equal. now apply (Y false).
Qed.
Lemma key_range ks rest c i : KSab = ks ++ rest -> In (c, i) ks -> i < m_njoints (src c).
Proof. intros E H. apply (KS_In a b p (W true) (W false) Hp c i). rewrite E. apply in_or_app. now left. Qed.
Lemma key_not_universe c i : 0 < i < m_njoints (src c) -> nameOf (src c) i <> "universe"%string.
Proof.
  intros Hi E. rewrite <- (proj1 (U c)) in E. destruct (wf_lengths _ (W c)) as (_&_&_&_&_&_&_&_&_&_&_&L12&_).
  assert (i = 0); [|lia]. apply (proj1 (NoDup_nth (m_names (src c)) ""%string) (wn_joints _ (WN c))); [lia | pose proof (wf_n _ (W c)); lia | exact E].
Qed.
Lemma joints_In ks rest k : KSab = ks ++ rest -> In k (joints ks) -> In k ks /\ isJ k = true /\ 0 < snd k < m_njoints (src (fst k)).
Proof.
  intros E H. apply filter_In in H. destruct H as [H J]. split; [exact H|]. split; [exact J|]. destruct k as [c i]. pose proof (key_range ks rest c i E H). unfold isJ in J. cbn [fst snd] in *. apply negb_true_iff, Nat.eqb_neq in J. lia.
Qed.
Lemma names_NoDup ks rest dn r : KSab = ks ++ rest -> AInv ks dn r -> NoDup (m_names r).
Proof.
  intros E J. rewrite (ai_names _ _ _ J). constructor.
  - intros H. apply in_map_iff in H. destruct H as ([c i] & En & Hk). apply (joints_In ks rest _ E) in Hk. destruct Hk as (_ & _ & Hr). cbn [fst snd] in Hr. apply (key_not_universe c i Hr). exact En.
  - assert (ND : NoDup (joints ks)) by (apply NoDup_filter, (NoDup_app_l ks rest); rewrite <- E; apply (KS_NoDup a b p (W true) Hp)).
    assert (HI : forall k, In k (joints ks) -> isJ k = true /\ snd k < m_njoints (src (fst k))) by (intros k Hk; apply (joints_In ks rest _ E) in Hk; split; [tauto | lia]).
    induction ND as [|k l Hk ND IH]; cbn; constructor.
    + intros H. apply in_map_iff in H. destruct H as (k' & En & Hk'). apply Hk. destruct (HI k (or_introl eq_refl)). destruct (HI k' (or_intror Hk')). rewrite <- (key_names k' k); assumption.
    + apply IH. intros x Hx. apply HI. now right.
Qed.
Lemma findJoint ks rest dn r k : KSab = ks ++ rest -> AInv ks dn r -> In k ks -> isJ k = true -> getJointId r (keyName k) = posK k /\ existJointName r (keyName k) = true.
Proof.
  intros E J Hk HJ. apply getJointId_unique; [apply (lay_wf _ _ (ai_lay _ _ _ J)) | apply (names_NoDup ks rest dn r E J)|].
  destruct (pos_prefix a b p (W true) Hp ks rest k E Hk HJ) as (P1 & P2 & _). rewrite (ai_names _ _ _ J). replace (posK k) with (S (posK k - 1)) by lia. cbn [nth_error]. rewrite nth_error_map, P1. reflexivity.
Qed.
Lemma noJoint ks rest dn r k : KSab = ks ++ k :: rest -> AInv ks dn r -> isJ k = true -> existJointName r (keyName k) = false.
Proof.
  intros E J HJ. apply not_true_is_false. intros H. apply (getJointId_spec r (keyName k) (lay_wf _ _ (ai_lay _ _ _ J))) in H. rewrite (ai_names _ _ _ J) in H.
  assert (Hin : In k KSab) by (rewrite E; apply in_or_app; right; now left). assert (Hr : snd k < m_njoints (src (fst k))) by (destruct k as [c i]; now apply (KS_In a b p (W true) (W false) Hp c i)).
  destruct H as [H|H].
  - destruct k as [c i]. unfold isJ in HJ. cbn [fst snd] in *. apply negb_true_iff, Nat.eqb_neq in HJ. apply (key_not_universe c i); [lia|]. symmetry. exact H.
  - apply in_map_iff in H. destruct H as (k' & En & Hk'). apply (joints_In ks (k :: rest) _ E) in Hk'. destruct Hk' as (H1 & H2 & H3).
    assert (k' = k) by (apply key_names; try assumption; lia). subst k'. pose proof (KS_NoDup a b p (W true) Hp) as ND. rewrite E in ND. apply (NoDup_app_disj _ _ k ND H1). now left.
Qed.
Lemma mounted ks rest : KSab = ks ++ rest -> In (false, 0) ks -> p < S (length (joints ks)).
Proof.
  intros E H. destruct (ks1_joints a p (W true) Hp) as [J1 J2]. unfold KS in E.
  assert (X : forall l1 l2 : list Key, ks1 a p ++ l1 = l2 ++ rest -> In (false, 0) l2 -> (exists l3, l2 = ks1 a p ++ l3) \/ In (false, 0) (ks1 a p)).
  { clear. generalize (ks1 a p) as k1. induction k1 as [|x k1 IH]; intros l1 l2 E H; [left; exists l2; reflexivity|]. destruct l2 as [|y l2]; [destruct H|]. cbn in E. injection E as -> E.
    destruct H as [->|H]; [right; now left|]. destruct (IH l1 l2 E H) as [[l3 ->]|X]; [left; exists l3; reflexivity | right; now right]. }
  destruct (X _ _ E H) as [[l3 ->]|Y]; [rewrite joints_app, app_length; lia|]. exfalso. unfold ks1 in Y. destruct Y as [Y|Y]; [discriminate|]. apply in_map_iff in Y. destruct Y as (x & Ex & _). discriminate.
Qed.
Lemma pos_range ks rest dn r k : KSab = ks ++ rest -> AInv ks dn r -> In k ks -> posK k < m_njoints r.
Proof.
  intros E J Hk. rewrite (njoints_r ks dn r J). apply (pos_lt a b p (W true) Hp ks rest k E); [|exact Hk]. destruct k as [[] i]; [right; left; reflexivity|].
  destruct (isJ (false, i)) eqn:HJ; [right; right; reflexivity|]. left. unfold isJ in HJ. cbn [snd] in HJ. apply negb_false_iff, Nat.eqb_eq in HJ. subst i. now apply (mounted ks rest E).
Qed.

(* the frames of one joint *)
Lemma moveFrames_ok m0 c j dflt ks rest : KSab = ks ++ rest -> In (c, j) ks -> m0 = src c ->
  forall fs dn r, AInv ks dn r -> (forall f, In f fs -> In f (tl (m_frames (src c)))) -> NoDup (map fr_name fs) ->
  (forall f x, In f fs -> fr_parentJoint f = j -> In x dn -> fr_name (snd x) <> fr_name f) ->
  exists r', moveFrames eps m0 r j (posK (c, j)) dflt (mount c j) fs = Ok r' tt /\ AInv ks (dn ++ map (pair c) (filter (fun f => fr_parentJoint f =? j) fs)) r'.
Proof.
  intros E Hk ->. induction fs as [|f fs IH]; intros dn r J Hin ND Hfr.
  - exists r. split; [reflexivity|]. cbn. rewrite app_nil_r. exact J.
  - cbn [moveFrames filter]. inversion ND as [|? ? Nf ND']; subst. destruct (Nat.eqb_spec (fr_parentJoint f) j) as [Ej|Ej].
    2:{ apply IH; [exact J | intros g Hg; apply Hin; now right | exact ND' | intros g x Hg; apply Hfr; now right]. }
    pose proof (lay_wf _ _ (ai_lay _ _ _ J)) as Wr. pose proof (Hin f (or_introl eq_refl)) as Hf. destruct (ai_frames _ _ _ J) as (gs & Eg & Fg).
    assert (Hnew : forall x, In x (m_frames r) -> fr_name x <> fr_name f).
    { rewrite Eg. intros x [<-|Hx]; [now apply (frame_not_universe c)|]. clear -Fg Hx Hfr Ej. induction Fg as [|y g dn gs Hy Fg IHF]; [destruct Hx|]. destruct Hx as [->|Hx].
      - destruct Hy as (Y1 & _). rewrite Y1. apply (Hfr f y); [now left | exact Ej | now left].
      - apply IHF; [|exact Hx]. intros f' x' H1 H2 H3. apply Hfr; [exact H1 | exact H2 | now right]. }
    assert (Hx : existFrame r (fr_name f) (fr_type f) = false).
    { apply not_true_is_false. rewrite existFrame_spec. intros [g [Hg [Hm _]]]. now apply (Hnew g). }
    rewrite Hx.
    assert (NDr : NoDup (map fr_name (m_frames r)) -> exists pf, parentFrameOf (src c) r (fr_parentFrame f) dflt = Ok r pf).
    { intros NDr. unfold parentFrameOf. destruct (fr_parentFrame f =? 0); [eauto|]. assert (Hf' : In f (m_frames (src c))) by (rewrite frames_cons; now right).
      pose proof (wn_parents _ (WN c) f Hf') as Hpf. rewrite (proj1 (wf_frames _ (W c))) in Hpf. rewrite (nth_error_nth' (m_frames (src c)) _ universeFrame) by exact Hpf.
      unfold outFrameId. destruct (getFrameId_some (src c) (fr_name (nth (fr_parentFrame f) (m_frames (src c)) universeFrame)) ANY_FRAME (W c) (wn_frames _ (WN c))) as [k ->].
      match goal with |- context [getFrameId r ?n ?t] => destruct (getFrameId_some r n t Wr NDr) as [k1 E1] end.
      destruct ((k =? 0) && _ && _); [|].
      - match goal with |- context [getFrameId r ?n ?t] => destruct (getFrameId_some r n t Wr NDr) as [k2 ->] end. eauto.
      - match goal with |- context [getFrameId r ?n ?t] => destruct (getFrameId_some r n t Wr NDr) as [k2 ->] end. eauto. }
    destruct NDr as [pf ->].
    { rewrite Eg. cbn [map]. assert (Em : map fr_name gs = map (fun x => fr_name (snd x)) dn) by (clear -Fg; induction Fg as [|y g dn gs Hy Fg IHF]; [reflexivity|]; cbn; rewrite IHF; f_equal; apply Hy).
      rewrite Em. constructor; [|apply (ai_nodup _ _ _ J)]. intros H. apply in_map_iff in H. destruct H as ([c' x] & Ex & Hxx). apply (ai_dn _ _ _ J) in Hxx. now apply (frame_not_universe c' x Hxx). }
    set (g := mkFrame (fr_name f) (posK (c, j)) pf (se3_mul (mount c j) (fr_placement f)) (fr_type f) (fr_inertia f)).
    assert (Hpj : fr_parentJoint g < m_njoints r) by (apply (pos_range ks rest dn r (c, j) E J Hk)).
    destruct (moveFrame_ok eps r g Wr Hpj Hnew) as (l & E1 & Ll & Lm & Lb). rewrite E1.
    destruct (wf_frames _ Wr) as [RF1 RF2].
    assert (J' : AInv ks (dn ++ [(c, f)]) (setInertias (setFrames r (m_frames r ++ [g]) (S (m_nframes r))) l (m_nbodies r))).
    { constructor.
      - apply Layout_setInertias; [|exact Ll]. apply Layout_setFrames; [apply (ai_lay _ _ _ J)| |].
        + rewrite app_length, <- RF1. cbn. lia.
        + intros x Hx'. apply in_app_or in Hx'. destruct Hx' as [Hx'|[<-|[]]]; [now apply RF2 | exact Hpj].
      - apply (ai_names _ _ _ J).
      - exists (gs ++ [g]). cbn [setInertias setFrames m_frames]. rewrite Eg. split; [reflexivity|]. apply Forall2_app; [exact Fg|]. constructor; [|constructor].
        unfold img. cbn [fst snd]. rewrite Ej. repeat split.
      - intros c' f' H. apply in_app_or in H. destruct H as [H|[H|[]]]; [now apply (ai_dn _ _ _ J) | injection H as <- <-; exact Hf].
      - rewrite map_app. cbn. apply NoDup_app_i; [apply (ai_nodup _ _ _ J) | repeat constructor; intros [] |]. intros x H [<-|[]]. apply in_map_iff in H. destruct H as (y & Ey & Hy). apply (Hfr f y (or_introl eq_refl) Ej Hy Ey).
      - apply (ai_const _ _ _ J).
      - unfold totalMass. cbn [setInertias m_inertias]. rewrite Lm. apply (ai_mass _ _ _ J).
      - intros He Hr Hz k Hk'. destruct (ai_body _ _ _ J He Hr Hz k Hk') as (B1 & B2 & B3).
        assert (Hf' : In f (m_frames (src c))) by (rewrite frames_cons; now right). destruct (Lb He (Hz c f Hf') k B3) as [M1 M2].
        unfold inertiaOf at 1 2 3. cbn [setInertias m_inertias]. unfold regular in *. rewrite M1, M2. auto. }
    destruct (IH (dn ++ [(c, f)]) _ J') as (r' & E2 & J2).
    + intros x Hx'. apply Hin. now right.
    + exact ND'.
    + intros f' x Hf' Ej' Hx'. apply in_app_or in Hx'. destruct Hx' as [Hx'|[<-|[]]]; [apply Hfr; [now right | exact Ej' | exact Hx']|]. cbn [snd]. intros En. apply Nf. rewrite En. now apply in_map.
    + exists r'. split; [exact E2|]. cbn [map]. rewrite <- app_assoc in J2. exact J2.
Qed.
Definition dnOf (ks : list Key) : list (bool * Frame) := flat_map framesOf ks.
Lemma dnOf_In ks c f : In (c, f) (dnOf ks) <-> In (c, fr_parentJoint f) ks /\ In f (tl (m_frames (src c))).
Proof.
  unfold dnOf. rewrite in_flat_map. split.
  - intros ([c' j] & Hk & H). unfold framesOf in H. cbn [fst snd] in H. apply in_map_iff in H. destruct H as (x & Ex & Hx). injection Ex as -> ->. apply filter_In in Hx. destruct Hx as [H1 H2]. apply Nat.eqb_eq in H2. rewrite H2. split; assumption.
  - intros [H1 H2]. exists (c, fr_parentJoint f). split; [exact H1|]. unfold framesOf. cbn [fst snd]. apply in_map. apply filter_In. split; [exact H2 | apply Nat.eqb_refl].
Qed.
Lemma jointFrames_ok c j dflt ks rest r : KSab = ks ++ (c, j) :: rest -> AInv (ks ++ [(c, j)]) (dnOf ks) r ->
  exists r', moveFrames eps (src c) r j (posK (c, j)) dflt (mount c j) (tl (m_frames (src c))) = Ok r' tt /\ AInv (ks ++ [(c, j)]) (dnOf (ks ++ [(c, j)])) r'.
Proof.
  intros E J. destruct (moveFrames_ok (src c) c j dflt (ks ++ [(c, j)]) rest) with (fs := tl (m_frames (src c))) (dn := dnOf ks) (r := r) as (r' & E1 & J1).
  - rewrite E, <- app_assoc. reflexivity.
  - apply in_or_app. right. now left.
  - reflexivity.
  - exact J.
  - auto.
  - pose proof (wn_frames _ (WN c)) as ND. rewrite frames_cons in ND. now inversion ND.
  - intros f [c' x] Hf Ej Hx En. apply dnOf_In in Hx. destruct Hx as [H1 H2]. destruct (frame_key c' c x f H2 Hf En) as [-> ->].
    pose proof (KS_NoDup a b p (W true) Hp) as ND. rewrite E in ND. rewrite Ej in H1. apply (NoDup_app_disj _ _ (c, j) ND H1). now left.
  - exists r'. split; [exact E1|]. unfold dnOf. rewrite flat_map_app. cbn [flat_map]. rewrite app_nil_r. exact J1.
Qed.

(* the body of the universe of an input *)
Lemma appendUniverse_ok c ks rest r pf pframe pfM : KSab = ks ++ (c, 0) :: rest -> AInv ks (dnOf ks) r -> nth_error (m_frames r) pf = Some pframe ->
  fr_parentJoint pframe = posK (c, 0) -> se3_mul (fr_placement pframe) pfM = mount c 0 ->
  exists r', appendUniverse eps (src c) pf pfM r = Ok r' tt /\ AInv (ks ++ [(c, 0)]) (dnOf (ks ++ [(c, 0)])) r'.
Proof.
  intros E J Hpf Ej EM. unfold appendUniverse. rewrite Hpf, Ej, EM. pose proof (lay_wf _ _ (ai_lay _ _ _ J)) as Wr. destruct (wf_lengths _ Wr) as (R1&_). destruct (wf_frames _ Wr) as [RF1 RF2].
  assert (Hj : posK (c, 0) < m_njoints r) by (rewrite <- Ej; apply RF2; eapply nth_error_In; exact Hpf).
  unfold appendBodyToJoint. rewrite (proj2 (Nat.ltb_lt _ _)) by lia. fold (inertiaOf (src c) 0).
  match goal with |- context [moveFrames eps _ ?r1 _ _ _ _ _] => set (r' := r1) end.
  apply (jointFrames_ok c _ _ ks rest r' E).
  assert (Ej' : joints (ks ++ [(c, 0)]) = joints ks) by (rewrite joints_app; cbn; apply app_nil_r).
  assert (Eb : bodiesOf (ks ++ [(c, 0)]) = bodiesOf ks ++ [(posK (c, 0), mount c 0, inertiaOf (src c) 0)]) by (unfold bodiesOf; rewrite map_app; reflexivity).
  constructor; rewrite ?Ej'.
  - apply Layout_setInertias; [apply (ai_lay _ _ _ J)|]. rewrite upd_length. exact R1.
  - apply (ai_names _ _ _ J).
  - apply (ai_frames _ _ _ J).
  - apply (ai_dn _ _ _ J).
  - apply (ai_nodup _ _ _ J).
  - apply (ai_const _ _ _ J).
  - unfold totalMass. subst r'. cbn [setInertias m_inertias]. rewrite <- R1 in Hj. rewrite (rsum_upd (m_inertias r) _ (fun Y0 => inertia_pequ eps Y0 (inertia_act (mount c 0) (inertiaOf (src c) 0))) Hj (mass (inertiaOf (src c) 0))) by reflexivity.
    rewrite Eb. unfold massSum. rewrite map_app, rsum_app. cbn [map fold_right fst snd]. pose proof (ai_mass _ _ _ J) as Hm. unfold totalMass, massSum in Hm. rewrite Hm. ring.
  - intros He Hr Hz j Hjr. rewrite Eb, attachedMatrix_app, attachedMass_app. cbn [attachedMatrix attachedMass].
    destruct (ai_body _ _ _ J He Hr Hz j Hjr) as (B1 & B2 & B3).
    assert (Ei : inertiaOf r' j = nth j (upd (m_inertias r) (posK (c, 0)) (fun Y0 => inertia_pequ eps Y0 (inertia_act (mount c 0) (inertiaOf (src c) 0)))) inertia_Zero) by reflexivity.
    rewrite nth_upd, (Nat.eqb_sym j) in Ei. rewrite Ei. clear Ei.
    destruct (Nat.eqb_spec (posK (c, 0)) j) as [->|].
    + rewrite (proj2 (Nat.ltb_lt _ _)) by (rewrite R1; exact Hjr). cbn [andb]. fold (inertiaOf r j). rewrite inertia_pequ_plus, m6add_zero_r. specialize (Hr c 0 (wf_n _ (W c))). unfold regular in *. split; [|split].
      * rewrite inertia_plus_matrix; [rewrite B1; reflexivity|]. split; [exact He|]. change (mass (inertia_act (mount c 0) (inertiaOf (src c) 0))) with (mass (inertiaOf (src c) 0)). lra.
      * cbn. rewrite B2. ring.
      * cbn. lra.
    + cbn [andb]. fold (inertiaOf r j). rewrite m6add_zero_r, <- B1, <- B2. split; [reflexivity|]. split; [ring|exact B3].
Qed.

(* one joint *)
Lemma appendJoint_ok c i ks rest r : KSab = ks ++ (c, i) :: rest -> 0 < i < m_njoints (src c) -> AInv ks (dnOf ks) r ->
  In (c, parent (src c) i) ks -> (isMimic (joint (src c) i) = true -> In (c, jm_ref (joint (src c) i)) ks) ->
  exists r', appendJoint eps (src c) (posK (c, 0)) (mount c (parent (src c) i)) r i = Ok r' tt /\ AInv (ks ++ [(c, i)]) (dnOf (ks ++ [(c, i)])) r'.
Proof.
  intros E Hi J Hpar Hmim. pose proof (W c) as Wc. pose proof (wf_parent _ Wc i Hi) as Hpi. pose proof (lay_wf _ _ (ai_lay _ _ _ J)) as Wr.
  destruct (wf_lengths _ Wc) as (L1&L2&L3&L4&L5&L6&L7&L8&L9&L10&L11&L12&L13&L14&L15).
  destruct (wf_lengths _ Wr) as (R1&R2&R3&R4&R5&R6&R7&R8&R9&R10&R11&R12&R13&R14&R15).
  assert (HJ : isJ (c, i) = true) by (unfold isJ; cbn; destruct i; [lia|reflexivity]).
  unfold appendJoint. rewrite (nth_error_nth' (m_parents (src c)) i 0) by lia. rewrite (nth_error_nth' (m_names (src c)) i ""%string) by lia. rewrite (nth_error_nth' (m_joints (src c)) i dJ) by lia.
  change (nth i (m_parents (src c)) 0) with (parent (src c) i). change (nth i (m_names (src c)) ""%string) with (keyName (c, i)). change (nth i (m_joints (src c)) dJ) with (joint (src c) i).
  assert (Epar : (if 0 <? parent (src c) i then option_map (outJointId (src c) r) (nth_error (m_names (src c)) (parent (src c) i)) else Some (posK (c, 0))) = Some (posK (c, parent (src c) i))).
  { destruct (Nat.ltb_spec 0 (parent (src c) i)) as [H0|H0]; [|now replace (parent (src c) i) with 0 by lia].
    rewrite (nth_error_nth' (m_names (src c)) (parent (src c) i) ""%string) by lia. cbn [option_map]. f_equal. change (nth (parent (src c) i) (m_names (src c)) ""%string) with (keyName (c, parent (src c) i)).
    unfold outJointId. destruct (getJointId_unique (src c) (parent (src c) i) (keyName (c, parent (src c) i)) Wc (wn_joints _ (WN c))) as [G _]; [apply (nth_error_nth' (m_names (src c)) _ (""%string)); rewrite L12; lia|]. rewrite G.
    replace (parent (src c) i =? 0) with false by (symmetry; apply Nat.eqb_neq; lia). cbn [andb].
    apply (findJoint ks ((c, i) :: rest) _ r (c, parent (src c) i) E J Hpar). unfold isJ. cbn [snd]. replace (parent (src c) i =? 0) with false by (symmetry; apply Nat.eqb_neq; lia). reflexivity. }
  rewrite Epar. rewrite (noJoint ks rest _ r (c, i) E J HJ).
  assert (Hpr : posK (c, parent (src c) i) < m_njoints r) by (apply (pos_range ks _ _ r _ E J Hpar)).
  set (k := posK (c, jm_ref (joint (src c) i))).
  set (rl := if isMimic (joint (src c) i) then _ else _).
  assert (Hlink : exists jm', rl = Some jm' /\ linked (src c) r i k jm').
  { unfold rl, linked. destruct (isMimic (joint (src c) i)) eqn:Em; [|eauto]. specialize (Hmim eq_refl).
    destruct (isMimic_inv _ Em) as (j & s & o & Ej). pose proof (wf_mimic _ Wc i j s o Hi Ej) as (_ & M1 & Sm & _ & _ & Sd1 & Sd2).
    assert (HJr : isJ (c, jm_ref (joint (src c) i)) = true) by (unfold isJ; cbn [snd]; replace (jm_ref (joint (src c) i) =? 0) with false by (symmetry; apply Nat.eqb_neq; lia); reflexivity).
    rewrite (nth_error_nth' (m_names (src c)) _ ""%string) by lia. change (nth (jm_ref (joint (src c) i)) (m_names (src c)) ""%string) with (keyName (c, jm_ref (joint (src c) i))).
    cbv zeta. rewrite (proj1 (findJoint ks _ _ r _ E J Hmim HJr)). fold k.
    assert (Hlt : k < m_njoints r) by (apply (pos_range ks _ _ r _ E J Hmim)).
    destruct (pos_prefix a b p (W true) Hp ks _ _ E Hmim HJr) as (P1 & P2 & _). fold k in P1, P2.
    rewrite (nth_error_nth' (m_joints r) _ dJ) by lia. cbn [option_map]. eexists. split; [reflexivity|].
    assert (Hit : nth_error (map itemOf (joints ks)) (k - 1) = Some (itemOf (c, jm_ref (joint (src c) i)))) by (rewrite nth_error_map, P1; reflexivity).
    assert (Es : S (k - 1) = k) by lia. destruct (wf_joint _ Wr k ltac:(lia)) as (_ & I1 & I2 & _).
    split; [change (nth k (m_joints r) dJ) with (joint r k); now rewrite I1, I2|]. split; [lia|]. split.
    - pose proof (item_mimic r _ (ai_lay _ _ _ J) _ _ Hit) as X. rewrite Es in X. rewrite X. exact Sm.
    - intros j' s' o' E'. rewrite Ej in E'. injection E' as <- <- <-. pose proof (item_dims r _ (ai_lay _ _ _ J) _ _ Hit) as [X1 X2]. rewrite Es in X1, X2. rewrite X1, X2. split; assumption. }
  destruct Hlink as (jm' & E1 & Hl). rewrite E1. rewrite (proj2 (limits_linked (src c) r i _ jm' Wc Hi Hl)).
  destruct (copy_ok eps (src c) r (map itemOf (joints ks)) i _ (mount c (parent (src c) i)) _ jm' Wc (PR c) Hi (ai_lay _ _ _ J) Hpr Hl)
    as (r' & E2 & Y' & C1 & C2 & C3 & C4 & C5 & C6 & C7 & C8 & C9 & C10).
  change (keyName (c, i)) with (nameOf (src c) i). rewrite E2.
  assert (Epos : m_njoints r = posK (c, i)) by (rewrite (njoints_r ks _ r J); symmetry; apply (pos_next a b p (W true) Hp ks (c, i) rest E HJ)).
  assert (EMt : se3_Identity = mount c i) by (unfold mount; destruct c; [reflexivity|]; replace (i =? 0) with false by (symmetry; apply Nat.eqb_neq; lia); reflexivity).
  rewrite Epos, EMt. apply (jointFrames_ok c _ _ ks rest r' E).
  assert (Ejs : joints (ks ++ [(c, i)]) = joints ks ++ [(c, i)]) by (rewrite joints_app; unfold joints at 2; cbn [filter]; rewrite HJ; reflexivity).
  assert (Eb : bodiesOf (ks ++ [(c, i)]) = bodiesOf ks ++ [(posK (c, i), mount c i, inertiaOf (src c) i)]) by (unfold bodiesOf; rewrite map_app; reflexivity).
  constructor; rewrite ?Ejs.
  - rewrite map_app. exact Y'.
  - rewrite C7, (ai_names _ _ _ J), map_app. reflexivity.
  - rewrite C1. apply (ai_frames _ _ _ J).
  - apply (ai_dn _ _ _ J).
  - apply (ai_nodup _ _ _ J).
  - rewrite C3, C4, C5. apply (ai_const _ _ _ J).
  - unfold totalMass. rewrite C6, map_app, rsum_app. rewrite Eb. unfold massSum. rewrite map_app, rsum_app. cbn [map fold_right fst snd].
    pose proof (ai_mass _ _ _ J) as Hm. unfold totalMass, massSum in Hm. rewrite Hm. cbn. ring.
  - intros He Hr Hz j Hj. rewrite C9 in Hj. rewrite Eb, attachedMatrix_app, attachedMass_app. cbn [attachedMatrix attachedMass]. rewrite <- Epos, <- EMt.
    unfold inertiaOf at 1 3 5. rewrite C6, nth_snoc, R1. rewrite (Nat.eqb_sym (m_njoints r) j). destruct (Nat.eqb_spec j (m_njoints r)) as [->|Hne].
    + assert (Hnone : forall x, In x (bodiesOf ks) -> fst (fst x) <> m_njoints r).
      { intros x Hx. unfold bodiesOf in Hx. apply in_map_iff in Hx. destruct Hx as (k' & <- & Hin). cbn [fst]. pose proof (pos_range ks _ _ r k' E J Hin). lia. }
      destruct (attachedMatrix_none _ _ Hnone) as [N1 N2]. rewrite N1, N2. rewrite inertia_act_id, m6add_zero_l, m6add_zero_r.
      specialize (Hr c i ltac:(lia)). unfold regular in *. split; [|split].
      * rewrite inertia_plus_matrix; [apply m6add_zero_l|]. split; [exact He|]. cbn. lra.
      * cbn. ring.
      * cbn. lra.
    + destruct (ai_body _ _ _ J He Hr Hz j ltac:(lia)) as (B1 & B2 & B3). unfold inertiaOf in B1, B2, B3. rewrite B1, B2, m6add_zero_r. split; [reflexivity|]. split; [ring|exact B3].
Qed.

(* a list of joints *)
Lemma appendJoints_ok c ids pMi : forall ks rest r, KSab = ks ++ map (pair c) ids ++ rest -> AInv ks (dnOf ks) r ->
  (forall i, In i ids -> pMi i = mount c (parent (src c) i)) ->
  (forall l1 i l2, ids = l1 ++ i :: l2 -> 0 < i < m_njoints (src c) /\ In (c, parent (src c) i) (ks ++ map (pair c) l1) /\
     (isMimic (joint (src c) i) = true -> In (c, jm_ref (joint (src c) i)) (ks ++ map (pair c) l1))) ->
  exists r', appendJoints eps (src c) (posK (c, 0)) pMi ids r = Ok r' tt /\ AInv (ks ++ map (pair c) ids) (dnOf (ks ++ map (pair c) ids)) r'.
Proof.
  induction ids as [|i ids IH]; intros ks rest r E J HM HC.
  - exists r. split; [reflexivity|]. cbn. rewrite app_nil_r. exact J.
  - cbn [appendJoints map]. destruct (HC [] i ids eq_refl) as (H1 & H2 & H3). cbn [map] in H2, H3. rewrite app_nil_r in H2, H3. rewrite (HM i (or_introl eq_refl)).
    destruct (appendJoint_ok c i ks (map (pair c) ids ++ rest) r E H1 J H2 H3) as (r1 & E1 & J1). rewrite E1.
    destruct (IH (ks ++ [(c, i)]) rest r1) as (r2 & E2 & J2).
    + rewrite E, <- app_assoc. reflexivity.
    + exact J1.
    + intros x Hx. apply HM. now right.
    + intros l1 x l2 El. destruct (HC (i :: l1) x l2) as (G1 & G2 & G3); [rewrite El; reflexivity|]. cbn [map] in G2, G3. rewrite <- app_assoc. auto.
    + exists r2. split; [exact E2|]. rewrite <- app_assoc in J2. exact J2.
Qed.
End Append.
