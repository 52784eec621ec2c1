(* computeJointKinematicHessians fills the cross products of the columns of J. *)
Require Import Reals List Arith ZArith Lia Lra Bool.
From Verif Require Import Vec3 Spatial Inertia SpatialFacts Joints Spec_Joints Deriv JointFacts Model Spec_Model ModelFacts ModelTree ModelFacts2 Sums Data Kinematics Spec_Kin Spec_Mass KinFacts KinFacts3 TreeSums MassFacts Crba CrbaFacts CrbaFacts2 Jacobian Spec_Jac JacFacts JacFacts2 JacFacts5 KinHess KinHessFacts.
Import ListNotations.
Local Open Scope nat_scope.
Local Open Scope bool_scope.

Lemma fold_neg o : forall l (K : Hess) o' k, ~ In o l ->
  (o' <> o -> fold_left (hNeg o) l K o' k = K o' k) /\ (In k l -> fold_left (hNeg o) l K o k = v6opp (K k o)) /\ (~ In k l -> fold_left (hNeg o) l K o k = K o k).
Proof.
  induction l as [|x l IH]; intros K o' k N; [repeat split; auto; contradiction|]. cbn [fold_left].
  assert (Nx : x <> o) by (intros ->; apply N; now left). assert (Nl : ~ In o l) by (intros H; apply N; now right).
  destruct (IH (hNeg o K x) o' k Nl) as (I1 & I2 & I3). unfold hNeg, putH, putn in *. repeat split.
  - intros H. rewrite I1 by exact H. destruct (Nat.eqb_spec o o'); [congruence | reflexivity].
  - intros [<-|H].
    + destruct (in_dec Nat.eq_dec x l) as [Hx|Hx]; [rewrite I2 by exact Hx; destruct (Nat.eqb_spec o x); [congruence | reflexivity]|]. rewrite I3 by exact Hx. now rewrite !Nat.eqb_refl.
    + rewrite I2 by exact H. assert (k <> o) by (intros ->; contradiction). destruct (Nat.eqb_spec o k); [congruence | reflexivity].
  - intros H. rewrite I3 by (intros H'; apply H; now right). rewrite Nat.eqb_refl. destruct (Nat.eqb_spec x k) as [->|]; [exfalso; apply H; now left | reflexivity].
Qed.
Lemma fold_cross J o : forall l (K : Hess) o' k,
  (o' <> o -> fold_left (hCross J o) l K o' k = K o' k) /\ (In k l -> fold_left (hCross J o) l K o k = motion_cross (J o) (J k)) /\ (~ In k l -> fold_left (hCross J o) l K o k = K o k).
Proof.
  induction l as [|x l IH]; intros K o' k; [repeat split; auto; contradiction|]. cbn [fold_left].
  destruct (IH (hCross J o K x) o' k) as (I1 & I2 & I3). unfold hCross, putH, putn in *. repeat split.
  - intros H. rewrite I1 by exact H. destruct (Nat.eqb_spec o o'); [congruence | reflexivity].
  - intros [<-|H]; [|exact (I2 H)].
    destruct (in_dec Nat.eq_dec x l) as [Hx|Hx]; [exact (I2 Hx)|]. rewrite I3 by exact Hx. now rewrite !Nat.eqb_refl.
  - intros H. rewrite I3 by (intros H'; apply H; now right). rewrite Nat.eqb_refl. destruct (Nat.eqb_spec x k) as [->|]; [exfalso; apply H; now left | reflexivity].
Qed.

Section KH.
Variable eps : R.
Variable m : Model.
Hypothesis Bt : Built eps m.
Let W : wellFormed m := Built_wf eps m Bt.
Let T : treeInv m := Built_tree eps m Bt.
Hypothesis Vm : validModel m.
Hypothesis NM : noMimic m.
Hypothesis Pos : noRigidJoint m.
Let idx_lt := idx_lt eps m Bt NM.
Let col_owner := col_owner eps m Bt NM.

Definition above (i : nat) : list nat := concat (map (colsAsc m) (removelast (support m i))).
Definition under (i : nat) : list nat := concat (map (colsAsc m) (tl (subtree m i))).
Lemma removelast_support i : 0 < i < m_njoints m -> removelast (support m i) = support m (parent m i).
Proof. intros Hi. rewrite (support_step m W T i Hi), removelast_app by discriminate. cbn. apply app_nil_r. Qed.
Lemma above_in i k : 0 < i < m_njoints m -> (In k (above i) <-> exists s c, 0 < s < i /\ anc m s i = true /\ c < nvOf m s /\ k = idx_v m s + c).
Proof.
  intros Hi. pose proof (wf_parent _ W i Hi) as Hp. unfold above. rewrite (removelast_support i Hi), in_concat. split.
  - intros (l & Hl & Hk). apply in_map_iff in Hl as (s & <- & Hs). unfold colsAsc in Hk. apply in_seq in Hk. pose proof (proj1 (proj2 (wf_zero _ W))) as Z0. assert (s <> 0) by (intros ->; lia).
    apply inb_In in Hs. fold (anc m s (parent m i)) in Hs. pose proof (anc_le m W T s (parent m i) ltac:(lia) Hs). exists s, (k - idx_v m s). split; [lia|]. split; [rewrite (anc_step m W T s i Hi), Hs; apply orb_true_r | lia].
  - intros (s & c & Hs & A & Hc & ->). exists (colsAsc m s). split; [|unfold colsAsc; apply in_seq; lia]. apply in_map. apply inb_In. rewrite (anc_step m W T s i Hi) in A.
    destruct (Nat.eqb_spec s i); [lia | exact A].
Qed.
Lemma subtree_tl i : 0 < i < m_njoints m -> subtree m i = i :: tl (subtree m i).
Proof.
  intros Hi. rewrite (ti_subtree _ T i Hi). replace (m_njoints m - 1) with ((i - 1) + (m_njoints m - i)) by lia. rewrite seq_app, filter_app.
  assert (E : filter (fun j => inb i (support m j)) (seq 1 (i - 1)) = []).
  { rewrite (filter_ext_in _ (fun _ => false)); [induction (seq 1 (i - 1)) as [|x l IH]; [reflexivity | exact IH]|]. intros a Ha. apply in_seq in Ha. destruct (inb i (support m a)) eqn:E; [|reflexivity]. fold (anc m i a) in E. apply (anc_le m W T) in E; lia. }
  rewrite E. cbn [app]. replace (m_njoints m - i) with (S (m_njoints m - i - 1)) by lia. replace (1 + (i - 1)) with i by lia. cbn [seq filter]. fold (anc m i i). rewrite (anc_self m W T i) by lia. reflexivity.
Qed.
Lemma under_in i k : 0 < i < m_njoints m -> (In k (under i) <-> exists s c, i < s < m_njoints m /\ anc m i s = true /\ c < nvOf m s /\ k = idx_v m s + c).
Proof.
  intros Hi.
  assert (IN : forall s, In s (tl (subtree m i)) <-> i < s < m_njoints m /\ anc m i s = true).
  { intros s. assert (M : In s (subtree m i) <-> 0 < s < m_njoints m /\ anc m i s = true) by (rewrite (ti_subtree _ T i Hi), filter_In, in_seq; unfold anc; intuition lia).
    pose proof (subtree_tl i Hi) as E. split.
    - intros H. assert (Hs : In s (subtree m i)) by (rewrite E; now right). apply M in Hs as [H1 H2]. split; [|exact H2]. pose proof (anc_le m W T i s ltac:(lia) H2) as H3.
      assert (s <> i); [|lia]. intros ->. assert (ND : NoDup (subtree m i)) by (rewrite (ti_subtree _ T i Hi); apply NoDup_filter, seq_NoDup). rewrite E in ND. now apply NoDup_cons_iff in ND.
    - intros [H1 H2]. assert (Hs : In s (subtree m i)) by (apply M; split; [lia | exact H2]). rewrite E in Hs. destruct Hs; [lia | assumption]. }
  unfold under. rewrite in_concat. split.
  - intros (l & Hl & Hk). apply in_map_iff in Hl as (s & <- & Hs). unfold colsAsc in Hk. apply in_seq in Hk. apply IN in Hs as [H1 H2]. exists s, (k - idx_v m s). repeat split; try lia; assumption.
  - intros (s & c & Hs & A & Hc & ->). exists (colsAsc m s). split; [apply in_map, IN; auto|]. unfold colsAsc. apply in_seq. lia.
Qed.
(* column k of the slice (i, r) is written *)
Definition written i r k : Prop := exists s c, 0 < s < m_njoints m /\ c < nvOf m s /\ k = idx_v m s + c /\ (anc m s i = true \/ anc m i s = true) /\ k <> idx_v m i + r.
Variables (J : Jac) (K0 : Hess).

Lemma slice_spec i r K : 0 < i < m_njoints m -> r < nvOf m i -> let o := idx_v m i + r in
  (forall s c, 0 < s < i -> anc m s i = true -> c < nvOf m s -> K (idx_v m s + c) o = motion_cross (J (idx_v m s + c)) (J o)) ->
  (forall c, c < r -> K (idx_v m i + c) o = motion_cross (J (idx_v m i + c)) (J o)) ->
  (forall o' k, o' <> o -> hessSlice m J i K r o' k = K o' k) /\
  (forall k, written i r k -> hessSlice m J i K r o k = motion_cross (J o) (J k)) /\ (forall k, ~ written i r k -> hessSlice m J i K r o k = K o k).
Proof.
  intros Hi Hr o HA HB. assert (NO : forall k, v6opp (motion_cross (J k) (J o)) = motion_cross (J o) (J k)) by (intros k; generalize (J k) (J o); sring).
  assert (NA : ~ In o (above i)).
  { intros H. apply (above_in i o Hi) in H as (s & c & Hs & _ & Hc & E). pose proof (idx_lt s i ltac:(lia) ltac:(lia) ltac:(lia)). unfold o in E. lia. }
  assert (NB : ~ In o (seq (idx_v m i) r)) by (rewrite in_seq; unfold o; lia).
  unfold hessSlice. cbv zeta. fold o. fold (above i) (under i).
  set (K1 := fold_left (hNeg o) (above i) K). set (K2 := fold_left (hNeg o) (seq (idx_v m i) r) K1). set (K3 := fold_left (hCross J o) (seq (o + 1) (nvOf m i - r - 1)) K2).
  set (K4 := fold_left (hCross J o) (under i) K3).
  assert (OT : forall o' k, o' <> o -> K4 o' k = K o' k).
  { intros o' k N. unfold K4. rewrite (proj1 (fold_cross J o _ K3 o' k) N). unfold K3. rewrite (proj1 (fold_cross J o _ K2 o' k) N). unfold K2. rewrite (proj1 (fold_neg o _ K1 o' k NB) N). exact (proj1 (fold_neg o _ K o' k NA) N). }
  assert (O1 : forall o' k, o' <> o -> K1 o' k = K o' k) by (intros o' k N; exact (proj1 (fold_neg o _ K o' k NA) N)).
  split; [exact OT|].
  assert (CASES : forall k, (In k (above i) \/ In k (seq (idx_v m i) r) \/ In k (seq (o + 1) (nvOf m i - r - 1)) \/ In k (under i)) <-> written i r k).
  { intros k. rewrite (above_in i k Hi), (under_in i k Hi), !in_seq. unfold written. split.
    - intros [(s & c & Hs & A & Hc & ->)|[H|[H|(s & c & Hs & A & Hc & ->)]]].
      + exists s, c. repeat split; auto; try lia. pose proof (idx_lt s i ltac:(lia) ltac:(lia) ltac:(lia)). lia.
      + exists i, (k - idx_v m i). repeat split; try lia. left. apply (anc_self m W T). lia.
      + unfold o in H. exists i, (k - idx_v m i). repeat split; try lia. left. apply (anc_self m W T). lia.
      + exists s, c. repeat split; auto; try lia. pose proof (idx_lt i s ltac:(lia) ltac:(lia) ltac:(lia)). lia.
    - intros (s & c & Hs & Hc & -> & A & N). unfold o. destruct (lt_eq_lt_dec s i) as [[H|H]|H].
      + left. exists s, c. repeat split; try lia. destruct A as [A|A]; [exact A | apply (anc_le m W T) in A; lia].
      + subst s. right. destruct (lt_eq_lt_dec c r) as [[H|H]|H]; [left; lia | lia | right; left; lia].
      + right. right. right. exists s, c. repeat split; try lia. destruct A as [A|A]; [apply (anc_le m W T) in A; lia | exact A]. }
  split; intros k Hk.
  - unfold K4. destruct (fold_cross J o (under i) K3 o k) as (_ & F1 & F2). destruct (in_dec Nat.eq_dec k (under i)) as [H4|H4]; [exact (F1 H4)|]. rewrite F2 by exact H4. clear F1 F2.
    unfold K3. destruct (fold_cross J o (seq (o + 1) (nvOf m i - r - 1)) K2 o k) as (_ & F1 & F2). destruct (in_dec Nat.eq_dec k (seq (o + 1) (nvOf m i - r - 1))) as [H3|H3]; [exact (F1 H3)|]. rewrite F2 by exact H3. clear F1 F2.
    unfold K2. destruct (fold_neg o (seq (idx_v m i) r) K1 o k NB) as (_ & F1 & F2). destruct (in_dec Nat.eq_dec k (seq (idx_v m i) r)) as [H2|H2].
    + rewrite F1 by exact H2. apply in_seq in H2. rewrite O1 by (unfold o; lia). replace k with (idx_v m i + (k - idx_v m i)) by lia. rewrite HB by lia. apply NO.
    + rewrite F2 by exact H2. clear F1 F2. unfold K1. destruct (fold_neg o (above i) K o k NA) as (_ & F1 & F2). apply CASES in Hk as [H1|[H1|[H1|H1]]]; try contradiction. rewrite F1 by exact H1.
      apply (above_in i k Hi) in H1 as (s & c & Hs & A & Hc & ->). rewrite HA by assumption. apply NO.
  - assert (N : forall (X : Prop), (X -> written i r k) -> ~ X) by (intros X HX x; exact (Hk (HX x))).
    assert (N1 : ~ In k (above i)) by (apply N; intros x; apply CASES; tauto). assert (N2 : ~ In k (seq (idx_v m i) r)) by (apply N; intros x; apply CASES; tauto).
    assert (N3 : ~ In k (seq (o + 1) (nvOf m i - r - 1))) by (apply N; intros x; apply CASES; tauto). assert (N4 : ~ In k (under i)) by (apply N; intros x; apply CASES; tauto).
    unfold K4. rewrite (proj2 (proj2 (fold_cross J o _ K3 o k)) N4). unfold K3. rewrite (proj2 (proj2 (fold_cross J o _ K2 o k)) N3).
    unfold K2. rewrite (proj2 (proj2 (fold_neg o _ K1 o k NB)) N2). exact (proj2 (proj2 (fold_neg o _ K o k NA)) N1).
Qed.
(* the slices (i', r') before (i, r) are final *)
Definition doneTo i r (K : Hess) : Prop := forall i' r' k, 0 < i' < m_njoints m -> r' < nvOf m i' ->
  ((i' < i \/ i' = i /\ r' < r) -> written i' r' k -> K (idx_v m i' + r') k = motion_cross (J (idx_v m i' + r')) (J k)) /\
  (((i < i' \/ i' = i /\ r <= r') \/ ~ written i' r' k) -> K (idx_v m i' + r') k = K0 (idx_v m i' + r') k).
Lemma done_row i r K : 0 < i < m_njoints m -> r < nvOf m i -> doneTo i r K -> doneTo i (S r) (hessSlice m J i K r).
Proof.
  intros Hi Hr D. destruct (slice_spec i r K Hi Hr) as (S1 & S2 & S3).
  - intros s c Hs A Hc. apply D; [lia | exact Hc | left; lia|]. exists i, r. repeat split; try lia; [right; exact A|]. pose proof (idx_lt s i ltac:(lia) ltac:(lia) ltac:(lia)). lia.
  - intros c Hc. apply D; [lia | lia | right; lia|]. exists i, r. repeat split; try lia. left. apply (anc_self m W T). lia.
  - intros i' r' k Hi' Hr'. destruct (D i' r' k Hi' Hr') as [D1 D2]. destruct (Nat.eq_dec (idx_v m i' + r') (idx_v m i + r)) as [E|N].
    + destruct (col_owner i' i r' r Hi' Hi Hr' Hr E) as [-> ->]. split; [intros _; apply S2|]. intros [H|H]; [lia|]. rewrite S3 by exact H. apply D2. now right.
    + rewrite S1 by exact N. assert (i' <> i \/ r' <> r) by (destruct (Nat.eq_dec i' i) as [->|]; [right; intros ->; lia | now left]). split; [intros H1; apply D1; lia|]. intros [H1|H1]; apply D2; [left; lia | now right].
Qed.
Lemma done_joint i K : 0 < i < m_njoints m -> doneTo i 0 K -> doneTo (i + 1) 0 (fold_left (hessSlice m J i) (seq 0 (nvOf m i)) K).
Proof.
  intros Hi D. assert (H : forall n, n <= nvOf m i -> doneTo i n (fold_left (hessSlice m J i) (seq 0 n) K)).
  { induction n as [|n IH]; intros Hn; [exact D|]. rewrite List.seq_S, fold_left_app. cbn [fold_left Nat.add]. apply done_row; [exact Hi | lia | apply IH; lia]. }
  specialize (H _ (le_n _)). intros i' r' k Hi' Hr'. destruct (H i' r' k Hi' Hr') as [D1 D2]. split; [intros H1; apply D1; destruct (Nat.eq_dec i' i) as [->|]; [right | left]; lia|].
  intros [H1|H1]; apply D2; [|now right]. left. lia.
Qed.
Theorem hessians_spec i r k : 0 < i < m_njoints m -> r < nvOf m i ->
  (written i r k -> computeJointKinematicHessians m J K0 (idx_v m i + r) k = motion_cross (J (idx_v m i + r)) (J k)) /\
  (~ written i r k -> computeJointKinematicHessians m J K0 (idx_v m i + r) k = K0 (idx_v m i + r) k).
Proof.
  assert (H : doneTo (m_njoints m) 0 (computeJointKinematicHessians m J K0)).
  { unfold computeJointKinematicHessians. apply (upward_inv m _ (fun n K => doneTo n 0 K)); [apply (wf_n _ W)| |].
    - intros i' r' k' Hi' Hr'. split; [intros; lia | reflexivity].
    - intros i' K Hi' D. now apply done_joint. }
  intros Hi Hr. destruct (H i r k Hi Hr) as [D1 D2]. split; [apply D1; lia | intros N; apply D2; now right].
Qed.
End KH.
