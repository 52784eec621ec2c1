(* The columns written by the passes over the support of a joint. *)
Require Import Reals List Arith ZArith Lia Bool FunctionalExtensionality.
From Verif Require Import Vec3 Spatial Inertia SpatialFacts Joints JointFacts Model Spec_Model ModelFacts ModelTree ModelFacts2 Data Kinematics Spec_Kin KinFacts Sums DynFacts TreeSums Spec_Mass MassFacts Crba Jacobian JacFacts.
Import ListNotations.
Local Open Scope nat_scope.
Local Open Scope bool_scope.

Definition sumF (f : nat -> V6) (l : list nat) : V6 := sumV6 (map f l).
Lemma sumV6_app a b : sumV6 (a ++ b) = v6add (sumV6 a) (sumV6 b).
Proof. induction a as [|x a IH]; cbn; [now rewrite v6add_0_l|]. rewrite IH. sring. Qed.
Lemma sumF_app f a b : sumF f (a ++ b) = v6add (sumF f a) (sumF f b).
Proof. unfold sumF. rewrite map_app. apply sumV6_app. Qed.
Lemma sumF_rev f l : sumF f (rev l) = sumF f l.
Proof. induction l as [|x l IH]; [reflexivity|]. cbn [rev]. rewrite sumF_app, IH. unfold sumF. cbn. sring. Qed.
Lemma sumF_filter f (P : nat -> bool) l : v6add (sumF f (filter (fun k => negb (P k)) l)) (sumF f (filter P l)) = sumF f l.
Proof. unfold sumF. induction l as [|x l IH]; [cbn; sring|]. cbn [filter map sumV6]. rewrite <- IH. destruct (P x); cbn [negb map sumV6]; sring. Qed.
Lemma sumF_ext f g l : (forall i, In i l -> f i = g i) -> sumF f l = sumF g l.
Proof. unfold sumF. induction l as [|x l IH]; intros H; [reflexivity|]. cbn. rewrite (H x (or_introl eq_refl)), IH; [reflexivity|]. intros i Hi. apply H. now right. Qed.
Lemma sumF_zero f l : (forall i, In i l -> f i = v6zero) -> sumF f l = v6zero.
Proof. unfold sumF. induction l as [|x l IH]; intros H; [reflexivity|]. cbn. rewrite (H x (or_introl eq_refl)), IH; [sring|]. intros i Hi. apply H. now right. Qed.
Lemma sumF_map (g : V6 -> V6) f l : g v6zero = v6zero -> (forall a b, g (v6add a b) = v6add (g a) (g b)) -> sumF (fun i => g (f i)) l = g (sumF f l).
Proof. intros H0 Ha. unfold sumF. induction l as [|x l IH]; cbn; [congruence|]. rewrite IH, Ha. reflexivity. Qed.

(* J.middleCols(v, n) updated columnwise *)
Definition updCols (h : V6 -> V6 -> V6) (v n : nat) (f : nat -> V6) (J : Jac) : Jac := fun k => if within v n k then h (J k) (f (k - v)) else J k.
Lemma upd_rows h (red : nat -> nat) (G : nat -> V6) b v : forall n (J : Jac), (forall a, a < n -> red (b + a) = v + a) ->
  fold_left (fun J e => putn J (red e) (h (J (red e)) (G e))) (rev (seq b n)) J = updCols h v n (fun a => G (b + a)) J.
Proof.
  induction n as [|n IH]; intros J H.
  - cbn. apply functional_extensionality. intros k. unfold updCols. rewrite (proj2 (within_false _ _ _)) by lia. reflexivity.
  - rewrite List.seq_S, rev_app_distr. cbn [rev app fold_left]. rewrite IH by (intros; apply H; lia). rewrite H by lia.
    apply functional_extensionality. intros k. unfold updCols, putn. destruct (within v (S n) k) eqn:E.
    + apply within_true in E. destruct (Nat.eqb_spec (v + n) k) as [<-|].
      * rewrite (proj2 (within_false _ _ _)) by lia. f_equal. f_equal. lia.
      * rewrite (proj2 (within_true _ _ _)) by lia. reflexivity.
    + apply within_false in E. rewrite (proj2 (within_false _ _ _)) by lia. destruct (Nat.eqb_spec (v + n) k); [lia|reflexivity].
Qed.

Section Cols.
Variable m : Model.
Hypothesis W : wellFormed m.
Hypothesis T : treeInv m.
Hypothesis Vm : validModel m.

Definition inRange (l : list nat) : Prop := forall i, In i l -> 0 < i < m_njoints m.
Definition updAll (h : V6 -> V6 -> V6) (F : nat -> nat -> V6) (l : list nat) (J : Jac) : Jac :=
  fold_left (fun J i => updCols h (idx_v m i) (nvEOf m i) (F i) J) l J.
(* the contribution of joint i to column k *)
Definition contrib (F : nat -> nat -> V6) (k i : nat) : V6 := if within (idx_v m i) (nvEOf m i) k then F i (k - idx_v m i) else v6zero.
(* column k belongs to an ordinary joint of the list *)
Definition owned (l : list nat) (k : nat) : bool := existsb (fun i => negb (isMimic (joint m i)) && within (idx_v m i) (nvEOf m i) k) l.
Definition jacForm (F : nat -> nat -> V6) (l : list nat) (J0 : Jac) : Jac :=
  fun k => v6add (if owned l k then v6zero else J0 k) (sumF (contrib F k) l).

Lemma owned_app a b k : owned (a ++ b) k = owned a k || owned b k.
Proof. apply existsb_app. Qed.
Lemma owned_rev l k : owned (rev l) k = owned l k.
Proof. induction l as [|x l IH]; [reflexivity|]. cbn [rev]. rewrite owned_app, IH. cbn. rewrite orb_false_r. apply orb_comm. Qed.
Lemma owned_filter l k : owned (filter (fun i => negb (isMimic (joint m i))) l) k = owned l k.
Proof.
  unfold owned. induction l as [|x l IH]; [reflexivity|]. cbn [filter existsb]. destruct (isMimic (joint m x)) eqn:E; cbn [negb andb orb]; [exact IH|].
  cbn [existsb]. rewrite E, IH. reflexivity.
Qed.

(* ranges of the reduced velocity *)
Lemma idx_v_free i j : 0 < i -> i < j -> j < m_njoints m -> isMimic (joint m i) = false -> isMimic (joint m j) = false -> idx_v m i + nvEOf m i <= idx_v m j.
Proof.
  intros H0 Hij Hj Ni Nj. rewrite (nvE_nv m W Vm i Ni) by lia. destruct (wf_range _ W i ltac:(lia) Ni) as [_ ->]. destruct (wf_range _ W j ltac:(lia) Nj) as [_ ->].
  destruct (wf_lengths _ W) as (L1&L2&L3&L4&L5&L6&L7&_). unfold nvOf. rewrite <- sum_firstn_S by lia. apply sum_firstn_mono. lia.
Qed.
Lemma idx_v_bound_free i : 0 < i < m_njoints m -> isMimic (joint m i) = false -> idx_v m i + nvEOf m i <= m_nv m.
Proof.
  intros Hi Ni. rewrite (nvE_nv m W Vm i Ni) by lia. destruct (wf_range _ W i Hi Ni) as [_ ->]. destruct (wf_total _ W) as (_ & -> & _).
  destruct (wf_lengths _ W) as (L1&L2&L3&L4&L5&L6&L7&_). unfold nvOf. rewrite <- sum_firstn_S by lia.
  rewrite <- (firstn_all (m_nvs m)) at 2. apply sum_firstn_mono. lia.
Qed.
Lemma mimic_range i : 0 < i < m_njoints m -> isMimic (joint m i) = true ->
  exists k, 0 < k < i /\ isMimic (joint m k) = false /\ idx_v m i = idx_v m k /\ nvEOf m i = nvEOf m k.
Proof.
  intros Hi E. unfold isMimic in E. destruct (jm_type (joint m i)) as [|j s o|] eqn:Ej; try discriminate.
  destruct (wf_mimic _ W i j s o Hi Ej) as (_ & Hk & Nk & _ & Ev & _ & En). exists (jm_ref (joint m i)). split; [exact Hk|]. split; [exact Nk|]. split; [exact Ev|].
  rewrite (nvE_nv m W Vm _ Nk) by lia. destruct (wf_joint _ W i Hi) as (_ & _ & _ & _ & _ & _ & <-). rewrite Ej. exact En.
Qed.
Lemma idx_v_boundE i : 0 < i < m_njoints m -> idx_v m i + nvEOf m i <= m_nv m.
Proof.
  intros Hi. destruct (isMimic (joint m i)) eqn:E; [|now apply idx_v_bound_free].
  destruct (mimic_range i Hi E) as (k & Hk & Nk & -> & ->). apply idx_v_bound_free; [lia|exact Nk].
Qed.
Lemma within_free i j k : 0 < i < m_njoints m -> 0 < j < m_njoints m -> isMimic (joint m i) = false -> isMimic (joint m j) = false ->
  within (idx_v m i) (nvEOf m i) k = true -> within (idx_v m j) (nvEOf m j) k = true -> i = j.
Proof.
  intros Hi Hj Ni Nj H1 H2. apply within_true in H1, H2. destruct (Nat.lt_total i j) as [H|[H|H]]; [|exact H|].
  - pose proof (idx_v_free i j ltac:(lia) H ltac:(lia) Ni Nj). lia.
  - pose proof (idx_v_free j i ltac:(lia) H ltac:(lia) Nj Ni). lia.
Qed.

Lemma add_all F l J k : updAll v6add F l J k = v6add (J k) (sumF (contrib F k) l).
Proof.
  revert J. induction l as [|i l IH]; intros J; [unfold sumF; cbn; sring|]. cbn [updAll fold_left]. fold (updAll v6add F l (updCols v6add (idx_v m i) (nvEOf m i) (F i) J)).
  rewrite IH. change (sumF (contrib F k) (i :: l)) with (v6add (contrib F k i) (sumF (contrib F k) l)). generalize (sumF (contrib F k) l). intros X. unfold updCols, contrib. destruct (within (idx_v m i) (nvEOf m i) k); sring.
Qed.
Lemma set_all F l J k : NoDup l -> inRange l -> (forall i, In i l -> isMimic (joint m i) = false) -> updAll (fun _ x => x) F l J k = jacForm F l J k.
Proof.
  revert J. unfold jacForm. induction l as [|i l IH]; intros J ND HR HN; [unfold sumF; cbn; sring|]. cbn [updAll fold_left].
  fold (updAll (fun _ x => x) F l (updCols (fun _ x => x) (idx_v m i) (nvEOf m i) (F i) J)). inversion ND as [|x y N1 N2]; subst.
  assert (Hi : 0 < i < m_njoints m) by (apply HR; now left). assert (Ni : isMimic (joint m i) = false) by (apply HN; now left).
  rewrite IH; [|exact N2 | intros x Hx; apply HR; now right | intros x Hx; apply HN; now right].
  unfold owned. cbn [existsb]. fold (owned l k). rewrite Ni. cbn [negb andb]. change (sumF (contrib F k) (i :: l)) with (v6add (contrib F k i) (sumF (contrib F k) l)).
  unfold updCols. unfold contrib at 2. destruct (within (idx_v m i) (nvEOf m i) k) eqn:E; cbn [orb].
  - assert (Off : forall j, In j l -> within (idx_v m j) (nvEOf m j) k = false).
    { intros j Hj. destruct (within (idx_v m j) (nvEOf m j) k) eqn:E'; [|reflexivity]. exfalso. apply N1.
      rewrite (within_free i j k Hi (HR j (or_intror Hj)) Ni (HN j (or_intror Hj)) E E'). exact Hj. }
    rewrite sumF_zero by (intros j Hj; unfold contrib; now rewrite Off). replace (owned l k) with false; [sring|].
    symmetry. unfold owned. apply not_true_is_false. intros H. apply existsb_exists in H. destruct H as (j & Hj & H). apply andb_true_iff in H. rewrite (Off j Hj) in H. destruct H; discriminate.
  - sring.
Qed.
(* assignments on the ordinary joints, additions on the mimic joints *)
Lemma two_pass F l l1 l2 J k : NoDup l -> inRange l ->
  (l1 = filter (fun i => negb (isMimic (joint m i))) l \/ l1 = rev (filter (fun i => negb (isMimic (joint m i))) l)) ->
  (l2 = filter (fun i => isMimic (joint m i)) l \/ l2 = rev (filter (fun i => isMimic (joint m i)) l)) ->
  updAll v6add F l2 (updAll (fun _ x => x) F l1 J) k = jacForm F l J k.
Proof.
  intros ND HR H1 H2. rewrite add_all. set (g1 := filter _ l) in H1. set (g2 := filter _ l) in H2.
  assert (E2 : sumF (contrib F k) l2 = sumF (contrib F k) g2) by (destruct H2 as [->| ->]; [reflexivity | apply sumF_rev]).
  assert (E1 : updAll (fun _ x => x) F l1 J k = jacForm F g1 J k).
  { assert (N1 : NoDup g1) by (apply NoDup_filter; exact ND). assert (R1 : inRange g1) by (intros i Hi; apply filter_In in Hi; apply HR, Hi).
    assert (M1 : forall i, In i g1 -> isMimic (joint m i) = false) by (intros i Hi; apply filter_In in Hi; destruct Hi as [_ Hi]; now apply negb_true_iff).
    destruct H1 as [->| ->]; [now apply set_all|]. rewrite set_all.
    - unfold jacForm. rewrite owned_rev, sumF_rev. reflexivity.
    - now apply NoDup_rev.
    - intros i Hi. apply R1. now apply in_rev.
    - intros i Hi. apply M1. now apply in_rev. }
  rewrite E1, E2. unfold jacForm. unfold g1 at 1. rewrite owned_filter. rewrite <- (sumF_filter (contrib F k) (fun i => isMimic (joint m i)) l). fold g1 g2. sring.
Qed.

Hypothesis Pos : forall i, 0 < i < m_njoints m -> 0 < nvEOf m i.
Lemma upd_walk h (G : nat -> V6) l : inRange l -> forall J,
  fold_left (fun J e => putn J (t_red (rowTables m) e) (h (J (t_red (rowTables m) e)) (G e))) (concat (map (colsDesc m) l)) J =
  updAll h (fun i a => G (idx_vE m i + a)) l J.
Proof.
  destruct (tables_inv m W Pos) as (_ & _ & _ & R & _). induction l as [|i l IH]; intros HR J; [reflexivity|]. cbn [map concat]. rewrite fold_left_app.
  unfold colsDesc at 2. rewrite (upd_rows h _ G (idx_vE m i) (idx_v m i)).
  - rewrite IH by (intros x Hx; apply HR; now right). reflexivity.
  - intros a Ha. apply R; [apply HR; now left | exact Ha].
Qed.

(* the support of a joint, universe left out *)
Lemma tl_range j : j < m_njoints m -> inRange (tl (support m j)).
Proof.
  revert j. refine (tree_ind m _ W _ _).
  - rewrite (support_0 m W T). intros i [].
  - intros j Hj IH i Hi. rewrite (tail_step m W T j Hj) in Hi. apply in_app_or in Hi. destruct Hi as [Hi|[<-|[]]]; [now apply IH | exact Hj].
Qed.
Lemma tl_le j : j < m_njoints m -> forall i, In i (tl (support m j)) -> i <= j.
Proof.
  revert j. refine (tree_ind m _ W _ _).
  - rewrite (support_0 m W T). intros i [].
  - intros j Hj IH i Hi. rewrite (tail_step m W T j Hj) in Hi. apply in_app_or in Hi. destruct Hi as [Hi|[<-|[]]]; [|lia].
    pose proof (IH i Hi). pose proof (wf_parent _ W j Hj). lia.
Qed.
Lemma tl_nodup j : j < m_njoints m -> NoDup (tl (support m j)).
Proof.
  revert j. refine (tree_ind m _ W _ _).
  - rewrite (support_0 m W T). constructor.
  - intros j Hj IH. rewrite (tail_step m W T j Hj). pose proof (wf_parent _ W j Hj) as Hp.
    apply NoDup_rev in IH. rewrite <- (rev_involutive (tl _ ++ [j])), rev_app_distr. apply NoDup_rev. cbn. constructor; [|exact IH].
    rewrite <- in_rev. intros H. pose proof (tl_le (parent m j) ltac:(lia) j H). lia.
Qed.
Lemma mimic_last j : 0 < j < m_njoints m -> (last (nth j (m_mimic_supports m) []) 0 =? j) = isMimic (joint m j).
Proof.
  intros Hj. rewrite (ti_mimic _ T) by lia. rewrite (tail_step m W T j Hj), filter_app. cbn [filter]. pose proof (wf_parent _ W j Hj) as Hp.
  destruct (isMimic (joint m j)) eqn:E.
  - rewrite app_comm_cons, last_last. apply Nat.eqb_refl.
  - rewrite app_nil_r. apply Nat.eqb_neq. assert (H : forall l x, (forall i, In i l -> i < j) -> x < j -> last (x :: l) 0 < j).
    { clear. induction l as [|y l IH]; intros x H Hx; [exact Hx|]. change (last (x :: y :: l) 0) with (last (y :: l) 0). apply IH; [|apply H; now left]. intros i Hi. apply H. now right. }
    assert (last (0 :: filter (fun k => isMimic (joint m k)) (tl (support m (parent m j)))) 0 < j); [|lia]. apply H; [|lia].
    intros i Hi. apply filter_In in Hi. pose proof (tl_le (parent m j) ltac:(lia) i (proj1 Hi)). lia.
Qed.

(* translateJointJacobian *)
Lemma translate_at j rf P Jin J0 k : 0 < j < m_njoints m ->
  translateJointJacobian m j rf P Jin J0 k = jacForm (fun i a => toFrame rf P (Jin (idx_vE m i + a))) (tl (support m j)) J0 k.
Proof.
  intros Hj. unfold translateJointJacobian. destruct (tables_inv m W Pos) as (T1 & T2 & T3 & _ & _). rewrite (mimic_last j Hj).
  pose proof (wf_parent _ W j Hj) as Hp. pose proof (Pos j Hj) as HP.
  pose proof (T2 j 0 ltac:(lia) ltac:(lia) ltac:(lia)) as N0. pose proof (T3 j 0 ltac:(lia) ltac:(lia) ltac:(lia)) as M0. rewrite Nat.add_0_r in N0, M0. cbn [Nat.eqb] in N0, M0.
  assert (LC : (Z.of_nat (idx_vE m j) + Z.of_nat (nvEOf m j) - 1)%Z = lastCol m j).
  { unfold lastCol. destruct (Nat.ltb_spec 0 j); [|lia]. destruct (jmE m W j Hj) as (-> & -> & _). reflexivity. }
  assert (B : forall stop, (lastCol m (ancestorWith m stop j j) < Z.of_nat (S (m_nvE m)))%Z).
  { intros stop. assert (A : ancestorWith m stop j j < m_njoints m).
    { assert (G : forall f r, r < m_njoints m -> ancestorWith m stop f r < m_njoints m).
      { intros f. induction f as [|f IHf]; intros s Hs; [exact Hs|]. cbn [ancestorWith]. destruct ((0 <? s) && negb (stop s)) eqn:E'; [|exact Hs].
        apply andb_true_iff in E'. destruct E' as [E' _]. apply Nat.ltb_lt in E'. pose proof (wf_parent _ W s ltac:(lia)). apply IHf. lia. }
      apply G. lia. }
    unfold lastCol. destruct (Nat.ltb_spec 0 (ancestorWith m stop j j)); [|lia]. destruct (jmE m W (ancestorWith m stop j j) ltac:(lia)) as (-> & -> & _).
    pose proof (idx_vE_bound m W (ancestorWith m stop j j) ltac:(lia)). lia. }
  assert (C1 : (if isMimic (joint m j) then t_non (rowTables m) (idx_vE m j) else (Z.of_nat (idx_vE m j) + Z.of_nat (nvEOf m j) - 1)%Z) = lastCol m (ancestorWith m (fun k => negb (isMimic (joint m k))) j j)).
  { rewrite (ancestor_eq m W) by lia. destruct (Nat.eqb_spec j 0); [lia|]. destruct (isMimic (joint m j)); cbn [negb]; [exact N0 | exact LC]. }
  assert (C2 : (if isMimic (joint m j) then (Z.of_nat (idx_vE m j) + Z.of_nat (nvEOf m j) - 1)%Z else t_mim (rowTables m) (idx_vE m j)) = lastCol m (ancestorWith m (fun k => isMimic (joint m k)) j j)).
  { rewrite (ancestor_eq m W) by lia. destruct (Nat.eqb_spec j 0); [lia|]. destruct (isMimic (joint m j)); [exact LC | exact M0]. }
  rewrite C1, C2. rewrite (walk_support m W T Pos _ _ T2 j ltac:(lia) _ (B _)), (walk_support m W T Pos _ _ T3 j ltac:(lia) _ (B _)).
  assert (R : forall stop, inRange (rev (filter stop (tl (support m j))))).
  { intros stop i Hi. apply in_rev in Hi. apply filter_In in Hi. apply (tl_range j); [lia | apply Hi]. }
  rewrite (upd_walk (fun _ x => x) (fun e => toFrame rf P (Jin e)) _ (R _)), (upd_walk v6add (fun e => toFrame rf P (Jin e)) _ (R _)).
  apply two_pass; [apply tl_nodup; lia | apply tl_range; lia | now right | now right].
Qed.
End Cols.
