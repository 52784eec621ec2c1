(* Appending a model: the order of the joints of the result. *)
Require Import Reals String List Arith Bool Lia Sorted.
From Verif Require Import Vec3 Spatial Inertia InertiaFacts Joints Spec_Joints Model Spec_Model ModelFacts ModelFacts2 ModelTree ModelFacts3 Spec_Kin Mimic MimicFacts Reduce Spec_Append AppendFacts AppendFacts2 AppendFacts3 ReduceFacts Append.
Import ListNotations.
Local Open Scope nat_scope.

Definition Key := (bool * nat)%type.
Definition keyEqb (k k' : Key) : bool := Bool.eqb (fst k) (fst k') && (snd k =? snd k').
Lemma keyEqb_eq k k' : keyEqb k k' = true <-> k = k'.
Proof.
  destruct k as [c i], k' as [c' i']. unfold keyEqb. cbn. rewrite andb_true_iff, eqb_true_iff, Nat.eqb_eq. split; [intros [-> ->]; reflexivity | intros E; injection E; auto].
Qed.
Lemma findIndex_app {A} (f : A -> bool) l l' x : In x l -> f x = true -> findIndex f (l ++ l') = findIndex f l.
Proof. induction l as [|y l IH]; intros H Hx; [destruct H|]. cbn. destruct (f y) eqn:E; [reflexivity|]. destruct H as [->|H]; [congruence|]. f_equal. now apply IH. Qed.
Lemma findKey l n k : NoDup l -> nth_error l n = Some k -> findIndex (keyEqb k) l = n.
Proof.
  revert n. induction l as [|x l IH]; intros n ND H; [destruct n; discriminate|]. inversion ND; subst. destruct n as [|n]; cbn in H |- *.
  - injection H as ->. now rewrite (proj2 (keyEqb_eq k k) eq_refl).
  - destruct (keyEqb k x) eqn:E; [apply keyEqb_eq in E; subst; exfalso; apply nth_error_In in H; contradiction|]. f_equal. now apply IH.
Qed.
Lemma NoDup_app_l {A} (l l' : list A) : NoDup (l ++ l') -> NoDup l.
Proof. induction l as [|x l IH]; intros H; [constructor|]. inversion H; subst. constructor; [intros X; apply H2, in_or_app; now left | now apply IH]. Qed.
Lemma NoDup_app_r {A} (l l' : list A) : NoDup (l ++ l') -> NoDup l'.
Proof. induction l as [|x l IH]; intros H; [exact H|]. inversion H; subst. now apply IH. Qed.
Lemma NoDup_app_disj {A} (l l' : list A) x : NoDup (l ++ l') -> In x l -> ~ In x l'.
Proof. induction l as [|y l IH]; intros H Hx Hx'; [destruct Hx|]. inversion H; subst. destruct Hx as [->|Hx]; [apply H2, in_or_app; now right | now apply IH]. Qed.
Lemma NoDup_app_i {A} (l l' : list A) : NoDup l -> NoDup l' -> (forall x, In x l -> ~ In x l') -> NoDup (l ++ l').
Proof.
  induction l as [|x l IH]; intros H H' Hd; [exact H'|]. inversion H; subst. cbn. constructor.
  - intros X. apply in_app_or in X. destruct X as [X|X]; [contradiction | apply (Hd x); [now left | exact X]].
  - apply IH; [assumption | assumption|]. intros y Hy. apply Hd. now right.
Qed.
Lemma filter_all {A} (f : A -> bool) l : (forall x, In x l -> f x = true) -> filter f l = l.
Proof. induction l as [|x l IH]; intros H; [reflexivity|]. cbn. rewrite (H x (or_introl eq_refl)), IH; [reflexivity|]. intros y Hy. apply H. now right. Qed.
Lemma filter_none {A} (f : A -> bool) l : (forall x, In x l -> f x = false) -> filter f l = [].
Proof. induction l as [|x l IH]; intros H; [reflexivity|]. cbn. rewrite (H x (or_introl eq_refl)), IH; [reflexivity|]. intros y Hy. apply H. now right. Qed.
Lemma NoDup_map_pair {A} (c : bool) (l : list A) : NoDup l -> NoDup (map (pair c) l).
Proof. apply FinFun.Injective_map_NoDup. intros x y E. now injection E. Qed.
Lemma sorted_seq s n : StronglySorted lt (seq s n).
Proof. revert s. induction n as [|n IH]; intros s; constructor; [apply IH|]. apply Forall_forall. intros x Hx. apply in_seq in Hx. lia. Qed.
Lemma sorted_filter (f : nat -> bool) l : StronglySorted lt l -> StronglySorted lt (filter f l).
Proof.
  induction 1 as [|x l H IH Hx]; cbn; [constructor|]. destruct (f x); [|exact IH]. constructor; [exact IH|]. rewrite Forall_forall in *. intros y Hy. apply filter_In in Hy. now apply Hx.
Qed.
Lemma sorted_split l l1 i l2 : StronglySorted lt l -> l = l1 ++ i :: l2 -> forall x, In x l -> x < i -> In x l1.
Proof.
  intros H E x Hx Hlt. subst l. apply in_app_or in Hx. destruct Hx as [Hx|Hx]; [exact Hx|]. exfalso. revert H. induction l1 as [|y l1 IH]; cbn; intros H.
  - inversion H as [|? ? ? Hf]; subst. destruct Hx as [->|Hx]; [lia|]. rewrite Forall_forall in Hf. specialize (Hf x Hx). lia.
  - inversion H; subst. now apply IH.
Qed.

Section Order.
Variables (a b : Model) (p : nat).
Hypotheses (Wa : wellFormed a) (Wb : wellFormed b) (Ta : treeInv a) (Hp : p < m_njoints a).
Hypothesis MI : forall i, 0 < i < m_njoints a -> isMimic (joint a i) = true -> onPath a p i -> jm_ref (joint a i) <= p \/ onPath a p (jm_ref (joint a i)).
Definition early (j : nat) : bool := (j <=? p) || hasAncestor a j p.
Lemma before_filter : beforeB a p = filter early (seq 1 (m_njoints a - 1)) /\ afterB a p = filter (fun j => negb (early j)) (seq 1 (m_njoints a - 1)).
Proof.
  destruct (wf_lengths _ Wa) as (_&_&L3&_). unfold beforeB, afterB. rewrite L3. replace (m_njoints a - 1) with (p + (m_njoints a - S p)) by lia. rewrite seq_app, !filter_app.
  assert (E1 : filter early (seq 1 p) = seq 1 p).
  { apply filter_all. intros x Hx. apply in_seq in Hx. unfold early. apply orb_true_iff. left. apply Nat.leb_le. lia. }
  assert (E2 : filter (fun j => negb (early j)) (seq 1 p) = []).
  { apply filter_none. intros x Hx. apply in_seq in Hx. unfold early. replace (x <=? p) with true by (symmetry; apply Nat.leb_le; lia). reflexivity. }
  assert (E3 : forall x, In x (seq (1 + p) (m_njoints a - S p)) -> early x = hasAncestor a x p).
  { intros x Hx. apply in_seq in Hx. unfold early. replace (x <=? p) with false by (symmetry; apply Nat.leb_gt; lia). reflexivity. }
  rewrite E1, E2. split; [f_equal|cbn [app]]; apply filter_ext_in; intros x Hx; rewrite (E3 x Hx); reflexivity.
Qed.
Lemma early_spec j : j < m_njoints a -> early j = true <-> j <= p \/ onPath a p j.
Proof. intros Hj. unfold early. rewrite orb_true_iff, Nat.leb_le, (hasAncestor_spec a p j Ta Hj). reflexivity. Qed.
Lemma onPath_parent i : 0 < i < m_njoints a -> onPath a p i -> i = p \/ onPath a p (parent a i).
Proof.
  intros Hi H. pose proof (wf_parent _ Wa i Hi) as Hpi. apply (onPath_support a p i Ta ltac:(lia)) in H.
  assert (E : support a i = support a (parent a i) ++ [i]).
  { apply (path_fun a i _ _ (ti_path _ Ta i ltac:(lia))). apply path_joint; [lia|]. apply (ti_path _ Ta). lia. }
  rewrite E in H. apply in_app_or in H. destruct H as [H|[->|[]]]; [right; apply (onPath_support a p (parent a i) Ta); [lia | exact H] | now left].
Qed.
Lemma early_parent i : 0 < i < m_njoints a -> early i = true -> early (parent a i) = true.
Proof.
  intros Hi H. pose proof (wf_parent _ Wa i Hi) as Hpi. apply (early_spec i ltac:(lia)) in H. apply (early_spec (parent a i)); [lia|]. destruct H as [H|H]; [left; lia|].
  destruct (onPath_parent i Hi H) as [->|X]; [left; lia | now right].
Qed.
Lemma early_ref i : 0 < i < m_njoints a -> isMimic (joint a i) = true -> early i = true -> early (jm_ref (joint a i)) = true.
Proof.
  intros Hi Hm H. apply (early_spec i ltac:(lia)) in H. assert (Er : 0 < jm_ref (joint a i) < i).
  { unfold isMimic in Hm. destruct (jm_type (joint a i)) as [|j s o|] eqn:E; try discriminate. now pose proof (wf_mimic _ Wa i j s o Hi E) as (_ & X & _). }
  apply (early_spec (jm_ref (joint a i))); [lia|]. destruct H as [H|H]; [left; lia|]. now apply MI.
Qed.

Definition srcOf (c : bool) : Model := if c then a else b.
Definition ks1 : list Key := (true, 0) :: map (pair true) (beforeB a p).
Definition ks2 : list Key := map (pair false) (seq 1 (m_njoints b - 1)).
Definition ks3 : list Key := map (pair true) (afterB a p).
Definition KS : list Key := ks1 ++ (false, 0) :: ks2 ++ ks3.
Definition isJ (k : Key) : bool := negb (snd k =? 0).
Definition joints (ks : list Key) : list Key := filter isJ ks.
Definition pos (k : Key) : nat := if snd k =? 0 then (if fst k then 0 else p) else S (findIndex (keyEqb k) (joints KS)).
Lemma KS_In c i : In (c, i) KS <-> i < m_njoints (srcOf c).
Proof.
  destruct before_filter as [B1 B2]. pose proof (wf_n _ Wa) as Na. pose proof (wf_n _ Wb) as Nb. unfold KS, ks1, ks2, ks3. rewrite B1, B2.
  assert (X : forall c0 (l : list nat), In (c, i) (map (pair c0) l) <-> c = c0 /\ In i l).
  { intros c0 l. rewrite in_map_iff. split; [intros (x & E & Hx); injection E as <- <-; auto | intros [-> Hx]; eauto]. }
  cbn [app]. change (In (c, i) (?x :: ?l)) with (x = (c, i) \/ In (c, i) l). rewrite in_app_iff. change (In (c, i) (?x :: ?l)) with (x = (c, i) \/ In (c, i) l). rewrite in_app_iff, !X, !filter_In, !in_seq. destruct c; cbn [srcOf].
  - split.
    + intros [E|[[_ [E _]]|[E|[[E _]|[_ [E _]]]]]]; try discriminate; try (injection E as <-); lia.
    + intros Hi. destruct (Nat.eq_dec i 0) as [->|]; [now left|]. right. destruct (early i) eqn:E; [left | right; right; right]; (split; [reflexivity|]); (split; [lia|]); reflexivity.
  - split.
    + intros [E|[[E _]|[E|[[_ E]|[E _]]]]]; try discriminate; [injection E as <-|]; lia.
    + intros Hi. destruct (Nat.eq_dec i 0) as [->|]; [right; right; now left|]. right; right; right; left. split; [reflexivity|lia].
Qed.
Lemma KS_NoDup : NoDup KS.
Proof.
  destruct before_filter as [B1 B2]. unfold KS, ks1, ks2, ks3. rewrite B1, B2. cbn [app].
  assert (N1 : forall f, NoDup (map (pair true) (filter f (seq 1 (m_njoints a - 1))))) by (intros f; apply NoDup_map_pair, NoDup_filter, seq_NoDup).
  assert (X : forall (c0 c : bool) (i : nat) (l : list nat), In (c, i) (map (pair c0) l) <-> c = c0 /\ In i l).
  { intros c0 c i l. rewrite in_map_iff. split; [intros (x & E & Hx); injection E as <- <-; auto | intros [-> Hx]; eauto]. }
  constructor.
  - rewrite in_app_iff. change (In (true, 0) (?x :: ?l)) with (x = (true, 0) \/ In (true, 0) l). rewrite in_app_iff, !X, !filter_In, !in_seq.
    intros [[_ [E _]]|[E|[[E _]|[_ [E _]]]]]; try discriminate; lia.
  - apply NoDup_app_i; [apply N1 | |].
    + constructor; [rewrite in_app_iff, !X, !in_seq; intros [[_ E]|[E _]]; [lia|discriminate]|]. apply NoDup_app_i; [apply NoDup_map_pair, seq_NoDup | apply N1|].
      intros [c i]. rewrite !X. intros [-> _] [E _]. discriminate.
    + intros [c i]. change (In (c, i) (?x :: ?l)) with (x = (c, i) \/ In (c, i) l). rewrite in_app_iff, !X, !filter_In. intros [-> [_ E1]] [E|[[E _]|[_ [_ E]]]]; try discriminate. rewrite E1 in E. discriminate.
Qed.
Lemma joints_app l l' : joints (l ++ l') = joints l ++ joints l'. Proof. apply filter_app. Qed.
Lemma pos_prefix ks rest k : KS = ks ++ rest -> In k ks -> isJ k = true -> nth_error (joints ks) (pos k - 1) = Some k /\ 0 < pos k /\ pos k < S (length (joints ks)).
Proof.
  intros E Hk HJ. unfold pos. unfold isJ in HJ. apply negb_true_iff in HJ. rewrite HJ. rewrite E, joints_app.
  assert (Hin : In k (joints ks)) by (apply filter_In; split; [exact Hk | unfold isJ; now rewrite HJ]).
  rewrite (findIndex_app _ _ _ k Hin (proj2 (keyEqb_eq k k) eq_refl)). destruct (In_nth_error _ _ Hin) as [n Hn].
  assert (ND : NoDup (joints ks)). { apply NoDup_filter. apply (NoDup_app_l ks rest). rewrite <- E. apply KS_NoDup. }
  rewrite (findKey _ n k ND Hn). replace (S n - 1) with n by lia. split; [exact Hn|]. assert (n < length (joints ks)) by (apply nth_error_Some; congruence). lia.
Qed.
Lemma pos_next ks k rest : KS = ks ++ k :: rest -> isJ k = true -> pos k = S (length (joints ks)).
Proof.
  intros E HJ. unfold pos. assert (HJ' := HJ). unfold isJ in HJ'. apply negb_true_iff in HJ'. rewrite HJ'. f_equal. apply findKey; [apply NoDup_filter, KS_NoDup|].
  rewrite E, joints_app, nth_error_app2, Nat.sub_diag by lia. unfold joints. cbn [filter]. rewrite HJ. reflexivity.
Qed.
Lemma pos_lt ks rest k : KS = ks ++ rest -> p < S (length (joints ks)) \/ (fst k = true \/ isJ k = true) -> In k ks -> pos k < S (length (joints ks)).
Proof.
  intros E H Hk. destruct (isJ k) eqn:HJ; [now apply (pos_prefix ks rest k E Hk HJ)|]. unfold isJ in HJ. apply negb_false_iff in HJ. unfold pos. rewrite HJ. destruct k as [[] i]; cbn [fst] in *; [lia|]. destruct H as [H|[H|H]]; [exact H | discriminate..].
Qed.
Lemma ks1_joints : joints ks1 = map (pair true) (beforeB a p) /\ p < S (length (joints ks1)) .
Proof.
  assert (E : joints ks1 = map (pair true) (beforeB a p)).
  { unfold ks1, joints. cbn [filter isJ snd negb Nat.eqb]. rewrite (proj1 before_filter). apply filter_all. intros x Hx. apply in_map_iff in Hx.
    destruct Hx as (y & <- & Hy). apply filter_In in Hy. destruct Hy as [Hy _]. apply in_seq in Hy. unfold isJ. cbn. destruct y; [lia|reflexivity]. }
  split; [exact E|]. rewrite E, map_length. unfold beforeB. rewrite app_length, seq_length. lia.
Qed.
Lemma pos_a i : i <= p -> pos (true, i) = i.
Proof.
  intros Hi. unfold pos. cbn [fst snd]. destruct (Nat.eqb_spec i 0) as [->|Hn]; [reflexivity|]. rewrite (findKey (joints KS) (i - 1) (true, i)); [lia | apply NoDup_filter, KS_NoDup|].
  unfold KS. rewrite joints_app, (proj1 ks1_joints). unfold beforeB. rewrite map_app, <- app_assoc, nth_error_app1 by (rewrite map_length, seq_length; lia).
  rewrite nth_error_map. rewrite (nth_error_nth' (seq 1 p) (i - 1) 0) by (rewrite seq_length; lia). rewrite seq_nth by lia. cbn. do 2 f_equal. lia.
Qed.
Lemma pos_p : pos (true, p) = p. Proof. apply pos_a. lia. Qed.
Lemma pos_inj k k' : In k KS -> In k' KS -> isJ k = true -> isJ k' = true -> pos k = pos k' -> k = k'.
Proof.
  intros H H' J J' E. destruct (pos_prefix KS [] k (eq_sym (app_nil_r _)) H J) as (X & _). destruct (pos_prefix KS [] k' (eq_sym (app_nil_r _)) H' J') as (X' & _). rewrite E in X. congruence.
Qed.

(* the joints a joint depends on come before it *)
Lemma closed_before l1 i l2 : beforeB a p = l1 ++ i :: l2 -> 0 < i < m_njoints a /\ In (true, parent a i) ((true, 0) :: map (pair true) l1) /\
  (isMimic (joint a i) = true -> In (true, jm_ref (joint a i)) ((true, 0) :: map (pair true) l1)).
Proof.
  intros E. rewrite (proj1 before_filter) in E. pose proof (sorted_filter early _ (sorted_seq 1 (m_njoints a - 1))) as So.
  assert (Hin : In i (filter early (seq 1 (m_njoints a - 1)))) by (rewrite E; apply in_or_app; right; now left). apply filter_In in Hin. destruct Hin as [Hs He]. apply in_seq in Hs.
  assert (Hi : 0 < i < m_njoints a) by lia. split; [exact Hi|].
  assert (G : forall x, x < i -> early x = true -> In (true, x) ((true, 0) :: map (pair true) l1)).
  { intros x Hx Ex. destruct (Nat.eq_dec x 0) as [->|]; [now left|]. right. apply in_map. apply (sorted_split _ l1 i l2 So E); [|exact Hx]. apply filter_In. split; [apply in_seq; lia|exact Ex]. }
  split.
  - apply G; [apply (wf_parent _ Wa i Hi) | now apply early_parent].
  - intros Hm. apply G; [|now apply early_ref]. unfold isMimic in Hm. destruct (jm_type (joint a i)) as [|j s o|] eqn:Ej; try discriminate. pose proof (wf_mimic _ Wa i j s o Hi Ej) as (_ & X & _). lia.
Qed.
Lemma closed_b l1 i l2 : seq 1 (m_njoints b - 1) = l1 ++ i :: l2 -> 0 < i < m_njoints b /\ In (false, parent b i) ((false, 0) :: map (pair false) l1) /\
  (isMimic (joint b i) = true -> In (false, jm_ref (joint b i)) ((false, 0) :: map (pair false) l1)).
Proof.
  intros E. pose proof (sorted_seq 1 (m_njoints b - 1)) as So. assert (Hin : In i (seq 1 (m_njoints b - 1))) by (rewrite E; apply in_or_app; right; now left). apply in_seq in Hin.
  assert (Hi : 0 < i < m_njoints b) by lia. split; [exact Hi|].
  assert (G : forall x, x < i -> In (false, x) ((false, 0) :: map (pair false) l1)).
  { intros x Hx. destruct (Nat.eq_dec x 0) as [->|]; [now left|]. right. apply in_map. apply (sorted_split _ l1 i l2 So E); [|exact Hx]. apply in_seq; lia. }
  split; [apply G, (wf_parent _ Wb i Hi)|]. intros Hm. apply G. unfold isMimic in Hm. destruct (jm_type (joint b i)) as [|j s o|] eqn:Ej; try discriminate. pose proof (wf_mimic _ Wb i j s o Hi Ej) as (_ & X & _). lia.
Qed.
Lemma closed_after l1 i l2 : afterB a p = l1 ++ i :: l2 -> 0 < i < m_njoints a /\ In (true, parent a i) (ks1 ++ map (pair true) l1) /\
  (isMimic (joint a i) = true -> In (true, jm_ref (joint a i)) (ks1 ++ map (pair true) l1)).
Proof.
  intros E. rewrite (proj2 before_filter) in E. set (late := fun j => negb (early j)) in *. pose proof (sorted_filter late _ (sorted_seq 1 (m_njoints a - 1))) as So.
  assert (Hin : In i (filter late (seq 1 (m_njoints a - 1)))) by (rewrite E; apply in_or_app; right; now left). apply filter_In in Hin. destruct Hin as [Hs He]. apply in_seq in Hs.
  assert (Hi : 0 < i < m_njoints a) by lia. split; [exact Hi|].
  assert (G : forall x, x < i -> In (true, x) (ks1 ++ map (pair true) l1)).
  { intros x Hx. apply in_or_app. destruct (Nat.eq_dec x 0) as [->|]; [left; now left|]. destruct (early x) eqn:Ex.
    - left. right. apply in_map. rewrite (proj1 before_filter). apply filter_In. split; [apply in_seq; lia|exact Ex].
    - right. apply in_map. apply (sorted_split _ l1 i l2 So E); [|exact Hx]. apply filter_In. split; [apply in_seq; lia|]. unfold late. now rewrite Ex. }
  split; [apply G, (wf_parent _ Wa i Hi)|]. intros Hm. apply G. unfold isMimic in Hm. destruct (jm_type (joint a i)) as [|j s o|] eqn:Ej; try discriminate. pose proof (wf_mimic _ Wa i j s o Hi Ej) as (_ & X & _). lia.
Qed.
End Order.
