(* What transformJointIntoMimic produces. *)
Require Import Reals String List Arith Bool Lia.
From Verif Require Import Vec3 Spatial Inertia Joints Spec_Joints Model Spec_Model ModelFacts ModelFacts2 ModelTree Mimic Spec_Mimic.
Import ListNotations.
Local Open Scope nat_scope.

(* ---- segments ---- *)
Lemma firstn_add {A} p n (l : list A) : firstn (p + n) l = firstn p l ++ firstn n (skipn p l).
Proof. revert l; induction p as [|p IH]; intros l; [reflexivity|]. destruct l as [|x l]; cbn; [now destruct n | now rewrite IH]. Qed.
Lemma skipn_add {A} p n (l : list A) : skipn (p + n) l = skipn n (skipn p l).
Proof. revert l; induction p as [|p IH]; intros l; [reflexivity|]. destruct l as [|x l]; cbn; [now destruct n | apply IH]. Qed.
Lemma skipn_app_l {A} k (a b : list A) : k <= length a -> skipn k (a ++ b) = skipn k a ++ b.
Proof. intros H. rewrite skipn_app. now replace (k - length a) with 0 by lia. Qed.
Lemma firstn_app_l {A} k (a b : list A) : k <= length a -> firstn k (a ++ b) = firstn k a.
Proof. intros H. rewrite firstn_app. replace (k - length a) with 0 by lia. cbn. apply app_nil_r. Qed.

Lemma setSegment_length l o x : o + length x <= length l -> length (setSegment l o x) = length l.
Proof. intros H. unfold setSegment. rewrite !app_length, firstn_length, skipn_length. lia. Qed.
Lemma setSegment_prefix d T p x : p + length x <= length d -> firstn p d = firstn p T -> x = firstn (length x) (skipn p T) ->
  firstn (p + length x) (setSegment d p x) = firstn (p + length x) T.
Proof.
  intros H E Ex. unfold setSegment. rewrite app_assoc, firstn_app_l by (rewrite app_length, firstn_length; lia).
  rewrite firstn_all2 by (rewrite app_length, firstn_length; lia). rewrite firstn_add, <- Ex, E. reflexivity.
Qed.

Lemma removeSeg_length l p n : p + n <= length l -> length (removeSeg p n l) = length l - n.
Proof. intros H. unfold removeSeg. rewrite app_length, firstn_length, skipn_length. lia. Qed.
Lemma removeSeg_before l p n k c : k + c <= p -> p + n <= length l -> firstn c (skipn k (removeSeg p n l)) = firstn c (skipn k l).
Proof.
  intros H Hl. unfold removeSeg. rewrite skipn_app_l by (rewrite firstn_length; lia).
  rewrite firstn_app_l by (rewrite skipn_length, firstn_length; lia).
  rewrite <- (firstn_skipn p l) at 2. rewrite skipn_app_l by (rewrite firstn_length; lia).
  rewrite firstn_app_l by (rewrite skipn_length, firstn_length; lia). reflexivity.
Qed.
Lemma removeSeg_after l p n k c : p + n <= k -> p + n <= length l -> firstn c (skipn (k - n) (removeSeg p n l)) = firstn c (skipn k l).
Proof.
  intros H Hl. unfold removeSeg. rewrite skipn_app, skipn_all2 by (rewrite firstn_length; lia). rewrite app_nil_l, firstn_length, <- skipn_add.
  f_equal. f_equal. lia.
Qed.

(* ---- running sums when entry b becomes 0 ---- *)
Lemma upd_firstn_le {A} (l : list A) b f i : i <= b -> firstn i (upd l b f) = firstn i l.
Proof.
  intros H. unfold upd. destruct (nth_error l b) eqn:E; [|reflexivity].
  assert (b < length l) by (apply nth_error_Some; congruence).
  rewrite firstn_app_l by (rewrite firstn_length; lia). rewrite firstn_firstn. now replace (Nat.min i b) with i by lia.
Qed.
Lemma sum_upd0 l b : b < length l -> sum (upd l b (fun _ => 0)) + nth b l 0 = sum l.
Proof.
  intros H. unfold upd. destruct (nth_error l b) as [x|] eqn:E; [|apply nth_error_None in E; lia].
  rewrite <- (firstn_skipn b l) at 4. rewrite !sum_app.
  assert (Es : skipn b l = x :: skipn (S b) l).
  { apply nth_error_split in E. destruct E as (l1 & l2 & -> & <-). rewrite skipn_app_l, skipn_all by lia.
    rewrite <- Nat.add_1_r, skipn_add, skipn_app_l, skipn_all by lia. reflexivity. }
  rewrite Es. apply nth_error_nth with (d := 0) in E. rewrite E. cbn. unfold sum. lia.
Qed.
Lemma upd_firstn_gt {A} (l : list A) b f i : b < i -> firstn i (upd l b f) = upd (firstn i l) b f.
Proof.
  intros H. unfold upd.
  assert (E : nth_error (firstn i l) b = nth_error l b).
  { revert i b H. induction l as [|x l IH]; intros i b H; [now rewrite firstn_nil|]. destruct i; [lia|]. destruct b; [reflexivity|]. cbn. apply IH; lia. }
  rewrite E. destruct (nth_error l b) eqn:E2; [|reflexivity].
  assert (b < length l) by (apply nth_error_Some; congruence).
  rewrite firstn_app, firstn_all2 by (rewrite firstn_length; lia). rewrite firstn_length. replace (Nat.min b (length l)) with b by lia.
  destruct (i - b) as [|c] eqn:Ec; [lia|]. cbn [firstn]. rewrite firstn_firstn. replace (Nat.min b i) with b by lia. do 2 f_equal.
  rewrite skipn_firstn_comm. f_equal. lia.
Qed.
Lemma sumS_upd0 l b i : b < length l -> sum (firstn i (upd l b (fun _ => 0))) + (if b <? i then nth b l 0 else 0) = sum (firstn i l).
Proof.
  intros H. destruct (Nat.ltb_spec b i) as [Hi|Hi].
  - rewrite upd_firstn_gt by lia. rewrite <- (sum_upd0 (firstn i l) b) by (rewrite firstn_length; lia). f_equal.
    rewrite <- (firstn_skipn i l) at 1. rewrite app_nth1 by (rewrite firstn_length; lia). reflexivity.
  - rewrite upd_firstn_le by lia. lia.
Qed.

(* ---- copies ---- *)
Definition vinv (P n N p : nat) (s d : list R) : Prop :=
  length s = N + n /\ length d = N /\ firstn p d = firstn p (removeSeg P n s).
Lemma copySegs_inv P n N p srcs dsts i o c : P <= N ->
  Forall2 (vinv P n N p) srcs dsts -> i + c <= N + n -> o + c <= N ->
  (c = 0 \/ (o = p /\ ((i = p /\ i + c <= P) \/ (P + n <= i /\ p = i - n)))) ->
  exists r, copySegs srcs dsts i o c = Some r /\ Forall2 (vinv P n N (p + c)) srcs r.
Proof.
  intros HP H Hi Ho Hc. induction H as [|s d srcs dsts (L1 & L2 & E) H (r & IH1 & IH2)].
  - exists []. split; [reflexivity | constructor].
  - cbn [copySegs]. unfold copySeg. rewrite L1, L2. destruct (Nat.leb_spec (i + c) (N + n)); [|lia]. destruct (Nat.leb_spec (o + c) N); [|lia].
    cbn [andb]. rewrite IH1. eexists. split; [reflexivity|]. constructor; [|exact IH2].
    assert (Lx : length (firstn c (skipn i s)) = c) by (rewrite firstn_length, skipn_length; lia).
    split; [exact L1|]. split; [rewrite setSegment_length; lia|].
    destruct Hc as [->|(-> & Hc)].
    + cbn [firstn]. unfold setSegment. cbn [app length]. rewrite !Nat.add_0_r, firstn_skipn. exact E.
    + rewrite <- Lx at 1 3. apply setSegment_prefix; [lia | exact E|]. rewrite Lx.
      destruct Hc as [(-> & Hb)|(Hb & ->)]; [now rewrite removeSeg_before by lia | now rewrite removeSeg_after by lia].
Qed.
Lemma vinv_end P n N srcs dsts : P <= N -> Forall2 (vinv P n N N) srcs dsts -> dsts = map (removeSeg P n) srcs.
Proof.
  intros HP H. induction H as [|s d srcs dsts (L1 & L2 & E) H IH]; [reflexivity|]. cbn [map]. rewrite IH. f_equal.
  rewrite <- (firstn_all d), L2, E. rewrite <- (firstn_all (removeSeg P n s)) at 2. rewrite removeSeg_length by lia. f_equal. lia.
Qed.

(* ---- the transformation of a well-formed model ---- *)
Lemma nth_error_nth' {A} (l : list A) i d : i < length l -> nth_error l i = Some (nth i l d).
Proof. revert i; induction l as [|x l IH]; intros [|i] H; cbn in *; try lia; [reflexivity | apply IH; lia]. Qed.
Lemma checkMimic_ok j : mimicable j -> checkMimic (JSimple j) = Some j.
Proof. destruct j; cbn; tauto. Qed.
Lemma checkMimic_some t j : checkMimic t = Some j -> t = JSimple j /\ mimicable j.
Proof. destruct t as [j1| |]; try discriminate. destruct j1; cbn; try discriminate; intros E; injection E; intros <-; split; constructor. Qed.

Section Transform.
Variables (m : Model) (a b : nat) (j : Joint1) (sc off : R).
Hypothesis W : wellFormed m.
Hypothesis Ha : 0 < a.
Hypothesis Hab : a < b.
Hypothesis Hb : b < m_njoints m.
Hypothesis NMa : isMimic (joint m a) = false.
Hypothesis Tb : jm_type (joint m b) = JSimple j.
Hypothesis Mj : mimicable j.
Hypothesis Free : forall k, 0 < k < m_njoints m -> isMimic (joint m k) = true -> jm_ref (joint m k) <> b.

Let jb : JointM := mkJointM (JMimic j sc off) b (idx_q m a) (idx_v m a) (idx_vE m b) a.
Definition newJ (k : nat) : JointM :=
  if k <? b then joint m k else if k =? b then jb else
  let r := if isMimic (joint m k) then jm_ref (joint m k) else k in
  mkJointM (jm_type (joint m k)) (jm_id (joint m k))
    (if r <? b then idx_q m r else idx_q m r - nqOf m b) (if r <? b then idx_v m r else idx_v m r - nvOf m b)
    (jm_idx_vE (joint m k)) (jm_ref (joint m k)).
Definition newQ (k : nat) : nat := if k <? b then idx_q m k else jm_idx_q (newJ k).
Definition newV (k : nat) : nat := if k <? b then idx_v m k else jm_idx_v (newJ k).
Definition nqs' := upd (m_nqs m) b (fun _ => 0).
Definition nvs' := upd (m_nvs m) b (fun _ => 0).

Lemma mb_len : length (m_joints m) = m_njoints m /\ length (m_nqs m) = m_njoints m /\ length (m_nvs m) = m_njoints m /\
  length (m_idx_qs m) = m_njoints m /\ length (m_idx_vs m) = m_njoints m /\ length (m_subtrees m) = m_njoints m.
Proof. destruct (wf_lengths _ W) as (L1&L2&L3&L4&L5&L6&L7&L8&L9&L10&L11&L12&L13&L14&L15). auto 10. Qed.
Lemma b_mim : isMimic (joint m b) = false.
Proof. unfold isMimic. now rewrite Tb. Qed.
Lemma b_dims : nqOf m b = nq1 j /\ nvOf m b = nv1 j.
Proof. destruct (wf_joint _ W b ltac:(lia)) as (_&_&_&_&E1&E2&_). rewrite Tb in E1, E2. cbn in E1, E2. auto. Qed.
Lemma b_idx : idx_q m b = sum (firstn b (m_nqs m)) /\ idx_v m b = sum (firstn b (m_nvs m)).
Proof. apply (wf_range _ W b); [lia | apply b_mim]. Qed.
Lemma b_end : idx_q m b + nqOf m b <= m_nq m /\ idx_v m b + nvOf m b <= m_nv m.
Proof. pose proof (wf_inrange _ W b ltac:(lia)) as H. rewrite Tb in H. destruct b_dims as [-> ->]. exact H. Qed.
Lemma sumQ i : sum (firstn i nqs') + (if b <? i then nqOf m b else 0) = sum (firstn i (m_nqs m)).
Proof. apply sumS_upd0. destruct mb_len as (_&->&_). exact Hb. Qed.
Lemma sumV i : sum (firstn i nvs') + (if b <? i then nvOf m b else 0) = sum (firstn i (m_nvs m)).
Proof. apply sumS_upd0. destruct mb_len as (_&_&->&_). exact Hb. Qed.
Lemma nqs'_length : length nqs' = m_njoints m. Proof. unfold nqs'. rewrite upd_length. apply mb_len. Qed.
Lemma nvs'_length : length nvs' = m_njoints m. Proof. unfold nvs'. rewrite upd_length. apply mb_len. Qed.
Lemma totalQ : sum nqs' + nqOf m b = m_nq m.
Proof. rewrite (proj1 (wf_total _ W)). apply sum_upd0. destruct mb_len as (_&->&_). exact Hb. Qed.
Lemma totalV : sum nvs' + nvOf m b = m_nv m.
Proof. rewrite (proj1 (proj2 (wf_total _ W))). apply sum_upd0. destruct mb_len as (_&_&->&_). exact Hb. Qed.
Lemma nth_nqs' k : nth k nqs' 0 = if k =? b then 0 else nqOf m k.
Proof. unfold nqs'. rewrite nth_upd. destruct mb_len as (_&->&_). destruct (Nat.eqb_spec k b); cbn [andb]; [|reflexivity]. destruct (Nat.ltb_spec b (m_njoints m)); [reflexivity | lia]. Qed.
Lemma nth_nvs' k : nth k nvs' 0 = if k =? b then 0 else nvOf m k.
Proof. unfold nvs'. rewrite nth_upd. destruct mb_len as (_&_&->&_). destruct (Nat.eqb_spec k b); cbn [andb]; [|reflexivity]. destruct (Nat.ltb_spec b (m_njoints m)); [reflexivity | lia]. Qed.
(* the running index of an ordinary joint other than b *)
Lemma newQ_ordinary k : 0 < k < m_njoints m -> k <> b -> isMimic (joint m k) = false ->
  newQ k = sum (firstn k nqs') /\ newV k = sum (firstn k nvs').
Proof.
  intros Hk Hkb Hm. destruct (wf_range _ W k Hk Hm) as [E1 E2]. pose proof (sumQ k). pose proof (sumV k).
  unfold newQ, newV, newJ. destruct (Nat.ltb_spec k b); [destruct (Nat.ltb_spec b k); lia|].
  destruct (Nat.eqb_spec k b); [lia|]. rewrite Hm. cbn [jm_idx_q jm_idx_v]. destruct (Nat.ltb_spec k b); [lia|]. destruct (Nat.ltb_spec b k); lia.
Qed.
Lemma newQ_mimic k : 0 < k < m_njoints m -> isMimic (joint m k) = true ->
  newQ k = newQ (jm_ref (joint m k)) /\ newV k = newV (jm_ref (joint m k)).
Proof.
  intros Hk Hm. assert (Hkb : k <> b) by (intros ->; rewrite b_mim in Hm; discriminate).
  destruct (jm_type (joint m k)) as [|j' s' o'|] eqn:Et; try (unfold isMimic in Hm; rewrite Et in Hm; discriminate).
  pose proof (wf_mimic _ W k j' s' o' Hk Et) as (_ & Hr & Nr & E1 & E2 & _). pose proof (Free k Hk Hm) as Hf.
  set (r := jm_ref (joint m k)) in *.
  unfold newQ, newV, newJ. rewrite Hm, Nr. fold r.
  destruct (Nat.ltb_spec k b); [destruct (Nat.ltb_spec r b); [auto | lia]|]. destruct (Nat.eqb_spec k b); [lia|]. cbn [jm_idx_q jm_idx_v].
  destruct (Nat.ltb_spec r b) as [Hlt|Hge]; [auto|]. destruct (Nat.eqb_spec r b); [lia|]. cbn [jm_idx_q jm_idx_v].
  destruct (Nat.ltb_spec r b); [lia|]. auto.
Qed.
(* every joint but b stays in range *)
Lemma new_inrange k : 0 < k < m_njoints m -> k <> b ->
  newQ k + jnq (jm_type (joint m k)) + nqOf m b <= m_nq m /\ newV k + jnv (jm_type (joint m k)) + nvOf m b <= m_nv m.
Proof.
  intros Hk Hkb.
  assert (G : forall k, 0 < k < m_njoints m -> k <> b -> isMimic (joint m k) = false ->
     newQ k + nqOf m k + nqOf m b <= m_nq m /\ newV k + nvOf m k + nvOf m b <= m_nv m).
  { clear k Hk Hkb. intros k Hk Hkb Hm. destruct (newQ_ordinary k Hk Hkb Hm) as [-> ->].
    pose proof (sum_firstn_S nqs' k ltac:(rewrite nqs'_length; lia)) as F1. pose proof (sum_firstn_mono nqs' (S k) (length nqs') ltac:(rewrite nqs'_length; lia)) as F2.
    pose proof (sum_firstn_S nvs' k ltac:(rewrite nvs'_length; lia)) as F3. pose proof (sum_firstn_mono nvs' (S k) (length nvs') ltac:(rewrite nvs'_length; lia)) as F4.
    rewrite firstn_all in F2, F4. rewrite nth_nqs' in F1. rewrite nth_nvs' in F3. destruct (Nat.eqb_spec k b); [lia|].
    pose proof totalQ. pose proof totalV. lia. }
  destruct (isMimic (joint m k)) eqn:Hm.
  - destruct (newQ_mimic k Hk Hm) as [-> ->]. destruct (mimic_dims _ Hm) as [-> ->].
    destruct (jm_type (joint m k)) as [|j' s' o'|] eqn:Et; try (unfold isMimic in Hm; rewrite Et in Hm; discriminate).
    pose proof (wf_mimic _ W k j' s' o' Hk Et) as (_ & Hr & Nr & _). pose proof (Free k Hk Hm). specialize (G (jm_ref (joint m k)) ltac:(lia) ltac:(lia) Nr). lia.
  - destruct (wf_joint _ W k Hk) as (_&_&_&_&-> & -> & _). apply G; assumption.
Qed.

Notation NQ := (m_nq m - nqOf m b).
Notation NV := (m_nv m - nvOf m b).
Definition vecs (i : nat) (t : Mim) : Prop :=
  Forall2 (vinv (idx_v m b) (nvOf m b) NV (sum (firstn i nvs'))) (veloMembers m) (t_velo t) /\
  Forall2 (vinv (idx_q m b) (nqOf m b) NQ (sum (firstn i nqs'))) (confMembers m) (t_conf t).

(* copying joint i *)
Lemma copyJoint_inv i t jo : 0 < i < m_njoints m -> i <> b -> jm_type jo = jm_type (joint m i) -> jm_idx_q jo = newQ i -> jm_idx_v jo = newV i ->
  vecs i t -> exists t', copyJoint m (joint m i) jo t = Some t' /\ vecs (S i) t' /\
    t_joints t' = t_joints t /\ t_idx_qs t' = t_idx_qs t /\ t_nqs t' = t_nqs t /\ t_idx_vs t' = t_idx_vs t /\ t_nvs t' = t_nvs t.
Proof.
  intros Hi Hib Et Eq Ev [V1 V2]. unfold copyJoint. rewrite Et, Eq, Ev.
  destruct (wf_joint _ W i Hi) as (_ & -> & -> & _ & D1 & D2 & _). destruct (new_inrange i Hi Hib) as [R1 R2]. rewrite D1, D2 in *.
  pose proof (wf_inrange _ W i Hi) as [I1 I2]. destruct b_end as [B1 B2]. destruct b_idx as [Bi1 Bi2].
  assert (J : idx_q m i + nqOf m i <= m_nq m /\ idx_v m i + nvOf m i <= m_nv m).
  { rewrite <- D1, <- D2. destruct (jm_type (joint m i)); cbn in *; lia. }
  pose proof (sum_firstn_S nqs' i ltac:(rewrite nqs'_length; lia)) as F1. pose proof (sum_firstn_S nvs' i ltac:(rewrite nvs'_length; lia)) as F2.
  rewrite nth_nqs' in F1. rewrite nth_nvs' in F2. destruct (Nat.eqb_spec i b) as [?|_]; [lia|].
  assert (Cq : nqOf m i = 0 \/ (newQ i = sum (firstn i nqs') /\ ((idx_q m i = sum (firstn i nqs') /\ idx_q m i + nqOf m i <= idx_q m b) \/
     (idx_q m b + nqOf m b <= idx_q m i /\ sum (firstn i nqs') = idx_q m i - nqOf m b)))).
  { destruct (isMimic (joint m i)) eqn:Hm; [left; rewrite <- D1; apply (mimic_dims _ Hm)|]. right.
    destruct (newQ_ordinary i Hi Hib Hm) as [-> _]. split; [reflexivity|]. destruct (wf_range _ W i Hi Hm) as [-> _]. rewrite Bi1. pose proof (sumQ i) as Hs.
    destruct (Nat.ltb_spec b i) as [Hlt|Hge]; [right | left].
    - pose proof (sum_firstn_S (m_nqs m) b ltac:(destruct mb_len as (_&->&_); lia)) as Fs. fold (nqOf m b) in Fs.
      pose proof (sum_firstn_mono (m_nqs m) (S b) i ltac:(lia)). lia.
    - pose proof (sum_firstn_S (m_nqs m) i ltac:(destruct mb_len as (_&->&_); lia)) as Fs. fold (nqOf m i) in Fs.
      pose proof (sum_firstn_mono (m_nqs m) (S i) b ltac:(lia)). lia. }
  assert (Cv : nvOf m i = 0 \/ (newV i = sum (firstn i nvs') /\ ((idx_v m i = sum (firstn i nvs') /\ idx_v m i + nvOf m i <= idx_v m b) \/
     (idx_v m b + nvOf m b <= idx_v m i /\ sum (firstn i nvs') = idx_v m i - nvOf m b)))).
  { destruct (isMimic (joint m i)) eqn:Hm; [left; rewrite <- D2; apply (mimic_dims _ Hm)|]. right.
    destruct (newQ_ordinary i Hi Hib Hm) as [_ ->]. split; [reflexivity|]. destruct (wf_range _ W i Hi Hm) as [_ ->]. rewrite Bi2. pose proof (sumV i) as Hs.
    destruct (Nat.ltb_spec b i) as [Hlt|Hge]; [right | left].
    - pose proof (sum_firstn_S (m_nvs m) b ltac:(destruct mb_len as (_&_&->&_); lia)) as Fs. fold (nvOf m b) in Fs.
      pose proof (sum_firstn_mono (m_nvs m) (S b) i ltac:(lia)). lia.
    - pose proof (sum_firstn_S (m_nvs m) i ltac:(destruct mb_len as (_&_&->&_); lia)) as Fs. fold (nvOf m i) in Fs.
      pose proof (sum_firstn_mono (m_nvs m) (S i) b ltac:(lia)). lia. }
  destruct (copySegs_inv (idx_v m b) (nvOf m b) NV _ _ _ (idx_v m i) (newV i) (nvOf m i) ltac:(lia) V1 ltac:(lia) ltac:(lia) Cv) as (ve & -> & V1').
  destruct (copySegs_inv (idx_q m b) (nqOf m b) NQ _ _ _ (idx_q m i) (newQ i) (nqOf m i) ltac:(lia) V2 ltac:(lia) ltac:(lia) Cq) as (co & -> & V2').
  eexists. split; [reflexivity|]. cbn [t_joints t_idx_qs t_nqs t_idx_vs t_nvs]. split; [|auto 10].
  split; cbn [t_velo t_conf]; [rewrite F2; exact V1' | rewrite F1; exact V2'].
Qed.

(* ---- first loop ---- *)
Let mk0 := mkMimic j (joint m a) sc off.
Definition joints1 : list JointM := upd (m_joints m) b (fun _ => mk0).
Lemma joints1_length : length joints1 = m_njoints m. Proof. unfold joints1. rewrite upd_length. apply mb_len. Qed.
Lemma nth_joints1 k : nth k joints1 dJ = if k =? b then mk0 else joint m k.
Proof.
  unfold joints1. rewrite nth_upd. destruct mb_len as (->&_). destruct (Nat.eqb_spec k b); cbn [andb]; [|reflexivity].
  destruct (Nat.ltb_spec b (m_njoints m)); [reflexivity | lia].
Qed.
Lemma loop1_ok c i t : 1 <= i -> i + c = b -> vecs i t -> t_joints t = joints1 ->
  exists t', mimLoop1 m (seq i c) t = Some t' /\ vecs b t' /\
    t_joints t' = t_joints t /\ t_idx_qs t' = t_idx_qs t /\ t_nqs t' = t_nqs t /\ t_idx_vs t' = t_idx_vs t /\ t_nvs t' = t_nvs t.
Proof.
  revert i t. induction c as [|c IH]; intros i t Hi Hc V Ej; cbn [seq mimLoop1].
  - exists t. replace b with i by lia. auto 10.
  - rewrite Ej, (nth_error_nth' (m_joints m) i dJ) by (destruct mb_len as (->&_); lia). rewrite (nth_error_nth' joints1 i dJ) by (rewrite joints1_length; lia).
    fold (joint m i). rewrite nth_joints1. destruct (Nat.eqb_spec i b); [lia|].
    assert (E : newQ i = idx_q m i /\ newV i = idx_v m i) by (unfold newQ, newV; destruct (Nat.ltb_spec i b); [auto | lia]).
    destruct (wf_joint _ W i ltac:(lia)) as (_ & E1 & E2 & _).
    destruct (copyJoint_inv i t (joint m i) ltac:(lia) ltac:(lia) eq_refl ltac:(lia) ltac:(lia) V) as (t1 & -> & V1 & J1 & J2 & J3 & J4 & J5).
    destruct (IH (S i) t1 ltac:(lia) ltac:(lia) V1 ltac:(congruence)) as (t2 & -> & V2 & K1 & K2 & K3 & K4 & K5).
    exists t2. split; [reflexivity|]. split; [exact V2|]. repeat split; congruence.
Qed.

(* ---- second loop ---- *)
Record inv2 (i : nat) (t : Mim) : Prop := {
  i2_v : vecs i t;
  i2_len : length (t_joints t) = m_njoints m /\ length (t_idx_qs t) = m_njoints m /\ length (t_nqs t) = m_njoints m /\
           length (t_idx_vs t) = m_njoints m /\ length (t_nvs t) = m_njoints m;
  i2_joints : forall k, nth k (t_joints t) dJ = if k <? i then newJ k else if k =? b then mk0 else joint m k;
  i2_q : forall k, nth k (t_idx_qs t) 0 = if k <? i then newQ k else idx_q m k;
  i2_v' : forall k, nth k (t_idx_vs t) 0 = if k <? i then newV k else idx_v m k;
  i2_nq : forall k, nth k (t_nqs t) 0 = if k <? i then nth k nqs' 0 else nqOf m k;
  i2_nv : forall k, nth k (t_nvs t) 0 = if k <? i then nth k nvs' 0 else nvOf m k }.

Lemma newJ_type k : jm_type (newJ k) = if k =? b then JMimic j sc off else jm_type (joint m k).
Proof. unfold newJ. destruct (Nat.ltb_spec k b); destruct (Nat.eqb_spec k b); try lia; reflexivity. Qed.
Lemma newJ_dims k : 0 < k < m_njoints m -> jnq (jm_type (newJ k)) = nth k nqs' 0 /\ jnv (jm_type (newJ k)) = nth k nvs' 0.
Proof.
  intros Hk. rewrite newJ_type, nth_nqs', nth_nvs'. destruct (Nat.eqb_spec k b); [split; reflexivity|].
  destruct (wf_joint _ W k Hk) as (_&_&_&_&D1&D2&_). auto.
Qed.

(* the joint computed at step i *)
Lemma step_joint i t : b <= i < m_njoints m -> inv2 i t ->
  exists jo, setIndexes (nth i (t_joints t) dJ) (jm_id (joint m i)) (sum (firstn i nqs')) (sum (firstn i nvs')) (jm_idx_vE (joint m i)) = Some jo /\
  (if isMimic jo && negb (i =? b)
   then match nth_error (t_idx_qs t) (jm_ref jo), nth_error (t_idx_vs t) (jm_ref jo) with
        | Some q, Some v => Some (setMimicIndexes jo (jm_ref jo) q v) | _, _ => None end
   else Some jo) = Some (newJ i).
Proof.
  intros Hi I. destruct (i2_len _ _ I) as (L1&L2&L3&L4&L5). rewrite (i2_joints _ _ I). destruct (Nat.ltb_spec i i); [lia|].
  destruct (wf_joint _ W i ltac:(lia)) as (Ei & E1 & E2 & E3 & _). destruct (wf_joint _ W a ltac:(lia)) as (Ai & A1 & A2 & _).
  destruct (Nat.eqb_spec i b) as [->|Hib].
  - unfold mk0, setIndexes, mkMimic. cbn [isMimic jm_type jm_ref]. rewrite Ei, Ai. destruct (Nat.ltb_spec a b); [|lia].
    eexists. split; [reflexivity|]. cbn [isMimic jm_type negb andb jm_idx_q jm_idx_v jm_ref].
    unfold newJ. destruct (Nat.ltb_spec b b); [lia|]. rewrite Nat.eqb_refl. unfold jb. rewrite A1, A2, E3. reflexivity.
  - unfold setIndexes. destruct (isMimic (joint m i)) eqn:Hm.
    + destruct (jm_type (joint m i)) as [|j' s' o'|] eqn:Et; try (unfold isMimic in Hm; rewrite Et in Hm; discriminate).
      pose proof (wf_mimic _ W i j' s' o' ltac:(lia) Et) as (_ & Hr & Nr & _). pose proof (Free i ltac:(lia) Hm) as Hf.
      rewrite Ei. destruct (Nat.ltb_spec (jm_ref (joint m i)) i); [|lia]. eexists. split; [reflexivity|]. cbn [jm_ref isMimic jm_type andb negb].
      rewrite (nth_error_nth' _ _ 0) by lia. rewrite (nth_error_nth' _ _ 0) by lia. rewrite (i2_q _ _ I), (i2_v' _ _ I). destruct (Nat.ltb_spec (jm_ref (joint m i)) i); [|lia].
      unfold setMimicIndexes. cbn [jm_type jm_id jm_idx_vE]. destruct (newQ_mimic i ltac:(lia) Hm) as [<- <-].
      unfold newQ, newV. destruct (Nat.ltb_spec i b); [lia|]. unfold newJ. destruct (Nat.ltb_spec i b); [lia|]. destruct (Nat.eqb_spec i b); [lia|].
      cbn [jm_idx_q jm_idx_v]. rewrite Et, Ei. reflexivity.
    + eexists. split; [reflexivity|]. assert (Hn : isMimic {| jm_type := jm_type (joint m i); jm_id := jm_id (joint m i); jm_idx_q := sum (firstn i nqs'); jm_idx_v := sum (firstn i nvs'); jm_idx_vE := jm_idx_vE (joint m i); jm_ref := jm_ref (joint m i) |} = false) by exact Hm.
      rewrite Hn. cbn [andb]. destruct (newQ_ordinary i ltac:(lia) Hib Hm) as [<- <-].
      unfold newQ, newV. destruct (Nat.ltb_spec i b); [lia|]. unfold newJ. destruct (Nat.ltb_spec i b); [lia|]. destruct (Nat.eqb_spec i b); [lia|].
      rewrite Hm. cbn [jm_idx_q jm_idx_v]. destruct (Nat.ltb_spec i b); [lia|]. reflexivity.
Qed.

Lemma upd_step {A} (l : list A) i x d (f g : nat -> A) k : i < length l -> (forall k, nth k l d = if k <? i then f k else g k) -> f i = x ->
  nth k (upd l i (fun _ => x)) d = if k <? S i then f k else g k.
Proof.
  intros Hi H <-. rewrite nth_upd, H. destruct (Nat.ltb_spec i (length l)); [|lia]. rewrite andb_true_r.
  destruct (Nat.eqb_spec k i); destruct (Nat.ltb_spec k i); destruct (Nat.ltb_spec k (S i)); subst; try lia; reflexivity.
Qed.

Lemma loop2_ok c i t : b <= i -> i + c = m_njoints m -> inv2 i t ->
  exists t', mimLoop2 m b (seq i c) (sum (firstn i nqs')) (sum (firstn i nvs')) t = Ok t' tt /\ inv2 (m_njoints m) t'.
Proof.
  revert i t. induction c as [|c IH]; intros i t Hi Hc I; cbn [seq mimLoop2].
  - exists t. replace (m_njoints m) with i by lia. auto.
  - destruct (i2_len _ _ I) as (L1&L2&L3&L4&L5).
    rewrite (nth_error_nth' (m_joints m) i dJ) by (destruct mb_len as (->&_); lia). rewrite (nth_error_nth' (t_joints t) i dJ) by lia. fold (joint m i).
    destruct (step_joint i t ltac:(lia) I) as (jo & -> & ->). cbv zeta. destruct (newJ_dims i ltac:(lia)) as [D1 D2].
    set (t1 := mkMim _ _ _ _ _ _ _).
    assert (Q : newQ i = jm_idx_q (newJ i) /\ newV i = jm_idx_v (newJ i)) by (unfold newQ, newV; destruct (Nat.ltb_spec i b); [lia | auto]).
    assert (P : vecs (S i) t1 -> inv2 (S i) t1).
    { intros V. constructor; [exact V | | | | | |]; unfold t1; cbn [t_joints t_idx_qs t_nqs t_idx_vs t_nvs].
      - rewrite !upd_length. auto 10.
      - intros k. apply upd_step with (f := newJ) (g := fun k => if k =? b then mk0 else joint m k); [lia | apply (i2_joints _ _ I) | reflexivity].
      - intros k. apply upd_step with (f := newQ) (g := idx_q m); [lia | apply (i2_q _ _ I) | apply Q].
      - intros k. apply upd_step with (f := newV) (g := idx_v m); [lia | apply (i2_v' _ _ I) | apply Q].
      - intros k. apply upd_step with (f := fun k => nth k nqs' 0) (g := nqOf m); [lia | apply (i2_nq _ _ I) | auto].
      - intros k. apply upd_step with (f := fun k => nth k nvs' 0) (g := nvOf m); [lia | apply (i2_nv _ _ I) | auto]. }
    pose proof (sum_firstn_S nqs' i ltac:(rewrite nqs'_length; lia)) as F1. pose proof (sum_firstn_S nvs' i ltac:(rewrite nvs'_length; lia)) as F2.
    rewrite D1, D2, <- F1, <- F2. destruct (Nat.eqb_spec i b) as [Eb|Hib].
    + apply IH; [lia | lia|]. apply P. destruct (i2_v _ _ I) as [V1 V2]. rewrite nth_nqs' in F1. rewrite nth_nvs' in F2. destruct (Nat.eqb_spec i b); [|lia].
      split; [rewrite F2, Nat.add_0_r; exact V1 | rewrite F1, Nat.add_0_r; exact V2].
    + destruct (copyJoint_inv i t1 (newJ i) ltac:(lia) Hib) as (t2 & -> & V2 & J1 & J2 & J3 & J4 & J5).
      * rewrite newJ_type. now destruct (Nat.eqb_spec i b).
      * symmetry; apply Q.
      * symmetry; apply Q.
      * exact (i2_v _ _ I).
      * apply IH; [lia | lia|].
        constructor; [exact V2 | rewrite J1, J2, J3, J4, J5; unfold t1; cbn [t_joints t_idx_qs t_nqs t_idx_vs t_nvs]; rewrite !upd_length; auto 10 | | | | |];
          rewrite ?J1, ?J2, ?J3, ?J4, ?J5; unfold t1; cbn [t_joints t_idx_qs t_nqs t_idx_vs t_nvs]; intros k.
        -- apply upd_step with (f := newJ) (g := fun k => if k =? b then mk0 else joint m k); [lia | apply (i2_joints _ _ I) | reflexivity].
        -- apply upd_step with (f := newQ) (g := idx_q m); [lia | apply (i2_q _ _ I) | apply Q].
        -- apply upd_step with (f := newV) (g := idx_v m); [lia | apply (i2_v' _ _ I) | apply Q].
        -- apply upd_step with (f := fun k => nth k nqs' 0) (g := nqOf m); [lia | apply (i2_nq _ _ I) | auto].
        -- apply upd_step with (f := fun k => nth k nvs' 0) (g := nvOf m); [lia | apply (i2_nv _ _ I) | auto].
Qed.

Lemma vinv_start P n N p l v : p = 0 -> Forall (fun s => length s = N + n) l -> Forall2 (vinv P n N p) l (map (fun _ => repeat v N) l).
Proof. intros -> H. induction H as [|s l Hs H IH]; constructor; [|exact IH]. split; [exact Hs|]. split; [apply repeat_length | reflexivity]. Qed.

(* the result *)
Definition newSup : list (list nat) := fold_left (fun ms i => upd ms i (insertSort b)) (subtree m b) (m_mimic_supports m).
Theorem transform_ok out : exists t, transformJointIntoMimic out m a b sc off =
    Ok (withMim m NQ NV t newSup (insertSort b (m_mimicking m)) (insertSort a (m_mimicked m))) tt /\
  inv2 (m_njoints m) t /\ t_velo t = map (removeSeg (idx_v m b) (nvOf m b)) (veloMembers m) /\
  t_conf t = map (removeSeg (idx_q m b) (nqOf m b)) (confMembers m).
Proof.
  unfold transformJointIntoMimic. destruct (Nat.leb_spec a (m_njoints m)); [|lia]. destruct (Nat.leb_spec b (m_njoints m)); [|lia].
  destruct (Nat.ltb_spec a b); [|lia]. cbn [negb]. destruct mb_len as (L1&L2&L3&L4&L5&L6).
  rewrite (nth_error_nth' (m_joints m) b dJ), (nth_error_nth' (m_joints m) a dJ) by lia. fold (joint m a) (joint m b). rewrite Tb, (checkMimic_ok j Mj).
  cbv zeta. destruct (Nat.eqb_spec a 0); [lia|]. destruct b_dims as [D1 D2]. change (jnq (JSimple j)) with (nq1 j). change (jnv (JSimple j)) with (nv1 j). rewrite <- D1, <- D2.
  fold mk0. fold joints1. destruct b_end as [B1 B2]. destruct (wf_dofs _ W) as (Z1&Z2&Z3&Z4&Z5&Z6&Z7&Z8&Z9).
  set (t0 := mkMim _ _ _ _ _ _ _).
  assert (V0 : vecs 1 t0).
  { assert (E1 : sum (firstn 1 nqs') = 0 /\ sum (firstn 1 nvs') = 0).
    { pose proof (sum_firstn_S nqs' 0 ltac:(rewrite nqs'_length; lia)) as F1. pose proof (sum_firstn_S nvs' 0 ltac:(rewrite nvs'_length; lia)) as F2.
      rewrite nth_nqs' in F1. rewrite nth_nvs' in F2. destruct (wf_zero _ W) as (Y1 & Y2 & _). rewrite Y1 in F1. rewrite Y2 in F2. rewrite F1, F2. destruct (0 =? b); split; reflexivity. }
    destruct E1 as [E1 E2]. split; [apply (vinv_start _ _ NV _ (veloMembers m)) | apply (vinv_start _ _ NQ _ (confMembers m))]; try assumption;
      repeat constructor; lia. }
  destruct (loop1_ok (b - 1) 1 t0 ltac:(lia) ltac:(lia) V0 eq_refl) as (t1 & -> & V1 & J1 & J2 & J3 & J4 & J5).
  rewrite (nth_error_nth' (m_idx_qs m) b 0), (nth_error_nth' (m_idx_vs m) b 0), (nth_error_nth' (m_subtrees m) b []) by lia. fold (idx_q m b) (idx_v m b) (subtree m b).
  assert (Eq : idx_q m b = sum (firstn b nqs') /\ idx_v m b = sum (firstn b nvs')).
  { destruct b_idx as [-> ->]. pose proof (sumQ b). pose proof (sumV b). destruct (Nat.ltb_spec b b); lia. }
  destruct Eq as [Eq Ev].
  destruct (loop2_ok (m_njoints m - b) b t1 ltac:(lia) ltac:(lia)) as (t2 & E2 & I2).
  { constructor; [exact V1 | | | | | |]; rewrite ?J1, ?J2, ?J3, ?J4, ?J5; unfold t0; cbn [t_joints t_idx_qs t_nqs t_idx_vs t_nvs].
    - rewrite joints1_length. auto 10.
    - intros k. rewrite nth_joints1. unfold newJ. destruct (Nat.ltb_spec k b); [|reflexivity]. destruct (Nat.eqb_spec k b); [lia | reflexivity].
    - intros k. unfold newQ. destruct (Nat.ltb_spec k b); reflexivity.
    - intros k. unfold newV. destruct (Nat.ltb_spec k b); reflexivity.
    - intros k. rewrite nth_nqs'. destruct (Nat.ltb_spec k b); [|reflexivity]. destruct (Nat.eqb_spec k b); [lia | reflexivity].
    - intros k. rewrite nth_nvs'. destruct (Nat.ltb_spec k b); [|reflexivity]. destruct (Nat.eqb_spec k b); [lia | reflexivity]. }
  rewrite <- Eq, <- Ev in E2. rewrite E2. exists t2. split; [reflexivity|]. split; [exact I2|]. destruct (i2_v _ _ I2) as [U1 U2].
  rewrite (firstn_all2 nqs') in U2 by (rewrite nqs'_length; lia). rewrite (firstn_all2 nvs') in U1 by (rewrite nvs'_length; lia).
  pose proof totalQ. pose proof totalV. replace (sum nvs') with NV in U1 by lia. replace (sum nqs') with NQ in U2 by lia.
  split; [apply (vinv_end _ _ NV) | apply (vinv_end _ _ NQ)]; (lia || assumption).
Qed.
End Transform.
