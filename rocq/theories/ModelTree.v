(* Supports, subtrees and children describe the same tree; lowest common ancestor. *)
Require Import Reals String List Arith Bool Lia Sorted.
From Verif Require Import Vec3 Spatial Inertia Joints Spec_Joints Model Spec_Model ModelFacts.
Import ListNotations.
Local Open Scope nat_scope.

Lemma path_fun m j l l' : path m j l -> path m j l' -> l = l'.
Proof.
  intros H. revert l'. induction H as [|j l Hj H IH]; intros l' H'; inversion H'; subst; try lia; try reflexivity.
  f_equal. apply IH. assumption.
Qed.
Lemma path_le m j l : wellFormed m -> path m j l -> forall k, In k l -> k <= j.
Proof.
  intros W H. induction H as [|j l Hj H IH]; intros k Hk.
  - destruct Hk as [<-|[]]; lia.
  - apply in_app_or in Hk. destruct Hk as [Hk|[<-|[]]]; [|lia].
    specialize (IH k Hk). pose proof (wf_parent _ W j Hj). lia.
Qed.
Lemma path_hd m j l : path m j l -> exists r, l = 0 :: r.
Proof.
  intros H. induction H as [|j l Hj H [r ->]]; [exists []; reflexivity | exists (r ++ [j]); reflexivity].
Qed.
Lemma path_last m j l : path m j l -> exists r, l = r ++ [j].
Proof. intros H. inversion H; subst; [exists []; reflexivity | eexists; reflexivity]. Qed.
Lemma path_sorted m j l : wellFormed m -> path m j l -> StronglySorted lt l.
Proof.
  intros W H. induction H as [|j l Hj H IH].
  - repeat constructor.
  - pose proof (wf_parent _ W j Hj) as Hp. pose proof (path_le _ _ _ W H) as Hle. clear H.
    induction l as [|a l IHl]; cbn; [repeat constructor|].
    inversion IH; subst. constructor.
    + apply IHl; [assumption | intros k Hk; apply Hle; right; exact Hk].
    + apply Forall_app. split; [assumption|]. constructor; [|constructor]. specialize (Hle a (or_introl eq_refl)). lia.
Qed.
Lemma sorted_NoDup l : StronglySorted lt l -> NoDup l.
Proof.
  induction 1 as [|a l H IH HF]; constructor; [|exact IH].
  intros Hin. rewrite Forall_forall in HF. specialize (HF a Hin). lia.
Qed.
Lemma path_exists m : wellFormed m -> forall j, j < m_njoints m -> exists l, path m j l.
Proof.
  intros W j. induction j as [j IH] using lt_wf_ind. intros Hj. destruct j as [|j].
  - exists [0]. constructor.
  - pose proof (wf_parent _ W (S j) ltac:(lia)) as Hp. destruct (IH (parent m (S j)) Hp ltac:(lia)) as [l Hl].
    exists (l ++ [S j]). constructor; [lia | exact Hl].
Qed.
Lemma path_lt m j l : wellFormed m -> path m j l -> j < m_njoints m.
Proof. intros W H. inversion H; subst; [pose proof (wf_n _ W); lia | lia]. Qed.
(* every joint of the path is itself reached by a prefix of the path *)
Lemma path_prefix m j l k : path m j l -> In k l -> exists l1 l2, path m k l1 /\ l = l1 ++ l2.
Proof.
  intros H. induction H as [|j l Hj H IH]; intros Hk.
  - destruct Hk as [<-|[]]. exists [0], []. split; [constructor | reflexivity].
  - apply in_app_or in Hk. destruct Hk as [Hk|[<-|[]]].
    + destruct (IH Hk) as (l1 & l2 & H1 & ->). exists l1, (l2 ++ [j]). split; [exact H1 | now rewrite app_assoc].
    + exists (l ++ [j]), []. split; [constructor; assumption | now rewrite app_nil_r].
Qed.

(* ---- the loop of addJointIndexToParentSubtrees ---- *)
Lemma climb_path m x p l f : wellFormed m -> path m p l -> length l <= S f ->
  climb f (m_parents m ++ x) p = Some (rev (tl l)).
Proof.
  intros W H. revert f. induction H as [|j l Hj H IH]; intros f Hf.
  - destruct f; reflexivity.
  - destruct (path_hd _ _ _ H) as [r Hr]. rewrite app_length in Hf; cbn in Hf.
    assert (Hl : length l = S (length r)) by (rewrite Hr; reflexivity).
    destruct f as [|f]; [lia|]. cbn [climb]. destruct (Nat.eqb_spec j 0); [lia|].
    rewrite nth_error_app1.
    2: { replace (length (m_parents m)) with (m_njoints m); [lia|]. symmetry. apply W. }
    assert (E : nth_error (m_parents m) j = Some (parent m j)).
    { apply nth_error_nth'. replace (length (m_parents m)) with (m_njoints m); [lia|]. symmetry; apply W. }
    rewrite E, IH by lia. cbn [option_map]. f_equal. rewrite Hr. cbn [tl app]. rewrite rev_app_distr. reflexivity.
Qed.
Lemma path_length m j l : wellFormed m -> path m j l -> length l <= S j.
Proof.
  intros W H. induction H as [|j l Hj H IH]; [cbn; lia|]. rewrite app_length; cbn.
  pose proof (wf_parent _ W j Hj). lia.
Qed.

(* ---- the invariant ---- *)
Definition inb (i : nat) (l : list nat) : bool := existsb (fun k => k =? i) l.
Lemma inb_In i l : inb i l = true <-> In i l.
Proof.
  unfold inb. rewrite existsb_exists. split.
  - intros [x [Hx E]]. apply Nat.eqb_eq in E. subst. exact Hx.
  - intros H. exists i. split; [exact H | apply Nat.eqb_refl].
Qed.
Lemma inb_app i a b : inb i (a ++ b) = inb i a || inb i b.
Proof. apply existsb_app. Qed.

Record treeInv (m : Model) : Prop := {
  ti_path : forall j, j < m_njoints m -> path m j (support m j);
  ti_children : forall i, i < m_njoints m ->
    childrenOf m i = filter (fun j => parent m j =? i) (seq 1 (m_njoints m - 1));
  ti_subtree : forall i, 0 < i < m_njoints m ->
    subtree m i = filter (fun j => inb i (support m j)) (seq 1 (m_njoints m - 1));
  ti_subtree0 : subtree m 0 = seq 1 (m_njoints m - 1);
  ti_mimic : forall i, i < m_njoints m ->
    nth i (m_mimic_supports m) [] = 0 :: filter (fun k => isMimic (joint m k)) (tl (support m i));
  ti_mimicking : m_mimicking m = filter (fun k => isMimic (joint m k)) (seq 1 (m_njoints m - 1)) /\
                 m_mimicked m = map (fun k => jm_ref (joint m k)) (m_mimicking m)
}.

Lemma treeInv_empty : treeInv emptyModel.
Proof.
  constructor; cbn; try reflexivity.
  - intros j Hj. destruct j; [constructor | lia].
  - intros i Hi. destruct i; [reflexivity | lia].
  - intros i Hi. lia.
  - intros i Hi. destruct i; [reflexivity | lia].
  - split; reflexivity.
Qed.

Lemma path_same m m' j l : m_parents m' = m_parents m -> m_njoints m' = m_njoints m -> path m j l -> path m' j l.
Proof.
  intros E1 E2 H. induction H as [|j l Hj H IH]; [constructor|]. constructor; [lia|].
  unfold parent. rewrite E1. exact IH.
Qed.

Lemma treeInv_same m m' : treeInv m -> m_parents m' = m_parents m -> m_njoints m' = m_njoints m -> m_supports m' = m_supports m ->
   m_subtrees m' = m_subtrees m -> m_children m' = m_children m -> m_joints m' = m_joints m ->
   m_mimic_supports m' = m_mimic_supports m -> m_mimicking m' = m_mimicking m -> m_mimicked m' = m_mimicked m -> treeInv m'.
Proof.
  intros [T1 T2 T3 T4 T5 T6] E1 E2 E3 E4 E5 E6 E7 E8 E9.
  constructor; unfold support, subtree, childrenOf, joint, parent in *; rewrite ?E1, ?E2, ?E3, ?E4, ?E5, ?E6, ?E7, ?E8, ?E9; try assumption.
  intros j Hj. apply (path_same m); auto.
Qed.

Lemma seq_S n : 1 <= n -> seq 1 (S n - 1) = seq 1 (n - 1) ++ [n].
Proof. intros H. replace (S n - 1) with (S (n - 1)) by lia. rewrite seq_S. f_equal. f_equal. lia. Qed.
Lemma filter_ext_in' {A} (f g : A -> bool) l : (forall x, In x l -> f x = g x) -> filter f l = filter g l.
Proof. apply filter_ext_in. Qed.

Lemma treeInv_addJoint m p jm pl nm lim m' id :
  wellFormed m -> wellFormed m' -> treeInv m -> addJoint m p jm pl nm lim = Ok m' id -> treeInv m'.
Proof.
  intros W W' T H.
  pose proof (addJoint_sizes _ _ _ _ _ _ _ _ H) as (_ & _ & _ & _ & _ & _ & Hp).
  destruct (addJoint_inv _ _ _ _ _ _ _ _ H) as (jm' & anc & sup & msup & Es & Ec & Eu & Ev & Eid & Em').
  destruct (setIndexes_type _ _ _ _ _ _ Es) as (T1 & T2 & T3 & T4 & T5 & T6). clear H Es.
  pose proof (wf_n _ W) as Hn1.
  destruct (wf_lengths _ W) as (L1&L2&L3&L4&L5&L6&L7&L8&L9&L10&L11&L12&L13&L14&L15).
  set (n := m_njoints m) in *.
  assert (En : m_njoints m' = S n) by (rewrite Em'; reflexivity).
  assert (Epar : forall k, parent m' k = if k =? n then p else parent m k).
  { intros k. rewrite Em'. unfold parent; cbn [m_parents]. rewrite nth_snoc, L10. reflexivity. }
  assert (Esup : support m p = sup) by (apply nth_error_nth; exact Eu).
  assert (Emsup : nth p (m_mimic_supports m) [] = msup) by (apply nth_error_nth; exact Ev).
  assert (Esupp : forall k, support m' k = if k =? n then support m p ++ [n] else support m k).
  { intros k. rewrite Em'. unfold support at 1; cbn [m_supports]. rewrite nth_snoc, L13, Esup. reflexivity. }
  assert (Ejo : forall k, joint m' k = if k =? n then jm' else joint m k).
  { intros k. rewrite Em'. unfold joint; cbn [m_joints]. rewrite nth_snoc, L3. reflexivity. }
  assert (Hpath : forall j l, path m j l -> path m' j l).
  { intros j l Hl. induction Hl as [|j l Hj Hl IH]; [constructor|]. constructor; [lia|].
    rewrite Epar. destruct (Nat.eqb_spec j n); [lia | exact IH]. }
  pose proof (ti_path _ T p Hp) as Hpp.
  assert (Eanc : anc = rev (tl (support m p))).
  { pose proof (path_length _ _ _ W Hpp) as Hlen.
    rewrite (climb_path m [p] p (support m p) (S n) W Hpp ltac:(lia)) in Ec. congruence. }
  constructor.
  - intros j Hj. rewrite Esupp. destruct (Nat.eqb_spec j n) as [->|].
    + constructor; [lia|]. rewrite Epar, Nat.eqb_refl. apply Hpath. exact Hpp.
    + apply Hpath. apply (ti_path _ T). lia.
  - intros i Hi. rewrite En, seq_S by lia. rewrite filter_app. cbn [filter]. rewrite Epar, Nat.eqb_refl.
    rewrite (filter_ext_in' _ (fun j => parent m j =? i)).
    2: { intros x Hx. apply in_seq in Hx. rewrite Epar. destruct (Nat.eqb_spec x n); [lia|reflexivity]. }
    rewrite Em'. unfold childrenOf; cbn [m_children]. rewrite nth_upd, app_length, L11. cbn [length].
    replace (p <? n + 1) with true by (symmetry; apply Nat.ltb_lt; lia). rewrite andb_true_r, (Nat.eqb_sym i p).
    rewrite nth_snoc, L11. destruct (Nat.eqb_spec i n) as [->|Hin].
    + destruct (Nat.eqb_spec p n); [lia|]. symmetry. rewrite app_nil_r.
      rewrite (filter_ext_in' _ (fun _ => false)).
      2: { intros x Hx. apply in_seq in Hx. apply Nat.eqb_neq. pose proof (wf_parent _ W x ltac:(lia)). lia. }
      induction (seq 1 (n - 1)); auto.
    + pose proof (ti_children _ T i ltac:(lia)) as Hc. unfold childrenOf in Hc. rewrite Hc.
      destruct (p =? i); [reflexivity | now rewrite app_nil_r].
  - intros i Hi. rewrite En, seq_S by lia. rewrite filter_app. cbn [filter]. rewrite Esupp, Nat.eqb_refl.
    rewrite (filter_ext_in' _ (fun j => inb i (support m j))).
    2: { intros x Hx. apply in_seq in Hx. rewrite Esupp. destruct (Nat.eqb_spec x n); [lia|reflexivity]. }
    rewrite Em'. unfold subtree; cbn [m_subtrees]. rewrite nth_upd. destruct (Nat.eqb_spec i 0); [lia|]. cbn [andb].
    rewrite nth_pushAll.
    2: { rewrite Eanc. apply NoDup_rev. pose proof (sorted_NoDup _ (path_sorted _ _ _ W Hpp)) as Hnd.
         destruct (support m p); [constructor | inversion Hnd; assumption]. }
    2: { intros k Hk. rewrite app_length, L15; cbn. rewrite Eanc in Hk. apply in_rev in Hk.
         assert (In k (support m p)) by (destruct (support m p); [destruct Hk | right; exact Hk]).
         pose proof (path_le _ _ _ W Hpp k H). lia. }
    rewrite nth_snoc, L15. fold (inb i anc).
    assert (Hianc : inb i anc = inb i (support m p)).
    { rewrite Eanc. destruct (path_hd _ _ _ Hpp) as [r ->]. cbn [tl].
      apply eq_true_iff_eq. rewrite !inb_In, <- in_rev. cbn [In]. split; [auto | intros [<-|Hx]; [lia|exact Hx]]. }
    rewrite inb_app, Hianc. cbn [inb existsb]. rewrite orb_false_r.
    destruct (Nat.eqb_spec i n) as [->|Hin].
    + rewrite Nat.eqb_refl, orb_true_r.
      replace (inb n (support m p)) with false.
      2: { symmetry. apply not_true_is_false. intros Hx. apply inb_In in Hx. pose proof (path_le _ _ _ W Hpp n Hx). lia. }
      rewrite app_nil_r. symmetry.
      rewrite (filter_ext_in' _ (fun _ => false)).
      2: { intros x Hx. apply in_seq in Hx. apply not_true_is_false. intros Hy. apply inb_In in Hy.
           pose proof (path_le _ _ _ W (ti_path _ T x ltac:(lia)) n Hy). lia. }
      induction (seq 1 (n - 1)); auto.
    + destruct (Nat.eqb_spec n i); [lia|]. rewrite orb_false_r.
      pose proof (ti_subtree _ T i ltac:(lia)) as Hs. unfold subtree in Hs. rewrite Hs.
      destruct (inb i (support m p)); reflexivity.
  - rewrite En, seq_S by lia. rewrite Em'. unfold subtree; cbn [m_subtrees]. rewrite nth_upd.
    rewrite pushAll_length, app_length, L15; cbn [length]. cbn [Nat.eqb andb].
    replace (0 <? n + 1) with true by (symmetry; apply Nat.ltb_lt; lia).
    rewrite nth_pushAll.
    2: { rewrite Eanc. apply NoDup_rev. pose proof (sorted_NoDup _ (path_sorted _ _ _ W Hpp)) as Hnd.
         destruct (support m p); [constructor | inversion Hnd; assumption]. }
    2: { intros k Hk. rewrite app_length, L15; cbn. rewrite Eanc in Hk. apply in_rev in Hk.
         assert (In k (support m p)) by (destruct (support m p); [destruct Hk | right; exact Hk]).
         pose proof (path_le _ _ _ W Hpp k H). lia. }
    fold (inb 0 anc). replace (inb 0 anc) with false.
    2: { symmetry. apply not_true_is_false. intros Hx. apply inb_In in Hx. rewrite Eanc in Hx. apply in_rev in Hx.
         pose proof (path_sorted _ _ _ W Hpp) as Hs. destruct (path_hd _ _ _ Hpp) as [r Hr]. rewrite Hr in *. cbn in Hx.
         inversion Hs; subst. rewrite Forall_forall in *. specialize (H2 0 Hx). lia. }
    rewrite app_nil_r, nth_snoc, L15. destruct (Nat.eqb_spec 0 n); [lia|].
    pose proof (ti_subtree0 _ T) as Hs. unfold subtree in Hs. rewrite Hs. reflexivity.
  - intros i Hi. rewrite Esupp. rewrite Em'. cbn [m_mimic_supports]. rewrite nth_snoc, L14.
    assert (Hext : forall l, (forall k, In k l -> k < n) ->
              filter (fun k => isMimic (joint m' k)) l = filter (fun k => isMimic (joint m k)) l).
    { intros l Hl. apply filter_ext_in. intros x Hx. rewrite Ejo. specialize (Hl x Hx). destruct (Nat.eqb_spec x n); [lia|reflexivity]. }
    assert (Hlt : forall j k, j < n -> In k (tl (support m j)) -> k < n).
    { intros j k Hj Hk. assert (In k (support m j)) by (destruct (support m j); [destruct Hk | right; exact Hk]).
      pose proof (path_le _ _ _ W (ti_path _ T j Hj) k H). lia. }
    rewrite <- Em'. destruct (Nat.eqb_spec i n) as [->|Hin].
    + destruct (path_hd _ _ _ Hpp) as [r Hr]. pose proof (ti_mimic _ T p Hp) as Hm. rewrite Emsup in Hm.
      rewrite Hr in *. cbn [tl app] in *. rewrite filter_app, Hext.
      2: { intros k Hk. apply (Hlt p); [exact Hp | rewrite Hr; exact Hk]. }
      cbn [filter]. rewrite Ejo, Nat.eqb_refl, Hm. destruct (isMimic jm'); [reflexivity | now rewrite app_nil_r].
    + rewrite Hext by (intros k Hk; apply (Hlt i); [lia | exact Hk]). apply (ti_mimic _ T). lia.
  - destruct (ti_mimicking _ T) as [Hm1 Hm2]. fold n in Hm1.
    assert (Hf : filter (fun k => isMimic (joint m' k)) (seq 1 (n - 1)) = filter (fun k => isMimic (joint m k)) (seq 1 (n - 1))).
    { apply filter_ext_in. intros x Hx. apply in_seq in Hx. rewrite Ejo. destruct (Nat.eqb_spec x n); [lia|reflexivity]. }
    assert (E1 : m_mimicking m' = if isMimic jm' then m_mimicking m ++ [n] else m_mimicking m) by (rewrite Em'; reflexivity).
    assert (E2 : m_mimicked m' = if isMimic jm' then m_mimicked m ++ [jm_ref jm'] else m_mimicked m) by (rewrite Em'; reflexivity).
    assert (Hmap : map (fun k => jm_ref (joint m' k)) (m_mimicking m) = m_mimicked m).
    { rewrite Hm2. apply map_ext_in. intros x Hx. rewrite Hm1 in Hx. apply filter_In in Hx. destruct Hx as [Hx _].
      apply in_seq in Hx. rewrite Ejo. destruct (Nat.eqb_spec x n); [lia|reflexivity]. }
    rewrite E1, E2. split.
    + rewrite En, seq_S by lia. rewrite filter_app, Hf. cbn [filter]. rewrite Ejo, Nat.eqb_refl, <- Hm1.
      destruct (isMimic jm'); [reflexivity | now rewrite app_nil_r].
    + destruct (isMimic jm').
      * rewrite map_app, Hmap. cbn [map]. rewrite Ejo, Nat.eqb_refl. reflexivity.
      * symmetry. exact Hmap.
Qed.

Theorem Built_tree eps m : Built eps m -> treeInv m.
Proof.
  intros [l H]. induction H as [|m m' l b H IH Hs]; [apply treeInv_empty|].
  assert (W : wellFormed m) by (apply (Built_wf eps); exists l; exact H).
  assert (W' : wellFormed m') by (eapply wf_Step; eassumption).
  destruct (Step_goodArg _ _ _ _ Hs) as [(p & jm & pl & nm & lim & id & _ & Ha & _) | (E1&E2&E3&E4&E5&E6&E7&E8&E9)].
  - exact (treeInv_addJoint _ _ _ _ _ _ _ _ W W' IH Ha).
  - exact (treeInv_same m m' IH E1 E2 E3 E4 E5 E6 E7 E8 E9).
Qed.

(* a valid call always succeeds *)
Theorem addJoint_total m p jm pl nm lim :
  wellFormed m -> goodArg m jm -> p < m_njoints m ->
  length (l_effort lim) = jnv (jm_type jm) -> length (l_velocity lim) = jnv (jm_type jm) ->
  length (l_lower lim) = jnq (jm_type jm) -> length (l_upper lim) = jnq (jm_type jm) ->
  length (l_friction lim) = jnv (jm_type jm) -> length (l_damping lim) = jnv (jm_type jm) ->
  exists m', addJoint m p jm pl nm lim = Ok m' (m_njoints m).
Proof.
  intros W G Hp Z1 Z2 Z3 Z4 Z5 Z6. unfold addJoint. rewrite Z1, Z2, Z3, Z4, Z5, Z6, !Nat.eqb_refl. cbn [andb negb].
  replace (p <? m_njoints m) with true by (symmetry; apply Nat.ltb_lt; exact Hp). cbn [negb]. cbv zeta.
  assert (Hs : exists jm', setIndexes jm (m_njoints m) (m_nq m) (m_nv m) (m_nvE m) = Some jm').
  { unfold setIndexes. destruct G as [(j & -> & Hn) | (j & k & s & o & -> & Hk & _)].
    - rewrite isMimic_fresh by exact Hn. eexists; reflexivity.
    - cbn [isMimic mkMimic jm_type jm_ref]. rewrite (proj1 (wf_joint _ W k Hk)).
      replace (k <? m_njoints m) with true by (symmetry; apply Nat.ltb_lt; lia). eexists; reflexivity. }
  destruct Hs as [jm' ->].
  destruct (path_exists m W p Hp) as [l Hl]. pose proof (path_length _ _ _ W Hl).
  rewrite (climb_path m [p] p l (S (m_njoints m)) W Hl) by lia.
  destruct (wf_lengths _ W) as (L1&L2&L3&L4&L5&L6&L7&L8&L9&L10&L11&L12&L13&L14&L15).
  destruct (nth_error (m_supports m) p) eqn:E1; [|apply nth_error_None in E1; lia].
  destruct (nth_error (m_mimic_supports m) p) eqn:E2; [|apply nth_error_None in E2; lia].
  eexists; reflexivity.
Qed.
