(* The row tables read by the kinematic Hessians. *)
Require Import Reals List Arith ZArith Lia Lra Bool Sorted.
From Verif Require Import Vec3 Spatial Inertia Joints Spec_Joints Deriv JointFacts Model Spec_Model ModelFacts ModelTree ModelFacts2 Sums Data Kinematics Spec_Kin Spec_Mass KinFacts KinFacts3 TreeSums MassFacts Crba CrbaFacts CrbaFacts2 Jacobian Spec_Jac JacFacts JacFacts2 JacFacts5 KinDerFacts7 KinHess.
Import ListNotations.
Local Open Scope nat_scope.
Local Open Scope bool_scope.

Lemma row_chain b x : forall n (t : nat -> list nat), t b = x -> forall k,
  fold_left (fun t row => putn t (b + row) (t (b + row - 1) ++ [b + row])) (seq 1 n) t k = if within (b + 1) n k then x ++ seq (b + 1) (k - b) else t k.
Proof.
  intros n. induction n as [|n IH]; intros t Ht k.
  - cbn [seq fold_left]. rewrite (proj2 (within_false _ _ _)) by lia. reflexivity.
  - rewrite List.seq_S, fold_left_app. cbn [fold_left]. unfold putn at 1. rewrite !(IH t Ht). destruct (Nat.eqb_spec (b + (1 + n)) k) as [<-|Hk].
    + rewrite (proj2 (within_true (b + 1) (S n) (b + (1 + n)))) by lia. replace (b + (1 + n) - b) with (S n) by lia. rewrite List.seq_S, app_assoc. f_equal; [|f_equal; lia].
      destruct n as [|n]; [rewrite (proj2 (within_false (b + 1) 0 (b + (1 + 0) - 1))) by lia; replace (b + (1 + 0) - 1) with b by lia; rewrite Ht; cbn [seq]; now rewrite app_nil_r|].
      rewrite (proj2 (within_true _ _ _)) by lia. f_equal. f_equal. lia.
    + destruct (within (b + 1) n k) eqn:E1.
      * apply within_true in E1. now rewrite (proj2 (within_true _ _ _)) by lia.
      * apply within_false in E1. now rewrite (proj2 (within_false _ _ _)) by lia.
Qed.

Section KH.
Variable eps : R.
Variable m : Model.
Hypothesis Bt : Built eps m.
Let W : wellFormed m := Built_wf eps m Bt.
Let T : treeInv m := Built_tree eps m Bt.
Hypothesis Vm : validModel m.
Hypothesis NM : noMimic m.
Hypothesis Pos : noRigidJoint m.

Lemma jfields i : 0 < i < m_njoints m -> jm_idx_v (joint m i) = idx_v m i /\ jm_idx_vE (joint m i) = idx_v m i /\ jnv (jm_type (joint m i)) = nvOf m i /\ jnvE (jm_type (joint m i)) = nvOf m i /\ 0 < nvOf m i.
Proof.
  intros Hi. destruct (wf_joint _ W i Hi) as (_ & _ & F1 & F3 & _ & F2 & F4). pose proof (idx_vE_v m W Vm NM i Hi). pose proof (nvE_nv m W Vm i (NM i Hi) Hi). pose proof (Pos i Hi). lia.
Qed.
Lemma idx_lt i j : 0 < i -> i < j -> j < m_njoints m -> idx_v m i + nvOf m i <= idx_v m j.
Proof. exact (idx_v_mono m W NM i j). Qed.
Lemma col_owner i j a b : 0 < i < m_njoints m -> 0 < j < m_njoints m -> a < nvOf m i -> b < nvOf m j -> idx_v m i + a = idx_v m j + b -> i = j /\ a = b.
Proof.
  intros Hi Hj Ha Hb E. destruct (lt_eq_lt_dec i j) as [[H|H]|H]; [pose proof (idx_lt i j ltac:(lia) H ltac:(lia)); lia | subst; lia | pose proof (idx_lt j i ltac:(lia) H ltac:(lia)); lia].
Qed.
Definition pathCols j : list nat := concat (map (colsAsc m) (tl (support m j))).
Lemma pathCols_0 : pathCols 0 = [].
Proof. unfold pathCols. now rewrite (support_0 m W T). Qed.
Lemma pathCols_step j : 0 < j < m_njoints m -> pathCols j = pathCols (parent m j) ++ colsAsc m j.
Proof. intros Hj. unfold pathCols. rewrite (tail_step m W T j Hj), map_app, concat_app. cbn [map concat]. now rewrite app_nil_r. Qed.
Lemma pathCols_in j k : j < m_njoints m -> (In k (pathCols j) <-> exists i a, In i (tl (support m j)) /\ a < nvOf m i /\ k = idx_v m i + a).
Proof.
  intros Hj. unfold pathCols. rewrite in_concat. split.
  - intros (c & Hc & Hk). apply in_map_iff in Hc as (i & <- & Hi). unfold colsAsc in Hk. apply in_seq in Hk. exists i, (k - idx_v m i). split; [exact Hi | lia].
  - intros (i & a & Hi & Ha & ->). exists (colsAsc m i). split; [now apply in_map|]. unfold colsAsc. apply in_seq. lia.
Qed.
Lemma sorted_app l l' : StronglySorted lt l -> StronglySorted lt l' -> (forall x y, In x l -> In y l' -> x < y) -> StronglySorted lt (l ++ l').
Proof.
  induction l as [|x l IH]; intros H H' D; [exact H'|]. apply StronglySorted_inv in H as [H1 H2]. cbn [app]. constructor; [apply IH; auto; intros a b Ha Hb; apply D; auto; now right|].
  apply Forall_forall. intros y Hy. apply in_app_or in Hy as [Hy|Hy]; [rewrite Forall_forall in H2; auto | apply D; auto; now left].
Qed.
Lemma sorted_seq : forall n b, StronglySorted lt (seq b n).
Proof. induction n as [|n IH]; intros b; [constructor|]. cbn [seq]. constructor; [apply IH|]. apply Forall_forall. intros y Hy. apply in_seq in Hy. lia. Qed.
Lemma pathCols_sorted : forall j, j < m_njoints m -> StronglySorted lt (pathCols j).
Proof.
  refine (tree_ind m _ W _ _); [rewrite pathCols_0; constructor|]. intros j Hj IH. rewrite (pathCols_step j Hj). apply sorted_app; [exact IH | apply sorted_seq|].
  intros x y Hx Hy. unfold colsAsc in Hy. apply in_seq in Hy. pose proof (wf_parent _ W j Hj) as Hp. apply pathCols_in in Hx as (i & a & Hi & Ha & ->); [|lia].
  pose proof (tail_range m W T (parent m j) i ltac:(lia) Hi). pose proof (idx_lt i j ltac:(lia) ltac:(lia) ltac:(lia)). lia.
Qed.
Lemma sorted_nodup l : StronglySorted lt l -> NoDup l.
Proof.
  induction l as [|x l IH]; intros H; [constructor|]. apply StronglySorted_inv in H as [H1 H2]. constructor; [|auto]. intros Hx. rewrite Forall_forall in H2. specialize (H2 x Hx). lia.
Qed.

(* ---- the tables ---- *)
Lemma par_first i : 0 < i < m_njoints m -> t_par (rowTables m) (idx_v m i) = if 0 <? parent m i then (Z.of_nat (idx_v m (parent m i)) + Z.of_nat (nvOf m (parent m i)) - 1)%Z else (-1)%Z.
Proof.
  intros Hi. destruct (tables_inv m W Pos) as (T1 & _). pose proof (idx_vE_v m W Vm NM i Hi) as E. pose proof (Pos i Hi) as Hp.
  specialize (T1 i 0 Hi ltac:(lia) Hp). rewrite Nat.add_0_r, E in T1. cbn [Nat.eqb] in T1. rewrite T1.
  replace (ancestorWith m (fun _ => true) (parent m i) (parent m i)) with (parent m i) by (destruct (parent m i); cbn [ancestorWith]; [|rewrite andb_false_r]; reflexivity).
  unfold lastCol. destruct (Nat.ltb_spec 0 (parent m i)) as [H|H]; [|reflexivity]. pose proof (wf_parent _ W i Hi). destruct (jfields (parent m i) ltac:(lia)) as (_ & -> & _ & -> & _). reflexivity.
Qed.
Lemma start_spec i a : 0 < i < m_njoints m -> a < nvOf m i -> startIdx m (idx_v m i + a) = idx_v m i.
Proof.
  pose (Inv := fun n (t : nat -> nat) => forall i a, 0 < i < n -> i < m_njoints m -> a < nvOf m i -> t (idx_v m i + a) = idx_v m i).
  assert (H : Inv (m_njoints m) (startIdx m)).
  { unfold startIdx. apply upward_inv; [apply (wf_n _ W) | intros x y Hx; lia|]. intros j t Hj IH x y Hx Hx' Hy. destruct (jfields j Hj) as (-> & -> & _ & -> & P). cbv zeta. unfold setCols, putn.
    rewrite Nat.eqb_refl. destruct (Nat.eq_dec x j) as [->|Hn].
    - destruct (within (idx_v m j + 1) (nvOf m j - 1) (idx_v m j + y)) eqn:E; [reflexivity|]. apply within_false in E. replace y with 0 by lia. now rewrite Nat.add_0_r, Nat.eqb_refl.
    - destruct (within (idx_v m j + 1) (nvOf m j - 1) (idx_v m j + y)) eqn:E0; clear E0.
      all: rewrite (proj2 (within_false _ _ _)) by (pose proof (idx_lt x j ltac:(lia) ltac:(lia) ltac:(lia)); lia).
      all: destruct (Nat.eqb_spec (idx_v m j) (idx_v m x + y)) as [E|_]; [pose proof (idx_lt x j ltac:(lia) ltac:(lia) ltac:(lia)); lia | apply IH; lia]. }
  intros Hi Ha. apply H; lia.
Qed.
Lemma end_spec i a : 0 < i < m_njoints m -> a < nvOf m i -> endIdx m (idx_v m i + a) = idx_v m i + nvOf m i - 1.
Proof.
  pose (Inv := fun n (t : nat -> nat) => forall i a, 0 < i < n -> i < m_njoints m -> a < nvOf m i -> t (idx_v m i + a) = idx_v m i + nvOf m i - 1).
  assert (H : Inv (m_njoints m) (endIdx m)).
  { unfold endIdx. apply upward_inv; [apply (wf_n _ W) | intros x y Hx; lia|]. intros j t Hj IH x y Hx Hx' Hy. destruct (jfields j Hj) as (-> & -> & _ & -> & P). cbv zeta. unfold setCols, putn.
    rewrite Nat.eqb_refl. destruct (Nat.eq_dec x j) as [->|Hn].
    - destruct (within (idx_v m j + 1) (nvOf m j - 1) (idx_v m j + y)) eqn:E; [reflexivity|]. apply within_false in E. replace y with 0 by lia. now rewrite Nat.add_0_r, Nat.eqb_refl.
    - rewrite (proj2 (within_false _ _ _)) by (pose proof (idx_lt x j ltac:(lia) ltac:(lia) ltac:(lia)); lia).
      destruct (Nat.eqb_spec (idx_v m j) (idx_v m x + y)) as [E|_]; [pose proof (idx_lt x j ltac:(lia) ltac:(lia) ltac:(lia)); lia | apply IH; lia]. }
  intros Hi Ha. apply H; lia.
Qed.
Lemma sup_spec j a : 0 < j < m_njoints m -> a < nvOf m j -> supportsRow m (idx_v m j + a) = pathCols (parent m j) ++ seq (idx_v m j) (S a).
Proof.
  pose (Inv := fun n (t : nat -> list nat) => (forall i a, 0 < i < n -> i < m_njoints m -> a < nvOf m i -> t (idx_v m i + a) = pathCols (parent m i) ++ seq (idx_v m i) (S a)) /\
    (forall i, n <= i -> i < m_njoints m -> t (idx_v m i) = [])).
  assert (H : Inv (m_njoints m) (supportsRow m)).
  { unfold supportsRow. apply upward_inv; [apply (wf_n _ W) | split; [intros x y Hx; lia | reflexivity]|]. intros i t Hi [I1 I2]. destruct (jfields i Hi) as (-> & _ & -> & _ & P). cbv zeta.
    pose proof (wf_parent _ W i Hi) as Hp. pose proof (par_first i Hi) as Ep. set (p := t_par (rowTables m) (idx_v m i)) in *. clearbody p.
    assert (E : exists t1, (if (0 <=? p)%Z then putn t (idx_v m i) (t (Z.to_nat p)) else t) = t1 /\ t1 (idx_v m i) = pathCols (parent m i) /\ forall k, k <> idx_v m i -> t1 k = t k).
    { subst p. destruct (Nat.ltb_spec 0 (parent m i)) as [H|H].
      - destruct (jfields (parent m i) ltac:(lia)) as (_ & _ & _ & _ & P'). destruct (Z.leb_spec 0 (Z.of_nat (idx_v m (parent m i)) + Z.of_nat (nvOf m (parent m i)) - 1)); [|lia].
        eexists. split; [reflexivity|]. unfold putn. rewrite Nat.eqb_refl. split; [|intros k Hk; destruct (Nat.eqb_spec (idx_v m i) k); [congruence | reflexivity]].
        replace (Z.to_nat (Z.of_nat (idx_v m (parent m i)) + Z.of_nat (nvOf m (parent m i)) - 1)) with (idx_v m (parent m i) + (nvOf m (parent m i) - 1)) by lia.
        rewrite I1 by lia. rewrite (pathCols_step (parent m i)) by lia. unfold colsAsc. f_equal. f_equal. lia.
      - exists t. split; [reflexivity|]. split; [rewrite (I2 i) by lia; replace (parent m i) with 0 by lia; now rewrite pathCols_0 | reflexivity]. }
    destruct E as (t1 & -> & E1 & E2).
    split.
    - intros x y Hx Hx' Hy. rewrite (row_chain (idx_v m i) (pathCols (parent m i) ++ [idx_v m i])) by (unfold putn; now rewrite Nat.eqb_refl, E1). destruct (Nat.eq_dec x i) as [->|Hn].
      + destruct (within (idx_v m i + 1) (nvOf m i - 1) (idx_v m i + y)) eqn:E.
        * rewrite <- app_assoc. f_equal. cbn [seq app]. f_equal. f_equal; lia.
        * apply within_false in E. replace y with 0 by lia. rewrite Nat.add_0_r. unfold putn. now rewrite Nat.eqb_refl, E1.
      + pose proof (idx_lt x i ltac:(lia) ltac:(lia) ltac:(lia)). rewrite (proj2 (within_false _ _ _)) by lia. unfold putn. destruct (Nat.eqb_spec (idx_v m i) (idx_v m x + y)); [lia|]. rewrite E2 by lia. apply I1; lia.
    - intros x Hx Hx'. rewrite (row_chain (idx_v m i) (pathCols (parent m i) ++ [idx_v m i])) by (unfold putn; now rewrite Nat.eqb_refl, E1).
      pose proof (idx_lt i x ltac:(lia) ltac:(lia) ltac:(lia)). rewrite (proj2 (within_false _ _ _)) by lia. unfold putn. destruct (Nat.eqb_spec (idx_v m i) (idx_v m x)); [lia|]. rewrite E2 by lia. apply I2; lia. }
  intros Hj Ha. apply (proj1 H); lia.
Qed.
Lemma sup_last j : 0 < j < m_njoints m -> supportsRow m (jm_idx_v (joint m j) + jnv (jm_type (joint m j)) - 1) = pathCols j.
Proof.
  intros Hj. destruct (jfields j Hj) as (-> & _ & -> & _ & P). replace (idx_v m j + nvOf m j - 1) with (idx_v m j + (nvOf m j - 1)) by lia. rewrite (sup_spec j _ Hj) by lia.
  rewrite (pathCols_step j Hj). unfold colsAsc. f_equal. f_equal. lia.
Qed.
End KH.
