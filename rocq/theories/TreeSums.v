(* Sums over the subtrees of a kinematic tree, and backward passes that accumulate into the parent. *)
Require Import Reals List Arith Lia Lra Bool.
From Verif Require Import Vec3 Spatial Inertia Joints Model Spec_Model ModelFacts ModelTree ModelFacts2 Sums Data KinFacts.
Import ListNotations.
Local Open Scope nat_scope.

(* joint i is on the path to joint b (possibly b itself) *)
Definition anc (m : Model) (i b : nat) : bool := inb i (support m b).
(* sum of g over the subtree of joint i *)
Definition subSum (m : Model) (i : nat) (g : nat -> R) : R := sumN (m_njoints m) (fun b => if anc m i b then g b else 0%R).
(* c is a child of i *)
Definition childb (m : Model) (i c : nat) : bool := (0 <? c) && (parent m c =? i).

Section Tree.
Variable m : Model.
Hypothesis W : wellFormed m.
Hypothesis T : treeInv m.

Lemma anc_onPath i b : b < m_njoints m -> anc m i b = true <-> onPath m i b.
Proof.
  intros Hb. unfold anc. rewrite inb_In. pose proof (ti_path _ T b Hb) as P. split.
  - intros H. exists (support m b). split; [exact P | exact H].
  - intros [l [Pl H]]. now rewrite (path_fun m b (support m b) l P Pl).
Qed.
Lemma anc_0 i : anc m i 0 = (i =? 0).
Proof.
  unfold anc. rewrite (support_0 m W T). apply eq_true_iff_eq. rewrite inb_In, Nat.eqb_eq. cbn. intuition.
Qed.
Lemma anc_step i b : 0 < b < m_njoints m -> anc m i b = (i =? b) || anc m i (parent m b).
Proof.
  intros Hb. unfold anc. rewrite (support_step m W T b Hb), inb_app, orb_comm. f_equal.
  apply eq_true_iff_eq. rewrite inb_In, Nat.eqb_eq. cbn. intuition.
Qed.
Lemma anc_self b : b < m_njoints m -> anc m b b = true.
Proof.
  intros Hb. destruct (Nat.eq_dec b 0) as [->|Hn]; [now rewrite anc_0|]. rewrite anc_step by lia. now rewrite Nat.eqb_refl.
Qed.
Lemma anc_le i b : b < m_njoints m -> anc m i b = true -> i <= b.
Proof. intros Hb H. apply inb_In in H. exact (path_le m b _ W (ti_path _ T b Hb) i H). Qed.
Lemma anc_root b : b < m_njoints m -> anc m 0 b = true.
Proof. revert b. refine (tree_ind m _ W _ _); [now rewrite anc_0|]. intros i Hi IH. now rewrite anc_step, IH, orb_true_r. Qed.
Lemma anc_trans i j b : b < m_njoints m -> anc m i j = true -> anc m j b = true -> anc m i b = true.
Proof.
  revert b. refine (tree_ind m _ W _ _).
  - rewrite !anc_0. intros H1 H2. apply Nat.eqb_eq in H2. subst j. now rewrite anc_0 in H1.
  - intros b Hb IH H1 H2. rewrite anc_step in H2 |- * by exact Hb. apply orb_prop in H2. destruct H2 as [H2|H2].
    + apply Nat.eqb_eq in H2. subst j. now rewrite anc_step in H1 by exact Hb.
    + rewrite (IH H1 H2). apply orb_true_r.
Qed.
Lemma anc_comparable i j b : b < m_njoints m -> anc m i b = true -> anc m j b = true -> anc m i j = true \/ anc m j i = true.
Proof.
  revert b. refine (tree_ind m _ W _ _).
  - rewrite !anc_0. intros H1 H2. apply Nat.eqb_eq in H1. apply Nat.eqb_eq in H2. subst. left. now rewrite anc_0.
  - intros b Hb IH H1 H2. pose proof H1 as H1'. pose proof H2 as H2'. rewrite anc_step in H1, H2 by exact Hb. apply orb_prop in H1. apply orb_prop in H2.
    destruct H1 as [H1|H1]; [apply Nat.eqb_eq in H1; subst i; now right|].
    destruct H2 as [H2|H2]; [apply Nat.eqb_eq in H2; subst j; now left|]. auto.
Qed.
Lemma anc_antisym i j : i < m_njoints m -> j < m_njoints m -> anc m i j = true -> anc m j i = true -> i = j.
Proof. intros Hi Hj A B. apply anc_le in A; [|exact Hj]. apply anc_le in B; [|exact Hi]. lia. Qed.
Lemma anc_parent i : 0 < i < m_njoints m -> anc m (parent m i) i = true.
Proof. intros Hi. rewrite anc_step by exact Hi. pose proof (wf_parent _ W i Hi). rewrite anc_self by lia. apply orb_true_r. Qed.
(* the child of i on the way to b *)
Lemma anc_child i b : b < m_njoints m -> anc m i b = true -> i <> b -> exists c, 0 < c < m_njoints m /\ parent m c = i /\ anc m c b = true.
Proof.
  revert b. refine (tree_ind m _ W _ _).
  - rewrite anc_0. intros H Hn. apply Nat.eqb_eq in H. congruence.
  - intros b Hb IH H Hn. rewrite anc_step in H by exact Hb. apply orb_prop in H. destruct H as [H|H]; [apply Nat.eqb_eq in H; congruence|].
    destruct (Nat.eq_dec i (parent m b)) as [E|E].
    + exists b. split; [exact Hb|]. split; [now symmetry|]. apply anc_self. lia.
    + destruct (IH H E) as (c & A & B & C). exists c. split; [exact A|]. split; [exact B|]. rewrite anc_step by exact Hb. rewrite C. apply orb_true_r.
Qed.

Lemma children_count i b (x : R) : i < m_njoints m -> b < m_njoints m ->
  (if anc m i b then x else 0)%R = ((if i =? b then x else 0) + sumN (m_njoints m) (fun c => if childb m i c then (if anc m c b then x else 0) else 0))%R.
Proof.
  intros Hi. revert b. refine (tree_ind m _ W _ _).
  - rewrite anc_0. rewrite sumN_zero; [destruct (i =? 0); ring|]. intros c Hc. unfold childb. rewrite anc_0.
    destruct (Nat.ltb_spec 0 c), (Nat.eqb_spec c 0); try lia; cbn [andb]; destruct (parent m c =? i); reflexivity.
  - intros b Hb IH. pose proof (wf_parent _ W b Hb) as Hp. rewrite anc_step by exact Hb. destruct (Nat.eqb_spec i b) as [->|Hn].
    + cbn [orb]. rewrite sumN_zero; [ring|]. intros c Hc. unfold childb. destruct (Nat.ltb_spec 0 c), (Nat.eqb_spec (parent m c) b); cbn [andb]; try reflexivity.
      destruct (anc m c b) eqn:E; [|reflexivity]. apply anc_le in E; [|lia]. pose proof (wf_parent _ W c ltac:(lia)). lia.
    + cbn [orb]. rewrite IH.
      rewrite (sumN_ext _ (fun c => if childb m i c then if anc m c b then x else 0 else 0)%R
         (fun c => (if b =? c then (if childb m i c then x else 0) else 0) + (if childb m i c then if anc m c (parent m b) then x else 0 else 0))%R).
      * rewrite sumN_add, sumN_delta by lia. unfold childb at 2. destruct (Nat.ltb_spec 0 b); [|lia]. cbn [andb].
        rewrite (Nat.eqb_sym (parent m b) i). destruct (i =? parent m b); ring.
      * intros c Hc. rewrite anc_step by exact Hb. rewrite (Nat.eqb_sym b c). destruct (childb m i c); [|destruct (c =? b); ring].
        destruct (Nat.eqb_spec c b) as [->|]; cbn [orb]; [|ring].
        destruct (anc m b (parent m b)) eqn:E; [|ring]. apply anc_le in E; [|lia]. lia.
Qed.
Lemma subSum_rec i g : i < m_njoints m ->
  subSum m i g = (g i + sumN (m_njoints m) (fun c => if childb m i c then subSum m c g else 0))%R.
Proof.
  intros Hi. unfold subSum.
  rewrite (sumN_ext (m_njoints m) (fun b => if anc m i b then g b else 0%R)
     (fun b => (if i =? b then g b else 0) + sumN (m_njoints m) (fun c => if childb m i c then (if anc m c b then g b else 0) else 0))%R)
   by (intros b Hb; apply (children_count i b (g b) Hi Hb)).
  rewrite sumN_add, sumN_delta by exact Hi. f_equal. rewrite sumN_swap. apply sumN_ext. intros c Hc.
  destruct (childb m i c); [reflexivity | apply sumN_0].
Qed.
Lemma subSum_ext i f g : (forall b, b < m_njoints m -> anc m i b = true -> f b = g b) -> subSum m i f = subSum m i g.
Proof. intros H. unfold subSum. apply sumN_ext. intros b Hb. destruct (anc m i b) eqn:E; auto. Qed.
Lemma subSum_root g : subSum m 0 g = sumN (m_njoints m) g.
Proof. unfold subSum. apply sumN_ext. intros b Hb. now rewrite anc_root. Qed.

(* a backward pass in which joint c, when processed, is added to its parent *)
Section Acc.
Context {St : Type}.
Variables (phi : St -> nat -> R) (s0 : St) (root : bool).
Definition accInv (k : nat) (s : St) : Prop := forall j, j < m_njoints m -> root || (0 <? j) = true ->
  phi s j = (phi s0 j + sumN (m_njoints m) (fun c => if (k <=? c) && childb m j c then phi s c else 0))%R.
Lemma accInv_start : accInv (m_njoints m) s0.
Proof.
  intros j Hj _. rewrite sumN_zero; [ring|]. intros c Hc. destruct (Nat.leb_spec (m_njoints m) c); [lia | reflexivity].
Qed.
Lemma accInv_step i s s' : 0 < i < m_njoints m -> accInv (i + 1) s ->
  (forall j, j < m_njoints m -> root || (0 <? j) = true -> phi s' j = (phi s j + if parent m i =? j then phi s i else 0)%R) -> accInv i s'.
Proof.
  intros Hi H E j Hj Hr. pose proof (wf_parent _ W i Hi) as Hp. rewrite (E j Hj Hr), (H j Hj Hr), Rplus_assoc. f_equal.
  rewrite (sumN_ext _ (fun c => if (i <=? c) && childb m j c then phi s' c else 0)%R
     (fun c => (if i =? c then (if childb m j c then phi s c else 0) else 0) + (if (i + 1 <=? c) && childb m j c then phi s c else 0))%R).
  - rewrite sumN_add, sumN_delta by lia. rewrite Rplus_comm. f_equal. unfold childb. destruct (Nat.ltb_spec 0 i); [|lia]. reflexivity.
  - intros c Hc. assert (Ec : 0 < c -> i <= c -> phi s' c = phi s c).
    { intros. rewrite E; [|lia|destruct (Nat.ltb_spec 0 c); [apply orb_true_r|lia]].
      destruct (Nat.eqb_spec (parent m i) c); [lia|ring]. }
    unfold childb in *. destruct (Nat.ltb_spec 0 c); cbn [andb]; [|rewrite !andb_false_r; destruct (i =? c); ring].
    destruct (Nat.leb_spec i c), (Nat.leb_spec (i + 1) c), (Nat.eqb_spec i c); try lia; cbn [andb]; try ring;
      rewrite Ec by lia; destruct (parent m c =? j); ring.
Qed.
Lemma acc_complete k s : accInv k s -> forall j, j < m_njoints m -> root || (0 <? j) = true -> k <= j + 1 -> phi s j = subSum m j (phi s0).
Proof.
  intros H j. remember (m_njoints m - j) as r eqn:Er. revert j Er.
  induction r as [r IH] using (well_founded_induction lt_wf). intros j Er Hj Hr Hk.
  rewrite (H j Hj Hr), (subSum_rec j _ Hj). f_equal. apply sumN_ext. intros c Hc. unfold childb.
  destruct (Nat.ltb_spec 0 c), (Nat.eqb_spec (parent m c) j); cbn [andb]; rewrite ?andb_false_r; try reflexivity.
  pose proof (wf_parent _ W c ltac:(lia)). destruct (Nat.leb_spec k c); [cbn [andb]|lia].
  apply (IH (m_njoints m - c)); try lia. destruct (Nat.ltb_spec 0 c); [apply orb_true_r|lia].
Qed.
End Acc.
End Tree.
