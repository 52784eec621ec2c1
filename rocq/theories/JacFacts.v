(* The row tables of Data, and the columns written by the Jacobian algorithms. *)
Require Import Reals List Arith ZArith Lia Bool FunctionalExtensionality.
From Verif Require Import Vec3 Spatial Inertia SpatialFacts Joints JointFacts Model Spec_Model ModelFacts ModelTree ModelFacts2 Data Kinematics Spec_Kin KinFacts Sums DynFacts TreeSums Spec_Mass MassFacts Crba Jacobian.
Import ListNotations.
Local Open Scope nat_scope.
Local Open Scope bool_scope.

Lemma within_true b n k : within b n k = true <-> b <= k < b + n.
Proof. unfold within. rewrite andb_true_iff, Nat.leb_le, Nat.ltb_lt. tauto. Qed.
Lemma within_false b n k : within b n k = false <-> k < b \/ b + n <= k.
Proof. unfold within. rewrite andb_false_iff, Nat.leb_gt, Nat.ltb_ge. tauto. Qed.

Section Tables.
Variable m : Model.
Hypothesis W : wellFormed m.
Hypothesis T : treeInv m.
Hypothesis Vm : validModel m.
Hypothesis Pos : forall i, 0 < i < m_njoints m -> 0 < nvEOf m i.

Lemma idx_vE_next i : 0 < i -> S i < m_njoints m -> idx_vE m (S i) = idx_vE m i + nvEOf m i.
Proof.
  intros H0 Hi. rewrite (wf_rangeE _ W (S i)), (wf_rangeE _ W i) by lia. unfold nvEOf. apply sum_firstn_S.
  destruct (wf_lengths _ W) as (L1&L2&L3&L4&L5&L6&L7&L8&L9&_). lia.
Qed.
Lemma idx_vE_mono i j : 0 < i -> i < j -> j < m_njoints m -> idx_vE m i + nvEOf m i <= idx_vE m j.
Proof.
  intros H0 Hij. induction Hij as [|j Hij IH]; intros Hj; [rewrite idx_vE_next by lia; lia|].
  specialize (IH ltac:(lia)). rewrite (idx_vE_next j) by lia. lia.
Qed.
Lemma idx_vE_bound i : 0 < i < m_njoints m -> idx_vE m i + nvEOf m i <= m_nvE m.
Proof.
  intros Hi. rewrite (wf_rangeE _ W i Hi). destruct (wf_total _ W) as (_ & _ & ->).
  destruct (wf_lengths _ W) as (L1&L2&L3&L4&L5&L6&L7&L8&L9&_). unfold nvEOf. rewrite <- sum_firstn_S by lia.
  rewrite <- (firstn_all (m_nvEs m)) at 2. apply sum_firstn_mono. lia.
Qed.
Lemma colE_unique i j a c : 0 < i < m_njoints m -> 0 < j < m_njoints m -> a < nvEOf m i -> c < nvEOf m j -> idx_vE m i + a = idx_vE m j + c -> i = j /\ a = c.
Proof.
  intros Hi Hj Ha Hc E. destruct (Nat.lt_total i j) as [H|[->|H]].
  - pose proof (idx_vE_mono i j ltac:(lia) H ltac:(lia)). lia.
  - split; [reflexivity|lia].
  - pose proof (idx_vE_mono j i ltac:(lia) H ltac:(lia)). lia.
Qed.
Lemma jmE i : 0 < i < m_njoints m -> jm_idx_vE (joint m i) = idx_vE m i /\ jnvE (jm_type (joint m i)) = nvEOf m i /\ jm_idx_v (joint m i) = idx_v m i.
Proof. intros Hi. destruct (wf_joint _ W i Hi) as (_ & _ & E1 & E2 & _ & _ & E3). auto. Qed.

(* ---- the tables ---- *)
Definition nextOK (next : nat -> Z) (stop : nat -> bool) (n : nat) : Prop := forall i a, 0 < i < n -> i < m_njoints m -> a < nvEOf m i ->
  next (idx_vE m i + a) = if a =? 0 then lastCol m (ancestorWith m stop (parent m i) (parent m i)) else (Z.of_nat (idx_vE m i + a) - 1)%Z.
Lemma rowEntry_at i a (x : Z) (t : nat -> Z) j : 0 < i < m_njoints m -> 0 < j < m_njoints m -> a < nvEOf m j ->
  rowEntry (jm_idx_vE (joint m i)) (jnvE (jm_type (joint m i))) x t (idx_vE m j + a) =
  if i =? j then (if a =? 0 then x else (Z.of_nat (idx_vE m i + a) - 1)%Z) else t (idx_vE m j + a).
Proof.
  intros Hi Hj Ha. destruct (jmE i Hi) as (-> & -> & _). unfold rowEntry, setCols, putn.
  destruct (Nat.eqb_spec i j) as [<-|Hn].
  - destruct (Nat.eqb_spec a 0) as [->|H0].
    + rewrite (proj2 (within_false _ _ _)) by lia. rewrite Nat.add_0_r, Nat.eqb_refl. reflexivity.
    + rewrite (proj2 (within_true _ _ _)) by lia. lia.
  - assert (H : forall c, c < nvEOf m i -> idx_vE m i + c <> idx_vE m j + a) by (intros c Hc E; destruct (colE_unique i j c a Hi Hj Hc Ha E); lia).
    pose proof (Pos i Hi) as Hp. destruct (within (idx_vE m i + 1) (nvEOf m i - 1) (idx_vE m j + a)) eqn:E.
    + apply within_true in E. exfalso. apply (H (idx_vE m j + a - idx_vE m i)); lia.
    + destruct (Nat.eqb_spec (idx_vE m i) (idx_vE m j + a)) as [E'|]; [|reflexivity]. exfalso. apply (H 0); lia.
Qed.
Lemma tables_inv : nextOK (t_par (rowTables m)) (fun _ => true) (m_njoints m) /\
  nextOK (t_non (rowTables m)) (fun k => negb (isMimic (joint m k))) (m_njoints m) /\
  nextOK (t_mim (rowTables m)) (fun k => isMimic (joint m k)) (m_njoints m) /\
  (forall i a, 0 < i < m_njoints m -> a < nvEOf m i -> t_red (rowTables m) (idx_vE m i + a) = idx_v m i + a) /\
  (forall i a, 0 < i < m_njoints m -> a < nvEOf m i -> t_nvs (rowTables m) (idx_vE m i + a) = (nvSubtree m i - Z.of_nat a)%Z).
Proof.
  pose (Inv := fun n (t : RowTables) => nextOK (t_par t) (fun _ => true) n /\
    nextOK (t_non t) (fun k => negb (isMimic (joint m k))) n /\ nextOK (t_mim t) (fun k => isMimic (joint m k)) n /\
    (forall i a, 0 < i < n -> i < m_njoints m -> a < nvEOf m i -> t_red t (idx_vE m i + a) = idx_v m i + a) /\
    (forall i a, 0 < i < n -> i < m_njoints m -> a < nvEOf m i -> t_nvs t (idx_vE m i + a) = (nvSubtree m i - Z.of_nat a)%Z)).
  assert (H : Inv (m_njoints m) (rowTables m)).
  { unfold rowTables. apply upward_inv; [apply (wf_n _ W) | unfold Inv, nextOK; split; [|split; [|split; [|split]]]; intros; lia |].
    intros i t Hi (I1 & I2 & I3 & I4 & I5). unfold Inv, rowTab. cbn [t_par t_non t_mim t_red t_nvs].
    assert (anc1 : forall p, ancestorWith m (fun _ => true) p p = p) by (intros [|p]; cbn [ancestorWith]; [reflexivity | rewrite andb_false_r; reflexivity]).
    split; [|split; [|split; [|split]]].
    - intros j a Hj Hj' Ha. rewrite rowEntry_at by (assumption || lia). destruct (Nat.eqb_spec i j) as [<-|Hn]; [now rewrite anc1|]. apply I1; lia.
    - intros j a Hj Hj' Ha. rewrite rowEntry_at by (assumption || lia). destruct (Nat.eqb_spec i j) as [<-|Hn]; [reflexivity|]. apply I2; lia.
    - intros j a Hj Hj' Ha. rewrite rowEntry_at by (assumption || lia). destruct (Nat.eqb_spec i j) as [<-|Hn]; [reflexivity|]. apply I3; lia.
    - intros j a Hj Hj' Ha. destruct (jmE i Hi) as (-> & -> & ->). unfold setCols, putn. destruct (Nat.eq_dec i j) as [<-|Hn].
      + destruct (within (idx_vE m i + 1) (nvEOf m i - 1) (idx_vE m i + a)) eqn:E; [apply within_true in E; lia|].
        apply within_false in E. destruct (Nat.eqb_spec (idx_vE m i) (idx_vE m i + a)); lia.
      + assert (H : forall c, c < nvEOf m i -> idx_vE m i + c <> idx_vE m j + a) by (intros c Hc E; destruct (colE_unique i j c a Hi ltac:(lia) Hc Ha E); lia).
        pose proof (Pos i Hi) as Hp. destruct (within (idx_vE m i + 1) (nvEOf m i - 1) (idx_vE m j + a)) eqn:E.
        * apply within_true in E. exfalso. apply (H (idx_vE m j + a - idx_vE m i)); lia.
        * destruct (Nat.eqb_spec (idx_vE m i) (idx_vE m j + a)) as [E'|]; [exfalso; apply (H 0); lia|]. apply I4; lia.
    - intros j a Hj Hj' Ha. destruct (jmE i Hi) as (-> & -> & _). unfold setCols, putn. destruct (Nat.eq_dec i j) as [<-|Hn].
      + destruct (within (idx_vE m i + 1) (nvEOf m i - 1) (idx_vE m i + a)) eqn:E; [apply within_true in E; lia|].
        apply within_false in E. destruct (Nat.eqb_spec (idx_vE m i) (idx_vE m i + a)); lia.
      + assert (H : forall c, c < nvEOf m i -> idx_vE m i + c <> idx_vE m j + a) by (intros c Hc E; destruct (colE_unique i j c a Hi ltac:(lia) Hc Ha E); lia).
        pose proof (Pos i Hi) as Hp. destruct (within (idx_vE m i + 1) (nvEOf m i - 1) (idx_vE m j + a)) eqn:E.
        * apply within_true in E. exfalso. apply (H (idx_vE m j + a - idx_vE m i)); lia.
        * destruct (Nat.eqb_spec (idx_vE m i) (idx_vE m j + a)) as [E'|]; [exfalso; apply (H 0); lia|]. apply I5; lia. }
  destruct H as (H1 & H2 & H3 & H4 & H5). split; [exact H1|]. split; [exact H2|]. split; [exact H3|]. split; intros i a Hi Ha; [apply H4 | apply H5]; lia.
Qed.

(* ---- walks ---- *)
Definition colsDesc (i : nat) : list nat := rev (seq (idx_vE m i) (nvEOf m i)).
Lemma walk_down next b fuel : forall n, (forall a, 0 < a < n -> next (b + a) = (Z.of_nat (b + a) - 1)%Z) ->
  walk next (n + fuel) (Z.of_nat b + Z.of_nat n - 1)%Z = if n =? 0 then walk next fuel (Z.of_nat b - 1)%Z else rev (seq b n) ++ walk next fuel (next b).
Proof.
  induction n as [|n IH]; intros H; [cbn [Nat.eqb plus]; f_equal; lia|]. cbn [Nat.eqb plus walk].
  destruct (Z.ltb_spec (Z.of_nat b + Z.of_nat (S n) - 1)%Z 0%Z); [lia|].
  replace (Z.to_nat (Z.of_nat b + Z.of_nat (S n) - 1)%Z) with (b + n) by lia.
  rewrite List.seq_S, rev_app_distr. cbn [rev app]. f_equal. destruct n as [|n].
  - rewrite Nat.add_0_r. reflexivity.
  - rewrite H by lia. replace (Z.of_nat (b + S n) - 1)%Z with (Z.of_nat b + Z.of_nat (S n) - 1)%Z by lia. rewrite IH; [reflexivity|]. intros a Ha. apply H. lia.
Qed.
Lemma ancestor_eq stop p fuel : p < m_njoints m -> p <= fuel ->
  ancestorWith m stop fuel p = if p =? 0 then 0 else if stop p then p else ancestorWith m stop (parent m p) (parent m p).
Proof.
  assert (IN : forall f g p, p < m_njoints m -> p <= f -> p <= g -> ancestorWith m stop f p = ancestorWith m stop g p).
  { intros f. induction f as [|f IH]; intros g p' Hp Hf Hg; [replace p' with 0 by lia; destruct g; reflexivity|].
    destruct p' as [|p']; [destruct g; reflexivity|]. destruct g as [|g]; [lia|]. cbn [ancestorWith]. pose proof (wf_parent _ W (S p') ltac:(lia)).
    destruct ((0 <? S p') && negb (stop (S p'))); [apply IH; lia | reflexivity]. }
  intros Hp Hf. rewrite (IN fuel p p) by lia. destruct p as [|p]; [reflexivity|]. cbn [ancestorWith Nat.eqb].
  pose proof (wf_parent _ W (S p) ltac:(lia)). destruct (stop (S p)); cbn [negb andb Nat.ltb Nat.leb]; [reflexivity|]. apply IN; lia.
Qed.
Lemma walk_support next stop : nextOK next stop (m_njoints m) -> forall p, p < m_njoints m -> forall fuel, (lastCol m (ancestorWith m stop p p) < Z.of_nat fuel)%Z ->
  walk next fuel (lastCol m (ancestorWith m stop p p)) = concat (map colsDesc (rev (filter stop (tl (support m p))))).
Proof.
  intros HN. refine (tree_ind m _ W _ _).
  - intros fuel _. rewrite (support_0 m W T). cbn. destruct fuel; reflexivity.
  - intros p Hp IH fuel Hf. rewrite (tail_step m W T p Hp), filter_app, rev_app_distr, map_app, concat_app. 
    rewrite ancestor_eq in * by lia. destruct (Nat.eqb_spec p 0); [lia|]. cbn [filter]. destruct (stop p) eqn:E.
    + cbn [rev app map concat]. rewrite app_nil_r. pose proof (Pos p Hp) as HP. pose proof (wf_parent _ W p Hp).
      unfold lastCol in *. destruct (Nat.ltb_spec 0 p); [|lia]. destruct (jmE p Hp) as (E1 & E2 & _). rewrite E1, E2 in *.
      replace fuel with (nvEOf m p + (fuel - nvEOf m p)) by lia.
      rewrite walk_down; [|intros a Ha; rewrite (HN p a) by lia; destruct (Nat.eqb_spec a 0); [lia|reflexivity]].
      destruct (Nat.eqb_spec (nvEOf m p) 0); [lia|]. f_equal. pose proof (HN p 0 ltac:(lia) ltac:(lia) ltac:(lia)) as HZ. rewrite Nat.add_0_r in HZ. cbn [Nat.eqb] in HZ. rewrite HZ.
      apply IH. 
      assert (HA : ancestorWith m stop (parent m p) (parent m p) <= parent m p).
      { clear -W H Hp T. revert H. generalize (parent m p). intros r Hr. assert (G : forall f r, r < m_njoints m -> ancestorWith m stop f r <= r).
        { intros f. induction f as [|f IHf]; intros s Hs; [reflexivity|]. cbn [ancestorWith]. destruct ((0 <? s) && negb (stop s)) eqn:E'; [|reflexivity].
          apply andb_true_iff in E'. destruct E' as [E' _]. apply Nat.ltb_lt in E'. pose proof (wf_parent _ W s ltac:(lia)). specialize (IHf (parent m s) ltac:(lia)). lia. }
        apply G. lia. }
      unfold lastCol. destruct (Nat.ltb_spec 0 (ancestorWith m stop (parent m p) (parent m p))) as [Hl|]; [|lia].
      destruct (jmE (ancestorWith m stop (parent m p) (parent m p)) ltac:(lia)) as (-> & -> & _).
      pose proof (idx_vE_mono (ancestorWith m stop (parent m p) (parent m p)) p ltac:(lia) ltac:(lia) ltac:(lia)). lia.
    + cbn [rev app map concat]. apply IH. exact Hf.
Qed.
End Tables.
