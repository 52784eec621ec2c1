Require Import Reals List Arith ZArith Lia Lra Bool.
From Verif Require Import Vec3 Spatial Inertia InertiaFacts Joints Spec_Joints Deriv JointFacts JointFacts2 Model Spec_Model ModelFacts ModelTree ModelFacts2 Sums Data Kinematics Spec_Kin Spec_Mass KinFacts KinFacts2 Spec_Dyn DynFacts DynFacts2 TreeSums MassFacts Crba.
Import ListNotations.
Local Open Scope nat_scope.


Lemma regular_plus eps Ya Yb : (0 < eps)%R -> regularMass eps (mass Ya) -> regularMass eps (mass Yb) ->
  plus_exact eps Ya Yb /\ regularMass eps (mass (inertia_plus eps Ya Yb)).
Proof.
  intros He [A|A] [B|B]; unfold plus_exact, regularMass, inertia_plus; cbn [mass]; try (rewrite A, B); split; try split; try exact He; try (left; lra); try (right; lra).
Qed.

Section Tables.
Variable m : Model.
Hypothesis W : wellFormed m.
Hypothesis T : treeInv m.

(* R k j b: b is in the subtree of j and is reached from the joints >= k *)
Definition reached (k j b : nat) : Prop := b < m_njoints m /\ anc m j b = true /\ (k <= j \/ exists c, k <= c /\ 0 < c < m_njoints m /\ parent m c = j /\ anc m c b = true).
Lemma lastChild_spec i : 0 < i < m_njoints m -> exists b, lastChild m i = Z.of_nat b /\ b < m_njoints m /\ anc m i b = true /\
  forall b', b' < m_njoints m -> anc m i b' = true -> b' <= b.
Proof.
  pose (P := fun k (lc : nat -> Z) j => (lc j = (-1)%Z /\ forall b, ~ reached k j b) \/ (exists b, lc j = Z.of_nat b /\ reached k j b /\ forall b', reached k j b' -> b' <= b)).
  pose (Inv := fun k (lc : nat -> Z) => forall j, j < m_njoints m -> P k lc j).
  assert (H : Inv 1 (lastChild m)).
  { unfold lastChild. apply downward_inv.
    - apply (wf_n _ W).
    - intros j Hj. left. split; [reflexivity|]. intros b (Hb & A & [C|(c & Hc & Hc' & _)]); lia.
    - clear i. intros i lc Hi HI. pose proof (wf_parent _ W i Hi) as Hp.
      (* the value of lc[i] after the first assignment *)
      assert (E1 : exists b, (if (lc i =? -1)%Z then putn lc i (Z.of_nat i) else lc) i = Z.of_nat b /\ b < m_njoints m /\ anc m i b = true /\ forall b', b' < m_njoints m -> anc m i b' = true -> b' <= b).
      { destruct (HI i ltac:(lia)) as [[E N]|[b [E [(Hb & A & _) M]]]].
        - rewrite E. cbn [Z.eqb Pos.eqb]. rewrite putn_same. exists i. split; [reflexivity|]. split; [lia|]. split; [apply (anc_self m W T); lia|].
          intros b' Hb' A'. destruct (Nat.eq_dec i b') as [->|Hne]; [lia|]. exfalso. apply (N b'). split; [exact Hb'|]. split; [exact A'|]. right.
          destruct (anc_child m W T i b' Hb' A' Hne) as (c & C1 & C2 & C3). exists c. pose proof (wf_parent _ W c C1). repeat split; try assumption; lia.
        - rewrite E. destruct (Z.eqb_spec (Z.of_nat b) (-1)); [lia|]. exists b. split; [exact E|]. split; [exact Hb|]. split; [exact A|].
          intros b' Hb' A'. destruct (Nat.eq_dec i b') as [->|Hne]; [now apply (anc_le m W T)|]. apply M. split; [exact Hb'|]. split; [exact A'|]. right.
          destruct (anc_child m W T i b' Hb' A' Hne) as (c & C1 & C2 & C3). exists c. pose proof (wf_parent _ W c C1). repeat split; try assumption; lia. }
      assert (E2 : forall j, j <> i -> (if (lc i =? -1)%Z then putn lc i (Z.of_nat i) else lc) j = lc j).
      { intros j Hj. destruct (lc i =? -1)%Z; [now rewrite putn_other by auto | reflexivity]. }
      unfold lastStep. set (lc1 := if (lc i =? -1)%Z then putn lc i (Z.of_nat i) else lc) in *. clearbody lc1.
      destruct E1 as (b & Eb & Hb & Ab & Mb). intros j Hj. unfold P.
      destruct (Nat.eq_dec j (parent m i)) as [->|Hjp]; [|destruct (Nat.eq_dec j i) as [->|Hji]].
      + rewrite putn_same, Eb, (E2 (parent m i)) by lia. right.
        assert (Rb : reached i (parent m i) b).
        { split; [exact Hb|]. split; [apply (anc_trans m W T _ i); [exact Hb | now apply (anc_parent m W T) | exact Ab]|].
          right. exists i. repeat split; try lia; assumption. }
        assert (Rx : forall b', reached i (parent m i) b' -> reached (i + 1) (parent m i) b' \/ b' <= b).
        { intros b' (B1 & B2 & [B3|(c & C1 & C2 & C3 & C4)]); [lia|]. destruct (Nat.eq_dec c i) as [->|Hc]; [right; now apply Mb|].
          left. split; [exact B1|]. split; [exact B2|]. right. exists c. repeat split; try assumption; lia. }
        assert (Ry : forall b', reached (i + 1) (parent m i) b' -> reached i (parent m i) b').
        { intros b' (B1 & B2 & [B3|(c & C1 & C2 & C3 & C4)]); [lia|]. split; [exact B1|]. split; [exact B2|]. right. exists c. repeat split; try assumption; lia. }
        destruct (HI (parent m i) ltac:(lia)) as [[E N]|[b0 [E [R0 M0]]]]; rewrite E.
        * exists b. split; [lia|]. split; [exact Rb|]. intros b' R'. destruct (Rx b' R') as [R''|]; [exfalso; exact (N b' R'') | assumption].
        * exists (Nat.max b b0). split; [lia|]. split.
          -- destruct (Nat.max_spec b b0) as [[_ ->]|[_ ->]]; [now apply Ry | exact Rb].
          -- intros b' R'. destruct (Rx b' R') as [R''|]; [specialize (M0 b' R''); lia | lia].
      + rewrite putn_other by lia. right. exists b. split; [exact Eb|]. split; [split; [exact Hb|]; split; [exact Ab | left; lia]|].
        intros b' (B1 & B2 & _). now apply Mb.
      + rewrite putn_other by auto. rewrite (E2 j Hji).
        assert (Req : forall b', reached i j b' <-> reached (i + 1) j b').
        { intros b'. split; intros (B1 & B2 & B3); (split; [exact B1|]; split; [exact B2|]).
          - destruct B3 as [B3|(c & C1 & C2 & C3 & C4)]; [left; lia | right; exists c; repeat split; try assumption; try lia].
            assert (c <> i) by (intros ->; congruence). lia.
          - destruct B3 as [B3|(c & C1 & C2 & C3 & C4)]; [left; lia | right; exists c; repeat split; try assumption; lia]. }
        destruct (HI j Hj) as [[E N]|[b0 [E [R0 M0]]]].
        * left. split; [exact E|]. intros b' R'. apply (N b'). now apply Req.
        * right. exists b0. split; [exact E|]. split; [now apply Req|]. intros b' R'. apply M0. now apply Req. }
  intros Hi. destruct (H i ltac:(lia)) as [[E N]|[b [E [(R1 & R2 & R3) M]]]].
  - exfalso. apply (N i). split; [lia|]. split; [apply (anc_self m W T); lia | left; lia].
  - exists b. split; [exact E|]. split; [exact R1|]. split; [exact R2|]. intros b' B1 B2. apply M. split; [exact B1|]. split; [exact B2 | left; lia].
Qed.

Hypothesis Vm : validModel m.
Hypothesis NM : noMimic m.
Lemma jm_v i : 0 < i < m_njoints m -> jm_idx_v (joint m i) = idx_v m i /\ jm_idx_vE (joint m i) = idx_v m i /\
  jnv (jm_type (joint m i)) = nvOf m i /\ jnvE (jm_type (joint m i)) = nvOf m i.
Proof.
  intros Hi. destruct (wf_joint _ W i Hi) as (_ & _ & E1 & E2 & _ & E3 & E4). rewrite E1, E2, E3, E4.
  rewrite (idx_vE_v m W Vm NM i Hi), (nvE_nv m W Vm i (NM i Hi) Hi). auto.
Qed.
(* the columns of a subtree; without depth-first numbering there may be more *)
Lemma subtree_within i j c : 0 < i < m_njoints m -> 0 < j < m_njoints m -> c < nvOf m j -> anc m i j = true ->
  within (idx_v m i) (Z.to_nat (nvSubtree m i)) (idx_v m j + c) = true.
Proof.
  intros Hi Hj Hc A. destruct (lastChild_spec i Hi) as (b & E & Hb & Ab & Mb).
  assert (Hib : i <= b) by now apply (anc_le m W T).
  assert (Hjb : j <= b) by now apply Mb.
  unfold nvSubtree. rewrite (NM i Hi), E, Nat2Z.id.
  rewrite (NM b) by lia. destruct (jm_v b ltac:(lia)) as (-> & _ & -> & _). destruct (jm_v i Hi) as (-> & _).
  unfold within. apply andb_true_intro.
  assert (idx_v m i <= idx_v m j).
  { destruct (Nat.eq_dec i j) as [->|]; [lia|]. apply (anc_le m W T) in A; [|lia]. pose proof (idx_v_mono m W NM i j ltac:(lia) ltac:(lia) ltac:(lia)). lia. }
  assert (idx_v m j + nvOf m j <= idx_v m b + nvOf m b).
  { destruct (Nat.eq_dec j b) as [->|]; [lia|]. pose proof (idx_v_mono m W NM j b ltac:(lia) ltac:(lia) ltac:(lia)). lia. }
  split; [apply Nat.leb_le; lia | apply Nat.ltb_lt; lia].
Qed.
Hypothesis DF : depthFirst m.
Lemma within_subtree i j c : 0 < i < m_njoints m -> 0 < j < m_njoints m -> c < nvOf m j ->
  within (idx_v m i) (Z.to_nat (nvSubtree m i)) (idx_v m j + c) = anc m i j.
Proof.
  intros Hi Hj Hc. destruct (anc m i j) eqn:A; [now apply subtree_within|].
  destruct (lastChild_spec i Hi) as (b & E & Hb & Ab & Mb).
  assert (Hib : i <= b) by now apply (anc_le m W T).
  unfold nvSubtree. rewrite (NM i Hi), E, Nat2Z.id.
  rewrite (NM b) by lia. destruct (jm_v b ltac:(lia)) as (-> & _ & -> & _). destruct (jm_v i Hi) as (-> & _).
  assert (j < i \/ b < j) as [Hlt|Hlt].
  { destruct (Nat.lt_ge_cases j i); [now left|]. destruct (Nat.lt_ge_cases b j); [now right|]. exfalso.
    assert (onPath m i j). { apply (DF i j b); try lia. now apply (anc_onPath m T). }
    apply (anc_onPath m T) in H1; [congruence | lia]. }
  - unfold within. apply andb_false_intro1. apply Nat.leb_gt. pose proof (idx_v_mono m W NM j i ltac:(lia) Hlt ltac:(lia)). lia.
  - unfold within. apply andb_false_intro2. apply Nat.ltb_ge. pose proof (idx_v_mono m W NM b j ltac:(lia) Hlt ltac:(lia)). 
    assert (idx_v m i <= idx_v m b).
    { destruct (Nat.eq_dec i b) as [->|]; [lia|]. pose proof (idx_v_mono m W NM i b ltac:(lia) ltac:(lia) ltac:(lia)). lia. }
    lia.
Qed.
Lemma within_own i j c : 0 < i < m_njoints m -> 0 < j < m_njoints m -> c < nvOf m j ->
  within (idx_v m i) (nvOf m i) (idx_v m j + c) = (i =? j).
Proof.
  intros Hi Hj Hc. unfold within. destruct (Nat.eqb_spec i j) as [<-|Hn].
  - apply andb_true_intro. split; [apply Nat.leb_le | apply Nat.ltb_lt]; lia.
  - destruct (Nat.lt_trichotomy i j) as [H|[H|H]]; [|congruence|].
    + pose proof (idx_v_mono m W NM i j ltac:(lia) H ltac:(lia)). apply andb_false_intro2. apply Nat.ltb_ge. lia.
    + pose proof (idx_v_mono m W NM j i ltac:(lia) H ltac:(lia)). apply andb_false_intro1. apply Nat.leb_gt. lia.
Qed.
End Tables.
