(* The row tables of a depth-first tree, and the forms of the property theorems. *)
Require Import Reals List Arith ZArith Lia Lra Bool.
From Verif Require Import Vec3 Spatial Inertia Joints JointFacts Model Spec_Model ModelFacts ModelTree ModelFacts2 Data Kinematics Spec_Kin KinFacts Sums Spec_Dyn DynFacts TreeSums Spec_Mass MassFacts Crba CrbaFacts CrbaFacts2 CrbaFacts3 CrbaFacts4 Jacobian Spec_Jac JacFacts JacFacts2 JacFacts5 JacFacts6 Spec_Aba Spec_Chol Cholesky CholFacts CholFacts2 CholFacts3.
Import ListNotations.
Local Open Scope nat_scope.

Section Inst.
Variable eps : R.
Variable m : Model.
Hypothesis Bt : Built eps m.
Let W : wellFormed m := Built_wf eps m Bt.
Let T : treeInv m := Built_tree eps m Bt.
Hypothesis Vm : validModel m.
Hypothesis NM : noMimic m.
Hypothesis DF : depthFirst m.
Hypothesis Pos : noRigidJoint m.
Lemma posv i : 0 < i < m_njoints m -> 0 < nvOf m i.
Proof. intros Hi. rewrite <- (nvE_nv m W Vm i (NM i Hi) Hi). now apply Pos. Qed.
(* the end of the columns of a subtree *)
Lemma sub_end i : 0 < i < m_njoints m -> exists b, 0 < b < m_njoints m /\ anc m i b = true /\ (forall b', b' < m_njoints m -> anc m i b' = true -> b' <= b) /\
  (nvSubtree m i = Z.of_nat (idx_v m b + nvOf m b) - Z.of_nat (idx_v m i))%Z.
Proof.
  intros Hi. destruct (lastChild_spec m W T i Hi) as (b & E & Hb & Ab & Mb). assert (Hib : i <= b) by now apply (anc_le m W T).
  exists b. split; [lia|]. split; [exact Ab|]. split; [exact Mb|]. unfold nvSubtree. rewrite (NM i Hi), E, Nat2Z.id. rewrite (NM b) by lia.
  destruct (jm_v m W Vm NM b ltac:(lia)) as (-> & _ & -> & _). destruct (jm_v m W Vm NM i Hi) as (-> & _). lia.
Qed.
Lemma nvs_at i a : 0 < i < m_njoints m -> a < nvOf m i -> t_nvs (rowTables m) (idx_v m i + a) = (nvSubtree m i - Z.of_nat a)%Z.
Proof.
  intros Hi Ha. destruct (tables_inv m W Pos) as (_ & _ & _ & _ & H). rewrite <- (idx_vE_v m W Vm NM i Hi). apply H; [exact Hi|]. now rewrite (nvE_nv m W Vm i (NM i Hi) Hi).
Qed.
Lemma idx_le i b : 0 < i -> i <= b -> b < m_njoints m -> idx_v m i + nvOf m i <= idx_v m b + nvOf m b /\ idx_v m i <= idx_v m b.
Proof. intros H0 Hib Hb. destruct (Nat.eq_dec i b) as [->|]; [lia|]. pose proof (idx_v_mono m W NM i b H0 ltac:(lia) Hb). lia. Qed.
(* the columns of the subtree that starts at column idx_v i + a *)
Lemma sub_at i a : 0 < i < m_njoints m -> a < nvOf m i -> exists b, 0 < b < m_njoints m /\ anc m i b = true /\ (forall b', b' < m_njoints m -> anc m i b' = true -> b' <= b) /\
  idx_v m i + a + nvt1 m (idx_v m i + a) + 1 = idx_v m b + nvOf m b /\ t_nvs (rowTables m) (idx_v m i + a) = Z.of_nat (S (nvt1 m (idx_v m i + a))).
Proof.
  intros Hi Ha. destruct (sub_end i Hi) as (b & Hb & Ab & Mb & E). exists b. repeat (split; [assumption|]). unfold nvt1. rewrite nvs_at by assumption. rewrite E.
  pose proof (anc_le m W T i b ltac:(lia) Ab). pose proof (idx_le i b ltac:(lia) H ltac:(lia)). lia.
Qed.
Lemma br_anc i a j c : 0 < i < m_njoints m -> a < nvOf m i -> 0 < j < m_njoints m -> c < nvOf m j ->
  br m (idx_v m i + a) (idx_v m j + c) = (idx_v m i + a <? idx_v m j + c) && anc m i j.
Proof.
  intros Hi Ha Hj Hc. destruct (sub_at i a Hi Ha) as (b & Hb & Ab & Mb & E & _).
  apply eq_true_iff_eq. rewrite br_iff, andb_true_iff, Nat.ltb_lt. rewrite <- (within_subtree m W T Vm NM DF i j c Hi Hj Hc), within_iff.
  destruct (sub_end i Hi) as (b2 & Hb2 & Ab2 & Mb2 & E2). assert (b = b2) as <- by (pose proof (Mb b2 ltac:(lia) Ab2); pose proof (Mb2 b ltac:(lia) Ab); lia).
  pose proof (anc_le m W T i b ltac:(lia) Ab). pose proof (idx_le i b ltac:(lia) H ltac:(lia)). lia.
Qed.
Lemma walk_in j c k : 0 < j < m_njoints m -> c < nvOf m j ->
  In k (walk (t_par (rowTables m)) (S (m_nvE m)) (t_par (rowTables m) (idx_v m j + c))) <->
  (exists i a, 0 < i < m_njoints m /\ a < nvOf m i /\ k = idx_v m i + a /\ k < idx_v m j + c /\ anc m i j = true).
Proof.
  intros Hj Hc. destruct (tables_inv m W Pos) as (T1 & _). pose proof (wf_parent _ W j Hj) as Hpj. pose proof (idx_vE_bound m W j Hj) as HB.
  assert (EV : forall i, 0 < i < m_njoints m -> idx_vE m i = idx_v m i /\ nvEOf m i = nvOf m i) by (intros i Hi; split; [apply (idx_vE_v m W Vm NM i Hi) | apply (nvE_nv m W Vm i (NM i Hi) Hi)]).
  destruct (EV j Hj) as [EJ1 EJ2].
  assert (Base : forall fuel, idx_v m j < fuel -> In k (walk (t_par (rowTables m)) fuel (lastCol m (ancestorWith m (fun _ => true) (parent m j) (parent m j)))) <->
     (exists i a, 0 < i < m_njoints m /\ a < nvOf m i /\ k = idx_v m i + a /\ anc m i (parent m j) = true)).
  { intros fuel Hf. rewrite (walk_support m W T Pos _ _ T1 (parent m j) ltac:(lia)).
    - rewrite filter_true. rewrite in_concat. split.
      + intros (l & Hl & Hk). apply in_map_iff in Hl. destruct Hl as (i & <- & Hi). apply in_rev in Hi. 
        pose proof (tl_range m W T (parent m j) ltac:(lia) i Hi) as Ri. unfold colsDesc in Hk. apply in_rev, in_seq in Hk. destruct (EV i Ri) as [E1 E2]. rewrite E1, E2 in Hk.
        exists i, (k - idx_v m i). split; [exact Ri|]. split; [lia|]. split; [lia|]. apply (anc_onPath m T); [lia|]. apply (proj1 (tail_onPath eps m Bt i (parent m j) ltac:(lia)) Hi).
      + intros (i & a & Hi & Ha & -> & A). exists (colsDesc m i). split; [apply in_map, in_rev|].
        * rewrite rev_involutive. apply (tail_onPath eps m Bt); [lia|]. split; [lia|]. now apply (anc_onPath m T); [lia|].
        * unfold colsDesc. apply -> in_rev. apply in_seq. destruct (EV i Hi) as [-> ->]. lia.
    - rewrite (ancestor_eq m W) by lia. destruct (Nat.eqb_spec (parent m j) 0) as [E0|E0]; [cbn; lia|]. unfold lastCol. destruct (Nat.ltb_spec 0 (parent m j)); [|lia].
      destruct (jmE m W (parent m j) ltac:(lia)) as (-> & -> & _). destruct (EV (parent m j) ltac:(lia)) as [-> ->]. pose proof (idx_v_mono m W NM (parent m j) j ltac:(lia) ltac:(lia) ltac:(lia)). lia. }
  assert (Anc : forall i, anc m i j = true <-> i = j \/ anc m i (parent m j) = true) by (intros i; rewrite (anc_step m W T i j Hj), orb_true_iff, Nat.eqb_eq; tauto).
  assert (Tgt : (exists i a, 0 < i < m_njoints m /\ a < nvOf m i /\ k = idx_v m i + a /\ k < idx_v m j + c /\ anc m i j = true) <->
    (idx_v m j <= k < idx_v m j + c \/ exists i a, 0 < i < m_njoints m /\ a < nvOf m i /\ k = idx_v m i + a /\ anc m i (parent m j) = true)).
  { split.
    - intros (i & a & Hi & Ha & Ek & Hk & A). apply Anc in A. destruct A as [->|A]; [left; lia | right; exists i, a; auto].
    - intros [Hk|(i & a & Hi & Ha & Ek & A)].
      + exists j, (k - idx_v m j). repeat split; try lia. apply Anc. now left.
      + exists i, a. split; [exact Hi|]. split; [exact Ha|]. split; [exact Ek|]. split; [|apply Anc; now right].
        pose proof (anc_le m W T i (parent m j) ltac:(lia) A). pose proof (idx_v_mono m W NM i j ltac:(lia) ltac:(lia) ltac:(lia)). lia. }
  rewrite Tgt. rewrite <- EJ1 at 1. rewrite (T1 j c Hj ltac:(lia)) by lia. destruct (Nat.eqb_spec c 0) as [->|Hc0].
  - rewrite Base by lia. split; [auto|]. intros [?|?]; [lia|assumption].
  - replace (S (m_nvE m)) with (c + (S (m_nvE m) - c)) by lia. rewrite EJ1. replace (Z.of_nat (idx_v m j + c) - 1)%Z with (Z.of_nat (idx_v m j) + Z.of_nat c - 1)%Z by lia.
    rewrite walk_down; [|intros a Ha; rewrite <- EJ1; rewrite (T1 j a Hj ltac:(lia)) by lia; destruct (Nat.eqb_spec a 0); [lia|reflexivity]].
    destruct (Nat.eqb_spec c 0); [lia|]. rewrite in_app_iff, <- in_rev, in_seq.
    replace (t_par (rowTables m) (idx_v m j)) with (lastCol m (ancestorWith m (fun _ => true) (parent m j) (parent m j))).
    + rewrite Base by lia. reflexivity.
    + pose proof (T1 j 0 Hj ltac:(lia) ltac:(lia)) as E0. rewrite Nat.add_0_r, EJ1 in E0. now rewrite E0.
Qed.
Lemma tables_ok : tableOK m.
Proof.
  split; [|split; [|split]].
  - intros k Hk. destruct (dof_owner m W k Hk) as (i & a & Hi & Ha & ->). destruct (sub_at i a Hi Ha) as (b & Hb & _ & _ & E & _). pose proof (idx_v_bound m W NM b Hb). lia.
  - intros k l Hk B. destruct (dof_owner m W k Hk) as (i & a & Hi & Ha & ->). destruct (sub_at i a Hi Ha) as (b & Hb & Ab & Mb & E & _).
    assert (Hl : l < m_nv m) by (apply br_iff in B; pose proof (idx_v_bound m W NM b Hb); lia).
    destruct (dof_owner m W l Hl) as (j & c & Hj & Hc & ->). rewrite br_anc in B by assumption. apply andb_true_iff in B. destruct B as [B1 B2].
    destruct (sub_at j c Hj Hc) as (b' & Hb' & Ab' & Mb' & E' & _). pose proof (anc_trans m W T i j b' ltac:(lia) B2 Ab') as A. pose proof (Mb b' ltac:(lia) A). pose proof (idx_le b' b ltac:(lia) H ltac:(lia)). lia.
  - intros k Hk. destruct (dof_owner m W k Hk) as (i & a & Hi & Ha & ->). destruct (sub_at i a Hi Ha) as (b & _ & _ & _ & _ & E). exact E.
  - intros k l Hl. destruct (dof_owner m W l Hl) as (j & c & Hj & Hc & ->). rewrite walk_in by assumption. split.
    + intros (i & a & Hi & Ha & -> & H1 & H2). rewrite br_anc by assumption. rewrite H2. apply Nat.ltb_lt in H1. now rewrite H1.
    + intros B. assert (Hk : k < m_nv m) by (apply br_lt in B; lia). destruct (dof_owner m W k Hk) as (i & a & Hi & Ha & ->). rewrite br_anc in B by assumption. apply andb_true_iff in B. destruct B as [B1 B2].
      exists i, a. apply Nat.ltb_lt in B1. auto.
Qed.
Lemma br_branch k l : k < m_nv m -> l < m_nv m -> k < l -> br m k l = true <-> sameBranch m k l.
Proof.
  intros Hk Hl Hkl. destruct (dof_owner m W k Hk) as (i & a & Hi & Ha & ->). destruct (dof_owner m W l Hl) as (j & c & Hj & Hc & ->). rewrite br_anc by assumption.
  rewrite (sameBranch_anc m W T NM i a j c Hi Ha Hj Hc ltac:(lia)). rewrite andb_true_iff, Nat.ltb_lt. tauto.
Qed.
Lemma self_branch k : k < m_nv m -> sameBranch m k k.
Proof. intros Hk. destruct (dof_owner m W k Hk) as (i & a & Hi & Ha & ->). apply (sameBranch_anc m W T NM i a i a Hi Ha Hi Ha ltac:(lia)). apply (anc_self m W T); lia. Qed.
Lemma branch_sym k l : sameBranch m k l -> sameBranch m l k.
Proof. intros (i & j & A & B & C). exists j, i. tauto. Qed.
Lemma shaped_spec U : shaped m U <-> unitUpper (m_nv m) U /\ treeSparse m U.
Proof.
  split.
  - intros H. split.
    + intros k l Hk Hl. rewrite (H k l Hk Hl). split.
      * intros ->. now rewrite Nat.eqb_refl.
      * intros Hlt. destruct (Nat.eqb_spec k l); [lia|]. destruct (br m k l) eqn:B; [apply br_lt in B; lia|reflexivity].
    + intros k l Hk Hl N. rewrite (H k l Hk Hl). destruct (Nat.eqb_spec k l) as [<-|Hn]; [exfalso; apply N, self_branch, Hk|].
      destruct (br m k l) eqn:B; [|reflexivity]. exfalso. apply N. apply br_branch; try assumption. now apply br_lt in B.
  - intros [H1 H2] k l Hk Hl. destruct (Nat.eqb_spec k l) as [<-|Hn]; [now apply H1|]. destruct (br m k l) eqn:B; [reflexivity|].
    destruct (Nat.lt_ge_cases k l) as [Hlt|]; [|apply H1; lia]. apply H2; try assumption. intros N. apply br_branch in N; congruence.
Qed.
Section A.
Variables M A : nat -> nat -> R.
Hypothesis Sym : symmetricM (m_nv m) A.
Hypothesis HS : treeSparse m A.
Hypothesis HM : holdsUpper m M A.
Lemma HM' k l : k < m_nv m -> l < m_nv m -> (k = l \/ br m k l = true) -> M k l = A k l.
Proof.
  intros Hk Hl [<-|B]; [apply HM; [lia | now apply self_branch]|]. pose proof (br_lt m _ _ B). apply HM; [lia|]. now apply br_branch.
Qed.
Lemma HA' k l : k < m_nv m -> l < m_nv m -> k < l -> br m k l = false -> A k l = 0%R.
Proof. intros Hk Hl Hlt B. apply HS; try assumption. intros N. apply br_branch in N; congruence. Qed.
Variable s0 : Chol.
Hypothesis H0 : unitUpper (m_nv m) (cU s0) /\ treeSparse m (cU s0).
Let s := decompose m M s0.
Lemma dec_eqs l : l < m_nv m -> eqs m M s l.
Proof. apply (dec_inv m tables_ok M s0). Qed.
Lemma dec_shaped : shaped m (cU s).
Proof.
  intros k l Hk Hl. destruct (br m k l) eqn:B; [pose proof (br_lt m _ _ B); destruct (Nat.eqb_spec k l); [lia|reflexivity]|].
  destruct (dec_inv m tables_ok M s0) as (_ & F). unfold s. rewrite (F k l (or_introl B)). pose proof (proj2 (shaped_spec (cU s0)) H0 k l Hk Hl) as E. rewrite B in E. exact E.
Qed.
Lemma dec_fact : (forall k, k < m_nv m -> cD s k <> 0%R) -> forall i j, i < m_nv m -> j < m_nv m -> udut (m_nv m) (cU s) (cD s) i j = A i j.
Proof. intros HD i j Hi Hj. apply (fact m tables_ok M A Sym HM' HA' s dec_eqs dec_shaped i j HD Hi Hj). Qed.
Lemma dec_pos : positiveM (m_nv m) A -> forall j, j < m_nv m -> (0 < cD s j)%R.
Proof. apply (pivots_pos m tables_ok M A Sym HM' HA' s dec_eqs dec_shaped). Qed.
Lemma dec_dinv : (forall k, k < m_nv m -> cD s k <> 0%R) -> forall k, k < m_nv m -> (cDinv s k * cD s k = 1)%R.
Proof. intros HD k Hk. destruct (dec_eqs k Hk) as (_ & -> & _). apply Rinv_l. now apply HD. Qed.
End A.
End Inst.
