Require Import Reals List Arith ZArith Lia Lra Bool.
From Verif Require Import Vec3 Spatial Inertia Joints Spec_Joints JointFacts Model Spec_Model ModelFacts ModelTree ModelFacts2 Data Kinematics Spec_Kin KinFacts Sums Spec_Dyn TreeSums Spec_Mass MassFacts Spec_Jac Crba CrbaFacts CrbaFacts2 CrbaFacts3 Jacobian JacFacts CheckData Spec_Check.
Import ListNotations.
Local Open Scope nat_scope.

(* ---- lists ---- *)
Lemma nth_table {A} n (f : nat -> A) k d : k < n -> nth k (table n f) d = f k.
Proof. intros H. unfold table. rewrite (nth_indep _ d (f 0)) by (now rewrite map_length, seq_length). rewrite map_nth, seq_nth by exact H. reflexivity. Qed.
Lemma length_table {A} n (f : nat -> A) : length (table n f) = n.
Proof. unfold table. now rewrite map_length, seq_length. Qed.
Lemma filter_all_true {A} (f : A -> bool) l : (forall x, In x l -> f x = true) -> filter f l = l.
Proof. induction l as [|a l IH]; intros H; [reflexivity|]. cbn. rewrite (H a (or_introl eq_refl)), IH; [reflexivity|]. intros; apply H; now right. Qed.
Lemma filter_all_false {A} (f : A -> bool) l : (forall x, In x l -> f x = false) -> filter f l = [].
Proof. induction l as [|a l IH]; intros H; [reflexivity|]. cbn. rewrite (H a (or_introl eq_refl)). apply IH. intros; apply H; now right. Qed.
Lemma filter_interval (f : nat -> bool) a k j c : a <= j -> j <= c -> c < a + k -> (forall d, a <= d < a + k -> f d = true <-> j <= d <= c) ->
  filter f (seq a k) = seq j (S c - j).
Proof.
  intros H1 H2 H3 H. replace k with ((j - a) + ((S c - j) + (k - (S c - a)))) by lia. rewrite !seq_app, !filter_app.
  replace (a + (j - a)) with j by lia. replace (j + (S c - j)) with (S c) by lia.
  rewrite (filter_all_false f (seq a (j - a))), (filter_all_true f (seq j (S c - j))), (filter_all_false f (seq (S c) _)), app_nil_r; [reflexivity | | |]; intros x Hx; apply in_seq in Hx.
  - destruct (f x) eqn:E; [|reflexivity]. apply H in E; lia.
  - apply H; lia.
  - destruct (f x) eqn:E; [|reflexivity]. apply H in E; lia.
Qed.
Lemma allChk_true {A} (f : A -> option bool) l : allChk f l = Some true <-> forall x, In x l -> f x = Some true.
Proof.
  induction l as [|a l IH]; cbn; [split; [intros _ x []|reflexivity]|]. split.
  - destruct (f a) as [[]|] eqn:E; try discriminate. intros H x [<-|Hx]; [exact E|]. now apply IH.
  - intros H. rewrite (H a (or_introl eq_refl)). apply IH. intros; apply H; now right.
Qed.
Lemma allChk_some {A} (f : A -> option bool) g l : (forall x, In x l -> f x = Some (g x)) -> allChk f l = Some (forallb g l).
Proof.
  induction l as [|a l IH]; intros H; [reflexivity|]. cbn. rewrite (H a (or_introl eq_refl)). destruct (g a); [|reflexivity].
  cbn. apply IH. intros; apply H; now right.
Qed.
Lemma forallb_eq n l : forallb (fun x => x =? n) l = true <-> Forall (eq n) l.
Proof. rewrite forallb_forall, Forall_forall. split; intros H x Hx; specialize (H x Hx); [apply Nat.eqb_eq in H; now symmetry | apply Nat.eqb_eq; now symmetry]. Qed.
Lemma sizes_iff m s : checkSizes m s = true <-> sizesRight m s.
Proof.
  unfold checkSizes, sizesRight. cbv zeta. rewrite !andb_true_iff, !forallb_eq, Nat.leb_le, !Nat.eqb_eq.
  rewrite !Forall_cons_iff. assert (X : Forall (eq (m_njoints m)) [] /\ Forall (eq (m_nv m)) [] /\ Forall (eq (m_nvE m)) []) by (repeat split; constructor).
  split; intros H; decompose [and] H; clear H; decompose [and] X; clear X; repeat split; try assumption; try (symmetry; assumption).
Qed.
Theorem check_sizes m s : checkData m s = Some true -> sizesRight m s.
Proof. intros H. apply sizes_iff. unfold checkData in H. destruct (checkSizes m s); [reflexivity | discriminate]. Qed.
Lemma in_joints n j : In j (seq 1 (n - 1)) <-> 0 < j < n.
Proof. rewrite in_seq. lia. Qed.

Lemma parentCheck_iff m : parentCheck m = true <-> forall j, 0 < j < m_njoints m -> parent m j < j.
Proof.
  unfold parentCheck. rewrite forallb_forall. split; intros H j Hj.
  - specialize (H j (proj2 (in_joints _ _) Hj)). destruct (Nat.leb_spec j (parent m j)); [discriminate|assumption].
  - apply in_joints in Hj. specialize (H j Hj). destruct (Nat.leb_spec j (parent m j)); [lia|reflexivity].
Qed.
Section Check.
Variable m : Model.
Hypothesis W : wellFormed m.
Hypothesis T : treeInv m.

Lemma indexes_ok : forallb (checkIndexes m) (seq 1 (m_njoints m - 1)) = true.
Proof.
  apply forallb_forall. intros j Hj. apply in_joints in Hj. destruct (wf_joint _ W j Hj) as (_ & E1 & E2 & E3 & E4 & E5 & E6).
  unfold checkIndexes. rewrite E1, E2, E3, E4, E5, E6, !Nat.eqb_refl. reflexivity.
Qed.
Lemma parentCheck_true : parentCheck m = true.
Proof.
  apply forallb_forall. intros j Hj. apply in_joints in Hj. pose proof (wf_parent _ W j Hj). destruct (Nat.leb_spec j (parent m j)); [lia|reflexivity].
Qed.
Lemma mimicCheck_iff : mimicCheck m = true <-> noMimic m.
Proof.
  split.
  - unfold mimicCheck. rewrite (proj1 (ti_mimicking _ T)). intros H j Hj. destruct (isMimic (joint m j)) eqn:E; [|reflexivity]. exfalso.
    assert (I : In j (filter (fun k => isMimic (joint m k)) (seq 1 (m_njoints m - 1)))) by (apply filter_In; split; [now apply in_joints | exact E]).
    destruct (filter _ _); [destruct I | discriminate].
  - intros NM. unfold mimicCheck. now rewrite (mimicking_nil m T NM).
Qed.
Lemma abaCheck_iff : abaCheck m = true <-> heavyBodies m.
Proof.
  unfold abaCheck. rewrite forallb_forall. split.
  - intros H j Hj. specialize (H j (proj2 (in_joints _ _) Hj)). cbv zeta in H.
    destruct (Rlt_dec (mass (inertiaOf m j)) (1 / 100000)); [discriminate|]. destruct (Rlt_dec (s0 (inertia (inertiaOf m j))) (1 / 100000)); [discriminate|].
    destruct (Rlt_dec (s2 (inertia (inertiaOf m j))) (1 / 100000)); [discriminate|]. destruct (Rlt_dec (s5 (inertia (inertiaOf m j))) (1 / 100000)); [discriminate|].
    repeat split; apply Rnot_lt_le; assumption.
  - intros H j Hj. destruct (H j (proj1 (in_joints _ _) Hj)) as (A & B & C & D). cbv zeta.
    destruct (Rlt_dec (mass (inertiaOf m j)) (1 / 100000)); [exfalso; lra|]. destruct (Rlt_dec (s0 (inertia (inertiaOf m j))) (1 / 100000)); [exfalso; lra|].
    destruct (Rlt_dec (s2 (inertia (inertiaOf m j))) (1 / 100000)); [exfalso; lra|]. destruct (Rlt_dec (s5 (inertia (inertiaOf m j))) (1 / 100000)); [exfalso; lra|]. reflexivity.
Qed.
Lemma modelCheck_iff : modelCheck m = true <-> depthFirst m /\ heavyBodies m.
Proof. unfold modelCheck. rewrite parentCheck_true, !andb_true_iff, (crbaCheck_spec m W T), abaCheck_iff. tauto. Qed.

(* ---- the subtree of j is the interval j .. c ---- *)
Definition interval (j c : nat) : Prop := forall d, d < m_njoints m -> anc m j d = true <-> j <= d <= c.
Lemma interval_of j c : 0 < j -> j <= c < m_njoints m -> isMimic (joint m j) = false -> checkInside m j c = true -> checkOutside m j c = true -> interval j c.
Proof.
  intros Hj Hc NMj HI HO. unfold checkInside in HI. rewrite NMj in HI. cbn [orb] in HI.
  pose proof (proj1 (forallb_forall _ _) HI) as HI'. pose proof (proj1 (forallb_forall _ _) HO) as HO'. clear HI HO.
  intros d. induction d as [d IH] using (well_founded_induction Wf_nat.lt_wf). intros Hd. split.
  - intros A. pose proof (anc_le m W T j d Hd A) as Hle. split; [exact Hle|]. destruct (Nat.le_gt_cases d c) as [|Hgt]; [assumption|]. exfalso.
    rewrite (anc_step m W T) in A by lia. apply orb_true_iff in A as [A|A]; [apply Nat.eqb_eq in A; lia|].
    pose proof (wf_parent _ W d ltac:(lia)) as Hp. apply IH in A; try lia.
    assert (I : In d (seq (c + 1) (m_njoints m - (c + 1)))) by (apply in_seq; lia). apply HO' in I. apply orb_true_iff in I as [I|I]; apply Nat.ltb_lt in I; lia.
  - intros [H1 H2]. destruct (Nat.eq_dec j d) as [<-|Hn]; [now apply (anc_self m W T)|]. rewrite (anc_step m W T) by lia. apply orb_true_iff. right.
    pose proof (wf_parent _ W d ltac:(lia)) as Hp. apply IH; try lia.
    assert (I : In d (seq (j + 1) (c - j))) by (apply in_seq; lia). apply HI' in I. apply Nat.leb_le in I. lia.
Qed.
Lemma checks_of j c : 0 < j -> j <= c < m_njoints m -> interval j c -> checkInside m j c = true /\ checkOutside m j c = true.
Proof.
  intros Hj Hc HI. split.
  - unfold checkInside. apply orb_true_iff. right. apply forallb_forall. intros d Hd. apply in_seq in Hd. apply Nat.leb_le.
    assert (A : anc m j d = true) by (apply HI; lia). rewrite (anc_step m W T) in A by lia. apply orb_true_iff in A as [A|A]; [apply Nat.eqb_eq in A; lia|].
    pose proof (wf_parent _ W d ltac:(lia)). apply HI in A; lia.
  - apply forallb_forall. intros d Hd. apply in_seq in Hd. pose proof (wf_parent _ W d ltac:(lia)).
    destruct (Nat.ltb_spec (parent m d) j); [reflexivity|]. destruct (Nat.ltb_spec c (parent m d)); [reflexivity|]. exfalso.
    assert (A : anc m j (parent m d) = true) by (apply HI; lia).
    assert (B : anc m j d = true) by (rewrite (anc_step m W T) by lia; rewrite A; apply orb_true_r). apply HI in B; lia.
Qed.
Lemma interval_last j c : 0 < j -> j <= c < m_njoints m -> interval j c -> lastOf m j c.
Proof.
  intros Hj Hc HI. split; [lia|]. split; [apply (anc_onPath m T); [lia|]; apply HI; lia|].
  intros d Hd P. apply (anc_onPath m T) in P; [|exact Hd]. apply HI in P; lia.
Qed.
Lemma interval_subtree j c : 0 < j -> j <= c < m_njoints m -> interval j c -> subtree m j = seq j (S c - j).
Proof.
  intros Hj Hc HI. rewrite (ti_subtree _ T) by lia. apply filter_interval; try lia. intros d Hd. apply HI. lia.
Qed.
Lemma nvJ_nv j : 0 < j < m_njoints m -> nvJ m j = nvOf m j.
Proof. intros Hj. unfold nvJ. now destruct (wf_joint _ W j Hj) as (_ & _ & _ & _ & _ & -> & _). Qed.
Lemma countDofs_sum j c : 0 < j -> j <= c < m_njoints m -> isMimic (joint m j) = false -> countDofs m j c = sum (map (nvOf m) (seq j (S c - j))).
Proof.
  intros Hj Hc NMj. unfold countDofs. rewrite NMj. replace (S c - j) with (S (c - j)) by lia. cbn [seq map]. unfold sum at 2. cbn [fold_right]. rewrite nvJ_nv by lia. f_equal.
  rewrite Nat.add_1_r. change (fold_right plus 0) with sum. f_equal. apply map_ext_in. intros d Hd. apply in_seq in Hd. apply nvJ_nv. lia.
Qed.

Hypothesis NM : noMimic m.
Lemma sum_idx j k : 0 < j -> j + k < m_njoints m -> sum (map (nvOf m) (seq j (S k))) + idx_v m j = idx_v m (j + k) + nvOf m (j + k).
Proof.
  intros Hj. induction k as [|k IH]; intros Hk.
  - rewrite Nat.add_0_r. cbn. lia.
  - rewrite List.seq_S, map_app, sum_app. cbn [map]. unfold sum at 2. cbn [fold_right]. specialize (IH ltac:(lia)).
    replace (j + S k) with (S (j + k)) by lia. rewrite (idx_v_next m W NM (j + k)) by lia. lia.
Qed.
Lemma depthFirst_interval j : depthFirst m -> 0 < j < m_njoints m -> exists c, lastChild m j = Z.of_nat c /\ j <= c < m_njoints m /\ interval j c.
Proof.
  intros DF Hj. destruct (lastChild_spec m W T j Hj) as (b & E & Hb & Ab & Mb). pose proof (anc_le m W T j b Hb Ab).
  exists b. split; [exact E|]. split; [lia|]. intros d Hd. split.
  - intros A. split; [now apply (anc_le m W T)|now apply Mb].
  - intros Hd'. apply (anc_onPath m T); [exact Hd|]. apply (DF j d b); try lia. now apply (anc_onPath m T).
Qed.
Lemma intervals_depthFirst : (forall j, 0 < j < m_njoints m -> exists c, interval j c) -> depthFirst m.
Proof.
  intros H i b c Hi Hc P Hb. pose proof P as P'. apply (anc_onPath m T) in P'; [|exact Hc]. pose proof (anc_le m W T i c Hc P').
  destruct (H i ltac:(lia)) as (e & He). apply He in P'; [|exact Hc]. apply (anc_onPath m T); [lia|]. apply He; lia.
Qed.

(* ---- any Data ---- *)
Lemma check_true s : checkData m s = Some true <-> checkSizes m s = true /\ forall j, 0 < j < m_njoints m -> checkJoint m s j = Some true.
Proof.
  unfold checkData. rewrite indexes_ok. cbn [negb]. rewrite (mimicking_nil m T NM). cbn [length seq combine allChk].
  destruct (checkSizes m s); cbn [negb]; [|split; [discriminate|intros [E _]; discriminate]].
  destruct (allChk (checkJoint m s) (seq 1 (m_njoints m - 1))) as [[]|] eqn:E.
  - split; [intros _; split; [reflexivity|]; intros j Hj; rewrite allChk_true in E; apply E; now apply in_joints | reflexivity].
  - split; [discriminate|]. intros [_ H]. assert (X : allChk (checkJoint m s) (seq 1 (m_njoints m - 1)) = Some true) by (apply allChk_true; intros x Hx; apply H; now apply in_joints). congruence.
  - split; [discriminate|]. intros [_ H]. assert (X : allChk (checkJoint m s) (seq 1 (m_njoints m - 1)) = Some true) by (apply allChk_true; intros x Hx; apply H; now apply in_joints). congruence.
Qed.
Lemma joint_true s j : 0 < j < m_njoints m -> checkJoint m s j = Some true -> exists c,
  nth j (s_last s) 0%Z = Z.of_nat c /\ c < m_njoints m /\ checkInside m j c = true /\ checkOutside m j c = true /\
  nth j (s_nvs s) 0%Z = Z.of_nat (countDofs m j c) /\ nth (idx_vE m j) (s_nvr s) 0%Z = Z.of_nat (countDofs m j c) /\ checkRows m s j = true.
Proof.
  intros Hj H. unfold checkJoint in H. cbv zeta in H. destruct (Z.ltb_spec (nth j (s_last s) 0%Z) 0) as [|H0]; [discriminate|].
  destruct (Z.ltb_spec (nth j (s_last s) 0%Z) (Z.of_nat (m_njoints m))) as [H1|]; [|discriminate]. cbn [negb] in H.
  destruct (checkInside m j _) eqn:E1; [|discriminate]. destruct (Z.eqb_spec (Z.of_nat (countDofs m j (Z.to_nat (nth j (s_last s) 0%Z)))) (nth j (s_nvs s) 0%Z)) as [E2|]; [|discriminate].
  destruct (checkOutside m j _) eqn:E3; [|discriminate]. cbn [andb negb] in H. destruct (m_nvE m <=? jm_idx_vE (joint m j)); [discriminate|].
  injection H as H. apply andb_true_iff in H as [H2 H3]. apply Z.eqb_eq in H2. exists (Z.to_nat (nth j (s_last s) 0%Z)).
  destruct (wf_joint _ W j Hj) as (_ & _ & _ & E & _). rewrite E in H2.
  split; [lia|]. split; [lia|]. split; [exact E1|]. split; [exact E3|]. split; [now symmetry|]. split; [congruence|exact H3].
Qed.
Hypothesis Vm : validModel m.
Hypothesis Pos : noRigidJoint m.
Lemma lastRow_eq p : p < m_njoints m -> lastRow m p = if p =? 0 then (-1)%Z else (Z.of_nat (idx_v m p + nvOf m p) - 1)%Z.
Proof.
  intros Hp. unfold lastRow. destruct (Nat.eqb_spec p 0); [reflexivity|]. destruct (jm_v m W Vm NM p ltac:(lia)) as (_ & -> & _ & ->). lia.
Qed.
Lemma row_first j : 0 < j < m_njoints m -> idx_v m j = 0 -> j = 1.
Proof.
  intros Hj E. destruct (Nat.eq_dec j 1) as [|Hn]; [assumption|]. pose proof (idx_v_mono m W NM 1 j ltac:(lia) ltac:(lia) ltac:(lia)).
  pose proof (Pos 1 ltac:(lia)) as P. rewrite (nvE_nv m W Vm 1 (NM 1 ltac:(lia))) in P by lia. lia.
Qed.
Lemma rows_true s j : 0 < j < m_njoints m -> checkRows m s j = true ->
  nth (idx_v m j) (s_par s) 0%Z = if parent m j =? 0 then (-1)%Z else (Z.of_nat (idx_v m (parent m j) + nvOf m (parent m j)) - 1)%Z.
Proof.
  intros Hj H. pose proof (wf_parent _ W j Hj). unfold checkRows in H. cbv zeta in H. destruct (jm_v m W Vm NM j Hj) as (_ & E & _). rewrite E in H.
  destruct (Nat.eqb_spec (idx_v m j) 0) as [E0|_].
  - apply andb_true_iff in H as [H _]. apply andb_true_iff in H as [H _]. apply Z.eqb_eq in H. rewrite H.
    pose proof (row_first j Hj E0). subst j. replace (parent m 1) with 0 by lia. reflexivity.
  - apply andb_true_iff in H as [H _]. apply Z.eqb_eq in H. rewrite <- H. apply lastRow_eq. lia.
Qed.
Theorem check_sound s : checkData m s = Some true -> (forall j, 0 < j < m_njoints m -> (Z.of_nat j <= nth j (s_last s) 0)%Z) -> depthFirst m /\ tablesRight m s.
Proof.
  intros H L. apply check_true in H as [_ H].
  assert (K : forall j, 0 < j < m_njoints m -> exists c, nth j (s_last s) 0%Z = Z.of_nat c /\ j <= c < m_njoints m /\ interval j c /\
    nth j (s_nvs s) 0%Z = Z.of_nat (subtreeDofs m j) /\ nth (idx_v m j) (s_nvr s) 0%Z = Z.of_nat (subtreeDofs m j)).
  { intros j Hj. destruct (joint_true s j Hj (H j Hj)) as (c & E & Hc & I1 & I2 & E1 & E2 & _). exists c. specialize (L j Hj).
    assert (Hjc : j <= c) by lia. pose proof (interval_of j c ltac:(lia) ltac:(lia) (NM j Hj) I1 I2) as I.
    split; [exact E|]. split; [lia|]. split; [exact I|]. rewrite (idx_vE_v m W Vm NM j Hj) in E2.
    unfold subtreeDofs. rewrite (interval_subtree j c ltac:(lia) ltac:(lia) I), <- (countDofs_sum j c ltac:(lia) ltac:(lia) (NM j Hj)). auto. }
  split; [apply intervals_depthFirst; intros j Hj; destruct (K j Hj) as (c & _ & _ & I & _); now exists c|]. constructor.
  - intros j Hj. destruct (K j Hj) as (c & E & Hc & I & _). exists c. split; [exact E|]. apply interval_last; [lia|lia|exact I].
  - intros j Hj. destruct (K j Hj) as (c & E & Hc & I & E1 & E2). auto.
  - intros j Hj. apply rows_true; [exact Hj|]. now destruct (joint_true s j Hj (H j Hj)) as (c & _ & _ & _ & _ & _ & _ & R).
Qed.

(* ---- a new Data ---- *)
Definition fresh : Shape :=
  let n := m_njoints m in let nv := m_nv m in let nvE := m_nvE m in
  mkShape n n n n n n n n n (repeat nv n) n n n n n nv nv nv nv nv nv nv nv nv nv nv nvE nv nv nv 6 nv nv (m_nframes m)
    (table n (lastChild m)) (table n (nvSubtree m)) (table nvE (t_par (rowTables m))) (table nvE (t_mim (rowTables m))) (table nvE (t_non (rowTables m))) nvE
    (table nvE (t_nvs (rowTables m))) nvE nvE [].
Lemma newShape_fresh : newShape m = Some fresh.
Proof. unfold newShape. rewrite (mimicking_nil m T NM). reflexivity. Qed.
Lemma fresh_sizes : checkSizes m fresh = true.
Proof.
  unfold checkSizes, fresh. cbv zeta. cbn [n_joints n_a n_a_gf n_v n_f n_oMi n_liMi n_Ycrb n_Yaba c_Fcrb n_iMf n_com n_vcom n_acom n_mass n_tau n_nle n_ddq n_u r_M c_M c_Ag c_U r_U n_D n_tmp c_J c_Jcom n_res n_dqa h0 h1 h2 n_oMf s_last s_nvs s_par s_mim s_non n_red s_nvr n_start n_end s_msub].
  rewrite repeat_length, !length_table. cbn [forallb]. rewrite !Nat.eqb_refl, Nat.leb_refl. cbn [andb].
  rewrite !andb_true_r. apply forallb_forall. intros x Hx. apply repeat_spec in Hx. subst x. apply Nat.eqb_refl.
Qed.
Lemma row_bound j : 0 < j < m_njoints m -> idx_vE m j < m_nvE m.
Proof. intros Hj. pose proof (idx_vE_bound m W j Hj). pose proof (Pos j Hj). lia. Qed.
Lemma fresh_rows j : 0 < j < m_njoints m -> checkRows m fresh j = true.
Proof.
  intros Hj. pose proof (wf_parent _ W j Hj) as Hp. unfold checkRows, fresh. cbv zeta. cbn [s_par s_mim s_non]. destruct (jmE m W j Hj) as (-> & _ & _).
  rewrite !nth_table by now apply row_bound. destruct (tables_inv m W Pos) as (P1 & P2 & P3 & _).
  pose proof (P1 j 0 ltac:(lia) ltac:(lia) (Pos j Hj)) as Q1. pose proof (P2 j 0 ltac:(lia) ltac:(lia) (Pos j Hj)) as Q2. pose proof (P3 j 0 ltac:(lia) ltac:(lia) (Pos j Hj)) as Q3.
  rewrite Nat.add_0_r in Q1, Q2, Q3. cbn [Nat.eqb] in Q1, Q2, Q3. rewrite Q1, Q2, Q3. clear Q1 Q2 Q3 P1 P2 P3.
  destruct (Nat.eqb_spec (idx_vE m j) 0) as [E0|_].
  - rewrite (idx_vE_v m W Vm NM j Hj) in E0. pose proof (row_first j Hj E0). subst j. replace (parent m 1) with 0 by lia. reflexivity.
  - remember (parent m j) as p. destruct p as [|p]; [reflexivity|].
    cbn [ancestorWith Nat.ltb Nat.leb]. rewrite (NM (S p)) by lia. cbn [negb andb Nat.eqb]. unfold lastRow, lastCol. cbn [Nat.eqb Nat.ltb Nat.leb].
    rewrite !Z.eqb_refl. reflexivity.
Qed.
Definition good (j : nat) : bool := let c := Z.to_nat (lastChild m j) in checkInside m j c && (Z.of_nat (countDofs m j c) =? nvSubtree m j)%Z && checkOutside m j c.
Lemma fresh_joint j : 0 < j < m_njoints m -> checkJoint m fresh j = Some (good j).
Proof.
  intros Hj. destruct (lastChild_spec m W T j Hj) as (b & E & Hb & _). unfold checkJoint. cbv zeta.
  assert (E1 : nth j (s_last fresh) 0%Z = lastChild m j) by (unfold fresh; cbv zeta; cbn [s_last]; apply nth_table; lia).
  assert (E2 : nth j (s_nvs fresh) 0%Z = nvSubtree m j) by (unfold fresh; cbv zeta; cbn [s_nvs]; apply nth_table; lia).
  assert (E3 : nth (jm_idx_vE (joint m j)) (s_nvr fresh) 0%Z = nvSubtree m j).
  { unfold fresh; cbv zeta; cbn [s_nvr]. destruct (jmE m W j Hj) as (-> & _ & _). rewrite nth_table by now apply row_bound.
    destruct (tables_inv m W Pos) as (_ & _ & _ & _ & H). specialize (H j 0 Hj (Pos j Hj)). rewrite Nat.add_0_r in H. rewrite H. lia. }
  rewrite E1, E2, E3. destruct (Z.ltb_spec (lastChild m j) 0); [lia|]. destruct (Z.ltb_spec (lastChild m j) (Z.of_nat (m_njoints m))); [|lia]. cbn [negb].
  fold (good j). change (checkInside m j (Z.to_nat (lastChild m j)) && (Z.of_nat (countDofs m j (Z.to_nat (lastChild m j))) =? nvSubtree m j)%Z && checkOutside m j (Z.to_nat (lastChild m j)))%bool with (good j).
  destruct (good j); [|reflexivity]. cbn [negb]. destruct (jmE m W j Hj) as (EE & _ & _). rewrite EE. pose proof (row_bound j Hj). destruct (Nat.leb_spec (m_nvE m) (idx_vE m j)); [lia|].
  rewrite Z.eqb_refl, (fresh_rows j Hj). reflexivity.
Qed.
Theorem check_new : exists s b, newShape m = Some s /\ checkData m s = Some b /\ (b = true <-> depthFirst m).
Proof.
  exists fresh, (forallb good (seq 1 (m_njoints m - 1))). split; [apply newShape_fresh|]. split.
  - unfold checkData. rewrite indexes_ok, fresh_sizes, (mimicking_nil m T NM). cbn [negb length seq combine allChk].
    rewrite (allChk_some _ good) by (intros x Hx; apply fresh_joint; now apply in_joints). now destruct (forallb good _).
  - rewrite forallb_forall. split.
    + intros H. apply intervals_depthFirst. intros j Hj. specialize (H j (proj2 (in_joints _ _) Hj)). unfold good in H. cbv zeta in H.
      apply andb_true_iff in H as [H H3]. apply andb_true_iff in H as [H1 _]. destruct (lastChild_spec m W T j Hj) as (b & E & Hb & Ab & _). pose proof (anc_le m W T j b Hb Ab).
      rewrite E, Nat2Z.id in H1, H3. exists b. apply interval_of; try assumption; try lia. now apply NM.
    + intros DF j Hj. apply in_joints in Hj. destruct (depthFirst_interval j DF Hj) as (c & E & Hc & I). unfold good. cbv zeta. rewrite E, Nat2Z.id.
      destruct (checks_of j c ltac:(lia) Hc I) as [-> ->]. rewrite andb_true_r. cbn [andb]. apply Z.eqb_eq.
      rewrite (countDofs_sum j c ltac:(lia) Hc (NM j Hj)). unfold nvSubtree. rewrite (NM j Hj), E, Nat2Z.id, (NM c) by lia.
      destruct (jm_v m W Vm NM c ltac:(lia)) as (-> & _ & -> & _). destruct (jm_v m W Vm NM j Hj) as (-> & _).
      pose proof (sum_idx j (c - j) ltac:(lia) ltac:(lia)) as SI. replace (j + (c - j)) with c in SI by lia. replace (S (c - j)) with (S c - j) in SI by lia. lia.
Qed.
End Check.
