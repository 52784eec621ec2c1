(* getJointKinematicHessian, column by column, and its contraction with a velocity. *)
Require Import Reals List Arith ZArith Lia Lra Bool Sorted.
From Verif Require Import Vec3 Spatial Inertia SpatialFacts Joints Spec_Joints Deriv JointFacts Model Spec_Model ModelFacts ModelTree ModelFacts2 Sums Data Kinematics Spec_Kin Spec_Mass KinFacts KinFacts3 TreeSums MassFacts Crba CrbaFacts CrbaFacts2 Jacobian Spec_Jac JacFacts JacFacts2 JacFacts3 JacFacts5 JacFacts6 RneaDerFacts3 KinDerFacts KinDerFacts2 Spec_KinDer KinHess KinHessFacts KinHessFacts2.
Import ListNotations.
Local Open Scope nat_scope.
Local Open Scope bool_scope.

Lemma slices_out body : forall l H o, ~ In o l -> slices body l H o = H o.
Proof.
  induction l as [|x l IH]; intros H o N; [reflexivity|]. cbn [slices]. rewrite IH by (intros h; apply N; now right). unfold putn. destruct (Nat.eqb_spec x o) as [->|]; [exfalso; apply N; now left | reflexivity].
Qed.
Lemma slices_in body pre : forall o post H, NoDup (pre ++ o :: post) -> slices body (pre ++ o :: post) H o = body o post (H o).
Proof.
  induction pre as [|x pre IH]; intros o post H ND; cbn [app slices] in *; apply NoDup_cons_iff in ND as [N ND].
  - rewrite slices_out by exact N. unfold putn. now rewrite Nat.eqb_refl.
  - rewrite IH by exact ND. unfold putn. destruct (Nat.eqb_spec x o) as [->|]; [|reflexivity]. exfalso. apply N. apply in_or_app. right. now left.
Qed.
Lemma fold_upd g : forall l row k, NoDup l -> (In k l -> fold_left (updAt g) l row k = g k (row k)) /\ (~ In k l -> fold_left (updAt g) l row k = row k).
Proof.
  induction l as [|x l IH]; intros row k ND; [split; [contradiction | reflexivity]|]. apply NoDup_cons_iff in ND as [N ND]. cbn [fold_left]. destruct (IH (updAt g row x) k ND) as [I1 I2]. unfold updAt, putn in *. split.
  - intros [<-|H]; [rewrite I2 by exact N; now rewrite Nat.eqb_refl|]. rewrite (I1 H). destruct (Nat.eqb_spec x k) as [->|]; [contradiction | reflexivity].
  - intros H. rewrite I2 by (intros h; apply H; now right). destruct (Nat.eqb_spec x k) as [->|]; [exfalso; apply H; now left | reflexivity].
Qed.
Lemma sorted_split pre o post : StronglySorted lt (pre ++ o :: post) -> (forall k, In k pre -> k < o) /\ (forall k, In k post -> o < k).
Proof.
  induction pre as [|x pre IH]; intros H; cbn [app] in H; apply StronglySorted_inv in H as [H1 H2]; rewrite Forall_forall in H2.
  - split; [contradiction | exact H2].
  - destruct (IH H1) as [I1 I2]. split; [|exact I2]. intros k [<-|Hk]; [apply H2; apply in_or_app; right; now left | auto].
Qed.
Lemma below_in x : forall l k, StronglySorted lt l -> (In k (below x l) <-> In k l /\ k < x).
Proof.
  induction l as [|y l IH]; intros k H; cbn [below]; [split; [contradiction | intros [[] _]]|]. apply StronglySorted_inv in H as [H1 H2]. rewrite Forall_forall in H2. destruct (Nat.leb_spec x y) as [L|L].
  - split; [contradiction|]. intros [[<-|Hk] Hx]; [lia | specialize (H2 k Hk); lia].
  - cbn [In]. rewrite (IH k H1). split; [intros [<-|[Hk Hx]]; auto | intros [[<-|Hk] Hx]; auto].
Qed.
Lemma below_nodup x : forall l, NoDup l -> NoDup (below x l).
Proof.
  induction l as [|y l IH]; intros H; [constructor|]. apply NoDup_cons_iff in H as [N H]. cbn [below]. destruct (x <=? y); [constructor|]. constructor; [|exact (IH H)].
  intros Hy. apply N. revert Hy. clear. induction l as [|z l IH]; cbn [below]; [auto|]. destruct (x <=? z); [contradiction|]. cbn [In]. intros [<-|Hy]; auto.
Qed.

Lemma nodup_post (pre : list nat) o post : NoDup (pre ++ o :: post) -> NoDup post.
Proof. induction pre as [|x pre IH]; cbn [app]; intros H; apply NoDup_cons_iff in H as [_ H]; auto. Qed.

Section KH.
Variable eps : R.
Variable m : Model.
Hypothesis Bt : Built eps m.
Let W : wellFormed m := Built_wf eps m Bt.
Let T : treeInv m := Built_tree eps m Bt.
Hypothesis Vm : validModel m.
Hypothesis NM : noMimic m.
Hypothesis Pos : noRigidJoint m.
Let pc := pathCols m.
Let sorted := pathCols_sorted eps m Bt NM.

(* what the getter writes in column k of slice o, for two columns of the path to j; b is the first column of the joint of o *)
Definition hCol (rf : RefFrame) (P : SE3) (J : Jac) (b e : nat) (base : bool) (o k : nat) : V6 :=
  match rf with
  | WORLD => if b <=? k then motion_cross (J o) (J k) else v6zero
  | LOCAL_WORLD_ALIGNED => v6sub (if b <=? k then toFrame LOCAL_WORLD_ALIGNED P (motion_cross (J o) (J k)) else v6zero) (mkV6 (atLast P (J o) (J k)) v3zero)
  | LOCAL => if base then v6zero else if k <=? e then motion_actInv P (motion_cross (J k) (J o)) else v6zero
  end.

Section G.
Variable d : Data.
Variable K : Hess.
Variable j : nat.
Hypothesis Hj : 0 < j < m_njoints m.
Hypothesis HK : forall o k, In o (pc j) -> In k (pc j) -> o <> k -> K o k = motion_cross (co (gl d) F_J o) (co (gl d) F_J k).
Let J := co (gl d) F_J.
Let P := pl (rows d j) F_oMi.
Lemma cross_self (x : V6) : motion_cross x x = v6zero.
Proof. sring. Qed.
Lemma path_own s c a : In s (tl (support m j)) -> c < nvOf m s -> a < nvOf m s -> In (idx_v m s + a) (pc j).
Proof. intros Hs Hc Ha. apply (pathCols_in m j); [lia|]. now exists s, a. Qed.
Lemma getter_off rf o k : ~ In o (pc j) \/ ~ In k (pc j) -> getJointKinematicHessian m d K j rf zeroH o k = v6zero.
Proof.
  unfold getJointKinematicHessian. rewrite (sup_last eps m Bt Vm NM Pos j Hj). fold pc. intros N.
  destruct (in_dec Nat.eq_dec o (pc j)) as [Ho|Ho].
  2: { destruct rf; (rewrite slices_out; [reflexivity|]); [exact Ho | intros H; apply in_rev in H; exact (Ho H) | exact Ho]. }
  destruct N as [N|N]; [contradiction|]. pose proof Ho as Ho'. apply (pathCols_in m j) in Ho' as (s & c & Hs & Hc & Eo); [|lia]. pose proof (tail_range m W T j s ltac:(lia) Hs) as Rs.
  assert (Bs : startIdx m o = idx_v m s) by (subst o; apply (start_spec eps m Bt Vm NM Pos); lia). assert (Be : endIdx m o = idx_v m s + nvOf m s - 1) by (subst o; apply (end_spec eps m Bt Vm NM Pos); lia).
  pose proof (sorted j ltac:(lia)) as SS. fold pc in SS. pose proof (sorted_nodup _ SS) as ND.
  assert (OWN : forall x, idx_v m s <= x < idx_v m s + nvOf m s -> x <> k).
  { intros x Hx <-. apply N. replace x with (idx_v m s + (x - idx_v m s)) by lia. apply (path_own s c); [exact Hs | exact Hc | lia]. }
  destruct rf.
  - apply in_split in Ho as (pre & post & E). rewrite E in ND, SS, N |- *. rewrite slices_in by exact ND. unfold rowWorld. rewrite Bs.
    assert (ND2 : NoDup post) by exact (nodup_post _ _ _ ND).
    rewrite (proj2 (fold_upd _ post _ k ND2)) by (intros h; apply N; apply in_or_app; right; now right).
    rewrite (proj2 (fold_upd _ _ _ k (seq_NoDup _ _))); [reflexivity|]. intros h. apply in_seq in h. apply (OWN k); [lia | reflexivity].
  - assert (Ho2 : In o (rev (pc j))) by (apply in_rev; now rewrite rev_involutive). assert (NDr : NoDup (rev (pc j))) by now apply NoDup_rev. apply in_split in Ho2 as (pre & post & E). rewrite E in NDr |- *.
    rewrite slices_in by exact NDr. unfold rowLocal. rewrite Bs, Be. destruct (t_par (rowTables m) (idx_v m s) <? 0)%Z; [reflexivity|].
    assert (ND2 : NoDup post) by exact (nodup_post _ _ _ NDr).
    rewrite (proj2 (fold_upd _ post _ k ND2)) by (intros h; apply N; apply in_rev; rewrite E; apply in_or_app; right; now right).
    rewrite (proj2 (fold_upd _ _ _ k (NoDup_rev (seq_NoDup _ _)))); [reflexivity|]. intros h. apply in_rev in h. apply in_seq in h. apply (OWN k); [lia | reflexivity].
  - pose proof (below_in (startIdx m o) (pc j) k SS) as BI. pose proof (below_nodup (startIdx m o) (pc j) ND) as BN. pose proof N as N0. pose proof Ho as Ho0. set (bl := below (startIdx m o) (pc j)) in *.
    apply in_split in Ho as (pre & post & E). rewrite E in ND, N. rewrite E at 2. rewrite slices_in by exact ND. unfold rowAligned. fold bl. rewrite Bs.
    assert (ND2 : NoDup post) by exact (nodup_post _ _ _ ND).
    rewrite (proj2 (fold_upd _ post _ k ND2)) by (intros h; apply N; apply in_or_app; right; now right).
    unfold updAt at 1, putn at 1. destruct (Nat.eqb_spec o k) as [->|]; [contradiction|].
    rewrite (proj2 (fold_upd _ _ _ k (seq_NoDup _ _))) by (intros h; apply in_seq in h; apply (OWN k); [lia | reflexivity]).
    rewrite (proj2 (fold_upd _ _ _ k BN)); [reflexivity|]. intros h. apply BI in h as [h _]. contradiction.
Qed.
Lemma getter_on rf s c k : In s (tl (support m j)) -> c < nvOf m s -> In k (pc j) ->
  getJointKinematicHessian m d K j rf zeroH (idx_v m s + c) k = hCol rf P J (idx_v m s) (idx_v m s + nvOf m s - 1) (negb (0 <? parent m s)) (idx_v m s + c) k.
Proof.
  intros Hs Hc Hk. pose proof (tail_range m W T j s ltac:(lia) Hs) as Rs. set (o := idx_v m s + c).
  assert (Ho : In o (pc j)) by (apply (path_own s c c Hs Hc Hc)).
  unfold getJointKinematicHessian. rewrite (sup_last eps m Bt Vm NM Pos j Hj). fold pc P J.
  assert (Bs : startIdx m o = idx_v m s) by (apply (start_spec eps m Bt Vm NM Pos); lia). assert (Be : endIdx m o = idx_v m s + nvOf m s - 1) by (apply (end_spec eps m Bt Vm NM Pos); lia).
  pose proof (sorted j ltac:(lia)) as SS. fold pc in SS. pose proof (sorted_nodup _ SS) as ND.
  assert (KK : forall x, In x (pc j) -> x <> o -> K o x = motion_cross (J o) (J x) /\ K x o = motion_cross (J x) (J o)) by (intros x Hx Hn; split; apply HK; auto).
  destruct rf; cbn [hCol].
  - apply in_split in Ho as (pre & post & E). pose proof Hk as Hk0. rewrite E in ND, SS, Hk |- *. rewrite slices_in by exact ND. destruct (sorted_split _ _ _ SS) as [S1 S2]. unfold rowWorld. rewrite Bs.
    assert (ND2 : NoDup post) by exact (nodup_post _ _ _ ND).
    destruct (in_dec Nat.eq_dec k post) as [Hp|Hp].
    + rewrite (proj1 (fold_upd _ post _ k ND2) Hp). specialize (S2 k Hp). destruct (Nat.leb_spec (idx_v m s) k); [|unfold o in *; lia]. apply KK; [exact Hk0 | lia].
    + rewrite (proj2 (fold_upd _ post _ k ND2) Hp). apply in_app_or in Hk as [Hk|[Hk|Hk]]; [| |contradiction].
      * specialize (S1 k Hk). destruct (Nat.leb_spec (idx_v m s) k) as [L|L].
        -- rewrite (proj1 (fold_upd _ _ _ k (seq_NoDup _ _))) by (apply in_seq; lia). apply KK; [exact Hk0 | lia].
        -- rewrite (proj2 (fold_upd _ _ _ k (seq_NoDup _ _))) by (intros h; apply in_seq in h; lia). reflexivity.
      * subst k. rewrite (proj2 (fold_upd _ _ _ o (seq_NoDup _ _))) by (intros h; apply in_seq in h; lia). destruct (idx_v m s <=? o); [rewrite cross_self|]; reflexivity.
  - assert (Ho2 : In o (rev (pc j))) by (apply in_rev; now rewrite rev_involutive). assert (NDr : NoDup (rev (pc j))) by now apply NoDup_rev. apply in_split in Ho2 as (pre & post & E).
    assert (E2 : pc j = rev post ++ o :: rev pre) by (rewrite <- (rev_involutive (pc j)), E, rev_app_distr; cbn [rev]; now rewrite <- app_assoc).
    rewrite E2 in SS. destruct (sorted_split _ _ _ SS) as [S1 S2]. pose proof Hk as Hk0. rewrite E2 in Hk. rewrite E in NDr |- *.
    rewrite slices_in by exact NDr. unfold rowLocal. rewrite Bs, Be, (par_first eps m Bt Vm NM Pos s ltac:(lia)). destruct (Nat.ltb_spec 0 (parent m s)) as [Hp|Hp]; cbn [negb].
    2: reflexivity.
    pose proof (wf_parent _ W s ltac:(lia)) as Hps. assert (Np : 0 < nvOf m (parent m s)) by (apply (jfields eps m Bt Vm NM Pos); lia). destruct (Z.ltb_spec (Z.of_nat (idx_v m (parent m s)) + Z.of_nat (nvOf m (parent m s)) - 1) 0); [lia|].
    assert (ND2 : NoDup post) by exact (nodup_post _ _ _ NDr).
    destruct (in_dec Nat.eq_dec k post) as [Hq|Hq].
    + rewrite (proj1 (fold_upd _ post _ k ND2) Hq). assert (k < o) by (apply S1; apply in_rev; now rewrite rev_involutive). destruct (Nat.leb_spec k (idx_v m s + nvOf m s - 1)); [|unfold o in *; lia].
      f_equal. apply KK; [exact Hk0 | lia].
    + rewrite (proj2 (fold_upd _ post _ k ND2) Hq). apply in_app_or in Hk as [Hk|[Hk|Hk]]; [apply in_rev in Hk; contradiction | |].
      * subst k. rewrite (proj2 (fold_upd _ _ _ o (NoDup_rev (seq_NoDup _ _)))) by (intros h; apply in_rev in h; apply in_seq in h; lia). rewrite cross_self, motion_actInv_0. destruct (_ <=? _); reflexivity.
      * specialize (S2 k Hk). destruct (Nat.leb_spec k (idx_v m s + nvOf m s - 1)) as [L|L].
        -- rewrite (proj1 (fold_upd _ _ _ k (NoDup_rev (seq_NoDup _ _)))) by (apply in_rev; rewrite rev_involutive; apply in_seq; unfold o in *; lia). f_equal. apply KK; [exact Hk0 | lia].
        -- rewrite (proj2 (fold_upd _ _ _ k (NoDup_rev (seq_NoDup _ _)))) by (intros h; apply in_rev in h; apply in_seq in h; unfold o in *; lia). reflexivity.
  - pose proof (below_in (startIdx m o) (pc j) k SS) as BI. pose proof (below_nodup (startIdx m o) (pc j) ND) as BN. set (bl := below (startIdx m o) (pc j)) in *. rewrite Bs in BI.
    assert (AL : forall x, In x (pc j) -> x <> o -> alignedCol P J K o x = v6sub (toFrame LOCAL_WORLD_ALIGNED P (motion_cross (J o) (J x))) (mkV6 (atLast P (J o) (J x)) v3zero)).
    { intros x Hx Hn. unfold alignedCol. rewrite (proj1 (KK x Hx Hn)). generalize (atLast P (J o) (J x)). cbn [toFrame]. generalize (motion_cross (J o) (J x)). intros y z. unfold v6sub. cbn [lin ang]. f_equal; sring. }
    assert (ZL : forall x : V3, mkV6 (v3opp x) (ang v6zero) = v6sub v6zero (mkV6 x v3zero)) by (intros x; unfold v6sub, v6zero; cbn [lin ang]; f_equal; sring).
    apply in_split in Ho as (pre & post & E). pose proof Hk as Hk0. rewrite E in ND, SS, Hk. rewrite E at 2. rewrite slices_in by exact ND. destruct (sorted_split _ _ _ SS) as [S1 S2]. unfold rowAligned. fold bl. rewrite Bs.
    assert (ND2 : NoDup post) by exact (nodup_post _ _ _ ND).
    destruct (in_dec Nat.eq_dec k post) as [Hp|Hp].
    + rewrite (proj1 (fold_upd _ post _ k ND2) Hp). specialize (S2 k Hp). destruct (Nat.leb_spec (idx_v m s) k); [|unfold o in *; lia]. apply AL; [exact Hk0 | lia].
    + rewrite (proj2 (fold_upd _ post _ k ND2) Hp). apply in_app_or in Hk as [Hk|[Hk|Hk]]; [| |contradiction].
      * specialize (S1 k Hk). unfold updAt at 1, putn at 1. destruct (Nat.eqb_spec o k); [lia|]. destruct (Nat.leb_spec (idx_v m s) k) as [L|L].
        -- rewrite (proj1 (fold_upd _ _ _ k (seq_NoDup _ _))) by (apply in_seq; lia). apply AL; [exact Hk0 | lia].
        -- rewrite (proj2 (fold_upd _ _ _ k (seq_NoDup _ _))) by (intros h; apply in_seq in h; lia). rewrite (proj1 (fold_upd _ _ _ k BN)) by (apply BI; split; [exact Hk0 | exact L]). apply ZL.
      * subst k. unfold updAt at 1, putn at 1. rewrite Nat.eqb_refl. rewrite (proj2 (fold_upd _ _ _ o (seq_NoDup _ _))) by (intros h; apply in_seq in h; lia).
        rewrite (proj2 (fold_upd _ _ _ o BN)) by (intros h; apply BI in h; unfold o in h; lia). unfold zeroH. rewrite ZL, cross_self. f_equal. destruct (idx_v m s <=? o); [|reflexivity]. cbn [toFrame]. generalize (trans P). intros. sring.
Qed.
End G.
End KH.
