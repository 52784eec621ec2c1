(* The sparsity pattern of a constraint and its Jacobian. *)
Require Import Reals List Arith ZArith Lia Lra Bool.
From Verif Require Import Vec3 Spatial Inertia InertiaFacts SpatialFacts Joints Spec_Joints Deriv JointFacts JointFacts2 Model Spec_Model ModelFacts ModelTree ModelFacts2 ModelFacts3 Sums Data Kinematics Spec_Kin Spec_Mass KinFacts KinFacts2 KinFacts3 Spec_Dyn Rnea DynFacts DynFacts2 TreeSums MassFacts Crba CrbaFacts AbaFacts Jacobian Spec_Jac JacFacts JacFacts2 JacFacts3 DccrbaFacts DerSums Spec_Reg RneaDerFacts3 LieDerFacts4 Constraint.
Import ListNotations.
Local Open Scope nat_scope.
Local Open Scope bool_scope.

Section C.
Variable eps : R.
Variable m : Model.
Hypothesis Bt : Built eps m.
Let W : wellFormed m := Built_wf eps m Bt.
Let T : treeInv m := Built_tree eps m Bt.
Hypothesis Vm : validModel m.
Hypothesis NM : noMimic m.

Lemma mark_at i j a s : 0 < i < m_njoints m -> 0 < j < m_njoints m -> a < nvOf m j -> mark m i s (idx_v m j + a) = (i =? j) || s (idx_v m j + a).
Proof.
  intros Hi Hj Ha. unfold mark, setCols. destruct (jm_v m W Vm NM i Hi) as (E1 & _ & E3 & _). rewrite E1, E3, (within_own m W NM i j a Hi Hj Ha). destruct (i =? j); reflexivity.
Qed.
Lemma in_app_one (i x : nat) l : inb i (l ++ [x]) = inb i l || (i =? x).
Proof. unfold inb. rewrite existsb_app. cbn [existsb]. now rewrite orb_false_r, (Nat.eqb_sym x). Qed.
Lemma anc_gt i b : b < m_njoints m -> b < i -> anc m i b = false.
Proof. intros Hb Hi. destruct (anc m i b) eqn:E; [|reflexivity]. pose proof (anc_le m W T i b Hb E). lia. Qed.

(* what the climb keeps *)
Record CI (j1 j2 : nat) (k : Climb) : Prop := mkCI {
  ci_1 : k_1 k < m_njoints m; ci_2 : k_2 k < m_njoints m;
  ci_a1 : forall i, 0 < i < m_njoints m -> anc m i j1 = inb i (k_l1 k) || anc m i (k_1 k);
  ci_a2 : forall i, 0 < i < m_njoints m -> anc m i j2 = inb i (k_l2 k) || anc m i (k_2 k);
  ci_g1 : forall i, inb i (k_l1 k) = true -> k_2 k < i;
  ci_g2 : forall i, inb i (k_l2 k) = true -> k_1 k < i;
  ci_d : forall i, inb i (k_l1 k) = true -> inb i (k_l2 k) = false;
  ci_s1 : forall i a, 0 < i < m_njoints m -> a < nvOf m i -> k_s1 k (idx_v m i + a) = inb i (k_l1 k);
  ci_s2 : forall i a, 0 < i < m_njoints m -> a < nvOf m i -> k_s2 k (idx_v m i + a) = inb i (k_l2 k) }.
Lemma climb_ok j1 j2 fuel : forall k, k_1 k + k_2 k <= fuel -> CI j1 j2 k -> CI j1 j2 (climb m fuel k) /\ k_1 (climb m fuel k) = k_2 (climb m fuel k).
Proof.
  induction fuel as [|f IH]; intros k Hf H; cbn [climb]; [split; [exact H | lia]|].
  destruct (Nat.eqb_spec (k_1 k) (k_2 k)) as [E|E]; [auto|]. destruct H as [H1 H2 A1 A2 G1 G2 D S1 S2].
  destruct (Nat.ltb_spec (k_2 k) (k_1 k)) as [L|L].
  - assert (Hi : 0 < k_1 k < m_njoints m) by lia. pose proof (wf_parent _ W _ Hi) as Hp. apply IH; [cbn; lia|]. constructor; cbn [k_1 k_2 k_s1 k_s2 k_l1 k_l2]; try assumption; try lia.
    + intros i Hi'. rewrite (A1 i Hi'), (anc_step m W T i _ Hi), in_app_one. destruct (inb i (k_l1 k)), (i =? k_1 k); reflexivity.
    + intros i Hi'. rewrite in_app_one in Hi'. apply orb_true_iff in Hi'. destruct Hi' as [?|E']; [auto|]. apply Nat.eqb_eq in E'. lia.
    + intros i Hi'. specialize (G2 i Hi'). lia.
    + intros i Hi'. rewrite in_app_one in Hi'. apply orb_true_iff in Hi'. destruct Hi' as [?|E']; [auto|]. apply Nat.eqb_eq in E'. subst i.
      destruct (inb (k_1 k) (k_l2 k)) eqn:X; [|reflexivity]. specialize (G2 _ X). lia.
    + intros i a Hi' Ha. rewrite (mark_at _ i a _ Hi Hi' Ha), (S1 i a Hi' Ha), in_app_one, (Nat.eqb_sym i). apply orb_comm.
  - assert (Hi : 0 < k_2 k < m_njoints m) by lia. pose proof (wf_parent _ W _ Hi) as Hp. apply IH; [cbn; lia|]. constructor; cbn [k_1 k_2 k_s1 k_s2 k_l1 k_l2]; try assumption; try lia.
    + intros i Hi'. rewrite (A2 i Hi'), (anc_step m W T i _ Hi), in_app_one. destruct (inb i (k_l2 k)), (i =? k_2 k); reflexivity.
    + intros i Hi'. specialize (G1 i Hi'). lia.
    + intros i Hi'. rewrite in_app_one in Hi'. apply orb_true_iff in Hi'. destruct Hi' as [?|E']; [auto|]. apply Nat.eqb_eq in E'. lia.
    + intros i Hi'. rewrite in_app_one, (D i Hi'). apply Nat.eqb_neq. specialize (G1 i Hi'). lia.
    + intros i a Hi' Ha. rewrite (mark_at _ i a _ Hi Hi' Ha), (S2 i a Hi' Ha), in_app_one, (Nat.eqb_sym i). apply orb_comm.
Qed.
Lemma both_ok fuel : forall k, k_1 k <= fuel -> k_1 k < m_njoints m ->
  let k' := climbBoth m fuel k in
  (forall i, 0 < i < m_njoints m -> inb i (k_l1 k') = inb i (k_l1 k) || anc m i (k_1 k) /\ inb i (k_l2 k') = inb i (k_l2 k) || anc m i (k_1 k)) /\
  (forall i a, 0 < i < m_njoints m -> a < nvOf m i -> k_s1 k' (idx_v m i + a) = k_s1 k (idx_v m i + a) || anc m i (k_1 k) /\ k_s2 k' (idx_v m i + a) = k_s2 k (idx_v m i + a) || anc m i (k_1 k)).
Proof.
  induction fuel as [|f IH]; intros k Hf Hk; cbv zeta; cbn [climbBoth].
  - replace (k_1 k) with 0 by lia. split; intros; rewrite (anc_0 m W T); destruct (Nat.eqb_spec i 0); [lia| |lia|]; now rewrite !orb_false_r.
  - destruct (Nat.ltb_spec 0 (k_1 k)) as [L|L].
    + assert (Hi : 0 < k_1 k < m_njoints m) by lia. pose proof (wf_parent _ W _ Hi) as Hp.
      set (k2 := mkClimb _ _ _ _ _ _). destruct (IH k2 ltac:(cbn; lia) ltac:(cbn; lia)) as [P1 P2]. cbn [k_1 k_2 k_s1 k_s2 k_l1 k_l2 k2] in P1, P2. split.
      * intros i Hi'. destruct (P1 i Hi') as [-> ->]. rewrite !in_app_one, (anc_step m W T i _ Hi), !orb_assoc. auto.
      * intros i a Hi' Ha. destruct (P2 i a Hi' Ha) as [-> ->]. rewrite !(mark_at _ i a _ Hi Hi' Ha), (anc_step m W T i _ Hi), (Nat.eqb_sym i), !orb_assoc. split; f_equal; apply orb_comm.
    + replace (k_1 k) with 0 by lia. split; intros; rewrite (anc_0 m W T); destruct (Nat.eqb_spec i 0); [lia| |lia|]; now rewrite !orb_false_r.
Qed.
(* the pattern of a constraint *)
Lemma fill_pattern t j1 p1 j2 p2 rf : j1 < m_njoints m -> j2 < m_njoints m -> let c := rcFill m t j1 p1 j2 p2 rf in
  (forall i a, 0 < i < m_njoints m -> a < nvOf m i ->
     rc_s1 c (idx_v m i + a) = anc m i j1 && (match t with CONTACT_3D => true | CONTACT_6D => negb (anc m i j2) end) /\
     rc_s2 c (idx_v m i + a) = anc m i j2 && (match t with CONTACT_3D => true | CONTACT_6D => negb (anc m i j1) end)) /\
  (forall i, 0 < i < m_njoints m ->
     inb i (rc_js1 c) = anc m i j1 && (match t with CONTACT_3D => true | CONTACT_6D => negb (anc m i j2) end) /\
     inb i (rc_js2 c) = anc m i j2 && (match t with CONTACT_3D => true | CONTACT_6D => negb (anc m i j1) end)).
Proof.
  intros H1 H2. cbv zeta. unfold rcFill. cbv zeta. cbn [rc_s1 rc_s2 rc_js1 rc_js2].
  set (k0 := mkClimb j1 j2 _ _ _ _). assert (C0 : CI j1 j2 k0) by (constructor; cbn; auto; discriminate).
  destruct (climb_ok j1 j2 (j1 + j2) k0 ltac:(cbn; lia) C0) as [[K1 K2 A1 A2 G1 G2 D S1 S2] E]. set (k := climb m (j1 + j2) k0) in *. clearbody k. clear C0 k0. rewrite <- E in *.
  assert (L1 : forall i, inb i (k_l1 k) = true -> anc m i (k_1 k) = false) by (intros i Hi; apply anc_gt; [exact K1 | apply G1, Hi]).
  assert (L2 : forall i, inb i (k_l2 k) = true -> anc m i (k_1 k) = false) by (intros i Hi; apply anc_gt; [exact K1 | apply G2, Hi]).
  assert (P1 : forall i, 0 < i < m_njoints m -> anc m i j1 && negb (anc m i j2) = inb i (k_l1 k)).
  { intros i Hi. rewrite (A1 i Hi), (A2 i Hi). destruct (inb i (k_l1 k)) eqn:X.
    - rewrite (D i X), (L1 i X). reflexivity.
    - destruct (anc m i (k_1 k)); cbn; [now rewrite orb_true_r | reflexivity]. }
  assert (P2 : forall i, 0 < i < m_njoints m -> anc m i j2 && negb (anc m i j1) = inb i (k_l2 k)).
  { intros i Hi. rewrite (A1 i Hi), (A2 i Hi). destruct (inb i (k_l2 k)) eqn:X.
    - rewrite (L2 i X). destruct (inb i (k_l1 k)) eqn:Y; [|reflexivity]. rewrite (D i Y) in X. discriminate.
    - destruct (anc m i (k_1 k)); cbn; [now rewrite orb_true_r | reflexivity]. }
  destruct t.
  - destruct (both_ok (k_1 k) k (Nat.le_refl _) K1) as [B1 B2]. split.
    + intros i a Hi Ha. destruct (B2 i a Hi Ha) as [-> ->]. rewrite (S1 i a Hi Ha), (S2 i a Hi Ha), !andb_true_r, (A1 i Hi), (A2 i Hi). auto.
    + intros i Hi. destruct (B1 i Hi) as [-> ->]. rewrite !andb_true_r, (A1 i Hi), (A2 i Hi). auto.
  - split.
    + intros i a Hi Ha. rewrite (P1 i Hi), (P2 i Hi). auto.
    + intros i Hi. rewrite (P1 i Hi), (P2 i Hi). auto.
Qed.

(* one loop over the columns *)
Lemma putCols b n (f : nat -> V6) l : forall J r k, fold_left (fun J k => putCol b n k (f k) J) l J r k = if within b n r && inb k l then comp6 (f k) (r - b) else J r k.
Proof.
  induction l as [|x l IH]; intros J r k; cbn [fold_left]; [now rewrite andb_false_r|]. rewrite IH. unfold putCol, inb. cbn [existsb]. fold (inb k l).
  destruct (within b n r); cbn [andb]; [|reflexivity]. destruct (inb k l); [now rewrite orb_true_r|]. rewrite orb_false_r, (Nat.eqb_sym x). destruct (Nat.eqb_spec k x) as [->|]; reflexivity.
Qed.
Lemma inb_filter (p : nat -> bool) k n : inb k (filter p (seq 0 n)) = (k <? n) && p k.
Proof.
  unfold inb. apply eq_true_iff_eq. rewrite existsb_exists, andb_true_iff, Nat.ltb_lt. split.
  - intros (x & Hx & E). apply Nat.eqb_eq in E. subst x. apply filter_In in Hx. destruct Hx as [Hx Hp]. apply in_seq in Hx. split; [lia | exact Hp].
  - intros [Hk Hp]. exists k. split; [apply filter_In; split; [apply in_seq; lia | exact Hp] | apply Nat.eqb_refl].
Qed.

(* what each side of the constraint reads in a world velocity *)
Definition side1 (t : ContactType) (rf : RefFrame) (c1 : SE3) (x : V6) : V6 :=
  match t with CONTACT_6D => toFrame rf c1 x | CONTACT_3D => mkV6 (lin (toFrame rf c1 x)) v3zero end.
Definition side2 (t : ContactType) (rf : RefFrame) (c1 c2 : SE3) (x : V6) : V6 :=
  match t with
  | CONTACT_6D => toFrame rf c1 x
  | CONTACT_3D => mkV6 (match rf with LOCAL => m3vec (rot (se3_actInv_se3 c1 c2)) (lin (motion_actInv c2 x)) | _ => lin (toFrame rf c2 x) end) v3zero
  end.
Lemma side1_lin t rf c1 : (forall x y, side1 t rf c1 (v6add x y) = v6add (side1 t rf c1 x) (side1 t rf c1 y)) /\ (forall k x, side1 t rf c1 (v6scale k x) = v6scale k (side1 t rf c1 x)).
Proof.
  destruct (toFrame_lin rf c1) as (_ & A & S). destruct t; cbn [side1]; split; intros; rewrite ?A, ?S; try reflexivity; generalize (toFrame rf c1 x); try generalize (toFrame rf c1 y); sring.
Qed.
Lemma side2_lin t rf c1 c2 : (forall x y, side2 t rf c1 c2 (v6add x y) = v6add (side2 t rf c1 c2 x) (side2 t rf c1 c2 y)) /\ (forall k x, side2 t rf c1 c2 (v6scale k x) = v6scale k (side2 t rf c1 c2 x)).
Proof.
  destruct t; [|exact (side1_lin CONTACT_6D rf c1)]. generalize (rot (se3_actInv_se3 c1 c2)). intros A. destruct (toFrame_lin rf c2) as (_ & TA & TS). destruct (toFrame_lin LOCAL c2) as (_ & LA & LS). cbn [toFrame] in LA, LS.
  destruct rf; cbn [side2]; split; intros; rewrite ?TA, ?TS, ?LA, ?LS; unfold v6add, v6scale; cbn [lin ang]; f_equal; rewrite ?m3vec_add_r; try reflexivity; try (apply v3_ext; cbn; ring).
Qed.
Lemma cj_sides t rf s1 s2 c1 c2 x : rf <> WORLD -> s1 || s2 = true -> (t = CONTACT_6D -> xorb s1 s2 = true) ->
  cjCol t rf s1 s2 c1 c2 x = v6sub (if s1 then side1 t rf c1 x else v6zero) (if s2 then side2 t rf c1 c2 x else v6zero).
Proof.
  intros Hr Hs H6. destruct t.
  - destruct rf; [contradiction| |]; destruct s1, s2; try discriminate; cbn [cjCol side1 side2 xorb toFrame]; generalize (rot (se3_actInv_se3 c1 c2)); intros A; apply v6_ext; cbn [lin ang v6sub v6zero]; apply v3_ext; cbn; ring.
  - specialize (H6 eq_refl). destruct rf; [contradiction| |]; destruct s1, s2; try discriminate; cbn [cjCol side1 side2 xorb toFrame]; sring.
Qed.

(* the data read by the function *)
Definition jacReady q (d : Data) : Prop := colsAre m q d /\ forall i, i < m_njoints m -> pl (rows d i) F_oMi = worldPl m q i.
Lemma comp6_lin r : comp6 v6zero r = 0%R /\ (forall x y, comp6 (v6add x y) r = comp6 x r + comp6 y r)%R /\ (forall k x, comp6 (v6scale k x) r = k * comp6 x r)%R /\ (forall x y, comp6 (v6sub x y) r = comp6 x r - comp6 y r)%R.
Proof. repeat split; intros; do 5 (destruct r as [|r]; [cbn; try reflexivity; try ring|]); cbn; try reflexivity; ring. Qed.

Lemma entries t j1 p1 j2 p2 rf d q J b r i a : rf <> WORLD -> j1 < m_njoints m -> j2 < m_njoints m -> jacReady q d -> 0 < i < m_njoints m -> a < nvOf m i ->
  let c := rcFill m t j1 p1 j2 p2 rf in let c1 := se3_mul (worldPl m q j1) p1 in let c2 := se3_mul (worldPl m q j2) p2 in let x := worldCol m q i a in
  r < rc_size c ->
  getConstraintJacobian m d c b J (b + r) (idx_v m i + a) =
    if (match t with CONTACT_3D => anc m i j1 || anc m i j2 | CONTACT_6D => xorb (anc m i j1) (anc m i j2) end)
    then (comp6 (if anc m i j1 then side1 t rf c1 x else v6zero) r - comp6 (if anc m i j2 then side2 t rf c1 c2 x else v6zero) r)%R else J (b + r) (idx_v m i + a).
Proof.
  intros Hr H1 H2 [HC HP] Hi Ha c c1 c2 x Hb. unfold getConstraintJacobian. cbn [rc_j1 rc_p1 rc_j2 rc_p2 rcFill c]. rewrite !HP by assumption. fold c1 c2. rewrite putCols.
  replace (within b (rc_size c) (b + r)) with true by (symmetry; unfold within; apply andb_true_iff; rewrite Nat.leb_le, Nat.ltb_lt; lia). cbn [andb].
  change (rc_span c) with (filter (fun k => rc_s1 c k || rc_s2 c k) (seq 0 (m_nv m))). rewrite inb_filter.
  pose proof (idx_v_bound m W NM i Hi) as HB. replace (idx_v m i + a <? m_nv m) with true by (symmetry; apply Nat.ltb_lt; lia). cbn [andb].
  destruct (proj1 (fill_pattern t j1 p1 j2 p2 rf H1 H2) i a Hi Ha) as [E1 E2]. fold c in E1, E2. rewrite E1, E2. replace (b + r - b) with r by lia.
  replace (co (gl d) F_J (idx_v m i + a)) with x.
  2: { unfold x. symmetry. pose proof (HC i a Hi) as X. destruct (jm_v m W Vm NM i Hi) as (Q1 & Q2 & Q3 & Q4). destruct (wf_joint _ W i Hi) as (_ & _ & Y1 & Y2 & _ & Y3 & Y4).
       replace (idx_vE m i) with (idx_v m i) in X by congruence. replace (nvEOf m i) with (nvOf m i) in X by congruence. apply X, Ha. }
  change (rc_type c) with t. change (rc_rf c) with rf. destruct (comp6_lin r) as (_ & _ & _ & CS).
  destruct t.
  - rewrite !andb_true_r. destruct (anc m i j1 || anc m i j2) eqn:X; [|reflexivity]. rewrite (cj_sides CONTACT_3D rf _ _ c1 c2 x Hr X) by discriminate. apply CS.
  - destruct (anc m i j1), (anc m i j2); cbn [andb negb orb xorb]; try reflexivity; rewrite cj_sides by (exact Hr || reflexivity); apply CS.
Qed.
(* the Jacobian times a velocity *)
Theorem cj_mul t j1 p1 j2 p2 rf d q w J b r : rf <> WORLD -> j1 < m_njoints m -> j2 < m_njoints m -> jacReady q d -> validState m q ->
  let c := rcFill m t j1 p1 j2 p2 rf in let c1 := se3_mul (worldPl m q j1) p1 in let c2 := se3_mul (worldPl m q j2) p2 in
  r < rc_size c -> (forall k, J (b + r) k = 0%R) ->
  dotv (m_nv m) (getConstraintJacobian m d c b J (b + r)) w = comp6 (v6sub (side1 t rf c1 (worldVel m q w j1)) (side2 t rf c1 c2 (worldVel m q w j2))) r.
Proof.
  intros Hr H1 H2 HD Hq c c1 c2 Hb HJ. destruct (comp6_lin r) as (C0 & CA & CK & CS). rewrite CS. unfold dotv. rewrite (dof_sum m W NM).
  set (G1 := fun x => comp6 (side1 t rf c1 x) r). set (G2 := fun x => comp6 (side2 t rf c1 c2 x) r).
  destruct (side1_lin t rf c1) as (A1 & K1). destruct (side2_lin t rf c1 c2) as (A2 & K2).
  assert (Z1 : side1 t rf c1 v6zero = v6zero) by (replace v6zero with (v6scale 0 v6zero) at 1 by sring; rewrite K1; sring).
  assert (Z2 : side2 t rf c1 c2 v6zero = v6zero) by (replace v6zero with (v6scale 0 v6zero) at 1 by sring; rewrite K2; sring).
  rewrite (worldVel_share m W T Vm q w j1 Hq H1), (worldVel_share m W T Vm q w j2 Hq H2). fold (G1 (sumF (share m q w) (tl (support m j1)))) (G2 (sumF (share m q w) (tl (support m j2)))).
  rewrite <- (anc_sum m W T G1 (share m q w)), <- (anc_sum m W T G2 (share m q w)); try assumption; try (unfold G1, G2; intros; rewrite ?A1, ?A2, ?Z1, ?Z2, ?CA; auto; fail).
  unfold Rminus. rewrite <- (Rmult_1_l (sumN _ (fun i => if (0 <? i) && anc m i j2 then _ else _))), Ropp_mult_distr_l, <- sumN_scale, <- sumN_add. apply sumN_ext. intros i Hi.
  destruct (Nat.ltb_spec 0 i); cbn [andb]; [|ring].
  assert (L : forall G, (forall x y, G (v6add x y) = G x + G y)%R -> (forall k x, G (v6scale k x) = k * G x)%R -> G (share m q w i) = sumN (nvOf m i) (fun a => w (idx_v m i + a)%nat * G (worldCol m q i a))%R).
  { intros G GA GK. rewrite <- (colsOf_world m W Vm NM q w i ltac:(lia)). unfold colsOf. change (fun a => w (idx_v m i + a)%nat * G (worldCol m q i a))%R with (fun a => shift (idx_v m i) w a * G (worldCol m q i a))%R. generalize (shift (idx_v m i) w). intros u.
    assert (G0 : G v6zero = 0%R) by (replace v6zero with (v6scale 0 v6zero) by sring; rewrite GK; ring).
    induction (nvOf m i) as [|n IHn]; cbn [colsMul sumN]; [exact G0|]. rewrite GA, GK, IHn. ring. }
  rewrite (L G1), (L G2) by (unfold G1, G2; intros; rewrite ?A1, ?A2, ?K1, ?K2, ?CA, ?CK; reflexivity).
  replace (if anc m i j1 then sumN (nvOf m i) (fun a => w (idx_v m i + a)%nat * G1 (worldCol m q i a))%R else 0%R) with (sumN (nvOf m i) (fun a => w (idx_v m i + a)%nat * (if anc m i j1 then G1 (worldCol m q i a) else 0))%R)
    by (destruct (anc m i j1); [reflexivity | apply sumN_zero; intros; ring]).
  replace (if anc m i j2 then sumN (nvOf m i) (fun a => w (idx_v m i + a)%nat * G2 (worldCol m q i a))%R else 0%R) with (sumN (nvOf m i) (fun a => w (idx_v m i + a)%nat * (if anc m i j2 then G2 (worldCol m q i a) else 0))%R)
    by (destruct (anc m i j2); [reflexivity | apply sumN_zero; intros; ring]).
  rewrite <- sumN_scale, <- sumN_add. apply sumN_ext. intros a Ha.
  pose proof (entries t j1 p1 j2 p2 rf d q J b r i a Hr H1 H2 HD ltac:(lia) Ha Hb) as EN. cbv zeta in EN. fold c c1 c2 in EN. rewrite EN, HJ. unfold G1, G2.
  destruct t; destruct (anc m i j1), (anc m i j2); cbn [orb xorb side1 side2]; rewrite ?C0; ring.
Qed.
End C.
