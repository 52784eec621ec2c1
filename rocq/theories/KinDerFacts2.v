(* The matrices of getJointVelocityDerivatives and getJointAccelerationDerivatives, column by column, and their products. *)
Require Import Reals List Arith ZArith Lia Lra Bool.
From Verif Require Import Vec3 Spatial Inertia InertiaFacts SpatialFacts Joints Spec_Joints Deriv JointFacts JointFacts2 Model Spec_Model ModelFacts ModelTree ModelFacts2 Sums Data Kinematics Spec_Kin Spec_Mass KinFacts KinFacts2 KinFacts3 Spec_Dyn Rnea DynFacts DynFacts2 TreeSums MassFacts Crba CrbaFacts CrbaFacts2 Jacobian Spec_Jac JacFacts JacFacts2 JacFacts3 JacFacts4 JacFacts5 CholFacts4 Com ComFacts2 ComFacts3 Dccrba DccrbaFacts DccrbaFacts2 DataX CoriolisFacts2 RneaDerFacts3 KinDer KinDerFacts.
Import ListNotations.
Local Open Scope nat_scope.
Local Open Scope bool_scope.

Section KD.
Variable eps : R.
Variable m : Model.
Hypothesis Bt : Built eps m.
Let W : wellFormed m := Built_wf eps m Bt.
Let T : treeInv m := Built_tree eps m Bt.
Hypothesis Vm : validModel m.
Hypothesis NM : noMimic m.

(* a loop that writes the columns of joint i, if act i, at step i *)
Lemma pass_cols {A V : Type} (p : A -> nat -> V) (step : A -> nat -> A) (act : nat -> bool) (G : nat -> nat -> V) l : NoDup l -> inRange m l ->
  (forall x i k, In i l -> p (step x i) k = if act i && within (idx_v m i) (nvOf m i) k then G i (k - idx_v m i) else p x k) -> forall x0,
  (forall i c, In i l -> c < nvOf m i -> p (fold_left step l x0) (idx_v m i + c) = if act i then G i c else p x0 (idx_v m i + c)) /\
  (forall k, (forall i, In i l -> within (idx_v m i) (nvOf m i) k = false) -> p (fold_left step l x0) k = p x0 k).
Proof.
  induction l as [|y l IH]; intros ND HR H x0; [split; [intros i c [] | reflexivity]|].
  apply NoDup_cons_iff in ND as [ND1 ND2]. destruct (IH ND2 (fun i Hi => HR i (or_intror Hi)) (fun x i k Hi => H x i k (or_intror Hi)) (step x0 y)) as [I1 I2]. cbn [fold_left].
  pose proof (HR y (or_introl eq_refl)) as Hy. split.
  - intros i c [<-|Hi] Hc.
    + rewrite I2.
      * rewrite (H x0 y _ (or_introl eq_refl)), (within_own m W NM y y c Hy Hy Hc), Nat.eqb_refl, andb_true_r. replace (idx_v m y + c - idx_v m y) with c by lia. reflexivity.
      * intros i Hi. rewrite (within_own m W NM i y c (HR i (or_intror Hi)) Hy Hc). destruct (Nat.eqb_spec i y) as [->|]; [contradiction | reflexivity].
    + rewrite I1 by assumption. destruct (act i); [reflexivity|]. rewrite (H x0 y _ (or_introl eq_refl)), (within_own m W NM y i c Hy (HR i (or_intror Hi)) Hc).
      destruct (Nat.eqb_spec y i) as [->|]; [contradiction|]. now rewrite andb_false_r.
  - intros k Hk. rewrite I2 by (intros i Hi; apply Hk; now right). rewrite (H x0 y _ (or_introl eq_refl)), (Hk y (or_introl eq_refl)), andb_false_r. reflexivity.
Qed.
(* product by a matrix whose columns are given on the path and zero elsewhere *)
Lemma cols_product (L : nat -> V6 -> V6) q l (X : Jac) w : NoDup l -> inRange m l ->
  (forall i, L i v6zero = v6zero /\ (forall a b, L i (v6add a b) = v6add (L i a) (L i b)) /\ (forall c a, L i (v6scale c a) = v6scale c (L i a))) ->
  (forall i c, In i l -> c < nvOf m i -> X (idx_v m i + c) = L i (worldCol m q i c)) ->
  (forall k, (forall i, In i l -> within (idx_v m i) (nvOf m i) k = false) -> X k = v6zero) ->
  colsMul (m_nv m) X w = sumF (fun i => L i (share m q w i)) l.
Proof.
  intros ND HR HL H1 H0. unfold share. rewrite <- (jacForm_mul_i m W Vm L q l w HR HL). apply colsMul_ext. intros k Hk.
  rewrite <- (set_all m W Vm _ l zeroJ k ND HR (fun i Hi => NM i (HR i Hi))). unfold updAll.
  destruct (pass_cols (fun x : Jac => x) (fun J i => updCols (fun _ x => x) (idx_v m i) (nvEOf m i) ((fun i a => L i (worldCol m q i a)) i) J) (fun _ => true) (fun i a => L i (worldCol m q i a)) l ND HR) with (x0 := zeroJ) as [P1 P2].
  - intros x i e Hi. unfold updCols. rewrite (nvE_nv m W Vm i (NM i (HR i Hi)) (HR i Hi)). cbn [andb]. reflexivity.
  - destruct (existsb (fun i => within (idx_v m i) (nvOf m i) k) l) eqn:E.
    + apply existsb_exists in E as (i & Hi & Ew). apply within_true in Ew. replace k with (idx_v m i + (k - idx_v m i)) by lia. rewrite P1, H1 by (assumption || lia). reflexivity.
    + assert (E' : forall i, In i l -> within (idx_v m i) (nvOf m i) k = false).
      { intros i Hi. destruct (within (idx_v m i) (nvOf m i) k) eqn:Ew; [|reflexivity]. exfalso. assert (existsb (fun i => within (idx_v m i) (nvOf m i) k) l = true) by (apply existsb_exists; eauto). congruence. }
      rewrite (P2 k E'), (H0 k E'). reflexivity.
Qed.
Definition lin6 (L : V6 -> V6) : Prop := L v6zero = v6zero /\ (forall a b, L (v6add a b) = v6add (L a) (L b)) /\ (forall c a, L (v6scale c a) = v6scale c (L a)).
Lemma lin6_cross z : lin6 (motion_cross z). Proof. repeat split; intros; sring. Qed.
Lemma lin6_add F G : lin6 F -> lin6 G -> lin6 (fun x => v6add (F x) (G x)).
Proof. intros (F0 & F1 & F2) (G0 & G1 & G2). repeat split; intros; rewrite ?F0, ?G0, ?F1, ?G1, ?F2, ?G2; [sring | generalize (F a) (F b) (G a) (G b); sring | generalize (F a) (G a); sring]. Qed.
Lemma lin6_comp F G : lin6 F -> lin6 G -> lin6 (fun x => F (G x)).
Proof. intros (F0 & F1 & F2) (G0 & G1 & G2). repeat split; intros; rewrite ?G0, ?G1, ?G2, ?F0, ?F1, ?F2; reflexivity. Qed.
Lemma lin6_id : lin6 (fun x => x). Proof. repeat split. Qed.
Lemma lin6_toFrame rf P : lin6 (toFrame rf P). Proof. exact (toFrame_lin rf P). Qed.
Lemma lin6_actInv P : lin6 (motion_actInv P). Proof. exact (toFrame_lin LOCAL P). Qed.
Lemma sumF_lin L f l : lin6 L -> sumF (fun i => L (f i)) l = L (sumF f l).
Proof. intros (L0 & L1 & _). now apply sumF_map. Qed.

(* ---- in the frame rf ---- *)
Lemma move_frame P z x : motion_cross (moveTo (trans P) z) (toFrame LOCAL_WORLD_ALIGNED P x) = toFrame LOCAL_WORLD_ALIGNED P (motion_cross z x).
Proof. unfold moveTo. generalize P z x. clear. intros [Rm p] z x. cbn [toFrame trans]. generalize p. clear. sring. Qed.
(* the contribution of joint i to the derivatives of joint b *)
Definition vqR rf q v b i (x : V6) : V6 := match rf with LOCAL => vqL m q v i x | _ => vqT m q v b i x end.
(* the one that the code computes in the WORLD and LOCAL_WORLD_ALIGNED frames: the velocity of joint i in place of that of its parent *)
Definition aqC q v a b i (x : V6) : V6 := v6add (motion_cross (v6sub (wAcc m q v a (parent m i)) (wAcc m q v a b)) x)
  (if 0 <? parent m i then motion_cross (v6sub (worldVel m q v (parent m i)) (worldVel m q v b)) (motion_cross (worldVel m q v i) x) else v6zero).
Definition aqR rf q v a b i (x : V6) : V6 := match rf with LOCAL => aqL m q v a b i x | _ => aqC q v a b i x end.
Definition wr rf i : bool := match rf with LOCAL => 0 <? parent m i | _ => true end.
Lemma lin6_vqR rf q v b i : lin6 (vqR rf q v b i).
Proof. destruct rf; apply lin6_cross. Qed.
Lemma lin6_avT q v b i : lin6 (avT m q v b i).
Proof. apply lin6_add; apply lin6_cross. Qed.
Lemma lin6_aqR rf q v a b i : lin6 (aqR rf q v a b i).
Proof.
  assert (H : lin6 (aqC q v a b i)). { unfold aqC. apply lin6_add; [apply lin6_cross|]. destruct (0 <? parent m i); [apply (lin6_comp (motion_cross _)); apply lin6_cross | repeat split; intros; sring]. }
  destruct rf; try exact H. apply lin6_add; [apply lin6_cross | apply (lin6_comp (motion_cross _)); apply lin6_cross].
Qed.

Section Mat.
Variables (q v a : vec) (d : Data) (j : nat) (rf : RefFrame).
Hypothesis Hq : validState m q.
Hypothesis KO : kdOk m q v a d.
Hypothesis Hj : 0 < j < m_njoints m.
Let P := worldPl m q j.
Let l := climbList m j j.
Lemma path_eq : l = rev (tl (support m j)).
Proof. apply (climb_support m W T); lia. Qed.
Lemma path_nodup : NoDup l.
Proof. rewrite path_eq. apply NoDup_rev, (tl_nodup m W T). lia. Qed.
Lemma path_range : inRange m l.
Proof. rewrite path_eq. intros i Hi. apply (tl_range m W T j ltac:(lia)). now apply in_rev. Qed.
Lemma minusLast_v i : In i l -> minusLast m d F_ov i j = v6sub (worldVel m q v (parent m i)) (worldVel m q v j).
Proof.
  intros Hi. pose proof (path_range i Hi) as Hr. pose proof (wf_parent _ W i Hr). unfold minusLast. destruct (KO j Hj) as [(_ & _ & -> & _) _]. destruct (Nat.ltb_spec 0 (parent m i)).
  - destruct (KO (parent m i) ltac:(lia)) as [(_ & _ & -> & _) _]. reflexivity.
  - replace (parent m i) with 0 by lia. rewrite (worldVel_0 m W T). sring.
Qed.
Lemma wAcc_0 : wAcc m q v a 0 = v6zero.
Proof. unfold wAcc. rewrite (bodyAcc_0 m W T). apply motion_act_0. Qed.
Lemma minusLast_a i : In i l -> minusLast m d F_oa i j = v6sub (wAcc m q v a (parent m i)) (wAcc m q v a j).
Proof.
  intros Hi. pose proof (path_range i Hi) as Hr. pose proof (wf_parent _ W i Hr). unfold minusLast. destruct (KO j Hj) as [(_ & _ & _ & ->) _]. destruct (Nat.ltb_spec 0 (parent m i)).
  - destruct (KO (parent m i) ltac:(lia)) as [(_ & _ & _ & ->) _]. reflexivity.
  - replace (parent m i) with 0 by lia. rewrite wAcc_0. sring.
Qed.
Lemma vloc : mo (rows d j) F_v = motion_actInv P (worldVel m q v j).
Proof. destruct (KO j Hj) as [(_ & -> & _ & _) _]. unfold worldVel. fold P. symmetry. apply motion_actInv_act, (worldPl_rot m W T Vm q j Hq). lia. Qed.
Lemma path_col i k : In i l -> within (idx_v m i) (nvOf m i) k = true -> let c := k - idx_v m i in
  idx_v m i + c = k /\ co (gl d) F_J k = worldCol m q i c /\ co (gl d) F_dJ k = motion_cross (worldVel m q v i) (worldCol m q i c).
Proof.
  intros Hi Hk. cbv zeta. apply within_true in Hk. split; [lia|]. destruct (KO i (path_range i Hi)) as [_ C]. destruct (C (k - idx_v m i) ltac:(lia)) as [C1 C2].
  replace (idx_v m i + (k - idx_v m i)) with k in C1, C2 by lia. rewrite C1, C2. split; reflexivity.
Qed.
Lemma HRP : isRotation (rot P).
Proof. apply (worldPl_rot m W T Vm q j Hq). lia. Qed.

Lemma jvd_step V i k : In i l ->
  fst (jvdStep m d j rf V i) k = (if wr rf i && within (idx_v m i) (nvOf m i) k then toFrame rf P (vqR rf q v j i (worldCol m q i (k - idx_v m i))) else fst V k) /\
  snd (jvdStep m d j rf V i) k = (if within (idx_v m i) (nvOf m i) k then toFrame rf P (worldCol m q i (k - idx_v m i)) else snd V k).
Proof.
  intros Hi. pose proof (path_range i Hi) as Hr. pose proof (wf_parent _ W i Hr) as Hp. unfold jvdStep. destruct (jm_v m W Vm NM i Hr) as (-> & _ & -> & _). cbn [fst snd].
  destruct (KO j Hj) as [(-> & _) _]. fold P. destruct (within (idx_v m i) (nvOf m i) k) eqn:E.
  - destruct (path_col i k Hi E) as (E1 & E2 & _). destruct rf; cbn [wr toFrame vqR]; unfold setCols.
    + rewrite E. cbn [andb]. rewrite E1, E2, (minusLast_v i Hi). split; reflexivity.
    + destruct (Nat.ltb_spec 0 (parent m i)) as [H0|H0]; cbn [andb]; rewrite ?E, ?E1, ?E, ?E2; [|split; reflexivity]. split; [|reflexivity].
      destruct (KO (parent m i) ltac:(lia)) as [(_ & _ & -> & _) _]. unfold vqL. symmetry. apply motion_actInv_cross, HRP.
    + rewrite E. cbn [andb]. rewrite E1, E, E1, E2, (minusLast_v i Hi). split; [|reflexivity]. exact (move_frame P _ (worldCol m q i (k - idx_v m i))).
  - rewrite andb_false_r. destruct rf; unfold setCols; try (rewrite E; split; reflexivity). destruct (0 <? parent m i); rewrite E; split; reflexivity.
Qed.
Lemma jad_step A i k : In i l -> let x := worldCol m q i (k - idx_v m i) in
  ad_vq (jadStep m d j rf A i) k = (if wr rf i && within (idx_v m i) (nvOf m i) k then toFrame rf P (vqR rf q v j i x) else ad_vq A k) /\
  ad_aq (jadStep m d j rf A i) k = (if wr rf i && within (idx_v m i) (nvOf m i) k then toFrame rf P (aqR rf q v a j i x) else ad_aq A k) /\
  ad_av (jadStep m d j rf A i) k = (if within (idx_v m i) (nvOf m i) k then toFrame rf P (avT m q v j i x) else ad_av A k) /\
  ad_aa (jadStep m d j rf A i) k = (if within (idx_v m i) (nvOf m i) k then toFrame rf P x else ad_aa A k).
Proof.
  intros Hi. pose proof (path_range i Hi) as Hr. pose proof (wf_parent _ W i Hr) as Hp. cbv zeta. unfold jadStep. destruct (jm_v m W Vm NM i Hr) as (-> & _ & -> & _).
  rewrite vloc. destruct (KO j Hj) as [(-> & _) _]. fold P. destruct (within (idx_v m i) (nvOf m i) k) eqn:E.
  - destruct (path_col i k Hi E) as (E1 & E2 & E3). pose proof HRP as HR.
    destruct rf; cbn [wr toFrame vqR aqR]; cbn [ad_vq ad_aq ad_av ad_aa]; unfold plusCols, setCols.
    + cbn [andb]. unfold aqC. destruct (0 <? parent m i); repeat (rewrite E || rewrite E1); rewrite E2, E3, (minusLast_v i Hi), (minusLast_a i Hi); rewrite ?v6add_0_r; split; [reflexivity | split; [reflexivity | split; reflexivity] | reflexivity | split; [reflexivity | split; reflexivity]].
    + destruct (Nat.ltb_spec 0 (parent m i)) as [H0|H0]; cbn [andb]; repeat (rewrite E || rewrite E1); rewrite E2, E3.
      * destruct (KO (parent m i) ltac:(lia)) as [(_ & _ & -> & ->) _].
        unfold vqL, aqL, avT, vqT. rewrite !motion_actInv_add, !motion_actInv_cross, !motion_actInv_sub by exact HR. auto.
      * assert (P0 : parent m i = 0) by lia. split; [reflexivity|]. split; [reflexivity|]. split; [|reflexivity]. unfold avT, vqT. rewrite P0, (worldVel_0 m W T), motion_actInv_add, !motion_actInv_cross, motion_actInv_sub, motion_actInv_0 by exact HR.
        f_equal. generalize (motion_actInv P (worldVel m q v j)) (motion_actInv P (worldCol m q i (k - idx_v m i))). sring.
    + cbn [andb]. repeat (rewrite E || rewrite E1). rewrite E2, E3, !(minusLast_v i Hi), (minusLast_a i Hi).
      change (mkV6 (v3sub (lin ?x) (v3cross (trans P) (ang ?x))) (ang ?x)) with (toFrame LOCAL_WORLD_ALIGNED P x).
      rewrite ?move_frame. destruct (toFrame_lin LOCAL_WORLD_ALIGNED P) as (_ & TA & _). split; [reflexivity|]. split.
      * unfold aqC. destruct (0 <? parent m i); repeat (rewrite E || rewrite E1); rewrite ?E3, ?E2, ?move_frame; [now rewrite <- TA | now rewrite v6add_0_r].
      * split; [|reflexivity]. unfold avT. rewrite <- TA. f_equal. unfold vqT. sring.
  - rewrite andb_false_r. destruct rf; cbn [ad_vq ad_aq ad_av ad_aa]; unfold plusCols, setCols; destruct (0 <? parent m i); rewrite ?E; auto.
Qed.
End Mat.
End KD.
