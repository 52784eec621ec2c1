(* getPointVelocityDerivatives and getPointClassicAccelerationDerivatives return the derivatives. *)
Require Import Reals List Arith ZArith Lia Lra Bool.
From Verif Require Import Vec3 Spatial Inertia InertiaFacts SpatialFacts Joints Spec_Joints Deriv JointFacts JointFacts2 Model Spec_Model ModelFacts ModelTree ModelFacts2 Sums Data Kinematics Spec_Kin Spec_Mass KinFacts KinFacts2 KinFacts3 Spec_Dyn Rnea DynFacts DynFacts2 TreeSums MassFacts Crba CrbaFacts CrbaFacts2 Jacobian Spec_Jac JacFacts JacFacts2 JacFacts3 JacFacts4 JacFacts5 CholFacts4 Com ComFacts2 ComFacts3 Dccrba DccrbaFacts DccrbaFacts2 DataX CoriolisFacts2 RneaDerFacts3 KinDer KinDerFacts KinDerFacts2 KinDerFacts3 Spec_KinDer.
Import ListNotations.
Local Open Scope nat_scope.
Local Open Scope bool_scope.

Section KD.
Variable eps : R.
Variable m : Model.
Hypothesis Bt : Built eps m.
Let W : wellFormed m := Built_wf eps m Bt.
Let T : treeInv m := Built_tree eps m Bt.
Hypothesis Vm : validModel m.
Hypothesis NM : noMimic m.

Definition lin3 (L : V6 -> V3) : Prop := L v6zero = v3zero /\ (forall a b, L (v6add a b) = v3add (L a) (L b)) /\ (forall c a, L (v6scale c a) = v3scale c (L a)).
Lemma lin3_lin : lin3 lin. Proof. repeat split. Qed.
Lemma lin3_ang : lin3 ang. Proof. repeat split. Qed.
Lemma lin3_comp F G : lin3 F -> lin6 G -> lin3 (fun x => F (G x)).
Proof. intros (F0 & F1 & F2) (G0 & G1 & G2). repeat split; intros; rewrite ?G0, ?G1, ?G2, ?F0, ?F1, ?F2; reflexivity. Qed.
Lemma lin3_add F G : lin3 F -> lin3 G -> lin3 (fun x => v3add (F x) (G x)).
Proof. intros (F0 & F1 & F2) (G0 & G1 & G2). repeat split; intros; rewrite ?F0, ?G0, ?F1, ?G1, ?F2, ?G2; [vring | generalize (F a) (F b) (G a) (G b); intros; vring | generalize (F a) (G a); intros; vring]. Qed.
Lemma lin3_cross F u : lin3 F -> lin3 (fun x => v3cross (F x) u).
Proof. intros (F0 & F1 & F2). repeat split; intros; rewrite ?F0, ?F1, ?F2; [vring | generalize (F a) (F b); intros; vring | generalize (F a); intros; vring]. Qed.
Lemma lin3_mul F A : lin3 F -> lin3 (fun x => m3vec A (F x)).
Proof. intros (F0 & F1 & F2). repeat split; intros; rewrite ?F0, ?F1, ?F2; [vring | generalize (F a) (F b); intros; vring | generalize (F a); intros; vring]. Qed.
Lemma lin3_wxv vl : lin3 (wxv vl).
Proof. unfold wxv. repeat split; intros; [sring | sring | sring]. Qed.
Lemma colsMul3_6 n X w : colsMul n (fun k => mkV6 (X k) v3zero) w = mkV6 (colsMul3 n X w) v3zero.
Proof. induction n as [|n IH]; cbn [colsMul colsMul3]; [reflexivity|]. rewrite IH. generalize (colsMul3 n X w) (X n). intros. sring. Qed.
Fixpoint sum3 (f : nat -> V3) (l : list nat) : V3 := match l with [] => v3zero | i :: r => v3add (f i) (sum3 f r) end.
Lemma sumF_3 f l : sumF (fun i => mkV6 (f i) v3zero) l = mkV6 (sum3 f l) v3zero.
Proof. unfold sumF. induction l as [|i l IH]; [reflexivity|]. cbn [map sumV6 sum3]. rewrite IH. generalize (f i) (sum3 f l). intros. sring. Qed.
Lemma sum3_lin L f l : lin3 L -> sum3 (fun i => L (f i)) l = L (sumF f l).
Proof. intros (L0 & L1 & _). unfold sumF. induction l as [|i l IH]; cbn [map sumV6 sum3]; [now rewrite L0|]. rewrite L1, <- IH. reflexivity. Qed.
Lemma sum3_add f g l : sum3 (fun i => v3add (f i) (g i)) l = v3add (sum3 f l) (sum3 g l).
Proof. induction l as [|i l IH]; cbn [sum3]; [vring|]. rewrite IH. generalize (f i) (g i) (sum3 f l) (sum3 g l). intros. vring. Qed.
Lemma sum3_mul A f l : sum3 (fun i => m3vec A (f i)) l = m3vec A (sum3 f l).
Proof. induction l as [|i l IH]; cbn [sum3]; [vring|]. rewrite IH. generalize (f i) (sum3 f l). intros. vring. Qed.

Section Mat.
Variables (q v a : vec) (d : Data) (j : nat) (M : SE3).
Hypothesis Hq : validState m q.
Hypothesis KO : kdOk m q v a d.
Hypothesis Hj : 0 < j < m_njoints m.
Hypothesis HM : isRotation (rot M).
Let PM := se3_mul (worldPl m q j) M.
Let y := motion_actInv PM.
Let vl := y (worldVel m q v j).
Let al := y (wAcc m q v a j).
Let l := climbList m j j.
Lemma HRM : isRotation (rot PM).
Proof. apply isRotation_mul; [apply (worldPl_rot m W T Vm q j Hq); lia | exact HM]. Qed.
Lemma crossLin_lin x z : crossLin x z = lin (motion_cross x z).
Proof. unfold crossLin. generalize x z. clear. intros. sring. Qed.
(* in the local frame *)
Definition pq i x := lin (y (vqL m q v i x)).
Definition pav i x := v3add (lin (y (avT m q v j i x))) (wxv vl (y x)).
Definition paq i x := v3add (lin (y (aqL m q v a j i x))) (wxv vl (y (vqL m q v i x))).
Definition turn rf (u : V3) := match rf with LOCAL_WORLD_ALIGNED => m3vec (rot PM) u | _ => u end.
Definition turn' rf (u z : V3) x := match rf with LOCAL_WORLD_ALIGNED => m3vec (rot PM) (v3add u (v3cross (ang (y x)) z)) | _ => u end.
Lemma pq_0 i x : parent m i = 0 -> pq i x = v3zero.
Proof. intros H. unfold pq, vqL. rewrite H, (worldVel_0 m W T), motion_cross_0_l. unfold y. rewrite motion_actInv_0. reflexivity. Qed.
Lemma paq_0 i x : parent m i = 0 -> paq i x = v3zero.
Proof. intros H. unfold paq, aqL, vqL. rewrite H, (worldVel_0 m W T), (wAcc_0 eps m Bt), !motion_cross_0_l, motion_cross_0_r, v6add_0_r. unfold y. rewrite motion_actInv_0. unfold wxv. generalize vl. intros. sring. Qed.
Lemma y_cross b x : y (motion_cross b x) = motion_cross (y b) (y x).
Proof. apply motion_actInv_cross, HRM. Qed.
Lemma y_sub b x : y (v6sub b x) = v6sub (y b) (y x). Proof. apply motion_actInv_sub. Qed.
Lemma y_add b x : y (v6add b x) = v6add (y b) (y x). Proof. apply motion_actInv_add. Qed.
Lemma y_0 : y v6zero = v6zero. Proof. apply motion_actInv_0. Qed.

Lemma pvd_step rf V i k : In i l -> rf <> WORLD -> let x := worldCol m q i (k - idx_v m i) in
  fst (pvdStep m d PM vl rf V i) k = (if true && within (idx_v m i) (nvOf m i) k then turn' rf (pq i x) (lin vl) x else fst V k) /\
  snd (pvdStep m d PM vl rf V i) k = (if within (idx_v m i) (nvOf m i) k then turn rf (lin (y x)) else snd V k).
Proof.
  intros Hi Hrf. pose proof (path_range eps m Bt j Hj i Hi) as Hr. pose proof (wf_parent _ W i Hr) as Hp. unfold pvdStep. destruct (jm_v m W Vm NM i Hr) as (-> & _ & -> & _). cbv zeta.
  fold y. cbn [andb]. destruct (within (idx_v m i) (nvOf m i) k) eqn:E.
  - destruct (path_col eps m Bt q v a d j KO Hj i k Hi E) as (E1 & E2 & _).
    destruct (Nat.ltb_spec 0 (parent m i)) as [H0|H0].
    + destruct (KO (parent m i) ltac:(lia)) as [(_ & _ & -> & _) _].
      destruct rf; [congruence| |]; cbn [fst snd turn turn']; unfold setCols; repeat (rewrite E || rewrite E1); rewrite E2, crossLin_lin, <- y_cross; split; reflexivity.
    + rewrite pq_0 by lia. destruct rf; [congruence| |]; cbn [fst snd turn turn']; unfold setCols; repeat (rewrite E || rewrite E1); rewrite ?E2; split; reflexivity.
  - destruct rf; cbn [fst snd]; unfold setCols; destruct (0 <? parent m i); rewrite ?E; split; reflexivity.
Qed.
Lemma dJ_lin x : m3vec (m3tr (rot PM)) (v3add (lin x) (v3cross (ang x) (trans PM))) = lin (y x).
Proof. unfold y. generalize PM x. clear. intros [A p] x. sring. Qed.
Lemma pad_step rf A i k : In i l -> rf <> WORLD -> let x := worldCol m q i (k - idx_v m i) in let D := padStep m d PM vl (classicAcceleration vl al) rf A i in
  pd_vq D k = (if true && within (idx_v m i) (nvOf m i) k then turn' rf (pq i x) (lin vl) x else pd_vq A k) /\
  pd_aq D k = (if true && within (idx_v m i) (nvOf m i) k then turn' rf (paq i x) (classicAcceleration vl al) x else pd_aq A k) /\
  pd_av D k = (if within (idx_v m i) (nvOf m i) k then turn rf (pav i x) else pd_av A k) /\
  pd_aa D k = (if within (idx_v m i) (nvOf m i) k then turn rf (lin (y x)) else pd_aa A k).
Proof.
  intros Hi Hrf. pose proof (path_range eps m Bt j Hj i Hi) as Hr. pose proof (wf_parent _ W i Hr) as Hp. unfold padStep. destruct (jm_v m W Vm NM i Hr) as (-> & _ & -> & _). cbv zeta.
  generalize (classicAcceleration vl al). intros acc. fold y. cbn [andb]. destruct (within (idx_v m i) (nvOf m i) k) eqn:E.
  - destruct (path_col eps m Bt q v a d j KO Hj i k Hi E) as (E1 & E2 & E3). set (x := worldCol m q i (k - idx_v m i)) in *.
    assert (AV : forall vt, vt = y (v6sub (worldVel m q v (parent m i)) (worldVel m q v j)) -> v3add (v3add (crossLin vt (y x)) (lin (y (motion_cross (worldVel m q v i) x)))) (wxv vl (y x)) = pav i x).
    { intros vt ->. unfold pav, avT, vqT. rewrite crossLin_lin, <- y_cross, y_add. reflexivity. }
    assert (LOC : (if 0 <? parent m i then v6sub (y (mo (rows d (parent m i)) F_ov)) vl else v6opp vl) = y (v6sub (worldVel m q v (parent m i)) (worldVel m q v j))).
    { rewrite y_sub. fold vl. destruct (Nat.ltb_spec 0 (parent m i)) as [H0|H0]; [now destruct (KO (parent m i) ltac:(lia)) as [(_ & _ & -> & _) _]|].
      replace (parent m i) with 0 by lia. rewrite (worldVel_0 m W T), y_0. generalize vl. intros. sring. }
    rewrite LOC. destruct (Nat.ltb_spec 0 (parent m i)) as [H0|H0].
    + destruct (KO (parent m i) ltac:(lia)) as [(_ & _ & -> & ->) _].
      assert (AQ : v3add (v3add (crossLin (y (wAcc m q v a (parent m i))) (y x)) (crossLin (y (v6sub (worldVel m q v (parent m i)) (worldVel m q v j))) (motion_cross (y (worldVel m q v (parent m i))) (y x)))) (wxv vl (motion_cross (y (worldVel m q v (parent m i))) (y x))) = paq i x).
      { unfold paq, aqL, vqL. rewrite !crossLin_lin, <- !y_cross, y_add. reflexivity. }
      destruct rf; [congruence| |]; cbn [pd_vq pd_aq pd_av pd_aa turn turn']; unfold setCols; repeat (rewrite E || rewrite E1); rewrite E2, E3, dJ_lin; fold x;
        rewrite (AV _ eq_refl), AQ; unfold pq, vqL; rewrite y_cross; repeat split.
    + rewrite pq_0, paq_0 by lia. destruct rf; [congruence| |]; cbn [pd_vq pd_aq pd_av pd_aa turn turn']; unfold setCols; repeat (rewrite E || rewrite E1); rewrite ?E2, ?E3, ?dJ_lin; fold x; rewrite (AV _ eq_refl); repeat split.
  - destruct rf; cbn [pd_vq pd_aq pd_av pd_aa]; unfold setCols; destruct (0 <? parent m i); rewrite ?E; repeat split.
Qed.

Variable rf : RefFrame.
Hypothesis Hrf : rf <> WORLD.
Let ND := path_nodup eps m Bt j Hj.
Let RG := path_range eps m Bt j Hj.
Lemma pvd_cols Vq Vv : exists Dq Dv, getPointVelocityDerivatives m d j M rf Vq Vv = Ok tt (Dq, Dv) /\
  (forall i c, In i (tl (support m j)) -> c < nvOf m i -> let x := worldCol m q i c in Dq (idx_v m i + c) = turn' rf (pq i x) (lin vl) x /\ Dv (idx_v m i + c) = turn rf (lin (y x))) /\
  (forall k, offPath m j k -> Dq k = Vq k /\ Dv k = Vv k).
Proof.
  unfold getPointVelocityDerivatives. replace (j <? m_njoints m) with true by (symmetry; apply Nat.ltb_lt; lia). destruct (KO j Hj) as [(-> & _ & -> & _) _]. fold PM y vl.
  set (V := fold_left (pvdStep m d PM vl rf) (climbList m j j) (Vq, Vv)). exists (fst V), (snd V). split; [destruct rf; [congruence | now destruct V | now destruct V]|].
  destruct (pass_cols eps m Bt NM (@fst Jac3 Jac3) (pvdStep m d PM vl rf) (fun _ => true) (fun i c => turn' rf (pq i (worldCol m q i c)) (lin vl) (worldCol m q i c)) l ND RG) with (x0 := (Vq, Vv)) as [A1 A2].
  { intros x i k Hi. exact (proj1 (pvd_step rf x i k Hi Hrf)). }
  destruct (pass_cols eps m Bt NM (@snd Jac3 Jac3) (pvdStep m d PM vl rf) (fun _ => true) (fun i c => turn rf (lin (y (worldCol m q i c)))) l ND RG) with (x0 := (Vq, Vv)) as [B1 B2].
  { intros x i k Hi. exact (proj2 (pvd_step rf x i k Hi Hrf)). }
  split.
  - intros i c Hi Hc. apply (path_in eps m Bt j Hj) in Hi. split; [exact (A1 i c Hi Hc) | exact (B1 i c Hi Hc)].
  - intros k Hk. split; [apply A2 | apply B2]; intros i Hi; apply Hk, (path_in eps m Bt j Hj), Hi.
Qed.
Lemma pad_cols A : exists D, getPointClassicAccelerationDerivatives m d j M rf A = Ok tt D /\
  (forall i c, In i (tl (support m j)) -> c < nvOf m i -> let x := worldCol m q i c in let k := idx_v m i + c in
     pd_vq D k = turn' rf (pq i x) (lin vl) x /\ pd_aq D k = turn' rf (paq i x) (classicAcceleration vl al) x /\ pd_av D k = turn rf (pav i x) /\ pd_aa D k = turn rf (lin (y x))) /\
  (forall k, offPath m j k -> pd_vq D k = pd_vq A k /\ pd_aq D k = pd_aq A k /\ pd_av D k = pd_av A k /\ pd_aa D k = pd_aa A k).
Proof.
  unfold getPointClassicAccelerationDerivatives. replace (j <? m_njoints m) with true by (symmetry; apply Nat.ltb_lt; lia). destruct (KO j Hj) as [(-> & _ & -> & ->) _]. fold PM y vl al.
  set (acc := classicAcceleration vl al). set (V := fold_left (padStep m d PM vl acc rf) (climbList m j j) A). exists V. split; [destruct rf; [congruence | reflexivity | reflexivity]|].
  pose proof (fun x i k Hi => pad_step rf x i k Hi Hrf) as St. cbv zeta in St. fold acc in St.
  destruct (pass_cols eps m Bt NM pd_vq (padStep m d PM vl acc rf) (fun _ => true) (fun i c => turn' rf (pq i (worldCol m q i c)) (lin vl) (worldCol m q i c)) l ND RG) with (x0 := A) as [A1 A2].
  { intros x i k Hi. exact (proj1 (St x i k Hi)). }
  destruct (pass_cols eps m Bt NM pd_aq (padStep m d PM vl acc rf) (fun _ => true) (fun i c => turn' rf (paq i (worldCol m q i c)) acc (worldCol m q i c)) l ND RG) with (x0 := A) as [B1 B2].
  { intros x i k Hi. exact (proj1 (proj2 (St x i k Hi))). }
  destruct (pass_cols eps m Bt NM pd_av (padStep m d PM vl acc rf) (fun _ => true) (fun i c => turn rf (pav i (worldCol m q i c))) l ND RG) with (x0 := A) as [C1 C2].
  { intros x i k Hi. exact (proj1 (proj2 (proj2 (St x i k Hi)))). }
  destruct (pass_cols eps m Bt NM pd_aa (padStep m d PM vl acc rf) (fun _ => true) (fun i c => turn rf (lin (y (worldCol m q i c)))) l ND RG) with (x0 := A) as [D1 D2].
  { intros x i k Hi. exact (proj2 (proj2 (proj2 (St x i k Hi)))). }
  split.
  - intros i c Hi Hc. apply (path_in eps m Bt j Hj) in Hi. exact (conj (A1 i c Hi Hc) (conj (B1 i c Hi Hc) (conj (C1 i c Hi Hc) (D1 i c Hi Hc)))).
  - intros k Hk. assert (Hk' : forall i, In i l -> within (idx_v m i) (nvOf m i) k = false) by (intros i Hi; apply Hk, (path_in eps m Bt j Hj), Hi). exact (conj (A2 k Hk') (conj (B2 k Hk') (conj (C2 k Hk') (D2 k Hk')))).
Qed.
(* products *)
Lemma path3 (L : nat -> V6 -> V3) (X : Jac3) w : (forall i, lin3 (L i)) ->
  (forall i c, In i (tl (support m j)) -> c < nvOf m i -> X (idx_v m i + c) = L i (worldCol m q i c)) -> (forall k, offPath m j k -> X k = v3zero) ->
  colsMul3 (m_nv m) X w = sum3 (fun i => L i (share m q w i)) (tl (support m j)).
Proof.
  intros HL H1 H0. assert (E : mkV6 (colsMul3 (m_nv m) X w) v3zero = mkV6 (sum3 (fun i => L i (share m q w i)) (tl (support m j))) v3zero); [|now injection E].
  rewrite <- colsMul3_6, <- sumF_3. apply (cols_product eps m Bt Vm NM (fun i x => mkV6 (L i x) v3zero) q (tl (support m j)) (fun k => mkV6 (X k) v3zero) w (tl_nodup m W T j (proj2 Hj)) (tl_range m W T j (proj2 Hj))).
  - intros i. destruct (HL i) as (L0 & L1 & L2). repeat split; intros; rewrite ?L0, ?L1, ?L2; [reflexivity | generalize (L i a0) (L i b); intros; sring | generalize (L i a0); intros; sring].
  - intros i c Hi Hc. now rewrite H1.
  - intros k Hk. now rewrite H0.
Qed.
Lemma lin6_y : lin6 y. Proof. apply lin6_actInv. Qed.
Lemma lin6_vqL i : lin6 (vqL m q v i). Proof. apply lin6_cross. Qed.
Lemma lin3_pq i : lin3 (pq i). Proof. apply (lin3_comp (fun x => lin (y x))); [apply (lin3_comp lin y lin3_lin lin6_y) | apply lin6_vqL]. Qed.
Lemma lin3_pav i : lin3 (pav i).
Proof. apply lin3_add; [apply (lin3_comp (fun x => lin (y x))); [apply (lin3_comp lin y lin3_lin lin6_y) | apply lin6_avT] | apply (lin3_comp (wxv vl) y (lin3_wxv vl) lin6_y)]. Qed.
Lemma lin3_paq i : lin3 (paq i).
Proof.
  apply lin3_add; [apply (lin3_comp (fun x => lin (y x))); [apply (lin3_comp lin y lin3_lin lin6_y) | exact (lin6_aqR m LOCAL q v a j i)]|].
  apply (lin3_comp (fun x => wxv vl (y x))); [apply (lin3_comp (wxv vl) y (lin3_wxv vl) lin6_y) | apply lin6_vqL].
Qed.
Lemma lin3_turn F : lin3 F -> lin3 (fun x => turn rf (F x)).
Proof. intros H. unfold turn. destruct rf; [exact H | exact H | now apply lin3_mul]. Qed.
Lemma lin3_turn' F z : lin3 F -> lin3 (fun x => turn' rf (F x) z x).
Proof. intros H. unfold turn'. destruct rf; [exact H | exact H | apply lin3_mul, lin3_add; [exact H | apply (lin3_cross (fun x => ang (y x))), (lin3_comp ang y lin3_ang lin6_y)]]. Qed.
Let S (F : nat -> V6 -> V6) w := sumF (fun i => F i (share m q w i)) (tl (support m j)).
Lemma sum_turn F w : sum3 (fun i => turn rf (F i (share m q w i))) (tl (support m j)) = turn rf (sum3 (fun i => F i (share m q w i)) (tl (support m j))).
Proof. unfold turn. destruct rf; [reflexivity | reflexivity | apply sum3_mul]. Qed.
Lemma sum_turn' F z w : sum3 (fun i => turn' rf (F i (share m q w i)) z (share m q w i)) (tl (support m j)) = turn' rf (sum3 (fun i => F i (share m q w i)) (tl (support m j))) z (worldVel m q w j).
Proof.
  unfold turn'. destruct rf; [reflexivity | reflexivity|]. rewrite sum3_mul, sum3_add. f_equal. f_equal. rewrite (worldVel_share m W T Vm q w j Hq (proj2 Hj)).
  apply (sum3_lin (fun x => v3cross (ang (y x)) z)), (lin3_cross (fun x => ang (y x))), (lin3_comp ang y lin3_ang lin6_y).
Qed.
Lemma sum_pq w : sum3 (fun i => pq i (share m q w i)) (tl (support m j)) = lin (y (S (vqL m q v) w)).
Proof. apply (sum3_lin (fun x => lin (y x))), (lin3_comp lin y lin3_lin lin6_y). Qed.
Lemma sum_pav w : sum3 (fun i => pav i (share m q w i)) (tl (support m j)) = v3add (lin (y (S (avT m q v j) w))) (wxv vl (y (worldVel m q w j))).
Proof.
  unfold pav. rewrite sum3_add. f_equal; [apply (sum3_lin (fun x => lin (y x))), (lin3_comp lin y lin3_lin lin6_y)|]. rewrite (worldVel_share m W T Vm q w j Hq (proj2 Hj)).
  apply (sum3_lin (fun x => wxv vl (y x))), (lin3_comp (wxv vl) y (lin3_wxv vl) lin6_y).
Qed.
Lemma sum_paq w : sum3 (fun i => paq i (share m q w i)) (tl (support m j)) = v3add (lin (y (S (aqL m q v a j) w))) (wxv vl (y (S (vqL m q v) w))).
Proof.
  unfold paq. rewrite sum3_add. f_equal; [apply (sum3_lin (fun x => lin (y x))), (lin3_comp lin y lin3_lin lin6_y)|].
  apply (sum3_lin (fun x => wxv vl (y x))), (lin3_comp (wxv vl) y (lin3_wxv vl) lin6_y).
Qed.
Lemma sum_lin w : sum3 (fun i => lin (y (share m q w i))) (tl (support m j)) = lin (y (worldVel m q w j)).
Proof. rewrite (worldVel_share m W T Vm q w j Hq (proj2 Hj)). apply (sum3_lin (fun x => lin (y x))), (lin3_comp lin y lin3_lin lin6_y). Qed.
Lemma pvd_mul : exists Dq Dv, getPointVelocityDerivatives m d j M rf zeroJ3 zeroJ3 = Ok tt (Dq, Dv) /\ forall w,
  colsMul3 (m_nv m) Dq w = turn' rf (lin (y (S (vqL m q v) w))) (lin vl) (worldVel m q w j) /\ colsMul3 (m_nv m) Dv w = turn rf (lin (y (worldVel m q w j))).
Proof.
  destruct (pvd_cols zeroJ3 zeroJ3) as (Dq & Dv & E & C & O). exists Dq, Dv. split; [exact E|]. intros w. split.
  - rewrite (path3 (fun i x => turn' rf (pq i x) (lin vl) x)); [rewrite (sum_turn' pq), sum_pq; reflexivity | intros i; apply lin3_turn', lin3_pq | intros i c Hi Hc; exact (proj1 (C i c Hi Hc)) | intros k Hk; exact (proj1 (O k Hk))].
  - rewrite (path3 (fun i x => turn rf (lin (y x)))); [rewrite (sum_turn (fun _ x => lin (y x))), sum_lin; reflexivity | intros i; apply lin3_turn, (lin3_comp lin y lin3_lin lin6_y) | intros i c Hi Hc; exact (proj2 (C i c Hi Hc)) | intros k Hk; exact (proj2 (O k Hk))].
Qed.
Definition zeroPAD : PAccDer := mkPAD zeroJ3 zeroJ3 zeroJ3 zeroJ3.
Lemma pad_mul : exists D, getPointClassicAccelerationDerivatives m d j M rf zeroPAD = Ok tt D /\ forall w,
  colsMul3 (m_nv m) (pd_vq D) w = turn' rf (lin (y (S (vqL m q v) w))) (lin vl) (worldVel m q w j) /\
  colsMul3 (m_nv m) (pd_aq D) w = turn' rf (v3add (lin (y (S (aqL m q v a j) w))) (wxv vl (y (S (vqL m q v) w)))) (classicAcceleration vl al) (worldVel m q w j) /\
  colsMul3 (m_nv m) (pd_av D) w = turn rf (v3add (lin (y (S (avT m q v j) w))) (wxv vl (y (worldVel m q w j)))) /\
  colsMul3 (m_nv m) (pd_aa D) w = turn rf (lin (y (worldVel m q w j))).
Proof.
  destruct (pad_cols zeroPAD) as (D & E & C & O). exists D. split; [exact E|]. intros w. repeat split.
  - rewrite (path3 (fun i x => turn' rf (pq i x) (lin vl) x)); [rewrite (sum_turn' pq), sum_pq; reflexivity | intros i; apply lin3_turn', lin3_pq | intros i c Hi Hc; exact (proj1 (C i c Hi Hc)) | intros k Hk; exact (proj1 (O k Hk))].
  - rewrite (path3 (fun i x => turn' rf (paq i x) (classicAcceleration vl al) x)); [rewrite (sum_turn' paq), sum_paq; reflexivity | intros i; apply lin3_turn', lin3_paq | intros i c Hi Hc; exact (proj1 (proj2 (C i c Hi Hc))) | intros k Hk; exact (proj1 (proj2 (O k Hk)))].
  - rewrite (path3 (fun i x => turn rf (pav i x))); [rewrite (sum_turn pav), sum_pav; reflexivity | intros i; apply lin3_turn, lin3_pav | intros i c Hi Hc; exact (proj1 (proj2 (proj2 (C i c Hi Hc)))) | intros k Hk; exact (proj1 (proj2 (proj2 (O k Hk))))].
  - rewrite (path3 (fun i x => turn rf (lin (y x)))); [rewrite (sum_turn (fun _ x => lin (y x))), sum_lin; reflexivity | intros i; apply lin3_turn, (lin3_comp lin y lin3_lin lin6_y) | intros i c Hi Hc; exact (proj2 (proj2 (proj2 (C i c Hi Hc)))) | intros k Hk; exact (proj2 (proj2 (proj2 (O k Hk))))].
Qed.
End Mat.
End KD.
