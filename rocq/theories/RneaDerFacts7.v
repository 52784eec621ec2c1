(* computeGeneralizedGravityDerivatives and computeStaticTorqueDerivatives. *)
Require Import Reals List Arith ZArith Lia Lra Bool.
From Verif Require Import Vec3 Spatial Inertia InertiaFacts SpatialFacts Joints Spec_Joints Deriv JointFacts JointFacts2 Model Spec_Model ModelFacts ModelTree ModelFacts2 Sums Data Kinematics Spec_Kin Spec_Mass KinFacts KinFacts2 KinFacts3 Spec_Dyn Rnea DynFacts DynFacts2 TreeSums MassFacts Crba CrbaFacts CrbaFacts2 CrbaFacts3 CrbaFacts4 Jacobian Spec_Jac JacFacts JacFacts2 JacFacts3 JacFacts5 Spec_Chol CholFacts4 CholFacts5 Com ComFacts2 Dccrba DccrbaFacts DccrbaFacts2 DataX Coriolis DerSums CoriolisFacts CoriolisFacts2 CoriolisFacts3 CoriolisFacts4 RneaDer DerPass RneaDerFacts RneaDerFacts2 RneaDerFacts3 RneaDerFacts4 RneaDerFacts5 Spec_Deriv.
Import ListNotations.
Local Open Scope nat_scope.
Local Open Scope bool_scope.

Section Grav.
Variable eps : R.
Variable m : Model.
Hypothesis Bt : Built eps m.
Let W : wellFormed m := Built_wf eps m Bt.
Let T : treeInv m := Built_tree eps m Bt.
Hypothesis Vm : validModel m.
Hypothesis NM : noMimic m.
Hypothesis Pos : noRigidJoint m.
Hypothesis DF : depthFirst m.
Hypothesis RM : regularMasses eps m.
Let zero : vec := fun _ => 0%R.
Notation own i k := (within (idx_v m i) (nvOf m i) k).
Notation sub i k := (within (idx_v m i) (Z.to_nat (nvSubtree m i)) k).

(* at rest *)
Lemma rest_wAgf q b : validState m q -> b < m_njoints m -> wAgf m q zero zero b = v6opp (m_gravity m).
Proof.
  intros Hq Hb. unfold wAgf, zero. rewrite (bodyAcc_rest m W T Vm q b Hb), motion_act_0. sring.
Qed.
Lemma rest_worldVel q b : worldVel m q zero b = v6zero.
Proof. unfold worldVel, zero. rewrite (bodyVel_zero m). apply motion_act_0. Qed.
Lemma rest_cAq q j c : validState m q -> 0 < j < m_njoints m -> cAq m q zero zero j c = motion_cross (v6opp (m_gravity m)) (worldCol m q j c).
Proof.
  intros Hq Hj. pose proof (wf_parent _ W j Hj). unfold cAq, cVq. rewrite rest_wAgf by (assumption || lia). rewrite rest_worldVel.
  generalize (motion_cross (v6opp (m_gravity m)) (worldCol m q j c)) (worldCol m q j c). sring.
Qed.
Lemma rest_cVq q j c : cVq m q zero j c = v6zero.
Proof. unfold cVq. rewrite rest_worldVel. sring. Qed.
Lemma rest_wF q fx b : validState m q -> b < m_njoints m -> wF m q zero zero fx b = v6sub (inertia_mul (worldInertia m q b) (v6opp (m_gravity m))) (force_act (worldPl m q b) (fx b)).
Proof. intros Hq Hb. rewrite (wF_eq eps m Bt Vm q zero zero fx b Hq Hb), rest_wAgf, rest_worldVel by assumption. rewrite force_cross_0_l, v6add_0_r. reflexivity. Qed.

(* ---- forward ---- *)
Definition rowG q fext i (r : Row) : Prop := pl r F_oMi = worldPl m q i /\ yi r F_oYcrb = worldInertia m q i /\ mo r F_of = wF m q zero zero (extOf fext) i.
Definition colsG q i (s : DX) : Prop := forall c, c < nvOf m i -> co (gl (bs s)) F_J (idx_v m i + c) = worldCol m q i c /\ xco s X_dAdq (idx_v m i + c) = motion_cross (v6opp (m_gravity m)) (worldCol m q i c).
Lemma gdRow_eq q g i r rp : 0 < i < m_njoints m -> let r' := gdRow m q g i r rp in
  jS (jd r') = jS (jointAt m q noVel i) /\ pl r' F_oMi = (if 0 <? parent m i then se3_mul (pl rp F_oMi) (relPl m q i) else relPl m q i) /\
  yi r' F_oYcrb = inertia_act (pl r' F_oMi) (inertiaOf m i) /\ mo r' F_of = inertia_mul (inertia_act (pl r' F_oMi) (inertiaOf m i)) g.
Proof.
  intros Hi. cbv zeta. destruct (calcJoint0_at m W i (jd r) q Hi) as (E1 & E2). cbv beta delta [gdRow]. mem. rewrite E1, E2. unfold relPl. auto.
Qed.
Definition gdRest fext i r (t : DX) : DX :=
  let b := jm_idx_v (joint m i) in let n := jnv (jm_type (joint m i)) in let g := mo (rows (bs t) 0) F_oa_gf in
  let s := onBs t (fun d => onCo (setRow d i r) F_J (setCols b n (fun k => motion_act (pl r F_oMi) (colOf (jS (jd r)) k)))) in
  let s := onXc s X_dAdq (setCols b n (fun k => motion_cross g (co (gl (bs s)) F_J (b + k)))) in
  onBs s (fun d => setRow d i (minusExt fext i (rows d i))).
Lemma gd_fwd_rest q fext i t : gdFwd m q fext t i = gdRest fext i (gdRow m q (mo (rows (bs t) 0) F_oa_gf) i (rows (bs t) i) (rows (bs t) (parent m i))) t.
Proof. reflexivity. Qed.
Lemma gd_rest q fext i r t : 0 < i < m_njoints m -> pl r F_oMi = worldPl m q i -> jS (jd r) = jS (jointAt m q noVel i) -> mo (rows (bs t) 0) F_oa_gf = v6opp (m_gravity m) ->
  let t' := gdRest fext i r t in (forall j, rows (bs t') j = if i =? j then minusExt fext i r else rows (bs t) j) /\ xma t' = xma t /\
  forall j c, 0 < j < m_njoints m -> c < nvOf m j -> let k := idx_v m j + c in
    (i <> j -> co (gl (bs t')) F_J k = co (gl (bs t)) F_J k /\ xco t' X_dAdq k = xco t X_dAdq k) /\
    (i = j -> co (gl (bs t')) F_J k = worldCol m q i c /\ xco t' X_dAdq k = motion_cross (v6opp (m_gravity m)) (worldCol m q i c)).
Proof.
  intros Hi HP HS HG. destruct (jm_v m W Vm NM i Hi) as (E1 & E2 & E3 & E4). cbv zeta. cbv beta delta [gdRest]. split; [|split].
  - intros j. memx; unfold onCo; mem; rewrite putn_same; destruct (Nat.eqb_spec i j) as [<-|Hn]; rewrite ?putn_same, ?putn_other by exact Hn; reflexivity.
  - memx; unfold onCo; mem; reflexivity.
  - intros j c Hj Hc. pose proof (within_own m W NM i j c Hi Hj Hc) as HW. rewrite E1, E3. split; intros Hij.
    + destruct (Nat.eqb_spec i j); [congruence|]. memx; unfold onCo; memx; unfold setCols; rewrite HW; auto.
    + subst j. rewrite Nat.eqb_refl in HW. assert (EC : idx_v m i + c - idx_v m i = c) by lia.
      assert (JC : motion_act (pl r F_oMi) (colOf (jS (jd r)) c) = worldCol m q i c) by (rewrite HP, HS; reflexivity).
      memx; unfold onCo; memx; unfold setCols; rewrite !HW, !EC, ?HW, ?EC, ?JC, HG. auto.
Qed.
Lemma gd_forward q fext s : validState m q -> let t := upward m (gdFwd m q fext) (rdStart m s) in
  xma t = xma s /\ forall i, 0 < i < m_njoints m -> rowG q fext i (rows (bs t) i) /\ colsG q i t.
Proof.
  intros Hq. cbv zeta.
  pose (Inv := fun k (t : DX) => xma t = xma s /\ mo (rows (bs t) 0) F_oa_gf = v6opp (m_gravity m) /\
     forall i, 0 < i < k -> i < m_njoints m -> rowG q fext i (rows (bs t) i) /\ colsG q i t).
  assert (HI : Inv (m_njoints m) (upward m (gdFwd m q fext) (rdStart m s))).
  { apply upward_inv; [apply (wf_n _ W) | |].
    - unfold rdStart, Inv. memx. rewrite putn_same. mem. repeat split; try reflexivity; lia.
    - intros i t Hi (I1 & I3 & I4). pose proof (wf_parent _ W i Hi) as Hp.
      rewrite gd_fwd_rest. destruct (gdRow_eq q (mo (rows (bs t) 0) F_oa_gf) i (rows (bs t) i) (rows (bs t) (parent m i)) Hi) as (R1 & R2 & R3 & R4).
      generalize dependent (gdRow m q (mo (rows (bs t) 0) F_oa_gf) i (rows (bs t) i) (rows (bs t) (parent m i))). intros r R1 R2 R3 R4. rewrite I3 in R4.
      assert (HP : pl r F_oMi = worldPl m q i).
      { rewrite R2. destruct (Nat.ltb_spec 0 (parent m i)) as [H0|H0].
        - destruct (I4 (parent m i) ltac:(lia) ltac:(lia)) as ((-> & _) & _). symmetry. apply (worldPl_step m W T q i Hi).
        - rewrite (worldPl_step m W T q i Hi). replace (parent m i) with 0 by lia. now rewrite (worldPl_0 m W T), se3_mul_1_l. }
      rewrite HP in R3, R4. fold (worldInertia m q i) in R3, R4.
      assert (RG : rowG q fext i (minusExt fext i r)).
      { unfold rowG. rewrite (rest_wF q _ i Hq ltac:(lia)). destruct fext as [f|]; cbn [minusExt extOf]; mem; rewrite ?HP, ?R3, ?R4; [auto|]. rewrite force_act_0, v6sub_0_r. auto. }
      destruct (gd_rest q fext i r t Hi HP R1 I3) as (RR & GG & CC).
      split; [now rewrite GG|]. split; [rewrite RR; destruct (Nat.eqb_spec i 0); [lia | exact I3]|].
      intros j Hj Hj'. split.
      + rewrite RR. destruct (Nat.eqb_spec i j) as [<-|Hn]; [exact RG | apply I4; lia].
      + intros c Hc. destruct (CC j c ltac:(lia) Hc) as [C1 C2]. destruct (Nat.eq_dec i j) as [<-|Hn]; [now apply C2|].
        destruct (C1 Hn) as (-> & ->). apply (I4 j ltac:(lia) ltac:(lia)). exact Hc. }
  destruct HI as (I1 & _ & I4). split; [exact I1|]. intros i Hi. apply I4; lia.
Qed.

(* ---- backward ---- *)
Lemma gdBackA_eq i s : 0 < i < m_njoints m -> let t := gdBackA m i s in
  rows (bs t) = rows (bs s) /\ Jm t = Jm s /\ ve (gl (bs t)) = ve (gl (bs s)) /\ xco t X_dAdq = xco s X_dAdq /\
  (forall k, co (gl (bs t)) F_Ag k = if own i k then inertia_mul (Yr s i) (Jm s k) else co (gl (bs s)) F_Ag k) /\
  (forall k, xco t X_dFdq k = if own i k then v6add (inertia_mul (Yr s i) (xco s X_dAdq k)) (force_cross (Jm s k) (Or s i)) else xco s X_dFdq k) /\
  (forall k l, xma t P_dq k l = if own i k && sub i l then v6dot (Jm s k) (if own i l then inertia_mul (Yr s i) (xco s X_dAdq l) else xco s X_dFdq l) else xma s P_dq k l).
Proof.
  intros Hi. destruct (jm_v m W Vm NM i Hi) as (E1 & E2 & E3 & E4). cbv zeta. unfold Jm, Or, Yr. cbv beta delta [gdBackA]. rewrite E1, E3. memx. unfold onCo. memx.
  split; [reflexivity|]. split; [reflexivity|]. split; [reflexivity|]. split; [reflexivity|].
  split; [intros k; apply setCols_at with (f := fun k => inertia_mul (yi (rows (bs s) i) F_oYcrb) (co (gl (bs s)) F_J k))|]. split.
  - intros k. unfold plusCols, setCols. destruct (own i k) eqn:E; [|reflexivity]. now rewrite (within_add _ _ _ E).
  - intros k l. unfold setBlock, setCols. destruct (own i k) eqn:E, (sub i l) eqn:E'; cbn [andb]; try reflexivity. rewrite (within_add _ _ _ E), (within_add _ _ _ E'). destruct (own i l) eqn:E2'; [rewrite (within_add _ _ _ E2')|]; reflexivity.
Qed.
Lemma gd_fold b n L : forall s, let t := fold_left (fun s j => onXm s P_dq (setRowsCol b n j (fun k => v6dot (co (gl (bs s)) F_Ag (b + k)) (xco s X_dAdq j)))) L s in
  bs t = bs s /\ xco t = xco s /\ forall k l, xma t P_dq k l = if within b n k && inb l L then v6dot (co (gl (bs s)) F_Ag k) (xco s X_dAdq l) else xma s P_dq k l.
Proof.
  induction L as [|j L IH]; intros s; cbv zeta; [cbn; split; [reflexivity|]; split; [reflexivity|]; intros k l; now rewrite andb_false_r|]. cbn [fold_left].
  destruct (IH (onXm s P_dq (setRowsCol b n j (fun k => v6dot (co (gl (bs s)) F_Ag (b + k)) (xco s X_dAdq j))))) as (A & B & C). cbv zeta in *. rewrite A, B. split; [reflexivity|]. split; [reflexivity|].
  intros k l. rewrite C. memx. unfold setRowsCol, inb. cbn [existsb]. destruct (within b n k) eqn:E; cbn [andb]; [|reflexivity]. rewrite (within_add _ _ _ E), (Nat.eqb_sym j l).
  destruct (Nat.eqb_spec l j) as [->|Hn]; cbn [orb]; [destruct (existsb _ L); reflexivity|]. reflexivity.
Qed.
Lemma gdBackL_eq i s : 0 < i < m_njoints m -> let t := gdBackL m i s in
  bs t = bs s /\ xco t = xco s /\ forall k l, xma t P_dq k l = if own i k && inb l (aboveRows m i) then v6dot (co (gl (bs s)) F_Ag k) (xco s X_dAdq l) else xma s P_dq k l.
Proof. intros Hi. destruct (jm_v m W Vm NM i Hi) as (E1 & E2 & E3 & E4). cbv zeta. unfold gdBackL. rewrite E1, E3. apply gd_fold. Qed.
Lemma gdBackT_eq X i s : 0 < i < m_njoints m -> let t := gdBackT eps m X i s in
  Jm t = Jm s /\ xco t = xco s /\ xma t = xma s /\
  (forall k, ve (gl (bs t)) X k = if own i k then v6dot (Jm s k) (Or s i) else ve (gl (bs s)) X k) /\
  (forall j, 0 < j -> Yr t j = if parent m i =? j then inertia_plus eps (Yr s j) (Yr s i) else Yr s j) /\
  (forall j, 0 < j -> Or t j = if parent m i =? j then v6add (Or s j) (Or s i) else Or s j).
Proof.
  intros Hi. destruct (jm_v m W Vm NM i Hi) as (E1 & E2 & E3 & E4). cbv zeta. unfold Jm, Or, Yr. cbv beta delta [gdBackT]. rewrite E1, E3.
  assert (VE : forall k, put VeT_beq (ve (gl (bs s))) X (setSeg (idx_v m i) (nvOf m i) (fun k => v6dot (co (gl (bs s)) F_J (idx_v m i + k)) (mo (rows (bs s) i) F_of)) (ve (gl (bs s)) X)) X k =
     if own i k then v6dot (co (gl (bs s)) F_J k) (mo (rows (bs s) i) F_of) else ve (gl (bs s)) X k).
  { intros k. unfold put. rewrite (internal_VeT_dec_lb X X eq_refl). apply setSeg_at with (f := fun k => v6dot (co (gl (bs s)) F_J k) (mo (rows (bs s) i) F_of)). }
  destruct (Nat.ltb_spec 0 (parent m i)) as [H|H].
  - cbn beta iota zeta delta [bs xco xma onBs setRow rows gl setGl setVe ve co]. split; [reflexivity|]. split; [reflexivity|]. split; [reflexivity|]. split; [exact VE|]. split; intros j Hj.
    + destruct (Nat.eqb_spec (parent m i) j) as [<-|Hn]; [rewrite !putn_same; mem; apply inertia_pequ_plus | now rewrite !putn_other by exact Hn].
    + destruct (Nat.eqb_spec (parent m i) j) as [<-|Hn]; [rewrite !putn_same; mem; reflexivity | now rewrite !putn_other by exact Hn].
  - cbn beta iota zeta delta [bs xco xma onBs setRow rows gl setGl setVe ve co]. split; [reflexivity|]. split; [reflexivity|]. split; [reflexivity|]. split; [exact VE|].
    split; intros j Hj; destruct (Nat.eqb_spec (parent m i) j); try lia; reflexivity.
Qed.
Definition isGd X i (s t : DX) : Prop := Jm t = Jm s /\ xco t X_dAdq = xco s X_dAdq /\
  (forall k, ve (gl (bs t)) X k = if own i k then v6dot (Jm s k) (Or s i) else ve (gl (bs s)) X k) /\
  (forall j, 0 < j -> Yr t j = if parent m i =? j then inertia_plus eps (Yr s j) (Yr s i) else Yr s j) /\
  (forall j, 0 < j -> Or t j = if parent m i =? j then v6add (Or s j) (Or s i) else Or s j) /\
  (forall k, xco t X_dFdq k = if own i k then v6add (inertia_mul (Yr s i) (xco s X_dAdq k)) (force_cross (Jm s k) (Or s i)) else xco s X_dFdq k) /\
  (forall k l, xma t P_dq k l = if own i k && inb l (aboveRows m i) then v6dot (inertia_mul (Yr s i) (Jm s k)) (xco s X_dAdq l)
     else if own i k && sub i l then v6dot (Jm s k) (if own i l then inertia_mul (Yr s i) (xco s X_dAdq l) else xco s X_dFdq l) else xma s P_dq k l).
Lemma gd_step X i s : 0 < i < m_njoints m -> isGd X i s (gdBack eps m X s i).
Proof.
  intros Hi. unfold gdBack. destruct (gdBackA_eq i s Hi) as (A1 & A2 & A3 & A4 & A5 & A6 & A7). cbv zeta in *. set (s1 := gdBackA m i s) in *. clearbody s1.
  destruct (gdBackL_eq i s1 Hi) as (L1 & L2 & L3). cbv zeta in *. set (s2 := gdBackL m i s1) in *. clearbody s2.
  destruct (gdBackT_eq X i s2 Hi) as (T1 & T2 & T3 & T4 & T5 & T6). cbv zeta in *. set (t := gdBackT eps m X i s2) in *. clearbody t.
  assert (J2 : Jm s2 = Jm s) by (unfold Jm in *; now rewrite L1). assert (Y2 : forall j, Yr s2 j = Yr s j) by (intros; unfold Yr; now rewrite L1, A1). assert (O2 : forall j, Or s2 j = Or s j) by (intros; unfold Or; now rewrite L1, A1).
  unfold isGd. split; [now rewrite T1|]. split; [now rewrite T2, L2|]. split; [intros k; rewrite T4, J2, O2, L1, A3; reflexivity|].
  split; [intros j Hj; rewrite (T5 j Hj), !Y2; reflexivity|]. split; [intros j Hj; rewrite (T6 j Hj), !O2; reflexivity|].
  split; [intros k; rewrite T2, L2; apply A6|]. intros k l. rewrite T3, L3, A4, A7. destruct (own i k) eqn:E; cbn [andb]; [|reflexivity]. destruct (inb l (aboveRows m i)); [|reflexivity]. now rewrite A5, E.
Qed.

Theorem gd_passes X q fext s : validState m q -> let t := downward m (gdBack eps m X) (upward m (gdFwd m q fext) (rdStart m s)) in
  (forall i c, 0 < i < m_njoints m -> c < nvOf m i -> ve (gl (bs t)) X (idx_v m i + c) = subSum m i (fun b => v6dot (worldCol m q i c) (wF m q zero zero (extOf fext) b))) /\
  fills m (qEntry m q zero zero (extOf fext)) (xma t P_dq) (xma s P_dq).
Proof.
  intros Hq. cbv zeta. destruct RM as [He RM']. destruct (gd_forward q fext s Hq) as (F1 & F3). cbv zeta in *. set (s1 := upward m (gdFwd m q fext) (rdStart m s)) in *. clearbody s1.
  pose (J := Jm s1). pose (A := xco s1 X_dAdq). pose (Ys := worldInertia m q). pose (Os := wF m q zero zero (extOf fext)).
  assert (FC : forall i c, 0 < i < m_njoints m -> c < nvOf m i -> J (idx_v m i + c) = worldCol m q i c /\ A (idx_v m i + c) = cAq m q zero zero i c).
  { intros i c Hi Hc. destruct (F3 i Hi) as (_ & C). destruct (C c Hc) as (C1 & C2). rewrite (rest_cAq q i c Hq Hi). auto. }
  assert (Y0 : forall b, 0 < b < m_njoints m -> Yr s1 b = Ys b /\ regularMass eps (mass (Ys b))).
  { intros b Hb. destruct (F3 b Hb) as ((_ & Y & _) & _). split; [exact Y|]. unfold Ys, worldInertia, inertia_act. cbn [mass]. now apply RM'. }
  assert (O0 : forall b, 0 < b < m_njoints m -> Or s1 b = Os b) by (intros b Hb; destruct (F3 b Hb) as ((_ & _ & O) & _); exact O).
  pose (E := fun i j k l => Rplus (common m i j (fun b => v6dot (J k) (inertia_mul (Ys b) (A l)))) (if anc m i (parent m j) then subSum m j (fun b => v6dot (J k) (force_cross (J l) (Os b))) else 0%R)).
  pose (Inv := fun k t => (Jm t = J /\ xco t X_dAdq = A) /\ (forall b, 0 < b < m_njoints m -> regularMass eps (mass (Yr t b))) /\
    (forall X Z, accInv m (fun s j => v6dot X (inertia_mul (Yr s j) Z)) s1 false k t) /\ (forall X, accInv m (fun s j => v6dot X (Or s j)) s1 false k t) /\
    (forall j c Z, k <= j -> 0 < j < m_njoints m -> c < nvOf m j ->
        v6dot Z (xco t X_dFdq (idx_v m j + c)) = Rplus (subSum m j (fun b => v6dot Z (inertia_mul (Ys b) (A (idx_v m j + c))))) (subSum m j (fun b => v6dot Z (force_cross (J (idx_v m j + c)) (Os b)))) /\
        ve (gl (bs t)) X (idx_v m j + c) = subSum m j (fun b => v6dot (J (idx_v m j + c)) (Os b))) /\
    (forall i a j c, 0 < i < m_njoints m -> a < nvOf m i -> 0 < j < m_njoints m -> c < nvOf m j ->
      xma t P_dq (idx_v m i + a) (idx_v m j + c) = if (k <=? i) && (anc m i j || anc m j i) then E i j (idx_v m i + a) (idx_v m j + c) else xma s1 P_dq (idx_v m i + a) (idx_v m j + c))).
  assert (H : Inv 1 (downward m (gdBack eps m X) s1)).
  { apply downward_inv; [apply (wf_n _ W) | |].
    - split; [split; reflexivity|]. split; [intros b Hb; destruct (Y0 b Hb) as [-> H]; exact H|].
      split; [intros; apply accInv_start|]. split; [intros; apply accInv_start|]. split; [intros; lia|].
      intros i a j c Hi _ Hj _. destruct (Nat.leb_spec (m_njoints m) i); try lia. reflexivity.
    - intros i t Hi ((I1 & I2) & IR & IY & IO & I3 & I4). pose proof (wf_parent _ W i Hi) as Hp. assert (Hb0 : false || (0 <? i) = true) by (cbn [orb]; apply Nat.ltb_lt; lia).
      destruct (gd_step X i t Hi) as (S1 & S2 & S3 & S4 & S5 & S6 & S7). set (t' := gdBack eps m X t i) in *. clearbody t'. rewrite I1 in *. rewrite I2 in *.
      assert (CY : forall X Z, v6dot X (inertia_mul (Yr t i) Z) = subSum m i (fun b => v6dot X (inertia_mul (Ys b) Z))).
      { intros X' Z. rewrite (acc_complete m W T _ s1 false (i + 1) t (IY X' Z) i ltac:(lia) Hb0 ltac:(lia)). apply (subSum_ext m). intros b Hb Ab.
        destruct (Y0 b) as [-> _]; [|reflexivity]. apply (anc_le m W T) in Ab; lia. }
      assert (CO : forall X, v6dot X (Or t i) = subSum m i (fun b => v6dot X (Os b))).
      { intros X'. rewrite (acc_complete m W T _ s1 false (i + 1) t (IO X') i ltac:(lia) Hb0 ltac:(lia)). apply (subSum_ext m). intros b Hb Ab.
        rewrite (O0 b); [reflexivity|]. apply (anc_le m W T) in Ab; lia. }
      split; [split; [exact S1 | exact S2]|]. split.
      { intros b Hb. rewrite (S4 b ltac:(lia)). destruct (Nat.eqb_spec (parent m i) b) as [<-|]; [apply regular_plus; auto | auto]. }
      split.
      { intros X' Z. apply (accInv_step m W _ _ _ _ _ _ Hi (IY X' Z)). intros j Hj Hj0. cbn [orb] in Hj0. apply Nat.ltb_lt in Hj0. rewrite (S4 j Hj0).
        destruct (Nat.eqb_spec (parent m i) j) as [<-|]; [|ring]. rewrite inertia_plus_mul by (apply regular_plus; auto; apply IR; lia). apply v6dot_add_r. }
      split.
      { intros X'. apply (accInv_step m W _ _ _ _ _ _ Hi (IO X')). intros j Hj Hj0. cbn [orb] in Hj0. apply Nat.ltb_lt in Hj0. rewrite (S5 j Hj0).
        destruct (Nat.eqb_spec (parent m i) j) as [<-|]; [|ring]. apply v6dot_add_r. }
      split.
      { intros j c Z Hij Hj Hc. pose proof (within_own m W NM i j c Hi Hj Hc) as HW. rewrite S6, S3, HW. destruct (Nat.eqb_spec i j) as [<-|Hn].
        - rewrite v6dot_add_r, CY, CO. split; [|reflexivity]. f_equal. exact (subSum_fcross m Os i Z _ _ CO).
        - apply I3; (assumption || lia). }
      intros i' a j c Hi' Ha Hj Hc. rewrite S7, (within_own m W NM i i' a Hi Hi' Ha), (above_in eps m Bt Vm NM Pos i j c Hi Hj Hc), (within_subtree m W T Vm NM DF i j c Hi Hj Hc), (within_own m W NM i j c Hi Hj Hc).
      destruct (Nat.eqb_spec i i') as [<-|Hn]; cbn [andb]; [|rewrite (I4 i' a j c Hi' Ha Hj Hc); destruct (Nat.leb_spec (i + 1) i'), (Nat.leb_spec i i'); try lia; reflexivity].
      destruct (Nat.leb_spec i i); [|lia]. cbn [andb]. destruct (anc m j i) eqn:Aji; cbn [andb].
      + destruct (Nat.eqb_spec j i) as [->|Hji]; cbn [negb].
        * rewrite (anc_self m W T i ltac:(lia)), Nat.eqb_refl. cbn [orb]. unfold E. rewrite (common_below m W T i i _ Aji), (anc_strict eps m Bt i i ltac:(lia) Hi), Aji, Nat.eqb_refl. cbn [andb negb]. rewrite CY. ring.
        * rewrite orb_true_r. unfold E. rewrite (common_above m W T i j _ Aji). pose proof (anc_le m W T j i ltac:(lia) Aji). 
          assert (N : anc m i (parent m j) = false). { destruct (anc m i (parent m j)) eqn:B; [|reflexivity]. pose proof (wf_parent _ W j Hj). apply (anc_le m W T) in B; lia. }
          rewrite N, Rplus_0_r, v6dot_comm, CY. apply (subSum_ext m). intros b _ _. apply inertia_mul_sym.
      + rewrite orb_false_r. destruct (anc m i j) eqn:Aij.
        * pose proof (anc_le m W T i j ltac:(lia) Aij). destruct (Nat.eqb_spec i j) as [<-|Hij]; [congruence|]. unfold E. rewrite (common_below m W T i j _ Aij), (anc_strict eps m Bt i j ltac:(lia) Hj), Aij. destruct (Nat.eqb_spec i j); [congruence|]. cbn [andb negb].
          destruct (I3 j c (J (idx_v m i + a)) ltac:(lia) Hj Hc) as (-> & _). reflexivity.
        * rewrite (I4 i a j c Hi' Ha Hj Hc), Aij, Aji. cbn [orb]. now rewrite andb_false_r. }
  destruct H as (_ & _ & _ & _ & H3 & H4). split.
  - intros i c Hi Hc. destruct (H3 i c v6zero ltac:(lia) Hi Hc) as (_ & ->). destruct (FC i c Hi Hc) as (-> & _). reflexivity.
  - intros i c j l Hi Hc Hj Hl. rewrite (H4 i c j l Hi Hc Hj Hl). destruct (Nat.leb_spec 1 i); [|lia]. cbn [andb]. rewrite F1. destruct (anc m i j || anc m j i); [|reflexivity].
    unfold E, qEntry. destruct (FC i c Hi Hc) as (-> & _). destruct (FC j l Hj Hl) as (-> & ->). f_equal. apply sumN_ext. intros b Hb. rewrite rest_cVq, m6vec_0_r, v6add_0_l. reflexivity.
Qed.
End Grav.
