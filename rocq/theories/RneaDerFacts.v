(* The derivatives of inverse dynamics: what the forward pass leaves. *)
Require Import Reals List Arith ZArith Lia Lra Bool.
From Verif Require Import Vec3 Spatial Inertia InertiaFacts SpatialFacts Joints Model Spec_Model ModelFacts ModelTree ModelFacts2 Sums Data Kinematics Spec_Kin Spec_Mass KinFacts KinFacts2 Spec_Dyn Rnea DynFacts DynFacts2 TreeSums MassFacts Crba CrbaFacts CrbaFacts2 Jacobian Spec_Jac JacFacts JacFacts2 JacFacts3 CholFacts4 Com Dccrba DccrbaFacts DccrbaFacts2 DataX Coriolis RneaDer DerSums CoriolisFacts CoriolisFacts2 DerPass.
Import ListNotations.
Local Open Scope nat_scope.
Local Open Scope bool_scope.

Definition extOf (fext : option (nat -> Force)) (i : nat) : V6 := match fext with None => v6zero | Some f => f i end.

Section Der.
Variable eps : R.
Variable m : Model.
Hypothesis Bt : Built eps m.
Let W : wellFormed m := Built_wf eps m Bt.
Let T : treeInv m := Built_tree eps m Bt.
Hypothesis Vm : validModel m.
Hypothesis NM : noMimic m.

(* in the world: acceleration minus gravity, force on a body, the matrix dY, and the columns *)
Definition wAgf q v a b : V6 := v6sub (motion_act (worldPl m q b) (bodyAcc m q v a b)) (m_gravity m).
Definition wF q v a (fx : nat -> V6) b : V6 := force_act (worldPl m q b) (v6sub (bodyForce m q v a b) (fx b)).
Definition dYb q v b : M6 := addForceCross (inertia_mul (worldInertia m q b) (worldVel m q v b)) (inertia_variation (worldInertia m q b) (worldVel m q v b)).
Definition cVq q v j c : V6 := motion_cross (worldVel m q v (parent m j)) (worldCol m q j c).
Definition cAq q v a j c : V6 := v6add (motion_cross (wAgf q v a (parent m j)) (worldCol m q j c)) (motion_cross (worldVel m q v (parent m j)) (cVq q v j c)).
Definition cAv q v j c : V6 := v6add (dCol m q v j c) (cVq q v j c).

Lemma wAgf_0 q v a : wAgf q v a 0 = v6opp (m_gravity m).
Proof. unfold wAgf. rewrite (bodyAcc_0 m W T), motion_act_0. sring. Qed.
Lemma wF_eq q v a fx b : validState m q -> b < m_njoints m -> wF q v a fx b =
  v6sub (v6add (inertia_mul (worldInertia m q b) (wAgf q v a b)) (force_cross (worldVel m q v b) (inertia_mul (worldInertia m q b) (worldVel m q v b)))) (force_act (worldPl m q b) (fx b)).
Proof.
  intros Hq Hb. pose proof (worldPl_rot m W T Vm q b Hq Hb) as HR. unfold wF, wAgf, worldInertia, worldVel, bodyForce, gravityAt.
  rewrite force_act_sub, force_act_add, force_act_cross by exact HR. rewrite <- !inertia_act_mul by exact HR. 
  assert (EG : motion_act (worldPl m q b) (v6sub (bodyAcc m q v a b) (motion_actInv (worldPl m q b) (m_gravity m))) = v6sub (motion_act (worldPl m q b) (bodyAcc m q v a b)) (m_gravity m)).
  { rewrite motion_act_sub, motion_act_actInv by apply HR. reflexivity. }
  now rewrite EG.
Qed.

(* the row that the forward pass leaves for joint i *)
Definition rowOk q v a fext i (r : Row) : Prop :=
  pl r F_oMi = worldPl m q i /\ mo r F_v = bodyVel m q v i /\ mo r F_a = bodyAcc m q v a i /\ mo r F_ov = worldVel m q v i /\ mo r F_oa_gf = wAgf q v a i /\
  mo r F_oh = inertia_mul (worldInertia m q i) (worldVel m q v i) /\ mo r F_of = wF q v a (extOf fext) i /\ yi r F_oYcrb = worldInertia m q i /\ m6 r F_doYcrb = dYb q v i /\ jS (jd r) = jS (jointAt m q noVel i).
Definition colsOk q v a i (s : DX) : Prop := forall c, c < nvOf m i -> let k := idx_v m i + c in
  co (gl (bs s)) F_J k = worldCol m q i c /\ co (gl (bs s)) F_dJ k = dCol m q v i c /\ co (gl (bs s)) F_dVdq k = cVq q v i c /\ xco s X_dAdq k = cAq q v a i c /\ xco s X_dAdv k = cAv q v i c.

Definition is1 q v i rp r1 : Prop := jd r1 = jointAt m q v i /\ pl r1 F_liMi = relPl m q i /\ pl r1 F_oMi = (if 0 <? parent m i then se3_mul (pl rp F_oMi) (relPl m q i) else relPl m q i) /\
       mo r1 F_v = (if 0 <? parent m i then v6add (jointTwist m q v i) (motion_actInv (relPl m q i) (mo rp F_v)) else jointTwist m q v i).
Lemma rdRow1_eq q v i r rp : 0 < i < m_njoints m -> is1 q v i rp (rdRow1 m q v i r rp).
Proof.
  unfold is1. intros Hi. assert (EL : se3_mul (placementOf m i) (jM (jointAt m q v i)) = relPl m q i) by (unfold relPl; now rewrite (jointAt_M m q v noVel)).
  pose proof (jv_twist m Vm q v i Hi) as EJ. rewrite <- EL, <- EJ. cbv zeta. unfold rdRow1. rewrite (calcJoint_at m W i q v Hi). destruct (0 <? parent m i); mem; auto.
Qed.
Definition is2 a i r1 rp r2 : Prop := jd r2 = jd r1 /\ pl r2 F_oMi = pl r1 F_oMi /\ mo r2 F_v = mo r1 F_v /\
      mo r2 F_a = let x := v6add (v6add (Smul (jS (jd r1)) (shift (idx_v m i) a)) (jc (jd r1))) (motion_cross (mo r1 F_v) (jv (jd r1))) in if 0 <? parent m i then v6add x (motion_actInv (pl r1 F_liMi) (mo rp F_a)) else x.
Lemma rdRow2_eq a i r1 rp : 0 < i < m_njoints m -> is2 a i r1 rp (rdRow2 m a i r1 rp).
Proof. intros Hi. unfold is2, rdRow2. rewrite (velSel_at m W i a Hi). destruct (0 <? parent m i); mem; auto. Qed.
Definition is3 i r2 r3 : Prop := jd r3 = jd r2 /\ pl r3 F_oMi = pl r2 F_oMi /\ mo r3 F_v = mo r2 F_v /\ mo r3 F_a = mo r2 F_a /\ yi r3 F_oYcrb = inertia_act (pl r2 F_oMi) (inertiaOf m i) /\
      mo r3 F_ov = motion_act (pl r2 F_oMi) (mo r2 F_v) /\ mo r3 F_oa_gf = v6sub (motion_act (pl r2 F_oMi) (mo r2 F_a)) (m_gravity m).
Lemma rdRow3_eq i r2 : is3 i r2 (rdRow3 m i r2).
Proof. unfold is3, rdRow3. mem. auto 10. Qed.
Definition is4 r3 r' : Prop := jd r' = jd r3 /\ pl r' F_oMi = pl r3 F_oMi /\ mo r' F_v = mo r3 F_v /\ mo r' F_a = mo r3 F_a /\ yi r' F_oYcrb = yi r3 F_oYcrb /\ mo r' F_ov = mo r3 F_ov /\ mo r' F_oa_gf = mo r3 F_oa_gf /\
      mo r' F_oh = inertia_mul (yi r3 F_oYcrb) (mo r3 F_ov) /\ mo r' F_of = v6add (inertia_mul (yi r3 F_oYcrb) (mo r3 F_oa_gf)) (force_cross (mo r3 F_ov) (inertia_mul (yi r3 F_oYcrb) (mo r3 F_ov))) /\
      m6 r' F_doYcrb = addForceCross (inertia_mul (yi r3 F_oYcrb) (mo r3 F_ov)) (inertia_variation (yi r3 F_oYcrb) (mo r3 F_ov)).
Lemma rdRow4_eq r3 : is4 r3 (rdRow4 r3).
Proof. unfold is4, rdRow4. mem. auto 12. Qed.
Lemma rd_row_abs q v a i rp r1 r2 r3 r' : validState m q -> 0 < i < m_njoints m ->
  (0 < parent m i -> pl rp F_oMi = worldPl m q (parent m i) /\ mo rp F_v = bodyVel m q v (parent m i) /\ mo rp F_a = bodyAcc m q v a (parent m i)) ->
  is1 q v i rp r1 -> is2 a i r1 rp r2 -> is3 i r2 r3 -> is4 r3 r' -> rowOk q v a None i r'.
Proof.
  intros Hq Hi HP A1 B1 C1 D1. pose proof (wf_parent _ W i Hi) as Hp.
  assert (EL : se3_mul (placementOf m i) (jM (jointAt m q v i)) = relPl m q i) by (unfold relPl; now rewrite (jointAt_M m q v noVel)).
    pose proof (jv_twist m Vm q v i Hi) as EJ.
    destruct A1 as (A1 & A2 & A3 & A4). destruct B1 as (B1 & B2 & B3 & B4). destruct C1 as (C1 & C2 & C3 & C4 & C5 & C6 & C7). destruct D1 as (D1 & D2 & D3 & D4 & D5 & D6 & D7 & D8 & D9 & D10).
    rewrite C1, B1, A1 in D1. rewrite C2, B2 in D2. rewrite C3, B3 in D3. rewrite C4, B4, A1, A2 in D4. 
    rewrite C5, B2, <- D2 in D5. rewrite C6, B2, B3, <- D2, <- D3 in D6. rewrite C7, B2, <- D2 in D7. rewrite B4, A1, A2 in D7. rewrite <- D4 in D7.
    rewrite C5, C6, B2, B3, <- D2, <- D3, <- D5, <- D6 in D8. rewrite C5, C6, C7, B2, B3, B4, A1, A2, <- D4, <- D2, <- D3, <- D5, <- D6, <- D7, <- D8 in D9. rewrite C5, C6, B2, B3, <- D2, <- D3, <- D5, <- D6, <- D8 in D10.
    rename D1 into F1, D5 into F7, D6 into F5, D7 into F6, D8 into F8, D9 into F9, D10 into F10.
    pose proof D2 as F2. rewrite A3 in F2. pose proof D3 as F3. rewrite A4 in F3. pose proof D4 as F4. rewrite <- D3 in F4.
    clear A1 A2 A3 A4 B1 B2 B3 B4 C1 C2 C3 C4 C5 C6 C7 D2 D3 D4.
    assert (EA : v6add (v6add (Smul (jS (jointAt m q v i)) (shift (idx_v m i) a)) (jc (jointAt m q v i))) (motion_cross (bodyVel m q v i) (jv (jointAt m q v i))) = jointAcc m q v a i).
    { unfold jointAcc. rewrite ?EJ, (jointAt_S m q v noVel). reflexivity. }
    assert (G : pl r' F_oMi = worldPl m q i /\ mo r' F_v = bodyVel m q v i /\ mo r' F_a = bodyAcc m q v a i).
    { destruct (Nat.ltb_spec 0 (parent m i)) as [H0|H0].
      - destruct (HP H0) as (P1 & P2 & P3). rewrite P2 in F3. rewrite P1 in F2. rewrite <- (worldPl_step m W T q i Hi) in F2. rewrite <- (bodyVel_step m W T Vm q v i Hq Hi) in F3.
        cbv zeta in F4. rewrite F3, EA, P3, <- (bodyAcc_step m W T Vm q v a i Hq Hi) in F4. auto.
      - assert (P0 : parent m i = 0) by lia. 
        pose proof (worldPl_step m W T q i Hi) as S1. pose proof (bodyVel_step m W T Vm q v i Hq Hi) as S2. pose proof (bodyAcc_step m W T Vm q v a i Hq Hi) as S3.
        rewrite P0 in S1, S2, S3. rewrite (worldPl_0 m W T), se3_mul_1_l in S1. rewrite (bodyVel_0 m W T), motion_actInv_0, v6add_0_r in S2. rewrite (bodyAcc_0 m W T), motion_actInv_0, v6add_0_r in S3.
        rewrite <- S2 in F3. rewrite <- S1 in F2. cbv zeta in F4. rewrite F3, EA, <- S3 in F4. auto. }
    destruct G as (G1 & G2 & G3). rewrite G1, G2 in F5. rewrite G1, G3 in F6. rewrite G1 in F7. fold (worldInertia m q i) in F7. fold (worldVel m q v i) in F5. fold (wAgf q v a i) in F6.
    rewrite F5, F7 in F8. rewrite F5, F6, F7, F8 in F9. rewrite F5, F7, F8 in F10.
    unfold rowOk. rewrite (wF_eq q v a (extOf None) i Hq ltac:(lia)). unfold extOf at 1. rewrite force_act_0, v6sub_0_r, F1.
    repeat (split; [assumption|]). apply (jointAt_S m).
Qed.
Lemma rd_row_ext q v a fext i r' : rowOk q v a None i r' -> rowOk q v a fext i (minusExt fext i r').
Proof.
  intros K.
  assert (E : forall r', minusExt fext i r' = setMo r' F_of (v6sub (mo r' F_of) (force_act (pl r' F_oMi) (extOf fext i))) \/ (extOf fext i = v6zero /\ minusExt fext i r' = r')) by (intros r0; destruct fext; [now left | now right]).
  destruct K as (K1 & K2 & K3 & K4 & K5 & K6 & K7 & K8 & K9 & K10).
  assert (EF : wF q v a (extOf fext) i = v6sub (wF q v a (extOf None) i) (force_act (worldPl m q i) (extOf fext i))).
  { unfold wF, extOf at 2. rewrite <- force_act_sub. f_equal. rewrite v6sub_0_r. reflexivity. }
  destruct (E r') as [->|[Z ->]]; unfold rowOk; mem; rewrite EF.
  - rewrite K1, K7. repeat split; assumption.
  - rewrite Z, force_act_0, v6sub_0_r. repeat split; assumption.
Qed.
Lemma rd_row q v a fext i r rp : validState m q -> 0 < i < m_njoints m -> (0 < parent m i -> rowOk q v a fext (parent m i) rp) -> rowOk q v a fext i (minusExt fext i (rdRow m q v a i r rp)).
Proof.
  intros Hq Hi HP. apply rd_row_ext. unfold rdRow. eapply (rd_row_abs q v a i rp); [exact Hq | exact Hi | | apply rdRow1_eq, Hi | apply rdRow2_eq, Hi | apply rdRow3_eq | apply rdRow4_eq].
  intros H0. destruct (HP H0) as (P1 & P2 & P3 & _). auto.
Qed.

Definition rdRest fext i r (t : DX) : DX :=
  onBs (rdCols m i r (rows (bs t) (parent m i)) (onBs t (fun d => setRow d i r))) (fun d => setRow d i (minusExt fext i (rows d i))).
Lemma rd_rest q v a fext i r t : 0 < i < m_njoints m ->
  (pl r F_oMi = worldPl m q i /\ mo r F_ov = worldVel m q v i /\ jS (jd r) = jS (jointAt m q noVel i)) ->
  (0 < parent m i -> mo (rows (bs t) (parent m i)) F_ov = worldVel m q v (parent m i)) ->
  mo (rows (bs t) (parent m i)) F_oa_gf = wAgf q v a (parent m i) ->
  (forall j, rows (bs (rdRest fext i r t)) j = if i =? j then minusExt fext i r else rows (bs t) j) /\
  xma (rdRest fext i r t) = xma t /\ ma (gl (bs (rdRest fext i r t))) = ma (gl (bs t)) /\
  forall j c, 0 < j < m_njoints m -> c < nvOf m j -> let t' := rdRest fext i r t in let k := idx_v m j + c in
         (i <> j -> co (gl (bs t')) F_J k = co (gl (bs t)) F_J k /\ co (gl (bs t')) F_dJ k = co (gl (bs t)) F_dJ k /\ co (gl (bs t')) F_dVdq k = co (gl (bs t)) F_dVdq k /\ xco t' X_dAdq k = xco t X_dAdq k /\ xco t' X_dAdv k = xco t X_dAdv k) /\
         (i = j -> co (gl (bs t')) F_J k = worldCol m q i c /\ co (gl (bs t')) F_dJ k = dCol m q v i c /\ co (gl (bs t')) F_dVdq k = cVq q v i c /\ xco t' X_dAdq k = cAq q v a i c /\ xco t' X_dAdv k = cAv q v i c).
Proof.
      intros Hi (V1 & V2 & V3) PV PA.
      destruct (jm_v m W Vm NM i Hi) as (E1 & E2 & E3 & E4).
      assert (RR : forall j, rows (bs (rdRest fext i r t)) j = if i =? j then minusExt fext i r else rows (bs t) j).
      { intros j. cbv beta delta [rdRest rdCols]. destruct (0 <? parent m i); memx; unfold onCo; mem; rewrite putn_same; destruct (Nat.eqb_spec i j) as [<-|Hn]; rewrite ?putn_same, ?putn_other by exact Hn; reflexivity. }
      assert (GG : xma (rdRest fext i r t) = xma t /\ ma (gl (bs (rdRest fext i r t))) = ma (gl (bs t))).
      { cbv beta delta [rdRest rdCols]. destruct (0 <? parent m i); memx; unfold onCo; mem; split; reflexivity. }
      destruct GG as [GG1 GG2].
      assert (CC : forall j c, 0 < j < m_njoints m -> c < nvOf m j -> let t' := rdRest fext i r t in let k := idx_v m j + c in
         (i <> j -> co (gl (bs t')) F_J k = co (gl (bs t)) F_J k /\ co (gl (bs t')) F_dJ k = co (gl (bs t)) F_dJ k /\ co (gl (bs t')) F_dVdq k = co (gl (bs t)) F_dVdq k /\ xco t' X_dAdq k = xco t X_dAdq k /\ xco t' X_dAdv k = xco t X_dAdv k) /\
         (i = j -> co (gl (bs t')) F_J k = worldCol m q i c /\ co (gl (bs t')) F_dJ k = dCol m q v i c /\ co (gl (bs t')) F_dVdq k = cVq q v i c /\ xco t' X_dAdq k = cAq q v a i c /\ xco t' X_dAdv k = cAv q v i c)).
      { intros j c Hj Hc. cbv zeta. pose proof (within_own m W NM i j c Hi Hj Hc) as HW. cbv beta delta [rdRest rdCols]. rewrite E1, E3. split; intros Hij.
        - destruct (Nat.eqb_spec i j); [congruence|]. destruct (0 <? parent m i); memx; unfold onCo; memx; unfold plusCols, setCols; rewrite HW; auto.
        - subst j. rewrite Nat.eqb_refl in HW. assert (EC : idx_v m i + c - idx_v m i = c) by lia.
          assert (JC : motion_act (pl r F_oMi) (colOf (jS (jd r)) c) = worldCol m q i c) by (rewrite V1, V3; reflexivity).
          unfold cAv, cAq, cVq, dCol. destruct (Nat.ltb_spec 0 (parent m i)) as [H0|H0].
          + memx; unfold onCo; memx; unfold plusCols, setCols; rewrite !HW, !EC, ?HW, ?EC, ?JC, ?V2, ?PA, ?(PV H0). auto.
          + assert (P0 : parent m i = 0) by lia. rewrite P0 in PA |- *. rewrite (worldVel_0 m W T).
            memx; unfold onCo; memx; unfold plusCols, setCols; rewrite !HW, !EC, ?HW, ?EC, ?JC, ?V2, ?PA, ?P0.
            assert (Z : forall x, motion_cross v6zero x = v6zero) by sring. rewrite !Z. rewrite !v6add_0_r. auto. }
      split; [exact RR|]. split; [exact GG1|]. split; [exact GG2|]. exact CC.
Qed.
Lemma rd_fwd_rest q v a fext i t : rdFwd m q v a fext t i = rdRest fext i (rdRow m q v a i (rows (bs t) i) (rows (bs t) (parent m i))) t.
Proof. reflexivity. Qed.

Lemma rd_forward q v a fext s : validState m q -> let t := upward m (rdFwd m q v a fext) (rdStart m s) in
  xma t = xma s /\ ma (gl (bs t)) = ma (gl (bs s)) /\ forall i, 0 < i < m_njoints m -> rowOk q v a fext i (rows (bs t) i) /\ colsOk q v a i t.
Proof.
  intros Hq. cbv zeta.
  pose (Inv := fun k (t : DX) => xma t = xma s /\ ma (gl (bs t)) = ma (gl (bs s)) /\ mo (rows (bs t) 0) F_oa_gf = v6opp (m_gravity m) /\
     forall i, 0 < i < k -> i < m_njoints m -> rowOk q v a fext i (rows (bs t) i) /\ colsOk q v a i t).
  assert (HI : Inv (m_njoints m) (upward m (rdFwd m q v a fext) (rdStart m s))).
  { apply upward_inv; [apply (wf_n _ W) | |].
    - unfold rdStart, Inv. memx. rewrite putn_same. mem. repeat split; try reflexivity; lia.
    - intros i t Hi (I1 & I2 & I3 & I4). pose proof (wf_parent _ W i Hi) as Hp.
      assert (RO := rd_row q v a fext i (rows (bs t) i) (rows (bs t) (parent m i)) Hq Hi (fun H0 => proj1 (I4 (parent m i) ltac:(lia) ltac:(lia)))).
      rewrite rd_fwd_rest. generalize dependent (rdRow m q v a i (rows (bs t) i) (rows (bs t) (parent m i))). intros r RO.
      assert (RV : pl r F_oMi = worldPl m q i /\ mo r F_ov = worldVel m q v i /\ jS (jd r) = jS (jointAt m q noVel i)).
      { destruct RO as (A1 & _ & _ & A4 & _ & _ & _ & _ & _ & A10). revert A1 A4 A10. unfold minusExt. destruct fext; mem; auto. }
      destruct RV as (V1 & V2 & V3).
      assert (PV : 0 < parent m i -> mo (rows (bs t) (parent m i)) F_ov = worldVel m q v (parent m i)) by (intros H0; apply (I4 (parent m i) ltac:(lia) ltac:(lia))).
      assert (PA : mo (rows (bs t) (parent m i)) F_oa_gf = wAgf q v a (parent m i)).
      { destruct (Nat.eq_dec (parent m i) 0) as [E|E]; [rewrite E, I3; symmetry; apply wAgf_0 | apply (I4 (parent m i) ltac:(lia) ltac:(lia))]. }
      destruct (rd_rest q v a fext i r t Hi (conj V1 (conj V2 V3)) PV PA) as (RR & GG1 & GG2 & CC).
      split; [now rewrite GG1|]. split; [now rewrite GG2|]. split; [rewrite RR; destruct (Nat.eqb_spec i 0); [lia | exact I3]|].
      intros j Hj Hj'. split.
      + rewrite RR. destruct (Nat.eqb_spec i j) as [<-|Hn]; [exact RO | apply I4; lia].
      + intros c Hc. cbv zeta. destruct (CC j c ltac:(lia) Hc) as [C1 C2]. destruct (Nat.eq_dec i j) as [<-|Hn]; [now apply C2|].
        destruct (C1 Hn) as (-> & -> & -> & -> & ->). apply (I4 j ltac:(lia) ltac:(lia)). exact Hc. }
  destruct HI as (I1 & I2 & _ & I4). split; [exact I1|]. split; [exact I2|]. intros i Hi. apply I4; lia.
Qed.
End Der.
