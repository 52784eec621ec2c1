(* The derivatives of forward dynamics: what the first three passes leave. *)
Require Import Reals List Arith ZArith Lia Lra Bool.
From Verif Require Import Vec3 Spatial Inertia InertiaFacts SpatialFacts Joints JointFacts Model Spec_Model ModelFacts ModelTree ModelFacts2 Sums Data Kinematics Spec_Kin Spec_Mass KinFacts KinFacts2 Spec_Dyn Rnea DynFacts DynFacts2 TreeSums MassFacts Crba CrbaFacts CrbaFacts2 Jacobian Spec_Jac JacFacts JacFacts2 JacFacts3 CholFacts4 Com Dccrba DccrbaFacts DccrbaFacts2 DataX Coriolis RneaDer DerSums CoriolisFacts CoriolisFacts2 DerPass RneaDerFacts RneaDerFacts2 RneaDerFacts4 RneaDerFacts5
  Aba Spec_Aba AbaCore AbaFacts AbaJoints AbaFacts2 AbaFacts3 Spec_Deriv Minverse MinvFacts MinvFacts2 AbaDer AbaDerFacts AbaDerFacts2.
Import ListNotations.
Local Open Scope nat_scope.
Local Open Scope bool_scope.

Section Three.
Variable eps : R.
Variable m : Model.
Hypothesis Bt : Built eps m.
Let W : wellFormed m := Built_wf eps m Bt.
Let T : treeInv m := Built_tree eps m Bt.
Hypothesis Vm : validModel m.
Hypothesis NM : noMimic m.
Variable inv : nat -> (nat -> nat -> R) -> nat -> nat -> R.
Hypothesis HI : invertsPD inv.
Variables q v : vec.
Hypothesis Hq : validState m q.
Hypothesis PM : positiveM (m_nv m) (massMatrix m q).
Variable fext : option (nat -> Force).

Definition adReady a (s : DX) : Prop := forall i, 0 < i < m_njoints m ->
  (Yr s i = worldInertia m q i /\ Dr s i = dYb m q v i /\ Or s i = wF m q v a (extOf fext) i) /\
  forall c, c < nvOf m i -> let k := idx_v m i + c in
    Jm s k = worldCol m q i c /\ co (gl (bs s)) F_dVdq k = cVq m q v i c /\ xco s X_dAdq k = cAq m q v a i c /\ xco s X_dAdv k = cAv m q v i c.
Lemma readyW_col d i c : readyW m q d -> 0 < i < m_njoints m -> c < nvOf m i -> co (gl d) F_J (idx_v m i + c) = worldCol m q i c.
Proof.
  intros R Hi Hc. pose proof (f_equal (fun l => nth c l v6zero) (R i Hi)) as E. cbv beta in E. unfold jointCols in E. rewrite (idx_vE_v m W Vm NM i Hi), (nvE_nv m W Vm i (NM i Hi) Hi) in E.
  rewrite (nth_indep _ _ (co (gl d) F_J (idx_v m i + 0))) in E by now rewrite map_length, seq_length.
  rewrite (map_nth (fun k => co (gl d) F_J (idx_v m i + k))), seq_nth, Nat.add_0_l in E by exact Hc. rewrite E. unfold worldCol, wcols.
  assert (Lk : c < length (lcols m q i)) by (rewrite (lcols_len m W Vm NM) by exact Hi; exact Hc).
  rewrite (nth_indep (map (motion_act (worldPl m q i)) (lcols m q i)) v6zero (motion_act (worldPl m q i) v6zero)) by now rewrite map_length. apply (map_nth (motion_act (worldPl m q i))).
Qed.
Definition kin3 i (r : Row) : Prop := pl r F_oMi = worldPl m q i /\ mo r F_ov = worldVel m q v i /\ mo r F_oh = inertia_mul (worldInertia m q i) (worldVel m q v i) /\ yi r F_oinertias = worldInertia m q i.
Lemma pass3_ready a s d : sims s d -> readyW m q d -> (forall i, 0 < i < m_njoints m -> kin3 i (rows d i)) -> (forall i, i < m_njoints m -> mo (rows d i) F_oa_gf = wAgf m q v a i) ->
  (forall j, 0 < j < m_njoints m -> rowR fext j (rows (bs s) j) (rows d j) /\ colR m j s (rows d j) (rows d (parent m j))) -> adReady a s.
Proof.
  intros (S1 & S2 & S3) R K A H i Hi. pose proof (wf_parent _ W i Hi) as Hp. destruct (H i Hi) as ((H1 & H2 & H3) & H4). destruct (K i Hi) as (K1 & K2 & K3 & K4). split.
  - unfold Yr, Dr, Or. rewrite H1, H2, H3, K1, K2, K3, K4, (A i) by lia. split; [reflexivity|]. split; [reflexivity|]. symmetry. apply (wF_eq eps m Bt Vm); [exact Hq | lia].
  - intros c Hc. specialize (H4 c Hc). cbv zeta in *. unfold Jm. rewrite S3 in *. rewrite (readyW_col d i c R Hi Hc) in *. rewrite K2, (A (parent m i)) in H4 by lia. destruct H4 as (-> & -> & ->). split; [reflexivity|].
    unfold cAv, cAq, cVq, dCol. destruct (Nat.ltb_spec 0 (parent m i)) as [H0|H0].
    + destruct (K (parent m i) ltac:(lia)) as (_ & -> & _). auto.
    + replace (parent m i) with 0 by lia. rewrite (worldVel_0 m W T). assert (Z : forall x, motion_cross v6zero x = v6zero) by (clear; sring). rewrite !Z. auto.
Qed.

(* the passes of aba *)
Lemma abaWRow2_keep d i : co (gl (abaWRow2 m d i)) = co (gl d) /\ forall j, pl (rows (abaWRow2 m d i) j) = pl (rows d j) /\ yi (rows (abaWRow2 m d i) j) = yi (rows d j) /\
  mo (rows (abaWRow2 m d i) j) F_ov = mo (rows d j) F_ov /\ mo (rows (abaWRow2 m d i) j) F_oh = mo (rows d j) F_oh /\ row3 (rows (abaWRow2 m d i) j) = row3 (rows d j).
Proof.
  unfold abaWRow2. cbn [gl setRow setGl rows]. split; [reflexivity|]. intros j. destruct (Nat.eq_dec i j) as [<-|Hn]; [rewrite putn_same; unfold row3; mem; auto 6 | rewrite putn_other by exact Hn; auto 6].
Qed.
Lemma upward_row2_keep d : let e := upward m (abaWRow2 m) d in co (gl e) = co (gl d) /\ forall j, pl (rows e j) = pl (rows d j) /\ yi (rows e j) = yi (rows d j) /\
  mo (rows e j) F_ov = mo (rows d j) F_ov /\ mo (rows e j) F_oh = mo (rows d j) F_oh /\ row3 (rows e j) = row3 (rows d j).
Proof.
  cbv zeta. unfold upward. generalize (seq 1 (m_njoints m - 1)). intros l. revert d. induction l as [|i l IH]; intros d; cbn [fold_left]; [auto 8|].
  destruct (abaWRow2_keep d i) as (A0 & A). destruct (IH (abaWRow2 m d i)) as (B0 & B). rewrite B0, A0. split; [reflexivity|]. intros j. destruct (A j) as (A1 & A2 & A3 & A4 & A5). destruct (B j) as (B1 & B2 & B3 & B4 & B5).
  rewrite B1, B2, B3, B4, B5. auto.
Qed.
Lemma back_keep d1 : readyW m q d1 -> let d2 := downward m (abaWBack inv m) d1 in kept F_of d1 d2.
Proof.
  intros R. cbv zeta. destruct (downward_congr m (abaWBack inv m) _ (kept F_of d1) (fun s i Hi K => abaWBack_gen m inv q d1 s i R Hi K) d1) as [-> K]; [|exact K]. split; [reflexivity | intros j; auto].
Qed.
(* after the first pass of either algorithm *)
Definition start1 (d1 : Data) : Prop := (forall i, 0 < i < m_njoints m -> kinOk m q v i (rows d1 i)) /\ readyW m q d1 /\ mo (rows d1 0) F_oa_gf = v6opp (m_gravity m) /\
  (forall i, 0 < i < m_njoints m -> m6 (rows d1 i) F_oYaba = inertia_matrix (worldInertia m q i) /\
     mo (rows d1 i) F_oa_gf = v6add (motion_act (worldPl m q i) (jc (jointAt m q v i))) (motion_cross (worldVel m q v (parent m i)) (worldVel m q v i)) /\
     mo (rows d1 i) F_of = force_act (worldPl m q i) (v6sub (force_cross (bodyVel m q v i) (inertia_mul (inertiaOf m i) (bodyVel m q v i))) (extOf fext i))).
Lemma aba_passes12 d1 : start1 d1 -> let d2 := downward m (abaWBack inv m) d1 in let d3 := upward m (abaWRow2 m) d2 in let ddq := ve (gl d3) F_ddq in
  readyW m q d2 /\ readyW m q d3 /\ (forall i, 0 < i < m_njoints m -> kin3 i (rows d3 i) /\ yi (rows d2 i) F_oYcrb = yi (rows d2 i) F_oinertias) /\ (forall i, i < m_njoints m -> mo (rows d3 i) F_oa_gf = wAgf m q v ddq i) /\
  (forall i, row3 (rows d3 i) = row3 (rows d2 i)) /\
  forall d' k, k < m_nv m -> invDyn m d' q v ddq fext k = ve (gl d1) F_u k.
Proof.
  intros (K1 & R1 & Z0 & H1). cbv zeta. destruct (abaW_solve m W T Vm NM inv HI q v Hq PM d1 _ R1 H1 Z0) as (EA & EP). destruct (back_keep d1 R1) as (B0 & B). set (d2 := downward m (abaWBack inv m) d1) in *.
  destruct (upward_row2_keep d2) as (C0 & C). set (d3 := upward m (abaWRow2 m) d2) in *. cbv zeta in *.
  assert (R2 : readyW m q d2) by (intros j Hj; rewrite B0; now apply R1). split; [exact R2|].
  split; [intros j Hj; rewrite C0; now apply R2|]. split; [|split; [|split]].
  - intros i Hi. destruct (C i) as (C1 & C2 & C3 & C4 & _). destruct (B i) as (B1 & B2 & B3 & B4). destruct (K1 i Hi) as (L1 & L2 & L3 & L4 & L5). unfold kin3. rewrite C1, C2, C3, C4, B2, B3, (B4 F_ov), (B4 F_oh), L4, L5 by discriminate. auto 6.
  - intros i Hi. rewrite (EA i Hi). unfold wAgf, gravityAt. rewrite motion_act_sub, motion_act_actInv by (apply (worldPl_rot m W T Vm q i Hq); lia). reflexivity.
  - intros i. apply C.
  - intros d'. apply dotv_inj. intros z. rewrite (invDyn_power eps m Bt Vm) by exact Hq. rewrite <- (EP z). f_equal. apply power_ext. intros i Hi. unfold bodyForce.
    generalize (extOf fext i). intros f. generalize (force_cross (bodyVel m q v i) (inertia_mul (inertiaOf m i) (bodyVel m q v i))). intros c.
    match goal with |- v6sub (v6add ?a _) _ = _ => generalize a end. intros a. clear. sring.
Qed.

(* computeABADerivatives *)
Lemma row2_sims i s d : sims s d -> sims (onBs s (fun d => abaWRow2 m d i)) (abaWRow2 m d i).
Proof.
  intros (S1 & S2 & S3). destruct (S1 i) as (A1 & A2 & A3 & A4 & A5 & A6 & A7). destruct (S1 (parent m i)) as (_ & _ & _ & _ & P5 & _ & _). unfold sims. cbn [bs onBs].
  unfold abaWRow2. cbn [rows gl setRow setGl]. split; [|split].
  - intros j. destruct (Nat.eq_dec i j) as [<-|Hn]; [|rewrite !putn_other by exact Hn; apply S1]. rewrite !putn_same. unfold sim. mem. rewrite A1, A2, A3, A4, A5, A6, A7, P5, S2, S3. auto 10.
  - mem. rewrite A3, A4, A5, P5, S2. reflexivity.
  - exact S3.
Qed.
Lemma row2_pre i s : let t := onBs s (fun d => abaWRow2 m d i) in xco t = xco s /\ xma t = xma s /\ co (gl (bs t)) = co (gl (bs s)) /\ ma (gl (bs t)) = ma (gl (bs s)) /\ fcrb (gl (bs t)) = fcrb (gl (bs s)).
Proof. cbv zeta. unfold abaWRow2. memx. auto. Qed.
Lemma row2_other d i j : i <> j -> rows (abaWRow2 m d i) j = rows d j.
Proof. intros Hn. unfold abaWRow2. cbn [rows gl setRow setGl]. now rewrite putn_other. Qed.

Hypothesis DF : depthFirst m.
Definition minvOk (s : DX) : Prop := let X := symUpper (ma (gl (bs s)) F_Minv) in symmetricM (m_nv m) X /\ identityM (m_nv m) (matMul (m_nv m) (massMatrix m q) X).
Lemma start_main tau d : start1 (upward m (rowStepG m (adRow1 m q v fext) (crbaWCols m)) (adStart m tau d)) /\
  ve (gl (upward m (rowStepG m (adRow1 m q v fext) (crbaWCols m)) (adStart m tau d))) F_u = tau /\ ma (gl (upward m (rowStepG m (adRow1 m q v fext) (crbaWCols m)) (adStart m tau d))) F_Minv = zeroUpper m (ma (gl d) F_Minv).
Proof.
  destruct (ad_pass1 m W T Vm NM q v fext (adStart m tau d) Hq) as (A1 & A2 & A3 & A4 & A5 & A6). set (d1 := upward m _ (adStart m tau d)) in *. clearbody d1. rewrite A2, A3. split; [|split; reflexivity].
  unfold start1. rewrite A4. split; [exact A1|]. split; [exact A5|]. split; [|exact A6]. unfold adStart. cbn [rows setGl setRow]. rewrite putn_same. reflexivity.
Qed.
Lemma main_passes s tau : let t := upward m (adFwd2 m fext) (onBs s (adPasses12 inv m q v tau fext)) in let ddq := ve (gl (bs t)) F_ddq in
  adReady ddq t /\ xma t = xma s /\ (forall d' k, k < m_nv m -> invDyn m d' q v ddq fext k = tau k) /\ minvOk t.
Proof.
  cbv zeta. unfold adPasses12. destruct (start_main tau (bs s)) as (H1 & H2 & H3). set (d1 := upward m (rowStepG m _ _) _) in *.
  set (d1' := setGl d1 (onFcrb (gl d1) 0 (fun _ _ => v6zero))).
  set (s1 := onBs s _). assert (Es : bs s1 = downward m (adBack1 inv m) d1') by reflexivity. assert (Ex : xma s1 = xma s) by reflexivity. clearbody s1. clearbody d1.
  destruct (aba_passes12 d1 H1) as (P1 & P2 & P3 & P4 & P5 & P6). cbv zeta in *.
  destruct (ad_pass2_eq m inv d1 (ma (gl d1)) (putn (fcrb (gl d1)) 0 (fun _ => v6zero))) as (x' & f' & E). change (setGl d1 (withMF (gl d1) (ma (gl d1)) (putn (fcrb (gl d1)) 0 (fun _ => v6zero)))) with d1' in E.
  pose proof (ad_pass2_minv m inv d1' (gl d1') eq_refl) as M2. cbv zeta in M2.
  rewrite <- Es in M2. rewrite E in Es.
  set (d2 := downward m (abaWBack inv m) d1) in *. 
  assert (SS : sims s1 d2). { split; [|split]; [intros j|..]; rewrite Es; cbn [rows gl setGl]; [apply sim_refl | reflexivity | reflexivity]. }
  unfold adFwd2.
  destruct (ad_pass3 m W Vm NM fext false (fun s i => onBs s (fun d => abaWRow2 m d i)) (abaWRow2 m)) with (s := s1) (d := d2) as (Q1 & Q2 & Q3).
  - intros i t e Hi St Ht. split; [now apply row2_sims|]. cbn [bs onBs]. destruct (abaWRow2_keep (bs t) i) as (_ & K). destruct (K i) as (_ & -> & _). apply (Ht eq_refl i Hi).
  - intros i t j Hn. cbn [bs onBs]. now apply row2_other.
  - intros i d j Hn. now apply row2_other.
  - intros i t. apply row2_pre.
  - exact SS.
  - intros _ j Hj. rewrite Es. cbn [rows setGl]. apply (P3 j Hj).
  - assert (M3 := ad_pass3_minv m W fext (fun s i => onBs s (fun d => abaWRow2 m d i)) (fun i t => row2_pre i t) (fun i t j => f_equal snd (proj2 (proj2 (proj2 (proj2 (proj2 (abaWRow2_keep (bs t) i) j)))))) s1 (gl d1')).
    cbv zeta in *. set (t := upward m _ s1) in *. clearbody t. set (d3 := upward m (abaWRow2 m) d2) in *. pose proof Q1 as (_ & Ev & _). rewrite Ev. split; [|split; [|split]].
    + apply (pass3_ready _ t d3 Q1 P2); [intros i Hi; apply (P3 i Hi) | exact P4 | exact Q3].
    + now rewrite Q2.
    + intros d' k Hk. rewrite (P6 d' k Hk), H2. reflexivity.
    + destruct (abaW_rows m inv q d1 (proj1 (proj2 H1))) as (_ & AR). fold d2 in AR. fold d3 in AR.
      pose proof (assemble m W T Vm NM DF inv HI q Hq PM d1 (gl d1') (fun i => row3 (rows (bs s1) i))) as AS. cbv zeta in AS.
      unfold minvOk. cbv zeta.
      assert (EM : ma (gl (bs t)) = ma (withMF (gl d1') (ma (gl (bs t))) (fcrb (gl (bs t))))) by reflexivity. rewrite EM, M3; [|rewrite Es; cbn [gl setGl withMF co]; symmetry; exact (proj1 (back_keep d1 (proj1 (proj2 H1))))].
      rewrite M2. apply AS.
      * intros i Hi. apply (proj2 (proj2 (proj2 H1)) i Hi).
      * intros i Hi. rewrite <- AR, P5, Es. reflexivity.
      * intros k l Hkl. unfold d1'. cbn [gl setGl onFcrb setFcrb ma]. rewrite H3. unfold zeroUpper. destruct (Nat.leb_spec k l), (Nat.ltb_spec l (m_nv m)); try lia. reflexivity.
      * intros l. unfold d1'. cbn [gl setGl onFcrb setFcrb fcrb]. now rewrite putn_same.
      * exact (proj1 (proj2 H1)).
Qed.
(* computeABADerivatives after aba *)
Lemma upward_id {A : Type} (d : A) : upward m (fun d _ => d) d = d.
Proof. unfold upward. generalize (seq 1 (m_njoints m - 1)). intros l. induction l; [reflexivity | exact IHl]. Qed.
Definition afterAba (tau : vec) (d : Data) : Prop := let ddq := ve (gl d) F_ddq in
  readyW m q d /\ (forall i, 0 < i < m_njoints m -> kin3 i (rows d i)) /\ (forall i, i < m_njoints m -> mo (rows d i) F_oa_gf = wAgf m q v ddq i) /\
  (forall d' k, k < m_nv m -> invDyn m d' q v ddq fext k = tau k) /\
  exists d1, (forall i, 0 < i < m_njoints m -> m6 (rows d1 i) F_oYaba = inertia_matrix (worldInertia m q i)) /\ (forall i, row3 (rows d i) = row3 (rows (downward m (gen m inv q) d1) i)).
Lemma optimized_passes s tau : afterAba tau (bs s) ->
  let s1 := onBs (onBs s (fun d => setGl d (onMinv (gl d) (zeroUpper m)))) (fun d => setGl d (onFcrb (gl d) 0 (fun _ _ => v6zero))) in
  let t := upward m (adFwd2O m fext) (onBs s1 (downward m (minvBackO m))) in let ddq := ve (gl (bs t)) F_ddq in
  adReady ddq t /\ xma t = xma s /\ (forall d' k, k < m_nv m -> invDyn m d' q v ddq fext k = tau k) /\ minvOk t.
Proof.
  intros (A1 & A2 & A3 & A4 & d1 & A5 & A6). cbv zeta in *. set (s1 := onBs (onBs s _) _). set (s2 := onBs s1 _).
  assert (ER : forall d, rows (downward m (minvBackO m) d) = rows d /\ ve (gl (downward m (minvBackO m) d)) = ve (gl d) /\ co (gl (downward m (minvBackO m) d)) = co (gl d)).
  { unfold downward. generalize (rev (seq 1 (m_njoints m - 1))). clear. intros l. induction l as [|i l IH]; intros d; cbn [fold_left]; [auto|]. destruct (IH (minvBackO m d i)) as (-> & -> & ->). unfold minvBackO. cbn [rows gl setGl].
    rewrite minvFill_J. destruct (minvFill_MF m i (jointCols m i (co (gl d) F_J)) (jU (rows d i)) (jDinv (rows d i)) (gl d)) as (x & f & ->). auto. }
  destruct (ER (bs s1)) as (E1 & E2 & E3).
  assert (SS : sims s2 (bs s)). { split; [intros j|split]; subst s2; cbn [bs onBs]; rewrite ?E1, ?E2, ?E3; [apply sim_refl | reflexivity | reflexivity]. }
  assert (M2 : gl (bs s2) = downward m (fun g i => minvFill m i (jointCols m i (co g F_J)) (jU (rows (bs s) i)) (jDinv (rows (bs s) i)) g) (gl (bs s1))).
  { subst s2. cbn [bs onBs]. rewrite (frozen m (fun r => (jU r, jDinv r)) (minvBackO m) (fun i x g => minvFill m i (jointCols m i (co g F_J)) (fst x) (snd x) g)); [|reflexivity|reflexivity]. rewrite E1. reflexivity. }
  assert (Ex : xma s2 = xma s) by reflexivity. assert (R2 : rows (bs s2) = rows (bs s)) by (subst s2; cbn [bs onBs]; now rewrite E1).
  assert (J2 : co (gl (bs s2)) = co (gl (bs s))) by (subst s2; cbn [bs onBs]; now rewrite E3). clearbody s2.
  pose (pre := fun (s : DX) i => onBs s (fun d => setRow d i (setYi (rows d i) F_oYcrb (yi (rows d i) F_oinertias)))).
  assert (PX : forall i t, xco (pre t i) = xco t /\ xma (pre t i) = xma t /\ co (gl (bs (pre t i))) = co (gl (bs t)) /\ ma (gl (bs (pre t i))) = ma (gl (bs t)) /\ fcrb (gl (bs (pre t i))) = fcrb (gl (bs t))) by (intros; unfold pre; memx; auto).
  assert (PU : forall i t j, jUDinv (rows (bs (pre t i)) j) = jUDinv (rows (bs t) j)).
  { intros i t j. unfold pre. cbn [bs onBs rows setRow]. destruct (Nat.eq_dec i j) as [<-|Hn]; [now rewrite putn_same | now rewrite putn_other]. }
  destruct (ad_pass3 m W Vm NM fext true pre (fun d _ => d)) with (s := s2) (d := bs s) as (Q1 & Q2 & Q3).
  - intros i t e Hi (S1 & S2 & S3) _. split.
    + split; [|split; [exact S2 | exact S3]]. intros j. unfold pre. cbn [bs onBs rows setRow]. destruct (Nat.eq_dec i j) as [<-|Hn]; [|rewrite putn_other by exact Hn; apply S1].
      rewrite putn_same. destruct (S1 i) as (B1 & B2 & B3 & B4 & B5 & B6 & B7). unfold sim. mem. auto 10.
    + unfold pre. cbn [bs onBs rows setRow]. rewrite putn_same. mem. reflexivity.
  - intros i t j Hn. unfold pre. cbn [bs onBs rows setRow]. now rewrite putn_other.
  - reflexivity.
  - exact PX.
  - exact SS.
  - discriminate.
  - assert (M3 := ad_pass3_minv m W fext pre PX PU s2 (gl (bs s1))). cbv zeta in *. rewrite upward_id in Q1, Q3.
    change (upward m (adFwd2O m fext) s2) with (upward m (fun s i => adRest m fext (pre s i) i) s2). set (t := upward m (fun s i => adRest m fext (pre s i) i) s2) in *. clearbody t.
    pose proof Q1 as (_ & Ev & _). rewrite Ev. split; [|split; [|split]].
    + exact (pass3_ready _ t (bs s) Q1 A1 A2 A3 Q3).
    + now rewrite Q2.
    + exact A4.
    + pose proof (assemble m W T Vm NM DF inv HI q Hq PM d1 (gl (bs s1)) (fun i => row3 (rows (bs s) i)) A5) as AS. cbv zeta in AS.
      unfold minvOk. cbv zeta. assert (EM : ma (gl (bs t)) = ma (withMF (gl (bs s1)) (ma (gl (bs t))) (fcrb (gl (bs t))))) by reflexivity. rewrite EM, M3; [|rewrite J2; reflexivity].
      assert (M2' : withMF (gl (bs s1)) (ma (gl (bs s2))) (fcrb (gl (bs s2))) = gl (bs s2)).
      { rewrite M2. unfold downward. generalize (rev (seq 1 (m_njoints m - 1))). intros l. 
        assert (G : forall g, (exists x f, g = withMF (gl (bs s1)) x f) -> let g' := fold_left (fun g i => minvFill m i (jointCols m i (co g F_J)) (jU (rows (bs s) i)) (jDinv (rows (bs s) i)) g) l g in withMF (gl (bs s1)) (ma g') (fcrb g') = g').
        { induction l as [|i l IH]; intros g (x & f & ->); [reflexivity|]. cbn [fold_left]. apply IH. match goal with |- context [minvFill m i ?J ?U ?D ?g] => destruct (minvFill_MF m i J U D g) as (y & h & ->) end. exists y, h. reflexivity. }
        apply G. exists (ma (gl (bs s1))), (fcrb (gl (bs s1))). destruct (gl (bs s1)); reflexivity. }
      rewrite M2', M2, R2. apply AS.
      * intros i Hi. apply A6.
      * intros k l Hkl. unfold s1, onMinv. cbn [bs onBs gl setGl onFcrb setFcrb ma setMa put MaT_beq]. unfold zeroUpper. destruct (Nat.leb_spec k l), (Nat.ltb_spec l (m_nv m)); try lia. reflexivity.
      * intros l. unfold s1. cbn [bs onBs gl setGl onFcrb setFcrb fcrb]. now rewrite putn_same.
      * exact A1.
Qed.
(* what aba leaves *)
Definition abaDataOf (d : Data) (tau : vec) : Data := match fext with None => abaWorldData inv m d q v tau | Some f => abaWorldDataExt inv m d q v tau f end.
Lemma after_start d0 tau : mo (rows d0 0) F_oa_gf = v6opp (m_gravity m) -> ve (gl d0) F_u = tau ->
  afterAba tau (upward m (abaWRow2 m) (downward m (abaWBack inv m) (upward m (rowStepG m (adRow1 m q v fext) (crbaWCols m)) d0))).
Proof.
  intros Z0 U0. destruct (ad_pass1 m W T Vm NM q v fext d0 Hq) as (A1 & A2 & A3 & A4 & A5 & A6). set (d1 := upward m _ d0) in *. clearbody d1.
  assert (S1 : start1 d1) by (unfold start1; rewrite A4; auto). destruct (aba_passes12 d1 S1) as (P1 & P2 & P3 & P4 & P5 & P6). destruct (abaW_rows m inv q d1 A5) as (_ & AR). cbv zeta in *.
  unfold afterAba. cbv zeta. split; [exact P2|]. split; [intros i Hi; apply (P3 i Hi)|]. split; [exact P4|]. split; [intros d' k Hk; rewrite (P6 d' k Hk), A2, U0; reflexivity|].
  exists d1. split; [intros i Hi; apply (A6 i Hi) | exact AR].
Qed.
Lemma pushOf_keep d : let e := downward m (pushOf m) d in gl e = gl d /\ forall j, row3 (rows e j) = row3 (rows d j) /\ pl (rows e j) = pl (rows d j) /\ yi (rows e j) = yi (rows d j) /\ forall t, t <> F_of -> mo (rows e j) t = mo (rows d j) t.
Proof.
  cbv zeta. unfold downward. generalize (rev (seq 1 (m_njoints m - 1))). clear. intros l. revert d. induction l as [|i l IH]; intros d; cbn [fold_left]; [auto 8|].
  destruct (IH (pushOf m d i)) as (-> & H). split; [reflexivity|]. intros j. destruct (H j) as (H1 & H2 & H3 & H4). rewrite H1, H2, H3. unfold pushOf in *. cbn [rows setRow] in *.
  destruct (Nat.eq_dec (parent m i) j) as [<-|Hn]; [rewrite putn_same in * | rewrite putn_other in * by exact Hn; auto]. unfold row3. cbn [jU jDinv jUDinv pl yi setMo]. repeat (split; [reflexivity|]).
  intros t Ht. rewrite (H4 t Ht). cbn [mo setMo]. unfold put. now rewrite MoT_beq_neq by congruence.
Qed.
End Three.
Lemma aba_after eps m (Bt : Built eps m) (Vm : validModel m) (NM : noMimic m) inv (HI : invertsPD inv) q v (Hq : validState m q) (PM : positiveM (m_nv m) (massMatrix m q)) fext d tau :
  afterAba m inv q v fext tau (abaDataOf m inv q v fext d tau).
Proof.
  destruct fext as [f|]; cbn [abaDataOf].
  - unfold abaWorldDataExt. set (d0 := setGl _ _). assert (Z0 : mo (rows d0 0) F_oa_gf = v6opp (m_gravity m)) by (unfold d0; cbn [rows setGl setRow]; rewrite putn_same; reflexivity).
    exact (after_start eps m Bt Vm NM inv HI q v Hq PM (Some f) d0 tau Z0 eq_refl).
  - unfold abaWorldData. set (d0 := setGl _ _). assert (Z0 : mo (rows d0 0) F_oa_gf = v6opp (m_gravity m)) by (unfold d0; cbn [rows setGl setRow]; rewrite putn_same; reflexivity).
    pose proof (after_start eps m Bt Vm NM inv HI q v Hq PM None d0 tau Z0 eq_refl) as H. change (adRow1 m q v None) with (abaWRow1 m q v) in H.
    set (d3 := upward m (abaWRow2 m) _) in *. clearbody d3. destruct (pushOf_keep m d3) as (G & K). set (d4 := downward m (pushOf m) d3) in *. clearbody d4. cbv zeta in *.
    destruct H as (A1 & A2 & A3 & A4 & d1 & A5 & A6). unfold afterAba, readyW, kin3. cbv zeta in *. rewrite G. split; [exact A1|]. split; [|split; [|split; [exact A4|]]].
    + intros i Hi. destruct (K i) as (_ & -> & -> & K4). rewrite (K4 F_ov), (K4 F_oh) by discriminate. apply (A2 i Hi).
    + intros i Hi. destruct (K i) as (_ & _ & _ & K4). rewrite (K4 F_oa_gf) by discriminate. apply (A3 i Hi).
    + exists d1. split; [exact A5|]. intros i. destruct (K i) as (-> & _). apply A6.
Qed.
