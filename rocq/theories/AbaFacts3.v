(* abaLocalConvention and abaWorldConvention as instances of the generic passes. *)
Require Import Reals List Arith Lia Lra Bool.
From Verif Require Import Vec3 Spatial Inertia InertiaFacts Joints JointFacts Model Spec_Model ModelFacts ModelTree ModelFacts2 Sums Data Spec_Kin Kinematics KinFacts TreeSums Spec_Dyn DynFacts DynFacts2 Spec_Mass MassFacts Rnea Crba Aba CrbaFacts Spec_Aba AbaCore AbaFacts AbaJoints AbaFacts2.
Import ListNotations.
Local Open Scope nat_scope.

Lemma downward_gl m f (s : Data) : (forall d i, gl (f d i) = gl d) -> gl (downward m f s) = gl s.
Proof.
  intros H. unfold downward. generalize (rev (seq 1 (m_njoints m - 1))). intros l. revert s. induction l as [|i l IH]; intros s; cbn [fold_left]; [reflexivity|]. now rewrite IH, H.
Qed.
Lemma inertia_sym6 Y : sym6 (inertia_matrix Y).
Proof. intros x y. rewrite <- !inertia_mul_spec. apply inertia_mul_sym. Qed.

Section Inst.
Variable m : Model.
Hypothesis W : wellFormed m.
Hypothesis T : treeInv m.
Hypothesis Vm : validModel m.
Hypothesis NM : noMimic m.
Variable inv : nat -> (nat -> nat -> R) -> nat -> nat -> R.
Hypothesis HI : invertsPD inv.
Variables q v : vec.
Hypothesis Hq : validState m q.
Hypothesis PM : positiveM (m_nv m) (massMatrix m q).

Definition lcols i := jS (jointAt m q noVel i).
Lemma lcols_len i : 0 < i < m_njoints m -> length (lcols i) = nvOf m i.
Proof. intros Hi. exact (jS_len m W Vm NM q noVel i Hi). Qed.

Lemma PD_local V w : V 0 = v6zero -> (forall i, 0 < i < m_njoints m -> V i = v6add (Smul (lcols i) (w i)) (motion_actInv (relPl m q i) (V (parent m i)))) ->
  (exists i k, 0 < i < m_njoints m /\ k < nvOf m i /\ w i k <> 0%R) ->
  (0 < sumN (m_njoints m) (fun i => if 0 <? i then v6dot (V i) (m6vec (inertia_matrix (inertiaOf m i)) (V i)) else 0) +
       sumN (m_njoints m) (fun i => if 0 <? i then sumN (nvOf m i) (fun k => armSel m i k * w i k * w i k) else 0))%R.
Proof.
  intros V0 HV (i & k & Hi & Hk & Hn). set (wg := glue m w).
  assert (EV : forall i, i < m_njoints m -> V i = bodyVel m q wg i).
  { refine (tree_ind m _ W _ _); [now rewrite V0, (bodyVel_0 m W T)|]. intros j Hj IH.
    rewrite (HV j Hj), IH, (bodyVel_step m W T Vm q wg j Hq Hj). f_equal. unfold jointTwist. apply Smul_ext. intros a Ha.
    assert (Ha' : a < nvOf m j) by (rewrite <- (lcols_len j Hj); exact Ha). clear Ha. unfold shift, wg. symmetry. now apply (glue_at m W NM). }
  pose proof (PM wg) as P. assert (Hx : exists k, k < m_nv m /\ wg k <> 0%R).
  { exists (idx_v m i + k). split; [pose proof (idx_v_bound m W NM i Hi); lia|]. unfold wg. now rewrite (glue_at m W NM) by assumption. }
  specialize (P Hx). fold (dotv (m_nv m) wg (fun k => dotv (m_nv m) (massMatrix m q k) wg)) in P.
  change (0 < dotv (m_nv m) wg (fun k => dotv (m_nv m) (massMatrix m q k) wg))%R in P.
  rewrite (massMatrix_form m W T Vm q wg wg) in P. unfold kineticForm, armaturePower in P. rewrite (bodies_if m W), (dof_sum m W NM) in P.
  eapply Rlt_le_trans; [exact P|]. apply Req_le. f_equal; apply sumN_ext; intros j Hj; destruct (Nat.ltb_spec 0 j); try reflexivity.
  - rewrite (EV j Hj), inertia_mul_spec. reflexivity.
  - apply sumN_ext. intros a Ha. unfold armSel, wg. rewrite (glue_at m W NM) by (lia || exact Ha). reflexivity.
Qed.

(* ---- local convention ---- *)
Definition calcL i A := calcAba inv (jm_type (joint m i)) (lcols i) (armSel m i) A ([], fun _ _ => 0%R, []).
Definition postL (i : nat) (r : Row) : Row :=
  let r := setMo r F_a (mkV6 (v3add (lin (mo r F_a_gf)) (m3vec (m3tr (rot (pl r F_oMi))) (lin (m_gravity m)))) (ang (mo r F_a_gf))) in
  setMo r F_f (v6add (inertia_mul (inertiaOf m i) (mo r F_a_gf)) (force_cross (mo r F_v) (mo r F_h))).
Lemma jtype_notMimic i : 0 < i < m_njoints m -> notMimicJ (jm_type (joint m i)).
Proof. intros Hi. pose proof (NM i Hi) as H. unfold isMimic in H. unfold notMimicJ. destruct (jm_type (joint m i)); try exact I; discriminate. Qed.
Lemma calcAba_old j S ar A o o' : notMimicJ j -> calcAba inv j S ar A o = calcAba inv j S ar A o'.
Proof. destruct j; intros H; [reflexivity | contradiction | reflexivity]. Qed.
Lemma calcAbaI_sub j r A : notMimicJ j -> calcAbaI j r A = subOuter A (snd r) (fst (fst r)).
Proof. destruct j; intros H; [reflexivity | contradiction | reflexivity]. Qed.

Definition same (s0 s : Data) : Prop := co (gl s) F_J = co (gl s0) F_J /\ forall j, jd (rows s j) = jd (rows s0 j) /\ pl (rows s j) = pl (rows s0 j).
Definition readyL (s0 : Data) : Prop := forall j, 0 < j < m_njoints m -> jS (jd (rows s0 j)) = lcols j /\ pl (rows s0 j) F_liMi = relPl m q j.
Lemma abaLBack_gen s0 s i : readyL s0 -> 0 < i < m_njoints m -> kept F_f s0 s ->
  abaLBack inv m s i = genBack m F_Yaba F_f F_a_gf lcols (fun i => se3ActOn (relPl m q i)) (fun i => force_act (relPl m q i)) calcL s i /\
  kept F_f s0 (genBack m F_Yaba F_f F_a_gf lcols (fun i => se3ActOn (relPl m q i)) (fun i => force_act (relPl m q i)) calcL s i).
Proof.
  intros R0 Hi K. split; [|now apply genBack_kept]. destruct K as [_ K]. destruct (K i) as (K1 & K2 & _). destruct (R0 i Hi) as [R1 R2].
  unfold abaLBack, genBack. rewrite K1, R1. rewrite (calcAba_old _ _ _ _ (jU (rows s i), jDinv (rows s i), jUDinv (rows s i)) ([], fun _ _ => 0%R, [])) by now apply jtype_notMimic.
  fold (calcL i (m6 (rows s i) F_Yaba)). rewrite (calcAbaI_sub (jm_type (joint m i))) by now apply jtype_notMimic.
  cbn [pl setMo setM6 setAba jd setGl rows]. rewrite K2, R2. reflexivity.
Qed.
Lemma abaLRow2_gen s0 s i : readyL s0 -> 0 < i < m_njoints m -> same s0 s ->
  abaLRow2 m s i = genFwd m F_a_gf lcols (fun i => motion_actInv (relPl m q i)) postL s i /\
  same s0 (genFwd m F_a_gf lcols (fun i => motion_actInv (relPl m q i)) postL s i).
Proof.
  intros R0 Hi K. split.
  - destruct K as [_ K]. destruct (K i) as (K1 & K2). destruct (R0 i Hi) as [R1 R2]. unfold abaLRow2, genFwd, postL.
    cbn [pl setMo setM6 setAba jd setGl rows]. rewrite K1, R1, K2, R2. reflexivity.
  - destruct K as [K0 K]. split; [unfold genFwd; mem; exact K0|]. intros j. destruct (K j) as [K1 K2]. destruct (Nat.eq_dec i j) as [->|Hn].
    + unfold genFwd. cbn [rows setRow setGl]. rewrite putn_same. unfold postL. mem. now split.
    + unfold genFwd. cbn [rows setRow setGl]. rewrite putn_other by exact Hn. auto.
Qed.

Lemma abaL_solve s0 b : readyL s0 ->
  (forall i, 0 < i < m_njoints m -> m6 (rows s0 i) F_Yaba = inertia_matrix (inertiaOf m i) /\
     mo (rows s0 i) F_a_gf = v6add (jc (jointAt m q v i)) (motion_cross (bodyVel m q v i) (jointTwist m q v i)) /\ mo (rows s0 i) F_f = b i) ->
  mo (rows s0 0) F_a_gf = v6opp (m_gravity m) ->
  let s2 := upward m (abaLRow2 m) (downward m (abaLBack inv m) s0) in
  let ddq := ve (gl s2) F_ddq in
  (forall i, i < m_njoints m -> mo (rows s2 i) F_a_gf = v6sub (bodyAcc m q v ddq i) (gravityAt m q i)) /\
  forall z, (power m q (fun i => v6add (inertia_mul (inertiaOf m i) (v6sub (bodyAcc m q v ddq i) (gravityAt m q i))) (b i)) z + armaturePower m ddq z =
    dotv (m_nv m) (ve (gl s0) F_u) z)%R.
Proof.
  intros RL H0 H00. cbv zeta.
  destruct (downward_congr m (abaLBack inv m) _ (kept F_f s0) (fun s i Hi K => abaLBack_gen s0 s i RL Hi K) s0) as [-> [K1 K2]].
  { split; [reflexivity | intros j; auto]. }
  set (s1 := downward m _ s0) in *.
  destruct (upward_congr m (abaLRow2 m) _ (same s0) (fun s i Hi K => abaLRow2_gen s0 s i RL Hi K) s1) as [-> _].
  { split; [exact K1|]. intros j. destruct (K2 j) as (A & B & _). auto. }
  destruct (aba_passes m W NM F_Yaba F_f F_a_gf ltac:(discriminate) lcols (fun i => se3ActOn (relPl m q i)) (fun i => force_act (relPl m q i)) (fun i => motion_actInv (relPl m q i)) calcL postL) with (s0 := s0) as (P1 & P2 & P3).
  - intros i r. unfold postL. mem. reflexivity.
  - exact lcols_len.
  - intros i. apply motion_actInv_0.
  - intros i A x y Hi HA. now apply se3ActOn_spec.
  - intros i x f Hi. symmetry. apply act_dot_dual.
  - intros i A Hi. apply (calcAba_spec inv HI (jm_type (joint m i)) _ _ (armSel m i) A _ (jtype_notMimic i Hi)).
  - intros i Hi. rewrite (proj1 (H0 i Hi)). apply inertia_sym6.
  - intros V w V0 HV Hn. pose proof (PD_local V w V0 HV Hn) as PL.
    eapply Rlt_le_trans; [exact PL|]. apply Req_le. f_equal. apply sumN_ext. intros j Hj. destruct (Nat.ltb_spec 0 j); [|reflexivity]. now rewrite (proj1 (H0 j ltac:(lia))).
  - fold s1 in P1, P2, P3. set (s2 := upward m _ s1) in *. set (ddq := ve (gl s2) F_ddq) in *.
    assert (E00 : mo (rows s1 0) F_a_gf = v6opp (m_gravity m)) by (rewrite <- H00; apply K2; discriminate).
    assert (EA : forall i, i < m_njoints m -> mo (rows s2 i) F_a_gf = v6sub (bodyAcc m q v ddq i) (gravityAt m q i)).
    { refine (tree_ind m _ W _ _).
      - rewrite P1, E00, bodyAcc_0, gravityAt_0 by assumption. sring.
      - intros i Hi IH. rewrite (P2 i Hi), IH. destruct (H0 i Hi) as (_ & -> & _).
        rewrite (bodyAcc_step m W T Vm q v ddq i Hq Hi), (gravityAt_step m W T Vm q i Hq Hi). unfold jointAcc. fold (lcols i).
        generalize (jc (jointAt m q v i)) (motion_cross (bodyVel m q v i) (jointTwist m q v i)) (Smul (lcols i) (shift (idx_v m i) ddq)).
        generalize (bodyAcc m q v ddq (parent m i)) (gravityAt m q (parent m i)). intros A G c x s.
        replace (motion_actInv (relPl m q i) (v6sub A G)) with (v6sub (motion_actInv (relPl m q i) A) (motion_actInv (relPl m q i) G)) by sring.
        generalize (motion_actInv (relPl m q i) A) (motion_actInv (relPl m q i) G). clear. sring. }
    split; [exact EA|]. intros z. rewrite <- (P3 (fun i => bodyVel m q z i) z).
    + f_equal. unfold power, bodies. apply sumN_ext. intros k Hk. destruct (H0 (S k) ltac:(lia)) as (-> & _ & ->). rewrite (EA (S k)) by lia.
      now rewrite inertia_mul_spec.
    + apply (bodyVel_0 m W T).
    + intros i Hi. apply (bodyVel_step m W T Vm q z i Hq Hi).
Qed.

Lemma abaL_forward d0 fx F : mo (rows d0 0) F_v = v6zero ->
  (forall i r rp, let x := abaLRow1 m q v i r rp in jd (F i r rp) = jd x /\ pl (F i r rp) = pl x /\ m6 (F i r rp) = m6 x /\
     (forall t, t <> F_f -> mo (F i r rp) t = mo x t) /\ mo (F i r rp) F_f = v6sub (mo x F_f) (fx i)) ->
  let d1 := upward m (rowStep m F) d0 in
  gl d1 = gl d0 /\ rows d1 0 = rows d0 0 /\ readyL d1 /\
  (forall i, 0 < i < m_njoints m -> m6 (rows d1 i) F_Yaba = inertia_matrix (inertiaOf m i) /\
     mo (rows d1 i) F_a_gf = v6add (jc (jointAt m q v i)) (motion_cross (bodyVel m q v i) (jointTwist m q v i)) /\
     mo (rows d1 i) F_f = v6sub (force_cross (bodyVel m q v i) (inertia_mul (inertiaOf m i) (bodyVel m q v i))) (fx i)).
Proof.
  intros Hv HF. cbv zeta. destruct (upward_rows m F d0 W) as (E0 & E1 & E2). set (d1 := upward m (rowStep m F) d0) in *.
  split; [exact E0|]. split; [exact E1|].
  assert (EV : forall i, i < m_njoints m -> mo (rows d1 i) F_v = bodyVel m q v i).
  { refine (tree_ind m _ W _ _); [now rewrite E1, Hv, (bodyVel_0 m W T)|]. intros i Hi IH. rewrite (E2 i Hi).
    destruct (HF i (rows d0 i) (rows d1 (parent m i))) as (_ & _ & _ & F4 & _). rewrite (F4 F_v) by discriminate.
    destruct (velRow_eq m W T Vm q v i (rows d0 i) (rows d1 (parent m i)) Hi) as (_ & _ & V3 & _). unfold abaLRow1. mem. now apply V3. }
  assert (G : forall i, 0 < i < m_njoints m -> (jS (jd (rows d1 i)) = lcols i /\ pl (rows d1 i) F_liMi = relPl m q i) /\ m6 (rows d1 i) F_Yaba = inertia_matrix (inertiaOf m i) /\
     mo (rows d1 i) F_a_gf = v6add (jc (jointAt m q v i)) (motion_cross (bodyVel m q v i) (jointTwist m q v i)) /\
     mo (rows d1 i) F_f = v6sub (force_cross (bodyVel m q v i) (inertia_mul (inertiaOf m i) (bodyVel m q v i))) (fx i)).
  { intros i Hi. pose proof (wf_parent _ W i Hi) as Hp. rewrite (E2 i Hi).
    destruct (HF i (rows d0 i) (rows d1 (parent m i))) as (F1 & F2 & F3 & F4 & F5). rewrite F1, F2, F3, F5, (F4 F_a_gf) by discriminate.
    destruct (velRow_eq m W T Vm q v i (rows d0 i) (rows d1 (parent m i)) Hi) as (V1 & V2 & V3 & _).
    unfold abaLRow1. mem. rewrite V1, V2, (V3 (EV (parent m i) ltac:(lia)) Hq), (jv_twist m Vm q v i Hi). unfold lcols. rewrite (jointAt_S m q v noVel i). auto. }
  split; intros i Hi; apply (G i Hi).
Qed.

Theorem abaLocal_power d tau z : let ddq := abaLocal inv m d q v tau in
  (power m q (bodyForce m q v ddq) z + armaturePower m ddq z = dotv (m_nv m) tau z)%R.
Proof.
  cbv zeta. unfold abaLocal, abaLocalData. rewrite downward_gl by reflexivity.
  set (d0 := setGl _ _).
  destruct (abaL_forward d0 (fun _ => v6zero) (abaLRow1 m q v)) as (G0 & G1 & G2 & G3).
  { reflexivity. }
  { intros i r rp. cbv zeta. rewrite v6sub_0_r. auto. }
  destruct (abaL_solve (upward m (rowStep m (abaLRow1 m q v)) d0) (fun i => v6sub (force_cross (bodyVel m q v i) (inertia_mul (inertiaOf m i) (bodyVel m q v i))) v6zero) G2 G3) as [_ E].
  { rewrite G1. reflexivity. }
  rewrite G0 in E. change (ve (gl d0) F_u) with tau in E. rewrite <- (E z). f_equal. apply power_ext. intros i Hi. unfold bodyForce. now rewrite v6sub_0_r.
Qed.
Theorem abaLocalExt_power d tau fx z : let ddq := abaLocalExt inv m d q v tau fx in
  (power m q (fun i => v6sub (bodyForce m q v ddq i) (fx i)) z + armaturePower m ddq z = dotv (m_nv m) tau z)%R.
Proof.
  cbv zeta. unfold abaLocalExt, abaLocalDataExt. rewrite downward_gl by reflexivity.
  set (d0 := setGl _ _). set (F := fun i r rp => let r := abaLRow1 m q v i r rp in setMo r F_f (v6sub (mo r F_f) (fx i))).
  destruct (abaL_forward d0 fx F) as (G0 & G1 & G2 & G3).
  { reflexivity. }
  { intros i r rp. cbv zeta. unfold F. set (x := abaLRow1 m q v i r rp). cbn [jd pl m6 mo setMo].
    split; [reflexivity|]. split; [reflexivity|]. split; [reflexivity|]. split; [|reflexivity]. intros t Ht. unfold put. now rewrite MoT_beq_neq by congruence. }
  destruct (abaL_solve (upward m (rowStep m F) d0) (fun i => v6sub (force_cross (bodyVel m q v i) (inertia_mul (inertiaOf m i) (bodyVel m q v i))) (fx i)) G2 G3) as [_ E].
  { rewrite G1. reflexivity. }
  rewrite G0 in E. change (ve (gl d0) F_u) with tau in E. rewrite <- (E z). f_equal. apply power_ext. intros i Hi. unfold bodyForce.
  generalize (fx i). intros f. generalize (force_cross (bodyVel m q v i) (inertia_mul (inertiaOf m i) (bodyVel m q v i))). intros c.
  match goal with |- v6sub (v6add ?a _) _ = _ => generalize a end. intros a. sring.
Qed.

(* ---- world convention ---- *)
Definition wcols i := map (motion_act (worldPl m q i)) (lcols i).
Lemma wcols_len i : 0 < i < m_njoints m -> length (wcols i) = nvOf m i.
Proof. intros Hi. unfold wcols. rewrite map_length. now apply lcols_len. Qed.
Definition calcW i A := let U := map (m6vec A) (wcols i) in let Dinv := inv (length U) (StU (wcols i) U (armSel m i)) in (U, Dinv, colsMul U Dinv).
Definition postW (i : nat) (r : Row) : Row :=
  let r := setMo r F_oa (v6add (mo r F_oa_gf) (m_gravity m)) in
  setMo r F_of (v6add (inertia_mul (yi r F_oinertias) (mo r F_oa_gf)) (force_cross (mo r F_ov) (mo r F_oh))).
Definition readyW (s0 : Data) : Prop := forall j, 0 < j < m_njoints m -> jointCols m j (co (gl s0) F_J) = wcols j.
Lemma abaWBack_gen s0 s i : readyW s0 -> 0 < i < m_njoints m -> kept F_of s0 s ->
  abaWBack inv m s i = genBack m F_oYaba F_of F_oa_gf wcols (fun i A => A) (fun i f => f) calcW s i /\
  kept F_of s0 (genBack m F_oYaba F_of F_oa_gf wcols (fun i A => A) (fun i f => f) calcW s i).
Proof.
  intros R0 Hi K. split; [|now apply genBack_kept]. destruct K as [K0 _]. unfold abaWBack, genBack. rewrite K0, (R0 i Hi). reflexivity.
Qed.
Lemma abaWRow2_gen s0 s i : readyW s0 -> 0 < i < m_njoints m -> same s0 s ->
  abaWRow2 m s i = genFwd m F_oa_gf wcols (fun i x => x) postW s i /\ same s0 (genFwd m F_oa_gf wcols (fun i x => x) postW s i).
Proof.
  intros R0 Hi K. split.
  - destruct K as [K0 _]. unfold abaWRow2, genFwd, postW. rewrite K0, (R0 i Hi). reflexivity.
  - destruct K as [K0 K]. split; [unfold genFwd; mem; exact K0|]. intros j. destruct (K j) as [K1 K2]. destruct (Nat.eq_dec i j) as [->|Hn].
    + unfold genFwd. cbn [rows setRow setGl]. rewrite putn_same. unfold postW. mem. now split.
    + unfold genFwd. cbn [rows setRow setGl]. rewrite putn_other by exact Hn. auto.
Qed.
Lemma Smul_wcols i x : Smul (wcols i) x = motion_act (worldPl m q i) (Smul (lcols i) x).
Proof. unfold wcols. apply Smul_map_act. Qed.
Lemma worldStep i x : 0 < i < m_njoints m -> motion_act (worldPl m q i) (motion_actInv (relPl m q i) x) = motion_act (worldPl m q (parent m i)) x.
Proof.
  intros Hi. pose proof (wf_parent _ W i Hi) as Hp. rewrite (worldPl_step m W T q i Hi).
  rewrite motion_act_mul by (apply (worldPl_rot m W T Vm); [exact Hq | lia]). now rewrite motion_act_actInv by (apply (relPl_rot m Vm q i Hq Hi)).
Qed.
Lemma worldDot i x f : i < m_njoints m -> v6dot (motion_act (worldPl m q i) x) (force_act (worldPl m q i) f) = v6dot x f.
Proof. intros Hi. rewrite <- act_dot_dual, motion_actInv_act; [reflexivity | apply (worldPl_rot m W T Vm q i Hq Hi)]. Qed.

Lemma PD_world V w : V 0 = v6zero -> (forall i, 0 < i < m_njoints m -> V i = v6add (Smul (wcols i) (w i)) (V (parent m i))) ->
  (exists i k, 0 < i < m_njoints m /\ k < nvOf m i /\ w i k <> 0%R) ->
  (0 < sumN (m_njoints m) (fun i => if 0 <? i then v6dot (V i) (m6vec (inertia_matrix (worldInertia m q i)) (V i)) else 0) +
       sumN (m_njoints m) (fun i => if 0 <? i then sumN (nvOf m i) (fun k => armSel m i k * w i k * w i k) else 0))%R.
Proof.
  intros V0 HV Hn. pose (V' := fun i => motion_actInv (worldPl m q i) (V i)).
  assert (EV : forall i, i < m_njoints m -> V i = motion_act (worldPl m q i) (V' i)).
  { intros i Hi. unfold V'. rewrite motion_act_actInv; [reflexivity | apply (worldPl_rot m W T Vm q i Hq Hi)]. }
  assert (P : (0 < sumN (m_njoints m) (fun i => if 0 <? i then v6dot (V' i) (m6vec (inertia_matrix (inertiaOf m i)) (V' i)) else 0) +
       sumN (m_njoints m) (fun i => if 0 <? i then sumN (nvOf m i) (fun k => armSel m i k * w i k * w i k) else 0))%R).
  { apply PD_local; [unfold V'; now rewrite V0, motion_actInv_0 | | exact Hn]. intros i Hi. pose proof (wf_parent _ W i Hi) as Hp.
    unfold V' at 1. rewrite (HV i Hi), Smul_wcols, (EV (parent m i)) by lia. rewrite <- (worldStep i _ Hi), <- motion_act_add, motion_actInv_act; [reflexivity|].
    apply (worldPl_rot m W T Vm q i Hq); lia. }
  eapply Rlt_le_trans; [exact P|]. apply Req_le. f_equal. apply sumN_ext. intros i Hi. destruct (Nat.ltb_spec 0 i); [|reflexivity].
  rewrite (EV i Hi). rewrite <- !inertia_mul_spec. unfold worldInertia. rewrite inertia_act_mul by (apply (worldPl_rot m W T Vm q i Hq Hi)).
  now rewrite worldDot.
Qed.

Lemma abaW_solve s0 b : readyW s0 ->
  (forall i, 0 < i < m_njoints m -> m6 (rows s0 i) F_oYaba = inertia_matrix (worldInertia m q i) /\
     mo (rows s0 i) F_oa_gf = v6add (motion_act (worldPl m q i) (jc (jointAt m q v i))) (motion_cross (worldVel m q v (parent m i)) (worldVel m q v i)) /\
     mo (rows s0 i) F_of = force_act (worldPl m q i) (b i)) ->
  mo (rows s0 0) F_oa_gf = v6opp (m_gravity m) ->
  let s2 := upward m (abaWRow2 m) (downward m (abaWBack inv m) s0) in
  let ddq := ve (gl s2) F_ddq in
  (forall i, i < m_njoints m -> mo (rows s2 i) F_oa_gf = motion_act (worldPl m q i) (v6sub (bodyAcc m q v ddq i) (gravityAt m q i))) /\
  forall z, (power m q (fun i => v6add (inertia_mul (inertiaOf m i) (v6sub (bodyAcc m q v ddq i) (gravityAt m q i))) (b i)) z + armaturePower m ddq z =
    dotv (m_nv m) (ve (gl s0) F_u) z)%R.
Proof.
  intros RL H0 H00. cbv zeta.
  destruct (downward_congr m (abaWBack inv m) _ (kept F_of s0) (fun s i Hi K => abaWBack_gen s0 s i RL Hi K) s0) as [-> [K1 K2]].
  { split; [reflexivity | intros j; auto]. }
  set (s1 := downward m _ s0) in *.
  destruct (upward_congr m (abaWRow2 m) _ (same s0) (fun s i Hi K => abaWRow2_gen s0 s i RL Hi K) s1) as [-> _].
  { split; [exact K1|]. intros j. destruct (K2 j) as (A & B & _). auto. }
  destruct (aba_passes m W NM F_oYaba F_of F_oa_gf ltac:(discriminate) wcols (fun i A => A) (fun i f => f) (fun i x => x) calcW postW) with (s0 := s0) as (P1 & P2 & P3).
  - intros i r. unfold postW. mem. reflexivity.
  - exact wcols_len.
  - reflexivity.
  - reflexivity.
  - reflexivity.
  - intros i A Hi. cbv zeta. unfold calcW. cbn [fst snd]. split; [reflexivity|]. split; [reflexivity|]. intros S1 S2. rewrite map_length. now apply HI.
  - intros i Hi. rewrite (proj1 (H0 i Hi)). apply inertia_sym6.
  - intros V w V0 HV Hn. pose proof (PD_world V w V0 HV Hn) as PL.
    eapply Rlt_le_trans; [exact PL|]. apply Req_le. f_equal. apply sumN_ext. intros j Hj. destruct (Nat.ltb_spec 0 j); [|reflexivity]. now rewrite (proj1 (H0 j ltac:(lia))).
  - fold s1 in P1, P2, P3. set (s2 := upward m _ s1) in *. set (ddq := ve (gl s2) F_ddq) in *.
    assert (E00 : mo (rows s1 0) F_oa_gf = v6opp (m_gravity m)) by (rewrite <- H00; apply K2; discriminate).
    assert (EA : forall i, i < m_njoints m -> mo (rows s2 i) F_oa_gf = motion_act (worldPl m q i) (v6sub (bodyAcc m q v ddq i) (gravityAt m q i))).
    { refine (tree_ind m _ W _ _).
      - rewrite P1, E00, bodyAcc_0, gravityAt_0, (worldPl_0 m W T), motion_act_1 by assumption. sring.
      - intros i Hi IH. rewrite (P2 i Hi), IH. destruct (H0 i Hi) as (_ & -> & _). rewrite Smul_wcols.
        rewrite (bodyAcc_step m W T Vm q v ddq i Hq Hi), (gravityAt_step m W T Vm q i Hq Hi). unfold jointAcc. fold (lcols i).
        pose proof (worldPl_rot m W T Vm q i Hq ltac:(lia)) as HR.
        rewrite !motion_act_sub, !motion_act_add, !(worldStep i _ Hi), motion_act_cross by exact HR. fold (worldVel m q v i).
        assert (EC : motion_cross (worldVel m q v (parent m i)) (worldVel m q v i) = motion_cross (worldVel m q v i) (motion_act (worldPl m q i) (jointTwist m q v i))).
        { rewrite (worldVel_step m W T Vm q v i Hq Hi). generalize (worldVel m q v (parent m i)) (motion_act (worldPl m q i) (jointTwist m q v i)). clear. sring. }
        rewrite EC. generalize (motion_cross (worldVel m q v i) (motion_act (worldPl m q i) (jointTwist m q v i))).
        generalize (motion_act (worldPl m q i) (Smul (lcols i) (shift (idx_v m i) ddq))) (motion_act (worldPl m q i) (jc (jointAt m q v i))).
        generalize (motion_act (worldPl m q (parent m i)) (bodyAcc m q v ddq (parent m i))) (motion_act (worldPl m q (parent m i)) (gravityAt m q (parent m i))). clear. sring. }
    split; [exact EA|]. intros z. rewrite <- (P3 (fun i => worldVel m q z i) z).
    + f_equal. unfold power, bodies. apply sumN_ext. intros k Hk. destruct (H0 (S k) ltac:(lia)) as (-> & _ & ->). rewrite (EA (S k)) by lia.
      rewrite <- inertia_mul_spec. unfold worldInertia. rewrite inertia_act_mul by (apply (worldPl_rot m W T Vm q (S k) Hq); lia).
      rewrite <- force_act_add. unfold worldVel. now rewrite worldDot by lia.
    + apply (worldVel_0 m W T).
    + intros i Hi. rewrite (worldVel_step m W T Vm q z i Hq Hi), Smul_wcols. apply v6add_comm.
Qed.

Lemma abaWKin_eff i r rp : 0 < i < m_njoints m -> jd (abaWKin m q v i r rp) = jointAt m q v i /\
  pl (abaWKin m q v i r rp) F_oMi = if 0 <? parent m i then se3_mul (pl rp F_oMi) (relPl m q i) else relPl m q i.
Proof.
  intros Hi. unfold abaWKin, relPl. rewrite (calcJoint_at m W i q v Hi), (jointAt_M m q noVel v i). mem. auto.
Qed.
Lemma abaWVel_eff i r rp : let x := abaWVel m i r rp in jd x = jd r /\ pl x = pl r /\
  mo x F_ov = if 0 <? parent m i then v6add (motion_act (pl r F_oMi) (jv (jd r))) (mo rp F_ov) else motion_act (pl r F_oMi) (jv (jd r)).
Proof. unfold abaWVel. destruct (0 <? parent m i); mem; auto. Qed.
Lemma abaWAcc_eff i r rp : let x := abaWAcc m i r rp in jd x = jd r /\ pl x = pl r /\ mo x F_ov = mo r F_ov /\
  mo x F_oa_gf = if 0 <? parent m i then v6add (motion_act (pl r F_oMi) (jc (jd r))) (motion_cross (mo rp F_ov) (mo r F_ov)) else motion_act (pl r F_oMi) (jc (jd r)).
Proof. unfold abaWAcc. destruct (0 <? parent m i); mem; auto. Qed.
Lemma abaWDyn_eff i r : let x := abaWDyn m i r in jd x = jd r /\ pl x = pl r /\ mo x F_ov = mo r F_ov /\ mo x F_oa_gf = mo r F_oa_gf /\
  m6 x F_oYaba = inertia_matrix (inertia_act (pl r F_oMi) (inertiaOf m i)) /\
  mo x F_of = force_cross (mo r F_ov) (inertia_mul (inertia_act (pl r F_oMi) (inertiaOf m i)) (mo r F_ov)).
Proof. unfold abaWDyn. mem. auto 10. Qed.
Lemma abaWRow1_eff i r rp : 0 < i < m_njoints m -> let x := abaWRow1 m q v i r rp in
  jd x = jointAt m q v i /\
  pl x F_oMi = (if 0 <? parent m i then se3_mul (pl rp F_oMi) (relPl m q i) else relPl m q i) /\
  mo x F_ov = (if 0 <? parent m i then v6add (motion_act (pl x F_oMi) (jv (jd x))) (mo rp F_ov) else motion_act (pl x F_oMi) (jv (jd x))) /\
  mo x F_oa_gf = (if 0 <? parent m i then v6add (motion_act (pl x F_oMi) (jc (jd x))) (motion_cross (mo rp F_ov) (mo x F_ov)) else motion_act (pl x F_oMi) (jc (jd x))) /\
  m6 x F_oYaba = inertia_matrix (inertia_act (pl x F_oMi) (inertiaOf m i)) /\
  mo x F_of = force_cross (mo x F_ov) (inertia_mul (inertia_act (pl x F_oMi) (inertiaOf m i)) (mo x F_ov)).
Proof.
  intros Hi. cbv zeta. unfold abaWRow1.
  destruct (abaWKin_eff i r rp Hi) as (A1 & A2). set (r1 := abaWKin m q v i r rp) in *. clearbody r1.
  destruct (abaWVel_eff i r1 rp) as (B1 & B2 & B3). set (r2 := abaWVel m i r1 rp) in *. clearbody r2.
  destruct (abaWAcc_eff i r2 rp) as (C1 & C2 & C3 & C4). set (r3 := abaWAcc m i r2 rp) in *. clearbody r3.
  destruct (abaWDyn_eff i r3) as (D1 & D2 & D3 & D4 & D5 & D6). set (r4 := abaWDyn m i r3) in *. clearbody r4.
  rewrite D6, D5, D4, D3, D2, D1, C4, C3, C2, C1, B3, B2, B1, A1, A2. auto 10.
Qed.

Lemma abaW_forward d0 fx F : 
  (forall i r rp, let x := abaWRow1 m q v i r rp in jd (F i r rp) = jd x /\ pl (F i r rp) = pl x /\ m6 (F i r rp) = m6 x /\
     (forall t, t <> F_of -> mo (F i r rp) t = mo x t) /\ mo (F i r rp) F_of = v6sub (mo x F_of) (force_act (pl x F_oMi) (fx i))) ->
  let d1 := upward m (rowStepG m F (crbaWCols m)) d0 in
  ve (gl d1) = ve (gl d0) /\ rows d1 0 = rows d0 0 /\ readyW d1 /\
  (forall i, 0 < i < m_njoints m -> m6 (rows d1 i) F_oYaba = inertia_matrix (worldInertia m q i) /\
     mo (rows d1 i) F_oa_gf = v6add (motion_act (worldPl m q i) (jc (jointAt m q v i))) (motion_cross (worldVel m q v (parent m i)) (worldVel m q v i)) /\
     mo (rows d1 i) F_of = force_act (worldPl m q i) (v6sub (force_cross (bodyVel m q v i) (inertia_mul (inertiaOf m i) (bodyVel m q v i))) (fx i))).
Proof.
  intros HF. cbv zeta. destruct (upward_rowsG m F (crbaWCols m) d0 W) as (E1 & E2 & E0). set (d1 := upward m (rowStepG m F _) d0) in *.
  assert (EP : forall i, i < m_njoints m -> 0 < i -> pl (rows d1 i) F_oMi = worldPl m q i).
  { refine (tree_ind m _ W _ _); [lia|]. intros i Hi IH _. rewrite (E2 i Hi).
    destruct (HF i (rows d0 i) (rows d1 (parent m i))) as (_ & -> & _). destruct (abaWRow1_eff i (rows d0 i) (rows d1 (parent m i)) Hi) as (_ & -> & _).
    rewrite (worldPl_step m W T q i Hi). destruct (Nat.ltb_spec 0 (parent m i)); [now rewrite IH|].
    replace (parent m i) with 0 by lia. rewrite (worldPl_0 m W T). symmetry. apply se3_mul_1_l. }
  assert (EV : forall i, i < m_njoints m -> 0 < i -> mo (rows d1 i) F_ov = worldVel m q v i).
  { refine (tree_ind m _ W _ _); [lia|]. intros i Hi IH _. pose proof (EP i ltac:(lia) ltac:(lia)) as Ei. rewrite (E2 i Hi) in Ei |- *.
    destruct (HF i (rows d0 i) (rows d1 (parent m i))) as (_ & F2 & _ & F4 & _). rewrite F2 in Ei. rewrite (F4 F_ov) by discriminate.
    destruct (abaWRow1_eff i (rows d0 i) (rows d1 (parent m i)) Hi) as (X1 & _ & X3 & _). set (x := abaWRow1 m q v i _ _) in *. clearbody x.
    rewrite X3, (worldVel_step m W T Vm q v i Hq Hi), Ei, X1, (jv_twist m Vm q v i Hi).
    destruct (Nat.ltb_spec 0 (parent m i)).
    - rewrite <- IH by lia. apply v6add_comm.
    - replace (parent m i) with 0 by lia. rewrite (worldVel_0 m W T). now rewrite v6add_comm, v6add_0_r. }
  assert (G : forall i, 0 < i < m_njoints m -> jS (jd (rows d1 i)) = lcols i /\ m6 (rows d1 i) F_oYaba = inertia_matrix (worldInertia m q i) /\
     mo (rows d1 i) F_oa_gf = v6add (motion_act (worldPl m q i) (jc (jointAt m q v i))) (motion_cross (worldVel m q v (parent m i)) (worldVel m q v i)) /\
     mo (rows d1 i) F_of = force_act (worldPl m q i) (v6sub (force_cross (bodyVel m q v i) (inertia_mul (inertiaOf m i) (bodyVel m q v i))) (fx i))).
  { intros i Hi. pose proof (wf_parent _ W i Hi) as Hp. pose proof (EP i ltac:(lia) ltac:(lia)) as Ei. pose proof (EV i ltac:(lia) ltac:(lia)) as Evi.
    rewrite (E2 i Hi) in Ei, Evi |- *.
    destruct (HF i (rows d0 i) (rows d1 (parent m i))) as (F1 & F2 & F3 & F4 & F5). rewrite F2 in Ei. rewrite (F4 F_ov) in Evi by discriminate.
    rewrite F1, F3, F5, (F4 F_oa_gf) by discriminate.
    destruct (abaWRow1_eff i (rows d0 i) (rows d1 (parent m i)) Hi) as (X1 & _ & X3 & X4 & X5 & X6). set (x := abaWRow1 m q v i _ _) in *. clearbody x.
    rewrite X4, X5, X6, Ei, Evi, X1. split; [unfold lcols; now rewrite (jointAt_S m q v noVel i)|]. split; [reflexivity|]. split.
    - destruct (Nat.ltb_spec 0 (parent m i)); [rewrite EV by lia; reflexivity|]. replace (parent m i) with 0 by lia. rewrite (worldVel_0 m W T).
      generalize (motion_act (worldPl m q i) (jc (jointAt m q v i))) (worldVel m q v i). clear. sring.
    - pose proof (worldPl_rot m W T Vm q i Hq ltac:(lia)) as HR. unfold worldVel. rewrite inertia_act_mul by exact HR. rewrite <- force_act_cross by exact HR. now rewrite force_act_sub. }
  assert (GL : ve (gl d1) = ve (gl d0) /\ forall i, 0 < i < m_njoints m -> forall a, a < nvOf m i -> co (gl d1) F_J (idx_v m i + a) = worldCol m q i a).
  { rewrite E0.
    pose (Inv := fun k (g : Glob) => ve g = ve (gl d0) /\ forall i, 0 < i < k -> i < m_njoints m -> forall a, a < nvOf m i -> co g F_J (idx_v m i + a) = worldCol m q i a).
    assert (HIn : Inv (m_njoints m) (upward m (fun g i => crbaWCols m i (rows d1 i) g) (gl d0))).
    { apply upward_inv.
      - apply (wf_n _ W).
      - split; [reflexivity|]. intros; lia.
      - intros i g Hi [I1 I2]. split; [unfold crbaWCols; mem; exact I1|]. intros j Hj Hj' a Ha. unfold crbaWCols. mem. unfold setCols.
        destruct (jm_v m W Vm NM i Hi) as (_ & -> & _ & ->). rewrite (within_own m W NM i j a Hi ltac:(lia) Ha).
        destruct (Nat.eqb_spec i j) as [<-|Hn]; [|apply I2; try lia; exact Ha].
        replace (idx_v m i + a - idx_v m i) with a by lia. unfold worldCol, colOf. rewrite (EP i), (proj1 (G i Hi)) by lia. reflexivity. }
    destruct HIn as [I1 I2]. split; [exact I1|]. intros i Hi. apply I2; lia. }
  destruct GL as [GL1 GL2]. split; [exact GL1|]. split; [exact E1|]. split; [|intros i Hi; apply (G i Hi)].
  intros i Hi. unfold jointCols. rewrite (idx_vE_v m W Vm NM i Hi), (nvE_nv m W Vm i (NM i Hi) Hi).
  apply (nth_ext _ _ v6zero v6zero); [rewrite map_length, seq_length; symmetry; now apply wcols_len|]. intros k Hk. rewrite map_length, seq_length in Hk.
  rewrite (nth_indep _ _ (co (gl d1) F_J (idx_v m i + 0))) by now rewrite map_length, seq_length.
  rewrite (map_nth (fun k => co (gl d1) F_J (idx_v m i + k))), seq_nth by exact Hk. rewrite Nat.add_0_l, (GL2 i Hi k Hk). unfold worldCol, wcols.
  assert (Lk : k < length (lcols i)) by (rewrite lcols_len by exact Hi; exact Hk). fold (lcols i).
  rewrite (nth_indep (map (motion_act (worldPl m q i)) (lcols i)) v6zero (motion_act (worldPl m q i) v6zero)) by now rewrite map_length. symmetry. apply (map_nth (motion_act (worldPl m q i))).
Qed.

Theorem abaWorld_power d tau z : let ddq := abaWorld inv m d q v tau in
  (power m q (bodyForce m q v ddq) z + armaturePower m ddq z = dotv (m_nv m) tau z)%R.
Proof.
  cbv zeta. unfold abaWorld, abaWorldData. rewrite downward_gl by reflexivity.
  set (d0 := setGl _ _).
  destruct (abaW_forward d0 (fun _ => v6zero) (abaWRow1 m q v)) as (G0 & G1 & G2 & G3).
  { intros i r rp. cbv zeta. rewrite force_act_0, v6sub_0_r. auto. }
  destruct (abaW_solve (upward m (rowStepG m (abaWRow1 m q v) (crbaWCols m)) d0) (fun i => v6sub (force_cross (bodyVel m q v i) (inertia_mul (inertiaOf m i) (bodyVel m q v i))) v6zero) G2 G3) as [_ E].
  { rewrite G1. reflexivity. }
  rewrite G0 in E. change (ve (gl d0) F_u) with tau in E. rewrite <- (E z). f_equal. apply power_ext. intros i Hi. unfold bodyForce. now rewrite v6sub_0_r.
Qed.
Theorem abaWorldExt_power d tau fx z : let ddq := abaWorldExt inv m d q v tau fx in
  (power m q (fun i => v6sub (bodyForce m q v ddq i) (fx i)) z + armaturePower m ddq z = dotv (m_nv m) tau z)%R.
Proof.
  cbv zeta. unfold abaWorldExt, abaWorldDataExt.
  set (d0 := setGl _ _). set (F := fun i r rp => let r := abaWRow1 m q v i r rp in setMo r F_of (v6sub (mo r F_of) (force_act (pl r F_oMi) (fx i)))).
  destruct (abaW_forward d0 fx F) as (G0 & G1 & G2 & G3).
  { intros i r rp. cbv zeta. unfold F. set (x := abaWRow1 m q v i r rp). cbn [jd pl m6 mo setMo].
    split; [reflexivity|]. split; [reflexivity|]. split; [reflexivity|]. split; [|reflexivity]. intros t Ht. unfold put. now rewrite MoT_beq_neq by congruence. }
  destruct (abaW_solve (upward m (rowStepG m F (crbaWCols m)) d0) (fun i => v6sub (force_cross (bodyVel m q v i) (inertia_mul (inertiaOf m i) (bodyVel m q v i))) (fx i)) G2 G3) as [_ E].
  { rewrite G1. reflexivity. }
  rewrite G0 in E. change (ve (gl d0) F_u) with tau in E. rewrite <- (E z). f_equal. apply power_ext. intros i Hi. unfold bodyForce.
  generalize (fx i). intros f. generalize (force_cross (bodyVel m q v i) (inertia_mul (inertiaOf m i) (bodyVel m q v i))). intros c.
  match goal with |- v6sub (v6add ?a _) _ = _ => generalize a end. intros a. sring.
Qed.

(* ---- in terms of inverse dynamics ---- *)
Lemma dynamics_unique a b : (forall z, power m q (bodyForce m q v a) z + armaturePower m a z = power m q (bodyForce m q v b) z + armaturePower m b z)%R ->
  forall k, k < m_nv m -> a k = b k.
Proof.
  intros H k Hk. pose (w := fun k => (a k - b k)%R).
  assert (E : (dotv (m_nv m) w (fun k => dotv (m_nv m) (massMatrix m q k) w) = 0)%R).
  { rewrite (massMatrix_form m W T Vm). specialize (H w). rewrite (power_split m q v a w), (power_split m q v b w) in H.
    assert (K : (kineticForm m q w w = kineticForm m q w a - kineticForm m q w b)%R).
    { unfold kineticForm, bodies. rewrite <- sumN_sub. apply sumN_ext. intros j Hj. rewrite <- v6dot_sub_r, <- inertia_mul_sub.
      assert (EB : bodyVel m q w (S j) = v6sub (bodyVel m q a (S j)) (bodyVel m q b (S j))).
      { rewrite (bodyVel_ext m W T Vm q w (fun k => a k + (-1) * b k)%R (S j) ltac:(lia) ltac:(intros l Hl; unfold w; ring)).
        rewrite (bodyVel_add m q a (fun k => (-1) * b k)%R), (bodyVel_scale m). generalize (bodyVel m q a (S j)) (bodyVel m q b (S j)). clear. sring. }
      now rewrite EB at 2. }
    assert (A : (armaturePower m w w = armaturePower m a w - armaturePower m b w)%R).
    { unfold armaturePower. rewrite <- sumN_sub. apply sumN_ext. intros j Hj. unfold w. ring. }
    lra. }
  destruct (Req_dec (w k) 0) as [E0|E0]; [unfold w in E0; lra|].
  pose proof (PM w (ex_intro _ k (conj Hk E0))) as P. unfold dotv in E. lra.
Qed.
Theorem rnea_abaLocal d d' tau k : k < m_nv m -> rnea m d' q v (abaLocal inv m d q v tau) k = tau k.
Proof. revert k. apply dotv_inj. intros z. rewrite (rnea_power m W T Vm) by exact Hq. apply abaLocal_power. Qed.
Theorem rnea_abaWorld d d' tau k : k < m_nv m -> rnea m d' q v (abaWorld inv m d q v tau) k = tau k.
Proof. revert k. apply dotv_inj. intros z. rewrite (rnea_power m W T Vm) by exact Hq. apply abaWorld_power. Qed.
Theorem rnea_abaLocalExt d d' tau fx k : k < m_nv m -> rneaExt m d' q v (abaLocalExt inv m d q v tau fx) fx k = tau k.
Proof. revert k. apply dotv_inj. intros z. rewrite (rneaExt_power m W T Vm) by exact Hq. apply abaLocalExt_power. Qed.
Theorem rnea_abaWorldExt d d' tau fx k : k < m_nv m -> rneaExt m d' q v (abaWorldExt inv m d q v tau fx) fx k = tau k.
Proof. revert k. apply dotv_inj. intros z. rewrite (rneaExt_power m W T Vm) by exact Hq. apply abaWorldExt_power. Qed.
Theorem abaLocal_rnea d d' a k : k < m_nv m -> abaLocal inv m d q v (rnea m d' q v a) k = a k.
Proof. revert k. apply dynamics_unique. intros z. rewrite abaLocal_power. apply (rnea_power m W T Vm); exact Hq. Qed.
Theorem abaWorld_rnea d d' a k : k < m_nv m -> abaWorld inv m d q v (rnea m d' q v a) k = a k.
Proof. revert k. apply dynamics_unique. intros z. rewrite abaWorld_power. apply (rnea_power m W T Vm); exact Hq. Qed.
Lemma ext_unique a b fx : (forall z, power m q (fun i => v6sub (bodyForce m q v a i) (fx i)) z + armaturePower m a z = power m q (fun i => v6sub (bodyForce m q v b i) (fx i)) z + armaturePower m b z)%R ->
  forall k, k < m_nv m -> a k = b k.
Proof. intros H. apply dynamics_unique. intros z. specialize (H z). rewrite !power_sub in H. lra. Qed.
Theorem abaLocalExt_rnea d d' a fx k : k < m_nv m -> abaLocalExt inv m d q v (rneaExt m d' q v a fx) fx k = a k.
Proof. revert k. apply (ext_unique _ _ fx). intros z. rewrite abaLocalExt_power. apply (rneaExt_power m W T Vm); exact Hq. Qed.
Theorem abaWorldExt_rnea d d' a fx k : k < m_nv m -> abaWorldExt inv m d q v (rneaExt m d' q v a fx) fx k = a k.
Proof. revert k. apply (ext_unique _ _ fx). intros z. rewrite abaWorldExt_power. apply (rneaExt_power m W T Vm); exact Hq. Qed.
End Inst.
