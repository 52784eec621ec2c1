(* The Coriolis matrix as a bilinear form. *)
Require Import Reals List Arith ZArith Lia Lra Bool.
From Verif Require Import Vec3 Spatial Inertia InertiaFacts SpatialFacts Joints Spec_Joints Deriv JointFacts JointFacts2 Model Spec_Model ModelFacts ModelTree ModelFacts2 Sums Data Kinematics Spec_Kin Spec_Mass KinFacts KinFacts2 Spec_Dyn Rnea DynFacts DynFacts2 TreeSums MassFacts Crba CrbaFacts CrbaFacts2 AbaFacts AbaFacts3 Jacobian Spec_Jac JacFacts JacFacts2 JacFacts3 JacFacts5 CholFacts4 Com Dccrba DccrbaFacts DccrbaFacts2 DataX Coriolis DerSums CoriolisFacts.
Import ListNotations.
Local Open Scope nat_scope.
Local Open Scope bool_scope.

Lemma variation_half Y V x : m6vec (inertia_variation Y (v6scale (/ 2) V)) x = v6scale (/ 2) (m6vec (inertia_variation Y V) x).
Proof.
  rewrite !variation_vec. assert (E1 : force_cross (v6scale (/ 2) V) (inertia_mul Y x) = v6scale (/ 2) (force_cross V (inertia_mul Y x))) by (generalize (inertia_mul Y x); sring).
  assert (E2 : motion_cross (v6scale (/ 2) V) x = v6scale (/ 2) (motion_cross V x)) by sring.
  rewrite E1, E2, inertia_mul_scale. generalize (force_cross V (inertia_mul Y x)) (inertia_mul Y (motion_cross V x)). sring.
Qed.
Lemma variation_sym Y V x y : v6dot x (m6vec (inertia_variation Y V) y) = v6dot y (m6vec (inertia_variation Y V) x).
Proof.
  rewrite !variation_vec, !v6dot_sub_r, !cross_dot_swap, (inertia_mul_sym Y x (motion_cross V y)), (inertia_mul_sym Y y (motion_cross V x)).
  assert (E : forall a b f, v6dot (motion_cross a b) f = (- v6dot (motion_cross b a) f)%R) by (intros; ssimp; ring).
  rewrite (E x V), (E y V). ring.
Qed.

Section Form.
Variable eps : R.
Variable m : Model.
Hypothesis Bt : Built eps m.
Let W : wellFormed m := Built_wf eps m Bt.
Let T : treeInv m := Built_tree eps m Bt.
Hypothesis Vm : validModel m.
Hypothesis NM : noMimic m.
Hypothesis Pos : noRigidJoint m.
Hypothesis DF : depthFirst m.
Hypothesis RM : regularMasses eps m.

(* the matrix B of body b *)
Definition corB q v b : M6 := addForceCross (v6scale (/ 2) (inertia_mul (worldInertia m q b) (worldVel m q v b))) (inertia_variation (worldInertia m q b) (v6scale (/ 2) (worldVel m q v b))).
Definition dCol q v j c : V6 := motion_cross (worldVel m q v j) (worldCol m q j c).
Definition cEntry q v i a j c : R := common m i j (fun b => v6dot (worldCol m q i a) (v6add (inertia_mul (worldInertia m q b) (dCol q v j c)) (m6vec (corB q v b) (worldCol m q j c)))).

Lemma world_chain q v (f : nat -> SE3 * V6) : validState m q ->
  (forall i, 0 < i < m_njoints m -> fst (f i) = (if 0 <? parent m i then se3_mul (fst (f (parent m i))) (relPl m q i) else relPl m q i) /\
     snd (f i) = (if 0 <? parent m i then v6add (jointTwist m q v i) (motion_actInv (relPl m q i) (snd (f (parent m i)))) else jointTwist m q v i)) ->
  forall i, 0 < i < m_njoints m -> fst (f i) = worldPl m q i /\ snd (f i) = bodyVel m q v i.
Proof.
  intros Hq H. assert (G : forall i, i < m_njoints m -> 0 < i -> fst (f i) = worldPl m q i /\ snd (f i) = bodyVel m q v i).
  { refine (tree_ind m _ W _ _); [lia|]. intros i Hi IH _. destruct (H i Hi) as [-> ->]. rewrite (worldPl_step m W T q i Hi), (bodyVel_step m W T Vm q v i Hq Hi).
    destruct (Nat.ltb_spec 0 (parent m i)); [now destruct IH as [-> ->]|]. replace (parent m i) with 0 by lia.
    rewrite (worldPl_0 m W T), (bodyVel_0 m W T). split; [symmetry; apply se3_mul_1_l | rewrite motion_actInv_0; symmetry; apply v6add_0_r]. }
  intros i Hi. apply G; lia.
Qed.

Lemma cor_forward q v d : validState m q -> let d' := upward m (rowStepG m (corRow m q v) (corCols m)) d in
  ma (gl d') = ma (gl d) /\ forall i, 0 < i < m_njoints m ->
  yi (rows d' i) F_oYcrb = worldInertia m q i /\ m6 (rows d' i) F_oB = corB q v i /\
  (forall a, a < nvOf m i -> co (gl d') F_J (idx_v m i + a) = worldCol m q i a /\ co (gl d') F_dJ (idx_v m i + a) = dCol q v i a).
Proof.
  intros Hq. cbv zeta. destruct (upward_rowsG m (corRow m q v) (corCols m) d W) as (_ & H1 & H2). set (d' := upward m _ d) in *.
  assert (P : forall i, 0 < i < m_njoints m -> pl (rows d' i) F_oMi = worldPl m q i /\ mo (rows d' i) F_v = bodyVel m q v i).
  { apply (world_chain q v (fun i => (pl (rows d' i) F_oMi, mo (rows d' i) F_v)) Hq). intros i Hi. cbn [fst snd]. rewrite (H1 i Hi). unfold corRow. rewrite (calcJoint_at m W i q v Hi).
    assert (EL : se3_mul (placementOf m i) (jM (jointAt m q v i)) = relPl m q i) by (unfold relPl; now rewrite (jointAt_M m q v noVel)).
    pose proof (jv_twist m Vm q v i Hi) as EJ. destruct (0 <? parent m i); mem; rewrite EL, EJ; auto. }
  assert (R : forall i, 0 < i < m_njoints m -> jS (jd (rows d' i)) = jS (jointAt m q noVel i) /\ mo (rows d' i) F_ov = worldVel m q v i /\ yi (rows d' i) F_oYcrb = worldInertia m q i /\ m6 (rows d' i) F_oB = corB q v i).
  { intros i Hi. destruct (P i Hi) as [P1 P2].
    assert (E1 : jS (jd (rows d' i)) = jS (jointAt m q noVel i)) by (rewrite (H1 i Hi); unfold corRow; rewrite (calcJoint_at m W i q v Hi); destruct (0 <? parent m i); mem; apply (jointAt_S m)).
    assert (E2 : mo (rows d' i) F_ov = motion_act (pl (rows d' i) F_oMi) (mo (rows d' i) F_v)) by (rewrite (H1 i Hi); unfold corRow; destruct (0 <? parent m i); mem; reflexivity).
    assert (E3 : yi (rows d' i) F_oYcrb = inertia_act (pl (rows d' i) F_oMi) (inertiaOf m i)) by (rewrite (H1 i Hi); unfold corRow; destruct (0 <? parent m i); mem; reflexivity).
    assert (E4 : m6 (rows d' i) F_oB = addForceCross (v6scale (/ 2) (inertia_mul (yi (rows d' i) F_oYcrb) (mo (rows d' i) F_ov))) (inertia_variation (yi (rows d' i) F_oYcrb) (v6scale (/ 2) (mo (rows d' i) F_ov))))
      by (rewrite (H1 i Hi); unfold corRow; destruct (0 <? parent m i); mem; reflexivity).
    rewrite P1, P2 in E2. rewrite P1 in E3. rewrite E2, E3 in E4. auto. }
  assert (G : ma (gl d') = ma (gl d) /\ forall i, 0 < i < m_njoints m -> forall a, a < nvOf m i -> co (gl d') F_J (idx_v m i + a) = worldCol m q i a /\ co (gl d') F_dJ (idx_v m i + a) = dCol q v i a).
  { rewrite H2.
    pose (Inv := fun k (g : Glob) => ma g = ma (gl d) /\ forall i, 0 < i < k -> i < m_njoints m -> forall a, a < nvOf m i -> co g F_J (idx_v m i + a) = worldCol m q i a /\ co g F_dJ (idx_v m i + a) = dCol q v i a).
    assert (HI : Inv (m_njoints m) (upward m (fun g i => corCols m i (rows d' i) g) (gl d))).
    { apply upward_inv; [apply (wf_n _ W) | split; [reflexivity|]; intros; lia|].
      intros i g Hi [I1 I2]. split; [unfold corCols; mem; exact I1|]. intros j Hj Hj' a Ha. unfold corCols. mem. unfold setCols.
      destruct (jm_v m W Vm NM i Hi) as (_ & -> & _ & ->). rewrite (within_own m W NM i j a Hi ltac:(lia) Ha).
      destruct (Nat.eqb_spec i j) as [<-|Hn]; [|apply I2; try lia; exact Ha].
      replace (idx_v m i + a - idx_v m i) with a by lia. rewrite (within_own m W NM i i a Hi Hi Ha), Nat.eqb_refl. replace (idx_v m i + a - idx_v m i) with a by lia.
      destruct (R i Hi) as (R1 & R2 & _). rewrite R2. unfold dCol, worldCol, colOf. rewrite R1. destruct (P i Hi) as [-> _]. auto. }
    destruct HI as [I1 I2]. split; [exact I1|]. intros i Hi. apply I2; lia. }
  destruct G as [G1 G2]. split; [exact G1|]. intros i Hi. destruct (R i Hi) as (R1 & R2 & R3 & R4). split; [exact R3|]. split; [exact R4|]. apply G2, Hi.
Qed.
Lemma corEntry_world q v J dJ i a j c : 0 < i < m_njoints m -> a < nvOf m i -> 0 < j < m_njoints m -> c < nvOf m j ->
  (forall i, 0 < i < m_njoints m -> forall a, a < nvOf m i -> J (idx_v m i + a) = worldCol m q i a /\ dJ (idx_v m i + a) = dCol q v i a) ->
  corEntry m J dJ (worldInertia m q) (corB q v) i j (idx_v m i + a) (idx_v m j + c) = cEntry q v i a j c.
Proof. intros Hi Ha Hj Hc H. unfold corEntry, cEntry. destruct (H i Hi a Ha) as [-> _], (H j Hj c Hc) as [-> ->]. reflexivity. Qed.

Theorem coriolis_entries s q v i a j c : validState m q -> 0 < i < m_njoints m -> a < nvOf m i -> 0 < j < m_njoints m -> c < nvOf m j ->
  ma (gl (bs (computeCoriolisMatrix eps m s q v))) F_C (idx_v m i + a) (idx_v m j + c) =
  if anc m i j || anc m j i then cEntry q v i a j c else ma (gl (bs s)) F_C (idx_v m i + a) (idx_v m j + c).
Proof.
  intros Hq Hi Ha Hj Hc. unfold computeCoriolisMatrix. unfold corFwd. rewrite upward_onBs.
  destruct (cor_forward q v (bs s) Hq) as (G1 & G2). set (d1 := upward m _ (bs s)) in *. set (s1 := mkDX d1 (xco s) (xma s)). change (onBs s _) with s1.
  set (J := co (gl d1) F_J). set (dJ := co (gl d1) F_dJ). destruct RM as [He RM'].
  pose (YI := fun k (s : DX) => co (gl (bs s)) F_J = J /\ co (gl (bs s)) F_dJ = dJ /\ (forall j, 0 < j < m_njoints m -> regularMass eps (mass (yi (rows (bs s) j) F_oYcrb))) /\
     (forall A B, accInv m (fun s j => v6dot A (inertia_mul (yi (rows (bs s) j) F_oYcrb) B)) s1 false k s)).
  rewrite <- (corEntry_world q v J dJ i a j c Hi Ha Hj Hc (fun i Hi a Ha => proj2 (proj2 (G2 i Hi)) a Ha)).
  rewrite (cor_pass eps m Bt Vm NM Pos DF (corBack eps m) (fun s i => yi (rows (bs s) i) F_oYcrb) (fun s i => m6 (rows (bs s) i) F_oB) (fun s => xco s X_dFdv) (fun s => ma (gl (bs s)) F_C) s1 J dJ (worldInertia m q) (corB q v) YI); try assumption.
  - unfold s1. cbn [bs]. rewrite G1. reflexivity.
  - split; [reflexivity|]. split; [reflexivity|]. split; [|intros; apply accInv_start].
    intros b Hb. unfold s1. cbn [bs]. rewrite (proj1 (G2 b Hb)). unfold worldInertia, inertia_act. cbn [mass]. now apply RM'.
  - clear i a j c Hi Ha Hj Hc. intros i t Hi (Y1 & Y2 & Y3 & Y4). pose proof (wf_parent _ W i Hi) as Hp.
    assert (ES : forall j, 0 < j -> yi (rows (bs (corBack eps m t i)) j) F_oYcrb = if parent m i =? j then inertia_plus eps (yi (rows (bs t) j) F_oYcrb) (yi (rows (bs t) i) F_oYcrb) else yi (rows (bs t) j) F_oYcrb).
    { intros j Hj0. unfold corBack. cbv zeta. memx. pose proof (corBlocks_spec eps m Bt Vm NM Pos i (plusCols (jm_idx_v (joint m i)) (jnv (jm_type (joint m i)))
          (fun k => m6vec (m6 (rows (bs t) i) F_oB) (co (gl (bs t)) F_J (jm_idx_vE (joint m i) + k))) (setCols (jm_idx_v (joint m i)) (jnv (jm_type (joint m i)))
          (fun k => inertia_mul (yi (rows (bs t) i) F_oYcrb) (co (gl (bs t)) F_dJ (jm_idx_vE (joint m i) + k))) (xco t X_dFdv))) (bs t) Hi) as (B1 & _). cbv zeta in B1.
      destruct (Nat.ltb_spec 0 (parent m i)); memx.
      - unfold onM6, onYi. mem. rewrite B1. destruct (Nat.eqb_spec (parent m i) j) as [<-|Hn]; [rewrite !putn_same; mem; apply inertia_pequ_plus | now rewrite !putn_other by exact Hn].
      - rewrite B1. destruct (Nat.eqb_spec (parent m i) j); [lia | reflexivity]. }
    assert (EJ : co (gl (bs (corBack eps m t i))) F_J = co (gl (bs t)) F_J /\ co (gl (bs (corBack eps m t i))) F_dJ = co (gl (bs t)) F_dJ).
    { unfold corBack. cbv zeta. memx. destruct (corBlocks_spec eps m Bt Vm NM Pos i (plusCols (jm_idx_v (joint m i)) (jnv (jm_type (joint m i)))
          (fun k => m6vec (m6 (rows (bs t) i) F_oB) (co (gl (bs t)) F_J (jm_idx_vE (joint m i) + k))) (setCols (jm_idx_v (joint m i)) (jnv (jm_type (joint m i)))
          (fun k => inertia_mul (yi (rows (bs t) i) F_oYcrb) (co (gl (bs t)) F_dJ (jm_idx_vE (joint m i) + k))) (xco t X_dFdv))) (bs t) Hi) as (_ & _ & B3 & B4 & _).
      destruct (0 <? parent m i); memx; unfold onM6, onYi; mem; auto. }
    split; [now rewrite (proj1 EJ)|]. split; [now rewrite (proj2 EJ)|]. split.
    + intros j Hj. rewrite ES by lia. destruct (Nat.eqb_spec (parent m i) j) as [<-|Hn]; [apply regular_plus; auto | auto].
    + intros A B. apply (accInv_step m W _ _ _ _ _ _ Hi (Y4 A B)). intros j Hj Hj0. cbn [orb] in Hj0. apply Nat.ltb_lt in Hj0. rewrite ES by exact Hj0.
      destruct (Nat.eqb_spec (parent m i) j) as [<-|]; [|ring]. rewrite inertia_plus_mul by (apply regular_plus; auto; apply Y3; lia). apply v6dot_add_r.
  - clear i a j c Hi Ha Hj Hc. intros i t A B Hi (Y1 & Y2 & Y3 & Y4). assert (Hb0 : false || (0 <? i) = true) by (cbn [orb]; apply Nat.ltb_lt; lia).
    rewrite (acc_complete m W T _ s1 false (i + 1) t (Y4 A B) i ltac:(lia) Hb0 ltac:(lia)). apply (subSum_ext m). intros b Hb Ab.
    unfold s1. cbn [bs]. rewrite (proj1 (G2 b ltac:(apply (anc_le m W T) in Ab; lia))). reflexivity.
  - intros b Hb. apply (G2 b Hb).
  - clear i a j c Hi Ha Hj Hc. intros i t j Hi Hj0 _. unfold corBack. cbv zeta. memx. pose proof (corBlocks_spec eps m Bt Vm NM Pos i (plusCols (jm_idx_v (joint m i)) (jnv (jm_type (joint m i)))
          (fun k => m6vec (m6 (rows (bs t) i) F_oB) (co (gl (bs t)) F_J (jm_idx_vE (joint m i) + k))) (setCols (jm_idx_v (joint m i)) (jnv (jm_type (joint m i)))
          (fun k => inertia_mul (yi (rows (bs t) i) F_oYcrb) (co (gl (bs t)) F_dJ (jm_idx_vE (joint m i) + k))) (xco t X_dFdv))) (bs t) Hi) as (B1 & _). cbv zeta in B1.
    destruct (Nat.ltb_spec 0 (parent m i)); memx.
    + unfold onM6, onYi. mem. rewrite B1. destruct (Nat.eqb_spec (parent m i) j) as [<-|Hn]; [rewrite !putn_same; mem; reflexivity | now rewrite !putn_other by exact Hn].
    + rewrite B1. destruct (Nat.eqb_spec (parent m i) j); [lia | reflexivity].
  - clear i a j c Hi Ha Hj Hc. intros i t k Hi (Y1 & Y2 & _). unfold corBack. cbv zeta. destruct (jm_v m W Vm NM i Hi) as (E1 & E2 & E3 & E4). rewrite E1, E2, E3.
    destruct (0 <? parent m i); memx; unfold plusCols, setCols; rewrite Y1, Y2; (destruct (within (idx_v m i) (nvOf m i) k) eqn:Ek; [|reflexivity]);
      (assert (Ek' : idx_v m i + (k - idx_v m i) = k) by (apply within_true in Ek; lia)); rewrite Ek'; reflexivity.
  - clear i a j c Hi Ha Hj Hc. intros i t k l Hi (Y1 & Y2 & _). unfold corBack. cbv zeta. memx. set (F := plusCols _ _ _ _). destruct (corBlocks_spec eps m Bt Vm NM Pos i F (bs t) Hi) as (B1 & _ & B3 & B4 & _ & B5).
    destruct (0 <? parent m i); memx; unfold onM6, onYi; mem; rewrite B5; unfold F; rewrite Y1, Y2; reflexivity.
Qed.
End Form.
