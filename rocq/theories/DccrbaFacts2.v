(* What dccrba returns. *)
Require Import Reals List Arith ZArith Lia Lra Bool.
From Verif Require Import Vec3 Spatial Inertia InertiaFacts SpatialFacts Joints Spec_Joints Deriv JointFacts JointFacts2 Model Spec_Model ModelFacts ModelTree ModelFacts2 Sums Data Kinematics Spec_Kin Spec_Mass KinFacts KinFacts2 KinFacts3 Spec_Dyn Rnea DynFacts DynFacts2 TreeSums MassFacts Crba CrbaFacts CrbaFacts2 AbaFacts Jacobian Spec_Jac JacFacts JacFacts2 JacFacts3 JacFacts4 JacFacts5 Spec_Com Com ComFacts ComFacts2 ComFacts3 ComFacts4 Centroidal CentFacts CentFacts2 Dccrba DccrbaFacts.
Import ListNotations.
Local Open Scope nat_scope.

Lemma dot_unit_col n F k : k < n -> colsMul n F (unitv k) = F k.
Proof.
  intros Hk. apply v6_dot_ext. intros e. rewrite colsMul_dot. rewrite (sumN_ext n _ (fun i => if k =? i then v6dot e (F i) else 0%R)).
  - now rewrite (sumN_delta n k (fun i => v6dot e (F i))).
  - intros i Hi. unfold unitv. rewrite (Nat.eqb_sym k i). destruct (i =? k); ring.
Qed.
Lemma colsMul_add2 n F G w : colsMul n (fun k => v6add (F k) (G k)) w = v6add (colsMul n F w) (colsMul n G w).
Proof. apply v6_dot_ext. intros e. rewrite v6dot_add_r, !colsMul_dot, <- sumN_add. apply sumN_ext. intros k Hk. rewrite v6dot_add_r. ring. Qed.
(* the moment of the linear part *)
Definition linCross (x : V3) (f : V6) : V6 := mkV6 v3zero (v3cross (lin f) x).
Lemma linCross_dot x f e : v6dot e (linCross x f) = v6dot (mkV6 (v3cross x (ang e)) v3zero) f.
Proof. unfold v6dot, v3dot, linCross. cbn. ring. Qed.
Lemma colsMul_linCross n x F w : colsMul n (fun k => linCross x (F k)) w = linCross x (colsMul n F w).
Proof. apply v6_dot_ext. intros e. rewrite linCross_dot, !colsMul_dot. apply sumN_ext. intros k Hk. now rewrite linCross_dot. Qed.

Section Map.
Variable eps : R.
Variable m : Model.
Hypothesis W : wellFormed m.
Hypothesis T : treeInv m.
Hypothesis Vm : validModel m.
Hypothesis NM : noMimic m.
Hypothesis RM : regularMasses eps m.
Hypothesis HM : subtreeMass m 0 <> 0%R.

(* rate of the momentum of body b, in the world, when the motion has velocity v and the momentum is that of velocity w *)
Definition dMom q v w b : V6 := v6add (m6vec (inertia_variation (worldInertia m q b) (worldVel m q v b)) (worldVel m q w b)) (inertia_mul (worldInertia m q b) (dWorldVel m q v w b)).
Definition dTotal q v w : V6 := subBodies6 m 0 (dMom q v w).

Lemma ends q v d : validState m q -> let t := dccrbaPass eps m d q v in let e := ccrbaEnd m t in
  (forall w, colsMul (m_nv m) (co (gl e) F_Ag) w = atPoint (subtreeCom m q 0) (totalMomentum m q w)) /\
  p3 (rows e 0) F_com = subtreeCom m q 0 /\ yi (rows e 0) F_oYcrb = yi (rows t 0) F_oYcrb /\ mass (yi (rows t 0) F_oYcrb) = subtreeMass m 0 /\ lever (yi (rows t 0) F_oYcrb) = subtreeCom m q 0 /\
  (forall A B, v6dot A (inertia_mul (yi (rows t 0) F_oYcrb) B) = bodies m (fun b => v6dot A (inertia_mul (worldInertia m q b) B))) /\
  (forall w, colsMul (m_nv m) (co (gl e) F_dAg) w = dTotal q v w) /\ p3 (rows e 0) F_vcom = p3 (rows d 0) F_vcom.
Proof.
  intros Hq. cbv zeta. destruct (dccrba_pass eps m W T Vm NM RM q v d Hq) as (P1 & P2 & P3 & P4 & P5).
  set (t := dccrbaPass eps m d q v) in *. clearbody t.
  assert (EL : lever (yi (rows t 0) F_oYcrb) = subtreeCom m q 0) by (apply (lever_com m W T); assumption).
  unfold ccrbaEnd. cbv zeta. split; [|split; [|split; [|split; [|split; [|split; [|split]]]]]].
  - intros w. change (co (gl (onCo ?d F_Ag ?f)) F_Ag) with (f (co (gl d) F_Ag)). cbv beta.
    rewrite (colsMul_ext _ _ (fun k => atPoint (subtreeCom m q 0) (co (gl t) F_Ag k))).
    + rewrite colsMul_atPoint. f_equal. apply v6_dot_ext. intros A. rewrite P3. reflexivity.
    + intros k Hk. destruct (Nat.ltb_spec k (m_nv m)); [|lia]. rewrite toCom_atPoint. f_equal. rewrite onRow_at. cbn [Nat.eqb]. mem. exact EL.
  - change (rows (onCo ?d F_Ag ?f)) with (rows d). rewrite onRow_at. cbn [Nat.eqb]. mem. exact EL.
  - reflexivity.
  - exact P2.
  - exact EL.
  - exact P1.
  - intros w. apply v6_dot_ext. intros A. change (co (gl _) F_dAg) with (co (gl t) F_dAg). rewrite P4. unfold dTotal. rewrite subBodies6_dot, (subBodies_root m W T). reflexivity.
  - exact P5.
Qed.
Lemma dAgCom_mul d w : colsMul (m_nv m) (co (gl (dAgCom m d)) F_dAg) w =
  v6add (atPoint (p3 (rows d 0) F_com) (colsMul (m_nv m) (co (gl d) F_dAg) w)) (linCross (p3 (rows d 0) F_vcom) (colsMul (m_nv m) (co (gl d) F_Ag) w)).
Proof.
  unfold dAgCom. change (co (gl (onCo ?d F_dAg ?f)) F_dAg) with (f (co (gl d) F_dAg)). cbv beta.
  rewrite <- colsMul_atPoint, <- colsMul_linCross, <- colsMul_add2. apply colsMul_ext. intros k Hk. destruct (Nat.ltb_spec k (m_nv m)); [|lia].
  unfold atPoint, linCross. apply v6_ext; apply v3_ext; cbn; ring.
Qed.
Lemma linCross_at x c f : linCross x (atPoint c f) = linCross x f. Proof. reflexivity. Qed.

Theorem dccrba_spec q v d : validState m q -> let d' := dccrba eps m d q v in
  (forall w, colsMul (m_nv m) (co (gl d') F_Ag) w = atPoint (subtreeCom m q 0) (totalMomentum m q w)) /\
  gv (gl d') F_hg = atPoint (subtreeCom m q 0) (totalMomentum m q v) /\
  p3 (rows d' 0) F_com = subtreeCom m q 0 /\ p3 (rows d' 0) F_vcom = subtreeVel m q v 0 /\
  (forall A V, let c := subtreeCom m q 0 in
     v6dot A (inertia_mul (ig (gl d')) V) = v6dot A (atPoint c (subBodies6 m 0 (fun b => inertia_mul (worldInertia m q b) (mkV6 (v3add (lin V) (v3cross c (ang V))) (ang V)))))) /\
  (forall w, colsMul (m_nv m) (co (gl d') F_dAg) w = v6add (atPoint (subtreeCom m q 0) (dTotal q v w)) (linCross (subtreeVel m q v 0) (totalMomentum m q w))).
Proof.
  intros Hq. cbv zeta. destruct (ends q v d Hq) as (A1 & A2 & A3 & A4 & A5 & A6 & A7 & _). unfold dccrba. cbv zeta.
  set (t := dccrbaPass eps m d q v) in *. set (e := ccrbaEnd m t) in *. clearbody e. clearbody t.
  set (e2 := setGl e (setGv (gl e) F_hg (colsMul (m_nv m) (co (gl e) F_Ag) v))).
  set (e3 := onRow e2 0 (fun r => setP3 r F_vcom (v3div (mass (yi r F_oYcrb)) (lin (gv (gl e2) F_hg))))).
  assert (G3 : gl e3 = gl e2) by reflexivity.
  assert (V3' : p3 (rows e3 0) F_vcom = subtreeVel m q v 0).
  { unfold e3. rewrite onRow_at. cbn [Nat.eqb]. mem. change (rows e2 0) with (rows e 0). rewrite A3, A4. change (gv (gl e2) F_hg) with (colsMul (m_nv m) (co (gl e) F_Ag) v). rewrite A1.
    unfold atPoint. cbn [lin]. rewrite (lin_total m q v HM). apply v3_ext; cbn; field; exact HM. }
  assert (C3 : p3 (rows e3 0) F_com = subtreeCom m q 0) by (unfold e3; rewrite onRow_at; cbn [Nat.eqb]; mem; exact A2).
  assert (Y3 : yi (rows e3 0) F_oYcrb = yi (rows t 0) F_oYcrb) by (unfold e3; rewrite onRow_at; cbn [Nat.eqb]; mem; exact A3).
  split; [exact A1|]. split; [exact (A1 v)|]. split; [exact C3|]. split; [exact V3'|]. split.
  - intros A V. change (ig (gl _)) with (mkInertia (mass (yi (rows e3 0) F_oYcrb)) v3zero (inertia (yi (rows e3 0) F_oYcrb))). rewrite Y3.
    rewrite centred_mul, A5, !atPoint_dot, A6, subBodies6_dot, (subBodies_root m W T). reflexivity.
  - intros w. change (co (gl (setGl ?d (setIg (gl ?d) ?x))) F_dAg) with (co (gl d) F_dAg). rewrite dAgCom_mul, C3, V3'.
    change (co (gl e3) F_dAg) with (co (gl e) F_dAg). change (co (gl e3) F_Ag) with (co (gl e) F_Ag). rewrite A7, A1, linCross_at. reflexivity.
Qed.
Theorem mapTV_spec q v d w : validState m q ->
  colsMul (m_nv m) (co (gl (computeCentroidalMapTimeVariation eps m d q v)) F_dAg) w =
  v6add (atPoint (subtreeCom m q 0) (dTotal q v w)) (linCross (p3 (rows d 0) F_vcom) (totalMomentum m q w)).
Proof.
  intros Hq. destruct (ends q v d Hq) as (A1 & A2 & _ & _ & _ & _ & A7 & A8). unfold computeCentroidalMapTimeVariation. rewrite dAgCom_mul, A1, A2, A7, A8, linCross_at. reflexivity.
Qed.
(* the accelerations of the bodies *)
Definition biasSum q v b : V6 := sumF (fun i => motion_act (worldPl m q i) (jc (jointAt m q v i))) (tl (support m b)).
Lemma acc_share q v a b : validState m q -> b < m_njoints m -> v6add (v6add (worldVel m q a b) (dWorldVel m q v v b)) (biasSum q v b) = motion_act (worldPl m q b) (bodyAcc m q v a b).
Proof.
  intros Hq. revert b. refine (tree_ind m _ W _ _).
  - rewrite (worldVel_0 m W T), (bodyAcc_0 m W T), motion_act_0. unfold dWorldVel, biasSum. rewrite (support_0 m W T). cbn. sring.
  - intros b Hb IH. pose proof (wf_parent _ W b Hb) as Hp. pose proof (worldPl_rot m W T Vm q b Hq ltac:(lia)) as HR.
    rewrite (bodyAcc_step m W T Vm q v a b Hq Hb), motion_act_add. 
    assert (E : motion_act (worldPl m q b) (motion_actInv (relPl m q b) (bodyAcc m q v a (parent m b))) = motion_act (worldPl m q (parent m b)) (bodyAcc m q v a (parent m b))).
    { rewrite (worldPl_step m W T q b Hb), motion_act_mul by (apply (worldPl_rot m W T Vm); [exact Hq | lia]). rewrite motion_act_actInv by (apply (relPl_rot m Vm q b Hq Hb)). reflexivity. }
    rewrite E, <- IH, (worldVel_step m W T Vm q a b Hq Hb). unfold dWorldVel, biasSum. rewrite (tail_step m W T b Hb), !sumF_app.
    replace (sumF (dShare m q v v) [b]) with (dShare m q v v b) by (unfold sumF; cbn [map sumV6]; now rewrite v6add_0_r).
    replace (sumF (fun i => motion_act (worldPl m q i) (jc (jointAt m q v i))) [b]) with (motion_act (worldPl m q b) (jc (jointAt m q v b))) by (unfold sumF; cbn [map sumV6]; now rewrite v6add_0_r).
    unfold jointAcc. rewrite !motion_act_add. rewrite motion_act_cross by exact HR. unfold dShare, share, jointTwist, worldVel. 
    generalize (sumF (fun i => motion_cross (motion_act (worldPl m q i) (bodyVel m q v i)) (motion_act (worldPl m q i) (Smul (jS (jointAt m q noVel i)) (shift (idx_v m i) v)))) (tl (support m (parent m b))))
      (sumF (fun i => motion_act (worldPl m q i) (jc (jointAt m q v i))) (tl (support m (parent m b)))).
    intros x y. fold (v6add). sring.
Qed.
(* what is missing: the momentum of the bodies moving with the bias accelerations of the joints *)
Theorem dccrba_gap q v a d d' : validState m q ->
  gv (gl (computeCentroidalMomentumTimeVariation m d' q v a)) F_dhg =
  v6add (v6add (colsMul (m_nv m) (co (gl (dccrba eps m d q v)) F_Ag) a) (colsMul (m_nv m) (co (gl (dccrba eps m d q v)) F_dAg) v))
        (atPoint (subtreeCom m q 0) (subBodies6 m 0 (fun b => inertia_mul (worldInertia m q b) (biasSum q v b)))).
Proof.
  intros Hq. destruct (variation_spec m W T Vm q v a d' Hq HM) as (_ & _ & _ & ->).
  destruct (dccrba_spec q v d Hq) as (A1 & _ & _ & _ & _ & A6). rewrite A1, A6.
  assert (E0 : linCross (subtreeVel m q v 0) (totalMomentum m q v) = v6zero).
  { unfold linCross. rewrite (lin_total m q v HM). apply v6_ext; apply v3_ext; cbn; ring. }
  rewrite E0, v6add_0_r. apply v6_dot_ext. intros e. rewrite !v6dot_add_r, !atPoint_dot, <- !v6dot_add_r. generalize (mkV6 (v3sub (lin e) (v3cross (ang e) (subtreeCom m q 0))) (ang e)). clear e. intros e.
  rewrite !v6dot_add_r. unfold totalMomentum, dTotal. rewrite !subBodies6_dot, !(subBodies_root m W T). unfold bodies. rewrite <- !sumN_add. apply sumN_ext. intros k Hk.
  set (b := S k). assert (Hb : b < m_njoints m) by (unfold b; lia). clearbody b. rewrite <- !v6dot_add_r. f_equal.
  pose proof (worldPl_rot m W T Vm q b Hq Hb) as HR. unfold dMom. rewrite variation_vec.
  replace (motion_cross (worldVel m q v b) (worldVel m q v b)) with v6zero by sring. rewrite inertia_mul_0.
  assert (EA : inertia_mul (worldInertia m q b) (v6add (v6add (worldVel m q a b) (dWorldVel m q v v b)) (biasSum q v b)) = force_act (worldPl m q b) (inertia_mul (inertiaOf m b) (bodyAcc m q v a b))).
  { rewrite (acc_share q v a b Hq Hb). unfold worldInertia. apply inertia_act_mul, HR. }
  rewrite !inertia_mul_add, (world_momentum m W T Vm q a b Hq Hb) in EA. rewrite (world_momentum m W T Vm q v b Hq Hb).
  assert (EL : force_act (worldPl m q b) (v6add (inertia_mul (inertiaOf m b) (bodyAcc m q v a b)) (force_cross (bodyVel m q v b) (inertia_mul (inertiaOf m b) (bodyVel m q v b)))) =
    v6add (force_act (worldPl m q b) (inertia_mul (inertiaOf m b) (bodyAcc m q v a b))) (force_cross (worldVel m q v b) (worldMomentum m q v b))).
  { unfold worldVel, worldMomentum. rewrite <- force_act_cross by exact HR. unfold force_act, v6add. apply v6_ext; cbn [lin ang]; rewrite ?m3vec_add_r; vring. }
  rewrite EL, <- EA. sring.
Qed.
(* a joint with axes that do not move *)
Hypothesis FA : forall i, 0 < i < m_njoints m -> fixedAxes (jm_type (joint m i)).
Lemma worldVel_deriv (q : R -> vec) v w t b : (forall s, validState m (q s)) -> moves m q v t -> b < m_njoints m ->
  deriv6 (fun s => worldVel m (q s) w b) (dWorldVel m (q t) v w b) t.
Proof.
  intros Hq Hm Hb. unfold dWorldVel.
  apply (deriv6_ext _ (fun s => sumF (fun i => motion_act (worldPl m (q s) i) (jointTwist m (q t) w i)) (tl (support m b)))).
  - intros s. rewrite (worldVel_sum m W T Vm (q s) w b (Hq s)) by lia. apply sumF_ext. intros i Hi. now rewrite (twist_fixed m FA (q s) (q t) w i (tl_range m W T b Hb i Hi)).
  - apply deriv6_sumF. intros i Hi. pose proof (tl_range m W T b Hb i Hi) as Hir. pose proof (worldPl_rot m W T Vm (q t) i (Hq t) ltac:(lia)) as HRi.
    eapply deriv6_eq; [apply (deriv_act (fun s => worldPl m (q s) i) (bodyVel m (q t) v i)); [exact HRi | apply (worldPl_twist m W T Vm); [apply Hq | exact Hm | lia]]|].
    unfold dShare, share, worldVel. apply motion_act_cross, HRi.
Qed.
Lemma mom_deriv (q : R -> vec) v w t b : (forall s, validState m (q s)) -> moves m q v t -> b < m_njoints m ->
  deriv6 (fun s => worldMomentum m (q s) w b) (dMom (q t) v w b) t.
Proof.
  intros Hq Hm Hb. pose proof (worldPl_rot m W T Vm (q t) b (Hq t) Hb) as HR. pose proof (worldPl_twist m W T Vm q v t b (Hq t) Hm Hb) as HT.
  assert (EB : forall s, bodyVel m (q s) w b = motion_actInv (worldPl m (q s) b) (worldVel m (q s) w b)).
  { intros s. unfold worldVel. symmetry. apply motion_actInv_act. apply (worldPl_rot m W T Vm (q s) b (Hq s) Hb). }
  pose proof (deriv_actInv (fun s => worldPl m (q s) b) (fun s => worldVel m (q s) w b) _ _ t HR HT (worldVel_deriv q v w t b Hq Hm Hb)) as D1.
  pose proof (deriv6_inertia (inertiaOf m b) _ _ t D1) as D2.
  pose proof (deriv_force_act (fun s => worldPl m (q s) b) _ _ _ t HR HT D2) as D3. cbv beta in D3.
  eapply deriv6_eq; [eapply deriv6_ext; [|exact D3]; intros s; unfold worldMomentum; now rewrite (EB s)|].
  unfold dMom. rewrite variation_vec, <- (EB t).
  unfold worldInertia. rewrite (EB t). set (M := worldPl m (q t) b) in *. set (Y := inertiaOf m b). set (dx := dWorldVel m (q t) v w b).
  assert (Ex : worldVel m (q t) w b = motion_act M (bodyVel m (q t) w b)) by reflexivity. assert (Ev : worldVel m (q t) v b = motion_act M (bodyVel m (q t) v b)) by reflexivity.
  rewrite Ex, Ev, motion_actInv_act by apply HR. rewrite <- motion_act_cross, !inertia_act_mul by exact HR.
  assert (Ed : inertia_mul (inertia_act M Y) dx = force_act M (inertia_mul Y (motion_actInv M dx))).
  { rewrite <- inertia_act_mul by exact HR. rewrite motion_act_actInv by apply HR. reflexivity. }
  rewrite Ed. clearbody dx. rewrite <- force_act_cross by exact HR.
  generalize (bodyVel m (q t) v b) (bodyVel m (q t) w b) (motion_actInv M dx). intros a b0 c.
  replace (v6sub c (motion_cross a b0)) with (v6add c (v6scale (-1) (motion_cross a b0))) by sring.
  rewrite inertia_mul_add, inertia_mul_scale. generalize (inertia_mul Y c) (inertia_mul Y (motion_cross a b0)) (force_cross a (inertia_mul Y b0)). intros x y z.
  replace (v6add (v6add x (v6scale (-1) y)) z) with (v6add (v6sub z y) x) by sring. clear. unfold v6sub, force_act, v6add. apply v6_ext; cbn [lin ang]; rewrite ?m3vec_add_r, ?m3vec_sub_r; vring.
Qed.
Theorem map_deriv (q : R -> vec) v w t d d' : (forall s, validState m (q s)) -> moves m q v t ->
  deriv6 (fun s => colsMul (m_nv m) (co (gl (computeCentroidalMap eps m d (q s))) F_Ag) w) (colsMul (m_nv m) (co (gl (dccrba eps m d' (q t) v)) F_dAg) w) t.
Proof.
  intros Hq Hm. destruct (dccrba_spec (q t) v d' (Hq t)) as (_ & _ & _ & _ & _ & ->).
  eapply deriv6_ext; [intros s; apply (proj1 (ccrba_end eps m W T Vm RM (q s) d (Hq s) HM) w)|].
  assert (D : deriv6 (fun s => totalMomentum m (q s) w) (dTotal (q t) v w) t).
  { unfold totalMomentum, dTotal. apply (deriv_subBodies6 m 0 (fun s b => worldMomentum m (q s) w b)). intros b Hb. apply mom_deriv; [exact Hq | exact Hm | lia]. }
  pose proof (subtreeCom_deriv m W T Vm q v t 0 (Hq t) Hm) as DC.
  set (F := dTotal (q t) v w) in *. clearbody F. destruct D as [D1 D2]. split; unfold atPoint, linCross; cbn [lin ang v6add].
  - eapply deriv3_eq; [exact D1|]. vring.
  - eapply deriv3_eq; [apply deriv3_sub; [exact D2 | apply deriv3_cross; [exact DC | exact D1]]|].
    cbv beta. generalize (subtreeVel m (q t) v 0) (subtreeCom m (q t) 0) (lin (totalMomentum m (q t) w)). intros x y z. apply v3_ext; cbn; ring.
Qed.
Theorem dccrba_rate q v a d d' : validState m q ->
  gv (gl (computeCentroidalMomentumTimeVariation m d' q v a)) F_dhg =
  v6add (colsMul (m_nv m) (co (gl (dccrba eps m d q v)) F_Ag) a) (colsMul (m_nv m) (co (gl (dccrba eps m d q v)) F_dAg) v).
Proof.
  intros Hq. rewrite (dccrba_gap q v a d d' Hq).
  assert (E : atPoint (subtreeCom m q 0) (subBodies6 m 0 (fun b => inertia_mul (worldInertia m q b) (biasSum q v b))) = v6zero).
  { apply v6_dot_ext. intros e. rewrite atPoint_dot, v6dot_0_r, subBodies6_dot. rewrite (subBodies_root m W T). unfold bodies. apply sumN_zero. intros k Hk. unfold biasSum.
    replace (sumF _ _) with v6zero; [rewrite inertia_mul_0; apply v6dot_0_r|]. symmetry.
    assert (G : forall l, (forall i, In i l -> 0 < i < m_njoints m) -> sumF (fun i => motion_act (worldPl m q i) (jc (jointAt m q v i))) l = v6zero).
    { induction l as [|i l IH]; [reflexivity|]. intros HI. unfold sumF. cbn [map sumV6]. fold (sumF (fun i => motion_act (worldPl m q i) (jc (jointAt m q v i))) l). rewrite IH by (intros; apply HI; now right).
      assert (Hi : 0 < i < m_njoints m) by (apply HI; now left).
      assert (EC : jc (jointAt m q v i) = v6zero) by (apply fixed_bias; [apply Vm, Hi | apply Hq, Hi | apply FA, Hi]). rewrite EC, motion_act_0. sring. }
    apply G. apply (tl_range m W T). lia. }
  rewrite E. apply v6add_0_r.
Qed.
End Map.
