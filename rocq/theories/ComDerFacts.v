(* The derivative of the velocity of the centre of mass, joint by joint. *)
Require Import Reals List Arith ZArith Lia Lra Bool.
From Verif Require Import Vec3 Spatial Inertia InertiaFacts SpatialFacts Joints Spec_Joints Deriv JointFacts JointFacts2 Model Spec_Model ModelFacts ModelTree ModelFacts2 Sums Data Kinematics Spec_Kin Spec_Mass KinFacts KinFacts2 KinFacts3 Spec_Dyn Rnea DynFacts DynFacts2 TreeSums MassFacts Crba CrbaFacts CrbaFacts2 Jacobian Spec_Jac JacFacts JacFacts2 JacFacts3 JacFacts4 JacFacts5 CholFacts4 Spec_Com Com ComFacts ComFacts2 ComFacts3 ComFacts4 ComFacts5 Dccrba DccrbaFacts DccrbaFacts2 DataX KinDer KinDerFacts KinDerFacts2 AllTerms AllTermsFacts AllTermsFacts2 SubCom ComDer.
Import ListNotations.
Local Open Scope nat_scope.

Section CD.
Variable eps : R.
Variable m : Model.
Hypothesis Bt : Built eps m.
Let W : wellFormed m := Built_wf eps m Bt.
Let T : treeInv m := Built_tree eps m Bt.
Hypothesis Vm : validModel m.
Hypothesis NM : noMimic m.

(* velocity of the point x of a rigid motion U *)
Definition F (V0 : V6) (vc c : V3) (x : V6) : V3 := v3add (v3cross (ang x) (v3sub vc (world3 V0 c))) (v3cross (ang V0) (world3 x c)).
(* the effect of joint i on the velocity of the centre of mass of body b *)
Definition eff q v w b i : V3 := v3add (world3 (vqT m q v b i (share m q w i)) (bodyCom m q b)) (v3cross (ang (worldVel m q v b)) (world3 (share m q w i) (bodyCom m q b))).
Lemma eff_F q v w b i : validState m q -> b < m_njoints m -> eff q v w b i = F (worldVel m q v (parent m i)) (comVel m q v b) (bodyCom m q b) (share m q w i).
Proof.
  intros Hq Hb. unfold eff, F, vqT. rewrite <- (world_com m W T Vm q v b Hq Hb). generalize (worldVel m q v (parent m i)) (worldVel m q v b) (share m q w i) (bodyCom m q b). clear. intros A B x c. unfold world3, motion_cross. apply v3_ext; cbn; ring.
Qed.
Lemma eff_sum q v w b l : lin (sumF (fun i => mkV6 (eff q v w b i) v3zero) l) = v3add (world3 (sumF (fun i => vqT m q v b i (share m q w i)) l) (bodyCom m q b)) (v3cross (ang (worldVel m q v b)) (world3 (sumF (share m q w) l) (bodyCom m q b))).
Proof.
  unfold sumF. induction l as [|i l IH]; cbn [map sumV6]; [apply v3_ext; cbn; ring|]. cbn [lin v6add]. rewrite IH. unfold eff.
  generalize (sumV6 (map (fun i => vqT m q v b i (share m q w i)) l)) (sumV6 (map (share m q w) l)) (vqT m q v b i (share m q w i)) (share m q w i) (bodyCom m q b) (worldVel m q v b). clear. intros A B C D c V. unfold world3. apply v3_ext; cbn; ring.
Qed.
(* the sum over the bodies, joint by joint *)
Lemma bodies_eff q v w : validState m q -> forall e,
  v3dot e (subBodies3 m 0 (fun b => v3scale (mass (inertiaOf m b)) (lin (sumF (fun i => mkV6 (eff q v w b i) v3zero) (tl (support m b)))))) =
  sumN (m_njoints m) (fun i => if 0 <? i then subBodies m i (fun b => mass (inertiaOf m b) * v3dot e (eff q v w b i))%R else 0%R).
Proof.
  intros Hq e. rewrite subBodies3_dot, (subBodies_root m W T). unfold bodies.
  rewrite (sumN_ext (m_njoints m) _ (fun i => sumN (m_njoints m - 1) (fun b => if (0 <? i) && anc m i (S b) then mass (inertiaOf m (S b)) * v3dot e (eff q v w (S b) i) else 0)%R)).
  - rewrite sumN_swap. apply sumN_ext. intros b Hb. rewrite v3dot_scale_r.
    rewrite <- (anc_sum m W T (fun x => v3dot e (lin x)) (fun i => mkV6 (eff q v w (S b) i) v3zero)).
    + rewrite <- sumN_scale. apply sumN_ext. intros i Hi. cbn [lin]. destruct ((0 <? i) && anc m i (S b)); ring.
    + unfold v3dot; cbn; ring.
    + intros x y. unfold v3dot; cbn; ring.
    + lia.
  - intros i Hi. destruct (0 <? i); cbn [andb]; [reflexivity | rewrite sumN_0; reflexivity].
Qed.
(* what joint i does to the velocity of the centre of mass of the bodies it carries *)
Lemma joint_eff q v w i e : validState m q -> 0 < i < m_njoints m -> subtreeMass m i <> 0%R ->
  subBodies m i (fun b => mass (inertiaOf m b) * v3dot e (eff q v w b i))%R =
  v3dot e (v3scale (subtreeMass m i) (F (worldVel m q v (parent m i)) (subtreeVel m q v i) (subtreeCom m q i) (share m q w i))).
Proof.
  intros Hq Hi HM. set (V0 := worldVel m q v (parent m i)). set (x := share m q w i).
  set (e1 := v3cross e (ang x)). set (e2 := v3sub (v3cross (v3cross e (ang V0)) (ang x)) (v3cross (v3cross e (ang x)) (ang V0))).
  set (k := v3dot e (v3sub (v3cross (ang V0) (lin x)) (v3cross (ang x) (lin V0)))).
  assert (EF : forall vc c, v3dot e (F V0 vc c x) = (k + v3dot e1 vc + v3dot e2 c)%R) by (intros vc c; unfold F, k, e1, e2, world3; clearbody V0 x; unfold v3dot; cbn; ring).
  rewrite v3dot_scale_r, EF.
  rewrite (subBodies_ext m i _ (fun b => k * mass (inertiaOf m b) + (v3dot e1 (v3scale (mass (inertiaOf m b)) (comVel m q v b)) + v3dot e2 (v3scale (mass (inertiaOf m b)) (bodyCom m q b))))%R).
  - rewrite !subBodies_add, subBodies_scale, <- !subBodies3_dot. unfold subtreeVel, subtreeCom. rewrite !v3dot_scale_r. unfold subtreeMass in *. field. exact HM.
  - intros b Hb _. rewrite (eff_F q v w b i Hq ltac:(lia)). fold V0 x. rewrite EF, !v3dot_scale_r. ring.
Qed.

(* what the function reads *)
Definition ready q v (d : Data) : Prop :=
  (forall i, 0 < i < m_njoints m -> jd (rows d i) = jointAt m q v i /\ pl (rows d i) F_oMi = worldPl m q i /\ mo (rows d i) F_v = bodyVel m q v i) /\
  (forall j, j < m_njoints m -> sc (rows d j) F_mass = subtreeMass m j) /\
  (forall j, 0 < j < m_njoints m -> subtreeMass m j <> 0%R -> se3_actPoint (worldPl m q j) (p3 (rows d j) F_com) = subtreeCom m q j /\ m3vec (rot (worldPl m q j)) (p3 (rows d j) F_vcom) = subtreeVel m q v j).
Definition colF q v i (x : V6) : V3 := v3scale (subtreeMass m i / subtreeMass m 0) (F (worldVel m q v (parent m i)) (subtreeVel m q v i) (subtreeCom m q i) x).
Lemma m3scale_vec k A x : m3vec (m3scale k A) x = v3scale k (m3vec A x).
Proof. apply v3_ext; cbn; ring. Qed.
Lemma act_point P Y c : isRotation (rot P) -> m3vec (rot P) (v3sub (lin Y) (v3cross c (ang Y))) = world3 (motion_act P Y) (se3_actPoint P c).
Proof.
  intros HR. unfold world3, se3_actPoint, motion_act. cbn [lin ang]. replace (v3sub (lin Y) (v3cross c (ang Y))) with (v3add (lin Y) (v3cross (ang Y) c)) by (apply v3_ext; cbn; ring).
  rewrite m3vec_add_r, (rotation_cross (rot P) (ang Y) c HR). generalize (m3vec (rot P) (lin Y)) (m3vec (rot P) (ang Y)) (m3vec (rot P) c) (trans P). clear. intros a b c p. apply v3_ext; cbn; ring.
Qed.
Lemma step_cols q v d J i k : validState m q -> (forall j, 0 < j < m_njoints m -> subtreeMass m j <> 0%R) -> ready q v d -> 0 < i < m_njoints m ->
  comDerStep m d J i k = if within (idx_v m i) (nvOf m i) k then colF q v i (worldCol m q i (k - idx_v m i)) else J k.
Proof.
  intros Hq HM (R1 & R2 & R3) Hi. destruct (R1 i Hi) as (EJ & EP & EV). destruct (R3 i Hi (HM i Hi)) as [EC EW]. pose proof (worldPl_rot m W T Vm q i Hq ltac:(lia)) as HR.
  destruct (jm_v m W Vm NM i Hi) as (E1 & E2 & E3 & E4). unfold comDerStep. cbv zeta. rewrite E1, E3. unfold setCols. destruct (within (idx_v m i) (nvOf m i) k); [|reflexivity].
  rewrite (R2 i ltac:(lia)), (R2 0 (wf_n _ W)), EP, EJ, EV, m3scale_vec, act_point, EC by exact HR. unfold colF. f_equal.
  assert (ES : jS (jointAt m q v i) = jS (jointAt m q noVel i)) by (unfold jointAt; apply jcalc_qM).
  rewrite ES, motion_act_cross by exact HR. unfold colOf. fold (worldCol m q i (k - idx_v m i)). set (x := worldCol m q i (k - idx_v m i)). clearbody x.
  set (y := if 0 <? parent m i then v6sub (bodyVel m q v i) (jv (jointAt m q v i)) else v6zero).
  assert (EL : motion_act (worldPl m q i) y = worldVel m q v (parent m i)).
  { unfold y. destruct (Nat.ltb_spec 0 (parent m i)).
    - rewrite motion_act_sub. fold (worldVel m q v i). rewrite (worldVel_step m W T Vm q v i Hq Hi), (jv_twist m Vm q v i Hi). generalize (worldVel m q v (parent m i)) (motion_act (worldPl m q i) (jointTwist m q v i)). clear. sring.
    - assert (parent m i = 0) as -> by lia. rewrite (worldVel_0 m W T). apply motion_act_0. }
  clearbody y.
  assert (EY : motion_act (worldPl m q i) (mkV6 (v3sub (lin y) (p3 (rows d i) F_vcom)) (ang y)) = mkV6 (v3sub (lin (worldVel m q v (parent m i))) (subtreeVel m q v i)) (ang (worldVel m q v (parent m i)))).
  { rewrite <- EL, <- EW. unfold motion_act. generalize (rot (worldPl m q i)) (trans (worldPl m q i)) (p3 (rows d i) F_vcom). clear. intros A p c. apply v6_ext; cbn [lin ang]; [|reflexivity]. apply v3_ext; cbn; ring. }
  rewrite EY. unfold F, world3, motion_cross. generalize (worldVel m q v (parent m i)) (subtreeVel m q v i) (subtreeCom m q i). clear. intros V u c. apply v3_ext; cbn; ring.
Qed.
Lemma sumF_lin3 (f : nat -> V3) l : lin (sumF (fun i => mkV6 (f i) v3zero) l) = fold_right (fun i a => v3add (f i) a) v3zero l.
Proof. unfold sumF. induction l as [|i l IH]; [reflexivity|]. cbn [map sumV6 fold_right]. cbn [lin v6add]. now rewrite IH. Qed.
Lemma seq_sum (f : nat -> V3) e n : v3dot e (fold_right (fun i a => v3add (f i) a) v3zero (seq 1 n)) = sumN (S n) (fun i => if 0 <? i then v3dot e (f i) else 0%R).
Proof.
  assert (G : forall l x, v3dot e (fold_right (fun i a => v3add (f i) a) x l) = (v3dot e x + v3dot e (fold_right (fun i a => v3add (f i) a) v3zero l))%R).
  { induction l as [|i l IH]; intros x; cbn [fold_right]; [unfold v3dot; cbn; ring|]. rewrite !v3dot_add_r, IH. ring. }
  induction n as [|n IH]; [unfold v3dot; cbn; ring|]. rewrite List.seq_S, fold_right_app, G, IH. cbn [fold_right]. rewrite v3dot_add_r. change (1 + n) with (S n).
  assert (E : forall g, sumN (S (S n)) g = (sumN (S n) g + g (S n))%R) by reflexivity. rewrite (E (fun i => if 0 <? i then v3dot e (f i) else 0%R)). cbn [Nat.ltb Nat.leb]. unfold v3dot at 2. cbn. ring.
Qed.
Lemma cols3_lin n J w : cols3Mul n J w = lin (colsMul n (fun k => mkV6 (J k) v3zero) w).
Proof. induction n as [|n IH]; [reflexivity|]. cbn [cols3Mul colsMul]. rewrite IH. generalize (colsMul n (fun k => mkV6 (J k) v3zero) w). clear. intros x. apply v3_ext; cbn; ring. Qed.
Lemma product q v d res w : validState m q -> (forall j, 0 < j < m_njoints m -> subtreeMass m j <> 0%R) -> ready q v d -> forall e,
  v3dot e (cols3Mul (m_nv m) (getCenterOfMassVelocityDerivatives m d res) w) = sumN (m_njoints m) (fun i => if 0 <? i then v3dot e (colF q v i (share m q w i)) else 0%R).
Proof.
  intros Hq HM HD e. set (l := seq 1 (m_njoints m - 1)). pose proof (wf_n _ W) as Hn.
  assert (HI : inRange m l) by (intros i Hi; apply in_seq in Hi; lia). assert (ND : NoDup l) by apply seq_NoDup.
  destruct (pass_cols eps m Bt NM (fun x : Mat3 => x) (comDerStep m d) (fun _ => true) (fun i c => colF q v i (worldCol m q i c)) l ND HI) with (x0 := res) as [P1 P2].
  { intros x i k Hi. cbn [andb]. apply (step_cols q v d x i k Hq HM HD (HI i Hi)). }
  change (fold_left (comDerStep m d) l res) with (getCenterOfMassVelocityDerivatives m d res) in P1, P2. set (J := getCenterOfMassVelocityDerivatives m d res) in *. clearbody J.
  set (X := fun k => mkV6 (if k <? m_nv m then J k else v3zero) v3zero).
  assert (EX : colsMul (m_nv m) X w = sumF (fun i => mkV6 (colF q v i (share m q w i)) v3zero) l).
  { apply (cols_product eps m Bt Vm NM (fun i x => mkV6 (colF q v i x) v3zero) q l X w ND HI).
    - intros i. unfold colF, F, world3. repeat split; intros; unfold v6add, v6scale, v6zero; cbn [lin ang]; apply v6_ext; cbn [lin ang]; apply v3_ext; cbn; ring.
    - intros i c Hi Hc. unfold X. pose proof (HI i Hi) as Hi'. assert (idx_v m i + c < m_nv m) by (apply (KinFacts2.inRange m W Vm i c Hi'); rewrite (nvE_nv m W Vm i (NM i Hi') Hi'); exact Hc).
      destruct (Nat.ltb_spec (idx_v m i + c) (m_nv m)); [|lia]. rewrite (P1 i c Hi Hc). reflexivity.
    - intros k Hk. unfold X. destruct (Nat.ltb_spec k (m_nv m)) as [H|]; [|reflexivity]. destruct (dof_owner m W k H) as (i & c & Hi & Hc & ->).
      specialize (Hk i ltac:(apply in_seq; lia)). rewrite (within_own m W NM i i c Hi Hi Hc), Nat.eqb_refl in Hk. discriminate. }
  rewrite cols3_lin, (colsMul_ext _ _ X), EX.
  - unfold l. rewrite sumF_lin3, seq_sum. f_equal. lia.
  - intros k Hk. unfold X. destruct (Nat.ltb_spec k (m_nv m)); [reflexivity | lia].
Qed.

(* the velocity of the centre of mass along a motion *)
Hypothesis FA : forall i, 0 < i < m_njoints m -> fixedAxes (jm_type (joint m i)).
Theorem vcom_deriv (q v : R -> vec) w v' t d res : (forall s, validState m (q s)) -> moves m q w t -> accelerates m v v' t ->
  subtreeMass m 0 <> 0%R -> (forall j, 0 < j < m_njoints m -> subtreeMass m j <> 0%R) -> ready (q t) (v t) d ->
  deriv3 (fun s => subtreeVel m (q s) (v s) 0) (v3add (cols3Mul (m_nv m) (getCenterOfMassVelocityDerivatives m d res) w) (subtreeVel m (q t) v' 0)) t.
Proof.
  intros Hq Hm Hv H0 HM HD. unfold subtreeVel at 1.
  set (D := fun b => v3add (lin (sumF (fun i => mkV6 (eff (q t) (v t) w b i) v3zero) (tl (support m b)))) (comVel m (q t) v' b)).
  assert (DB : forall b, 0 < b < m_njoints m -> deriv3 (fun s => comVel m (q s) (v s) b) (D b) t).
  { intros b Hb. apply (deriv3_ext _ (fun s => world3 (worldVel m (q s) (v s) b) (bodyCom m (q s) b))); [intros s; symmetry; apply (world_com m W T Vm); [apply Hq | lia]|].
    destruct (vel_world eps m Bt Vm NM FA q v w v' t Hq Hm Hv b ltac:(lia)) as [D1 D2].
    assert (DC : deriv3 (fun s => bodyCom m (q s) b) (comVel m (q t) w b) t) by (unfold bodyCom; apply (point_vel (fun s => worldPl m (q s) b)), (worldPl_twist m W T Vm); [apply Hq | exact Hm | lia]).
    eapply deriv3_eq; [apply deriv3_add; [exact D1|]; apply deriv3_cross; [exact D2 | exact DC]|].
    unfold D. rewrite eff_sum, <- (worldVel_share m W T Vm (q t) w b (Hq t) ltac:(lia)), <- (world_com m W T Vm (q t) w b (Hq t) ltac:(lia)), <- (world_com m W T Vm (q t) v' b (Hq t) ltac:(lia)), (worldVel_share m W T Vm (q t) v' b (Hq t) ltac:(lia)).
    unfold sumT. change (sumF (fun i => share m (q t) v' i)) with (sumF (share m (q t) v')).
    generalize (sumF (fun i => vqT m (q t) (v t) b i (share m (q t) w i)) (tl (support m b))) (sumF (share m (q t) v') (tl (support m b))) (worldVel m (q t) w b) (worldVel m (q t) (v t) b) (bodyCom m (q t) b). clear. intros A B C E c. unfold world3. apply v3_ext; cbn; ring. }
  eapply deriv3_eq.
  - apply deriv3_scale; [apply deriv_const|]. apply (deriv_subBodies3 m 0 (fun s b => v3scale (mass (inertiaOf m b)) (comVel m (q s) (v s) b)) (fun b => v3scale (mass (inertiaOf m b)) (D b))).
    intros b Hb. eapply deriv3_eq; [apply deriv3_scale; [apply deriv_const | exact (DB b Hb)]|]. apply v3_ext; cbn; ring.
  - apply v3_dot_ext. intros e. rewrite !v3dot_add_r, (product (q t) (v t) d res w (Hq t) HM HD e). unfold subtreeVel. rewrite !v3dot_scale_r.
    assert (ED : v3dot e (subBodies3 m 0 (fun b => v3scale (mass (inertiaOf m b)) (D b))) = (v3dot e (subBodies3 m 0 (fun b => v3scale (mass (inertiaOf m b)) (lin (sumF (fun i => mkV6 (eff (q t) (v t) w b i) v3zero) (tl (support m b)))))) + v3dot e (subBodies3 m 0 (fun b => v3scale (mass (inertiaOf m b)) (comVel m (q t) v' b))))%R).
    { rewrite !subBodies3_dot, <- subBodies_add. apply subBodies_ext. intros b Hb _. unfold D. rewrite !v3dot_scale_r, v3dot_add_r. ring. }
    rewrite ED, (bodies_eff (q t) (v t) w (Hq t) e).
    assert (ES : sumN (m_njoints m) (fun i => if 0 <? i then v3dot e (colF (q t) (v t) i (share m (q t) w i)) else 0%R) = (/ subtreeMass m 0 * sumN (m_njoints m) (fun i => if 0 <? i then subBodies m i (fun b => mass (inertiaOf m b) * v3dot e (eff (q t) (v t) w b i))%R else 0%R))%R).
    { rewrite <- sumN_scale. apply sumN_ext. intros i Hi. destruct (Nat.ltb_spec 0 i); [|ring]. rewrite (joint_eff (q t) (v t) w i e (Hq t) ltac:(lia) (HM i ltac:(lia))). unfold colF. rewrite !v3dot_scale_r. unfold Rdiv. ring. }
    rewrite ES. ring.
Qed.
End CD.
