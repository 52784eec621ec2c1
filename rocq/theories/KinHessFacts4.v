(* The kinematic Hessian contracted with a velocity is the time variation of the Jacobian, and its derivative along a motion. *)
Require Import Reals List Arith ZArith Lia Lra Bool Sorted FunctionalExtensionality.
From Verif Require Import Vec3 Spatial Inertia SpatialFacts Joints Spec_Joints Deriv JointFacts Model Spec_Model ModelFacts ModelTree ModelFacts2 ModelFacts3 Sums Data Kinematics Spec_Kin Spec_Mass KinFacts KinFacts3 TreeSums MassFacts Crba CrbaFacts CrbaFacts2 Jacobian Spec_Jac JacFacts JacFacts2 JacFacts3 JacFacts5 JacFacts6 DccrbaFacts RneaDerFacts3 KinDerFacts KinDerFacts2 Spec_KinDer KinHess KinHessFacts KinHessFacts2 KinHessFacts3.
Import ListNotations.
Local Open Scope nat_scope.
Local Open Scope bool_scope.

Lemma colsMul_unit (X : Jac) k : forall n, colsMul n X (unitv k) = if k <? n then X k else v6zero.
Proof.
  assert (E : forall n, colsMul n X (unitv k) = if k <? n then X k else v6zero); [|exact E].
  induction n as [|n IH]; [reflexivity|]. cbn [colsMul]. rewrite IH. unfold unitv. destruct (Nat.eqb_spec k n) as [->|Hn].
  - rewrite Nat.ltb_irrefl. destruct (Nat.ltb_spec n (S n)); [|lia]. generalize (X n). intros. sring.
  - destruct (Nat.ltb_spec k n), (Nat.ltb_spec k (S n)); try lia; [generalize (X k) (X n) | generalize (X n)]; intros; sring.
Qed.

Section KH.
Variable eps : R.
Variable m : Model.
Hypothesis Bt : Built eps m.
Let W : wellFormed m := Built_wf eps m Bt.
Let T : treeInv m := Built_tree eps m Bt.
Hypothesis Vm : validModel m.
Hypothesis NM : noMimic m.
Hypothesis Pos : noRigidJoint m.

Lemma tail_anc i j : j < m_njoints m -> In i (tl (support m j)) -> anc m i j = true.
Proof.
  intros Hj Hi. apply (tail_onPath eps m Bt i j Hj) in Hi as [H0 H]. apply inb_In. now apply (onPath_support m i j T Hj).
Qed.
Lemma path_split i : forall j, j < m_njoints m -> In i (tl (support m j)) -> exists r, tl (support m j) = tl (support m i) ++ r /\ forall s, In s r -> i < s.
Proof.
  refine (tree_ind m _ W _ _); [rewrite (support_0 m W T); contradiction|]. intros j Hj IH Hi. pose proof (wf_parent _ W j Hj) as Hp. rewrite (tail_step m W T j Hj) in Hi. apply in_app_or in Hi as [Hi|[<-|[]]].
  - destruct (IH Hi) as (r & E & H). exists (r ++ [j]). split; [rewrite (tail_step m W T j Hj), E; now rewrite app_assoc|]. intros s Hs. apply in_app_or in Hs as [Hs|[<-|[]]]; [exact (H s Hs)|].
    pose proof (tail_range m W T (parent m j) i ltac:(lia) Hi). lia.
  - exists []. split; [now rewrite app_nil_r | contradiction].
Qed.
Lemma form_on F j i a J0 : j < m_njoints m -> In i (tl (support m j)) -> a < nvOf m i -> jacForm m F (tl (support m j)) J0 (idx_v m i + a) = F i a.
Proof.
  intros Hj Hi Ha. pose proof (tl_range m W T j Hj) as HR. pose proof (tl_nodup m W T j Hj) as ND. set (l := tl (support m j)) in *.
  rewrite <- (set_all m W Vm F l J0 _ ND HR (fun i Hi => NM i (HR i Hi))). unfold updAll.
  destruct (pass_cols eps m Bt NM (fun x : Jac => x) (fun J i => updCols (fun _ x => x) (idx_v m i) (nvEOf m i) (F i) J) (fun _ => true) F l ND HR) with (x0 := J0) as [P1 P2].
  - intros x s e Hs. unfold updCols. rewrite (nvE_nv m W Vm s (NM s (HR s Hs)) (HR s Hs)). cbn [andb]. reflexivity.
  - rewrite P1 by assumption. reflexivity.
Qed.

Section Q.
Variable q : vec.
Variable d : Data.
Variable K0 : Hess.
Hypothesis Hq : validState m q.
Let D := fst (computeJointKinematicHessiansQ m d q K0).
Let K := snd (computeJointKinematicHessiansQ m d q K0).
Lemma J_col i a : 0 < i < m_njoints m -> a < nvOf m i -> co (gl D) F_J (idx_v m i + a) = worldCol m q i a.
Proof. intros Hi Ha. rewrite <- (idx_vE_v m W Vm NM i Hi). apply (joints_cols m W T d q i a Hi). now rewrite (nvE_nv m W Vm i (NM i Hi) Hi). Qed.
Lemma K_col j o k : 0 < j < m_njoints m -> In o (pathCols m j) -> In k (pathCols m j) -> o <> k -> K o k = motion_cross (co (gl D) F_J o) (co (gl D) F_J k).
Proof.
  intros Hj Ho Hk Hn. apply (pathCols_in m j) in Ho as (s & c & Hs & Hc & ->); [|lia]. apply (pathCols_in m j) in Hk as (i & a & Hi & Ha & ->); [|lia].
  pose proof (tail_range m W T j s ltac:(lia) Hs). pose proof (tail_range m W T j i ltac:(lia) Hi).
  apply (hessians_spec eps m Bt NM (co (gl D) F_J) K0 s c); [lia | exact Hc|]. exists i, a. repeat split; try lia.
  destruct (anc_comparable m W T i s j ltac:(lia) (tail_anc i j ltac:(lia) Hi) (tail_anc s j ltac:(lia) Hs)); auto.
Qed.
Definition hLin (rf : RefFrame) (P : SE3) (i : nat) (y : V6) (s : nat) (x : V6) : V6 :=
  match rf with
  | WORLD => if s <=? i then motion_cross x y else v6zero
  | LOCAL_WORLD_ALIGNED => v6sub (if s <=? i then toFrame LOCAL_WORLD_ALIGNED P (motion_cross x y) else v6zero) (mkV6 (atLast P x y) v3zero)
  | LOCAL => if i <? s then motion_actInv P (motion_cross y x) else v6zero
  end.
Lemma hLin_lin rf P i y s : lin6 (hLin rf P i y s).
Proof.
  destruct rf; unfold hLin.
  - destruct (s <=? i); repeat split; intros; sring.
  - destruct (i <? s); [apply (lin6_comp (motion_actInv P) (motion_cross y)); [apply lin6_actInv | apply lin6_cross] | repeat split; intros; sring].
  - unfold atLast. cbn [toFrame]. destruct (s <=? i); repeat split; intros; generalize (trans P); intros; sring.
Qed.
Lemma parent_above i s j : j < m_njoints m -> In i (tl (support m j)) -> In s (tl (support m j)) -> i < s -> 0 < parent m s.
Proof.
  intros Hj Hi Hs L. pose proof (tail_range m W T j s Hj Hs). pose proof (tail_range m W T j i Hj Hi).
  destruct (anc_comparable m W T i s j Hj (tail_anc i j Hj Hi) (tail_anc s j Hj Hs)) as [A|A].
  - rewrite (anc_step m W T i s ltac:(lia)) in A. destruct (Nat.eqb_spec i s); [lia|]. cbn [orb] in A. pose proof (wf_parent _ W s ltac:(lia)) as Hp. pose proof (anc_le m W T i (parent m s) ltac:(lia) A). lia.
  - pose proof (anc_le m W T s i ltac:(lia) A). lia.
Qed.
Lemma commute_cols i a c : commutingAxes m q -> 0 < i < m_njoints m -> 0 < parent m i -> a < nvOf m i -> c < nvOf m i -> motion_cross (worldCol m q i a) (worldCol m q i c) = v6zero.
Proof.
  intros C Hi Hp Ha Hc. unfold worldCol. pose proof (jS_lenE m W Vm q noVel i Hi) as L. rewrite (nvE_nv m W Vm i (NM i Hi) Hi) in L.
  rewrite <- !(Smul_delta (jS (jointAt m q noVel i))) by lia.
  rewrite <- motion_act_cross by (apply (worldPl_rot m W T Vm q i Hq); lia).
  pose proof (C i Hi Hp (fun k => unitv a (k - idx_v m i)) (fun k => unitv c (k - idx_v m i))) as E. unfold jointTwist in E.
  replace (shift (idx_v m i) (fun k => unitv a (k - idx_v m i))) with (unitv a) in E. 2: { extensionality k. unfold shift. f_equal. lia. }
  replace (shift (idx_v m i) (fun k => unitv c (k - idx_v m i))) with (unitv c) in E. 2: { extensionality k. unfold shift. f_equal. lia. }
  rewrite E. apply motion_act_0.
Qed.
Lemma getter_col rf j i a s c : 0 < j < m_njoints m -> (rf = LOCAL -> commutingAxes m q) -> In i (tl (support m j)) -> In s (tl (support m j)) -> a < nvOf m i -> c < nvOf m s ->
  getJointKinematicHessian m D K j rf zeroH (idx_v m s + c) (idx_v m i + a) = hLin rf (worldPl m q j) i (worldCol m q i a) s (worldCol m q s c).
Proof.
  intros Hj C Hi Hs Ha Hc. pose proof (tail_range m W T j s ltac:(lia) Hs) as Rs. pose proof (tail_range m W T j i ltac:(lia) Hi) as Ri.
  assert (Hk : In (idx_v m i + a) (pathCols m j)) by (apply (pathCols_in m j); [lia|]; now exists i, a).
  rewrite (getter_on eps m Bt Vm NM Pos D K j Hj (fun o k => K_col j o k Hj) rf s c (idx_v m i + a) Hs Hc Hk).
  replace (pl (rows D j) F_oMi) with (worldPl m q j) by (symmetry; apply (oMi_joints eps m Bt d q j Hj)).
  assert (LE : (idx_v m s <=? idx_v m i + a) = (s <=? i)).
  { destruct (Nat.leb_spec s i) as [L|L].
    - apply Nat.leb_le. destruct (Nat.eq_dec s i) as [->|]; [lia|]. pose proof (idx_lt eps m Bt NM s i ltac:(lia) ltac:(lia) ltac:(lia)). lia.
    - apply Nat.leb_gt. pose proof (idx_lt eps m Bt NM i s ltac:(lia) ltac:(lia) ltac:(lia)). lia. }
  destruct rf; cbn [hCol hLin]; rewrite ?LE, ?J_col by (assumption || lia); try reflexivity.
  destruct (Nat.ltb_spec i s) as [L|L].
  - pose proof (parent_above i s j ltac:(lia) Hi Hs L) as Hp. destruct (Nat.ltb_spec 0 (parent m s)); [|lia]. cbn [negb]. pose proof (idx_lt eps m Bt NM i s ltac:(lia) ltac:(lia) ltac:(lia)).
    destruct (Nat.leb_spec (idx_v m i + a) (idx_v m s + nvOf m s - 1)); [reflexivity | lia].
  - destruct (Nat.ltb_spec 0 (parent m s)) as [Hp|Hp]; cbn [negb]; [|reflexivity]. destruct (Nat.leb_spec (idx_v m i + a) (idx_v m s + nvOf m s - 1)) as [L2|L2]; [|reflexivity].
    assert (i = s) as <-. { destruct (Nat.eq_dec i s) as [|Hn]; [assumption|]. pose proof (idx_lt eps m Bt NM s i ltac:(lia) ltac:(lia) ltac:(lia)). lia. }
    rewrite (commute_cols i a c) by (auto || lia). apply motion_actInv_0.
Qed.
Lemma getter_contract rf j w k d1 : 0 < j < m_njoints m -> (rf = LOCAL -> commutingAxes m q) ->
  colsMul (m_nv m) (fun o => getJointKinematicHessian m D K j rf zeroH o k) w = getJointJacobianTimeVariation m (computeJointJacobiansTimeVariation m d1 q w) j rf zeroJ k.
Proof.
  intros Hj C. rewrite (jointTV_at m W T Vm Pos _ q w j rf zeroJ k (jointsTV_varied m W T Vm d1 q w Hq) Hj).
  pose proof (tl_range m W T j ltac:(lia)) as HR. pose proof (tl_nodup m W T j ltac:(lia)) as ND.
  destruct (in_dec Nat.eq_dec k (pathCols m j)) as [Hk|Hk].
  - apply (pathCols_in m j) in Hk as (i & a & Hi & Ha & ->); [|lia]. pose proof (HR i Hi) as Ri. rewrite (form_on _ j i a zeroJ) by (assumption || lia).
    rewrite (cols_product eps m Bt Vm NM (hLin rf (worldPl m q j) i (worldCol m q i a)) q (tl (support m j)) _ w ND HR).
    + pose proof (worldPl_rot m W T Vm q j Hq ltac:(lia)) as HRj. pose proof (worldVel_sum m W T Vm q w i Hq ltac:(lia)) as Vi. pose proof (worldVel_sum m W T Vm q w j Hq ltac:(lia)) as Vj.
      destruct (path_split i j ltac:(lia) Hi) as (r & E & Hr). fold (share m q w) in Vi, Vj.
      change (fun i0 : nat => motion_act (worldPl m q i0) (jointTwist m q w i0)) with (share m q w) in Vi, Vj.
      assert (LE : forall s, In s (tl (support m i)) -> s <= i) by (intros s Hs; pose proof (tail_range m W T i s ltac:(lia) Hs); lia).
      set (y := worldCol m q i a). set (P := worldPl m q j) in *. unfold dForm. fold y. destruct rf; cbn [hLin].
      * rewrite E, sumF_app, (sumF_ext _ (fun s => motion_cross (share m q w s) y) (tl (support m i))) by (intros s Hs; apply LE in Hs; now destruct (Nat.leb_spec s i); [|lia]).
        rewrite (sumF_zero _ r) by (intros s Hs; apply Hr in Hs; now destruct (Nat.leb_spec s i); [lia|]). rewrite sumF_crossR, <- Vi. cbn [toFrame dFrame_corr]. generalize (motion_cross (worldVel m q w i) y). intros. sring.
      * assert (E2 : sumF (fun s => if i <? s then motion_actInv P (motion_cross y (share m q w s)) else v6zero) (tl (support m j)) = motion_actInv P (motion_cross y (sumF (share m q w) r))).
        { rewrite E, sumF_app, (sumF_zero _ (tl (support m i))) by (intros s Hs; apply LE in Hs; now destruct (Nat.ltb_spec i s); [lia|]).
          rewrite (sumF_ext _ (fun s => motion_actInv P (motion_cross y (share m q w s))) r) by (intros s Hs; apply Hr in Hs; now destruct (Nat.ltb_spec i s); [|lia]).
          rewrite <- (sumF_lin (fun x => motion_actInv P (motion_cross y x))) by (apply (lin6_comp (motion_actInv P) (motion_cross y)); [apply lin6_actInv | apply lin6_cross]).
          generalize (sumF (fun s => motion_actInv P (motion_cross y (share m q w s))) r). intros. sring. }
        rewrite E2. cbn [toFrame dFrame_corr]. rewrite E, sumF_app, <- Vi in Vj.
        replace (bodyVel m q w j) with (motion_actInv P (worldVel m q w j)) by (unfold worldVel, P; apply motion_actInv_act, HRj).
        rewrite <- motion_actInv_cross by exact HRj. rewrite <- motion_actInv_sub. f_equal. rewrite Vj. generalize (worldVel m q w i) (sumF (share m q w) r) y. intros. sring.
      * rewrite sumF_sub. rewrite E at 1. rewrite sumF_app, (sumF_ext _ (fun s => toFrame LOCAL_WORLD_ALIGNED P (motion_cross (share m q w s) y)) (tl (support m i))) by (intros s Hs; apply LE in Hs; now destruct (Nat.leb_spec s i); [|lia]).
        rewrite (sumF_zero _ r) by (intros s Hs; apply Hr in Hs; now destruct (Nat.leb_spec s i); [lia|]).
        rewrite (sumF_lin (toFrame LOCAL_WORLD_ALIGNED P) (fun s => motion_cross (share m q w s) y)) by apply lin6_toFrame. rewrite sumF_crossR, <- Vi.
        rewrite (sumF_lin (fun x => mkV6 (atLast P x y) v3zero)) by (unfold atLast; repeat split; intros; generalize (trans P); intros; sring). rewrite <- Vj.
        unfold atLast. cbn [toFrame dFrame_corr]. generalize (worldVel m q w i) (worldVel m q w j) y (trans P). intros. sring.
    + intros s. apply hLin_lin.
    + intros s c Hs Hc. now apply getter_col.
    + intros o Ho. apply (getter_off eps m Bt Vm NM Pos D K j Hj). left. intros h. apply (pathCols_in m j) in h as (s & c & Hs & Hc & ->); [|lia]. specialize (Ho s Hs). apply within_false in Ho. lia.
  - rewrite (form_untouched eps m Bt).
    2: lia.
    2: { intros i H0 Hi Hr. apply Hk. apply (pathCols_in m j); [lia|].
      assert (Hi' : In i (tl (support m j))) by (apply (tail_onPath eps m Bt i j); [lia | auto]). pose proof (HR i Hi') as Ri. unfold readsV in Hr. rewrite (nvE_nv m W Vm i (NM i Ri) Ri) in Hr.
      exists i, (k - idx_v m i). split; [exact Hi' | lia]. }
    rewrite (colsMul_ext _ _ (fun _ => v6zero)); [|intros o _; apply (getter_off eps m Bt Vm NM Pos D K j Hj); now right].
    unfold zeroJ. clear. induction (m_nv m) as [|n IH]; [reflexivity|]. cbn [colsMul]. rewrite IH. sring.
Qed.
(* LOCAL, on the columns of joint j itself: the contraction is the bracket of the column with the twist of the joint, the variation of the Jacobian is 0 *)
Lemma local_own j a w d1 : 0 < j < m_njoints m -> 0 < parent m j -> a < nvOf m j ->
  colsMul (m_nv m) (fun o => getJointKinematicHessian m D K j LOCAL zeroH o (idx_v m j + a)) w = motion_cross (nth a (jS (jointAt m q noVel j)) v6zero) (jointTwist m q w j) /\
  getJointJacobianTimeVariation m (computeJointJacobiansTimeVariation m d1 q w) j LOCAL zeroJ (idx_v m j + a) = v6zero.
Proof.
  intros Hj Hp Ha. pose proof (tl_range m W T j ltac:(lia)) as HR. pose proof (tl_nodup m W T j ltac:(lia)) as ND.
  pose proof (worldPl_rot m W T Vm q j Hq ltac:(lia)) as HRj.
  assert (Hin : In j (tl (support m j))) by (rewrite (tail_step m W T j Hj); apply in_or_app; right; now left). split.
  - rewrite (cols_product eps m Bt Vm NM (fun s x => if s =? j then motion_actInv (worldPl m q j) (motion_cross (worldCol m q j a) x) else v6zero) q (tl (support m j)) _ w ND HR).
    + rewrite (tail_step m W T j Hj), sumF_app, sumF_zero.
      * unfold sumF. cbn [map sumV6]. rewrite Nat.eqb_refl. unfold share, worldCol. rewrite <- motion_act_cross by exact HRj. rewrite motion_actInv_act by apply HRj.
        generalize (motion_cross (nth a (jS (jointAt m q noVel j)) v6zero) (jointTwist m q w j)). intros. sring.
      * intros s Hs. pose proof (wf_parent _ W j Hj) as Hpj. pose proof (tail_range m W T (parent m j) s ltac:(lia) Hs). destruct (Nat.eqb_spec s j); [lia | reflexivity].
    + intros s. destruct (s =? j); [apply (lin6_comp (motion_actInv (worldPl m q j)) (motion_cross (worldCol m q j a))); [apply lin6_actInv | apply lin6_cross] | repeat split; intros; sring].
    + intros s c Hs Hc. pose proof (tail_range m W T j s ltac:(lia) Hs) as Rs.
      assert (Hk : In (idx_v m j + a) (pathCols m j)) by (apply (pathCols_in m j); [lia|]; now exists j, a).
      rewrite (getter_on eps m Bt Vm NM Pos D K j Hj (fun o k => K_col j o k Hj) LOCAL s c (idx_v m j + a) Hs Hc Hk).
      replace (pl (rows D j) F_oMi) with (worldPl m q j) by (symmetry; apply (oMi_joints eps m Bt d q j Hj)). cbn [hCol]. rewrite !J_col by (assumption || lia).
      destruct (Nat.eqb_spec s j) as [->|Hn].
      * destruct (Nat.ltb_spec 0 (parent m j)); [|lia]. cbn [negb]. destruct (Nat.leb_spec (idx_v m j + a) (idx_v m j + nvOf m j - 1)); [reflexivity | lia].
      * destruct (0 <? parent m s); cbn [negb]; [|reflexivity]. pose proof (idx_lt eps m Bt NM s j ltac:(lia) ltac:(lia) ltac:(lia)). destruct (Nat.leb_spec (idx_v m j + a) (idx_v m s + nvOf m s - 1)); [lia | reflexivity].
    + intros o Ho. apply (getter_off eps m Bt Vm NM Pos D K j Hj). left. intros h. apply (pathCols_in m j) in h as (s & c & Hs & Hc & ->); [|lia]. specialize (Ho s Hs). apply within_false in Ho. lia.
  - rewrite (jointTV_at m W T Vm Pos _ q w j LOCAL zeroJ _ (jointsTV_varied m W T Vm d1 q w Hq) Hj), (form_on _ j j a zeroJ) by (assumption || lia).
    unfold dForm. cbn [toFrame dFrame_corr]. rewrite motion_actInv_cross by exact HRj. unfold worldVel. rewrite motion_actInv_act by apply HRj. generalize (motion_cross (bodyVel m q w j) (motion_actInv (worldPl m q j) (worldCol m q j a))). intros. sring.
Qed.
End Q.

(* the derivative of the columns of the Jacobian along a motion *)
Lemma hessian_derivative d d0 K0 (q : R -> vec) v t j rf k : (forall i, 0 < i < m_njoints m -> fixedAxes (jm_type (joint m i))) ->
  (forall s, validState m (q s)) -> moves m q v t -> 0 < j < m_njoints m -> (rf = LOCAL -> commutingAxes m (q t)) -> k < m_nv m ->
  deriv6 (fun s => getJointJacobian m (computeJointJacobians m d (q s)) j rf zeroJ k)
    (colsMul (m_nv m) (fun o => getJointKinematicHessian m (fst (computeJointKinematicHessiansQ m d0 (q t) K0)) (snd (computeJointKinematicHessiansQ m d0 (q t) K0)) j rf zeroH o k) v) t.
Proof.
  intros FA Hq Hm Hj C Hk. rewrite (getter_contract (q t) d0 K0 (Hq t) rf j v k d0 Hj C).
  pose proof (joint_variation eps m Bt Vm Pos d d0 q v (unitv k) t j rf FA Hq Hm Hj) as D.
  rewrite colsMul_unit in D. destruct (Nat.ltb_spec k (m_nv m)); [|lia]. eapply deriv6_ext; [|exact D]. intros s. cbv beta. rewrite colsMul_unit. now destruct (Nat.ltb_spec k (m_nv m)); [|lia].
Qed.
End KH.
