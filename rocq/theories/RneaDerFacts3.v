(* The derivatives of inverse dynamics along a change of configuration. *)
Require Import Reals List Arith ZArith Lia Lra Bool.
From Verif Require Import Vec3 Spatial Inertia InertiaFacts SpatialFacts Joints Spec_Joints Deriv JointFacts JointFacts2 Model Spec_Model ModelFacts ModelTree ModelFacts2 Sums Data Kinematics Spec_Kin Spec_Mass KinFacts KinFacts2 KinFacts3 Spec_Dyn Rnea DynFacts DynFacts2 TreeSums MassFacts Crba CrbaFacts CrbaFacts2 Jacobian Spec_Jac JacFacts JacFacts2 JacFacts3 JacFacts5 CholFacts4 Com ComFacts2 Dccrba DccrbaFacts DccrbaFacts2 DataX Coriolis DerSums CoriolisFacts CoriolisFacts2 CoriolisFacts3 CoriolisFacts4 RneaDer DerPass RneaDerFacts RneaDerFacts2.
Import ListNotations.
Local Open Scope nat_scope.
Local Open Scope bool_scope.

Lemma deriv6_cross f g a b t : deriv6 f a t -> deriv6 g b t -> deriv6 (fun s => motion_cross (f s) (g s)) (v6add (motion_cross a (g t)) (motion_cross (f t) b)) t.
Proof.
  intros [F1 F2] [G1 G2]. split.
  - eapply deriv3_eq; [exact (deriv3_add _ _ _ _ _ (deriv3_cross _ _ _ _ _ F1 G2) (deriv3_cross _ _ _ _ _ F2 G1))|]. apply v3_ext; cbn; ring.
  - eapply deriv3_eq; [exact (deriv3_cross _ _ _ _ _ F2 G2)|]. apply v3_ext; cbn; ring.
Qed.
Lemma deriv6_fcross f g a b t : deriv6 f a t -> deriv6 g b t -> deriv6 (fun s => force_cross (f s) (g s)) (v6add (force_cross a (g t)) (force_cross (f t) b)) t.
Proof.
  intros [F1 F2] [G1 G2]. split.
  - eapply deriv3_eq; [exact (deriv3_cross _ _ _ _ _ F2 G1)|]. apply v3_ext; cbn; ring.
  - eapply deriv3_eq; [exact (deriv3_add _ _ _ _ _ (deriv3_cross _ _ _ _ _ F2 G2) (deriv3_cross _ _ _ _ _ F1 G1))|]. apply v3_ext; cbn; ring.
Qed.
Lemma deriv6_sub f g a b t : deriv6 f a t -> deriv6 g b t -> deriv6 (fun s => v6sub (f s) (g s)) (v6sub a b) t.
Proof.
  intros F G. eapply deriv6_ext; [|eapply deriv6_eq; [exact (deriv6_add _ _ _ _ _ F (deriv6_scale _ _ _ _ _ (deriv_const (-1) t) G))|]].
  - intros s. sring.
  - sring.
Qed.
Lemma dY_vec Y V x : m6vec (addForceCross (inertia_mul Y V) (inertia_variation Y V)) x = v6add (v6sub (force_cross V (inertia_mul Y x)) (inertia_mul Y (motion_cross V x))) (force_cross x (inertia_mul Y V)).
Proof. now rewrite addForceCross_vec, variation_vec. Qed.

Lemma motion_actInv_sub M x y : motion_actInv M (v6sub x y) = v6sub (motion_actInv M x) (motion_actInv M y).
Proof. replace (v6sub x y) with (v6add x (v6scale (-1) y)) by sring. rewrite motion_actInv_add, motion_actInv_scale. generalize (motion_actInv M x) (motion_actInv M y). sring. Qed.
Lemma motion_actInv_cross M x y : isRotation (rot M) -> motion_actInv M (motion_cross x y) = motion_cross (motion_actInv M x) (motion_actInv M y).
Proof. intros HR. rewrite <- (motion_actInv_act M (motion_cross (motion_actInv M x) (motion_actInv M y))), motion_act_cross, !motion_act_actInv by first [exact HR | apply HR]. reflexivity. Qed.
Lemma motion_force_dot M x f : isRotation (rot M) -> v6dot (motion_act M x) (force_act M f) = v6dot x f.
Proof. intros HR. rewrite <- act_dot_dual, motion_actInv_act by first [exact HR | apply HR]. reflexivity. Qed.

Section Calc.
Variable eps : R.
Variable m : Model.
Hypothesis Bt : Built eps m.
Let W : wellFormed m := Built_wf eps m Bt.
Let T : treeInv m := Built_tree eps m Bt.
Hypothesis Vm : validModel m.
Hypothesis NM : noMimic m.

(* rate of the velocity of body b, seen by the body, when the configuration moves with velocity w and the joint velocity is u *)
Definition DVw q w u b : V6 := sumF (fun i => motion_cross (worldVel m q u (parent m i)) (share m q w i)) (tl (support m b)).
Definition DAw q w v a b : V6 := sumF (fun i => v6add (motion_cross (wAgf m q v a (parent m i)) (share m q w i)) (motion_cross (worldVel m q v (parent m i)) (motion_cross (worldVel m q v (parent m i)) (share m q w i)))) (tl (support m b)).

Lemma sumF_tail g b : 0 < b < m_njoints m -> sumF g (tl (support m b)) = v6add (sumF g (tl (support m (parent m b)))) (g b).
Proof. intros Hb. rewrite (tail_step m W T b Hb), sumF_app. f_equal. unfold sumF. cbn [map sumV6]. apply v6add_0_r. Qed.
Lemma sumF_root g : sumF g (tl (support m 0)) = v6zero.
Proof. rewrite (support_0 m W T). reflexivity. Qed.

Lemma DVw_eq q w u b : validState m q -> b < m_njoints m -> v6sub (dWorldVel m q w u b) (motion_cross (worldVel m q w b) (worldVel m q u b)) = DVw q w u b.
Proof.
  intros Hq. revert b. refine (tree_ind m _ W _ _).
  - unfold dWorldVel, DVw. rewrite !sumF_root, (worldVel_0 m W T), (worldVel_0 m W T). sring.
  - intros b Hb IH. unfold dWorldVel, DVw in *. rewrite !(sumF_tail _ b Hb), <- IH. unfold dShare. rewrite (worldVel_step m W T Vm q w b Hq Hb), (worldVel_step m W T Vm q u b Hq Hb). fold (share m q w b) (share m q u b).
    generalize (sumF (fun i => motion_cross (worldVel m q w i) (share m q u i)) (tl (support m (parent m b)))) (worldVel m q w (parent m b)) (worldVel m q u (parent m b)) (share m q w b) (share m q u b). sring.
Qed.

Hypothesis FA : forall i, 0 < i < m_njoints m -> fixedAxes (jm_type (joint m i)).
Lemma acc_world q v a b : validState m q -> b < m_njoints m -> motion_act (worldPl m q b) (bodyAcc m q v a b) = v6add (worldVel m q a b) (dWorldVel m q v v b).
Proof. intros Hq Hb. rewrite <- (acc_share m W T Vm q v a b Hq Hb), (fixed_biasSum eps m Bt Vm q v b FA Hq Hb). apply v6add_0_r. Qed.
Lemma wAgf_step q v a b : validState m q -> 0 < b < m_njoints m -> wAgf m q v a b = v6add (v6add (wAgf m q v a (parent m b)) (share m q a b)) (motion_cross (worldVel m q v b) (share m q v b)).
Proof.
  intros Hq Hb. pose proof (wf_parent _ W b Hb) as Hp. unfold wAgf. rewrite !acc_world by (assumption || lia). rewrite (worldVel_step m W T Vm q a b Hq Hb). unfold dWorldVel. rewrite (sumF_tail _ b Hb). unfold dShare. fold (share m q a b).
  generalize (sumF (fun i => motion_cross (worldVel m q v i) (share m q v i)) (tl (support m (parent m b)))) (worldVel m q a (parent m b)) (share m q a b) (motion_cross (worldVel m q v b) (share m q v b)) (m_gravity m). sring.
Qed.
(* rate of the acceleration of body b in the world *)
Definition dAcc q w v a b : V6 := v6add (dWorldVel m q w a b) (sumF (fun i => v6add (motion_cross (dWorldVel m q w v i) (share m q v i)) (motion_cross (worldVel m q v i) (motion_cross (worldVel m q w i) (share m q v i)))) (tl (support m b))).
Lemma DAw_eq q w v a b : validState m q -> b < m_njoints m ->
  v6add (v6sub (dAcc q w v a b) (motion_cross (worldVel m q w b) (wAgf m q v a b))) (motion_cross (worldVel m q v b) (DVw q w v b)) = DAw q w v a b.
Proof.
  intros Hq. revert b. refine (tree_ind m _ W _ _).
  - unfold dAcc, dWorldVel, DAw. rewrite !sumF_root, !(worldVel_0 m W T). sring.
  - intros b Hb IH. pose proof (wf_parent _ W b Hb) as Hp.
    assert (E1 : dAcc q w v a b = v6add (dAcc q w v a (parent m b)) (v6add (motion_cross (worldVel m q w b) (share m q a b)) (v6add (motion_cross (dWorldVel m q w v b) (share m q v b)) (motion_cross (worldVel m q v b) (motion_cross (worldVel m q w b) (share m q v b)))))).
    { unfold dAcc. unfold dWorldVel at 1. rewrite !(sumF_tail _ b Hb). fold (dWorldVel m q w a (parent m b)). unfold dShare.
      generalize (dWorldVel m q w a (parent m b)) (sumF (fun i => v6add (motion_cross (dWorldVel m q w v i) (share m q v i)) (motion_cross (worldVel m q v i) (motion_cross (worldVel m q w i) (share m q v i)))) (tl (support m (parent m b)))) (motion_cross (worldVel m q w b) (share m q a b)) (motion_cross (dWorldVel m q w v b) (share m q v b)) (motion_cross (worldVel m q v b) (motion_cross (worldVel m q w b) (share m q v b))). sring. }
    assert (E2 : dWorldVel m q w v b = v6add (DVw q w v b) (motion_cross (worldVel m q w b) (worldVel m q v b))).
    { rewrite <- DVw_eq by (assumption || lia). generalize (dWorldVel m q w v b) (motion_cross (worldVel m q w b) (worldVel m q v b)). sring. }
    assert (E3 : DVw q w v b = v6add (DVw q w v (parent m b)) (motion_cross (worldVel m q v (parent m b)) (share m q w b))) by (unfold DVw; now rewrite (sumF_tail _ b Hb)).
    unfold DAw in *. rewrite (sumF_tail _ b Hb), <- IH, E1, E2, E3, (wAgf_step q v a b Hq Hb), (worldVel_step m W T Vm q w b Hq Hb), (worldVel_step m W T Vm q v b Hq Hb). fold (share m q w b) (share m q v b).
    generalize (dAcc q w v a (parent m b)) (wAgf m q v a (parent m b)) (DVw q w v (parent m b)) (worldVel m q w (parent m b)) (worldVel m q v (parent m b)) (share m q w b) (share m q v b) (share m q a b). clear. sring.
Qed.

(* ---- along a motion of the configuration ---- *)
Lemma hasTwist_b (q : R -> vec) w t b : validState m (q t) -> moves m q w t -> b < m_njoints m -> hasTwist (fun s => worldPl m (q s) b) (bodyVel m (q t) w b) t.
Proof. intros. now apply (worldPl_twist m W T Vm). Qed.
Lemma local_deriv (q : R -> vec) w t b x x' : (forall s, validState m (q s)) -> moves m q w t -> b < m_njoints m -> deriv6 x x' t ->
  deriv6 (fun s => motion_actInv (worldPl m (q s) b) (x s)) (motion_actInv (worldPl m (q t) b) (v6sub x' (motion_cross (worldVel m (q t) w b) (x t)))) t.
Proof.
  intros Hq Hm Hb Hx. pose proof (worldPl_rot m W T Vm (q t) b (Hq t) Hb) as HR.
  eapply deriv6_eq; [exact (deriv_actInv _ _ _ _ _ HR (hasTwist_b q w t b (Hq t) Hm Hb) Hx)|].
  rewrite motion_actInv_sub, motion_actInv_cross by first [exact HR | apply HR]. unfold worldVel. rewrite motion_actInv_act by first [exact HR | apply HR]. reflexivity.
Qed.
Lemma sumF_add f g l : sumF (fun i => v6add (f i) (g i)) l = v6add (sumF f l) (sumF g l).
Proof. apply sumV6_map_add. Qed.
Lemma Smul_deriv S (x : R -> vec) x' t : (forall k, k < length S -> deriv (fun s => x s k) (x' k) t) -> deriv6 (fun s => Smul S (x s)) (Smul S x') t.
Proof.
  revert x x'. induction S as [|c S IH]; intros x x' H; cbn [Smul].
  - apply deriv6_const.
  - apply deriv6_add.
    + eapply deriv6_eq; [exact (deriv6_scale _ _ _ _ _ (H 0 ltac:(cbn; lia)) (deriv6_const c t))|]. sring.
    + apply (IH (fun s k => x s (Datatypes.S k)) (fun k => x' (Datatypes.S k))). intros k Hk. apply (H (Datatypes.S k)). cbn; lia.
Qed.
Lemma twist_deriv q0 (u : R -> vec) u' t i : accelerates m u u' t -> 0 < i < m_njoints m -> deriv6 (fun s => jointTwist m q0 (u s) i) (jointTwist m q0 u' i) t.
Proof.
  intros Hu Hi. unfold jointTwist. apply (Smul_deriv _ (fun s => shift (idx_v m i) (u s)) (shift (idx_v m i) u')). intros k Hk. rewrite (jS_len m W Vm NM q0 noVel i Hi) in Hk.
  pose proof (idx_v_bound m W NM i Hi). unfold shift. apply Hu. lia.
Qed.
Lemma act_deriv (M : R -> SE3) (x : R -> V6) V x' t : isRotation (rot (M t)) -> hasTwist M V t -> deriv6 x x' t -> deriv6 (fun s => motion_act (M s) (x s)) (motion_act (M t) (v6add (motion_cross V (x t)) x')) t.
Proof.
  intros HR [H1 H2] [H3 H4].
  assert (HA : deriv3 (fun s => m3vec (rot (M s)) (ang (x s))) (m3vec (rot (M t)) (v3add (ang x') (v3cross (ang V) (ang (x t))))) t).
  { eapply deriv3_eq; [apply deriv3_vec; [exact H1 | exact H4]|]. cbv beta. rewrite m3vec_mul, skew_vec, <- m3vec_add_r. f_equal. apply v3add_comm. }
  split; unfold motion_act; cbn [lin ang].
  - eapply deriv3_eq.
    + apply deriv3_add; [apply deriv3_vec; [exact H1 | exact H3]|]. apply deriv3_cross; [exact H2 | exact HA].
    + cbv beta. cbn [v6add motion_cross lin ang]. rewrite m3vec_mul, skew_vec. rewrite <- (rotation_cross _ _ _ HR).
      rewrite !m3vec_add_r. 
      generalize (m3vec (rot (M t)) (v3cross (ang V) (lin (x t)))) (m3vec (rot (M t)) (lin x')) (m3vec (rot (M t)) (v3cross (lin V) (ang (x t)))).
      generalize (m3vec (rot (M t)) (ang x')) (m3vec (rot (M t)) (v3cross (ang V) (ang (x t)))). generalize (trans (M t)). clear. vring.
  - eapply deriv3_eq; [exact HA|]. cbn [v6add motion_cross ang]. f_equal. apply v3add_comm.
Qed.
(* the wrench of body b *)
Lemma force_deriv Y (A V : R -> V6) A' V' t : deriv6 A A' t -> deriv6 V V' t ->
  deriv6 (fun s => v6add (inertia_mul Y (A s)) (force_cross (V s) (inertia_mul Y (V s)))) (v6add (inertia_mul Y (v6add A' (motion_cross (V t) V'))) (m6vec (addForceCross (inertia_mul Y (V t)) (inertia_variation Y (V t))) V')) t.
Proof.
  intros HA HV. eapply deriv6_eq; [apply deriv6_add; [apply deriv6_inertia, HA | apply deriv6_fcross; [exact HV | apply deriv6_inertia, HV]]|].
  rewrite dY_vec, inertia_mul_add. generalize (inertia_mul Y A') (inertia_mul Y (motion_cross (V t) V')) (force_cross V' (inertia_mul Y (V t))) (force_cross (V t) (inertia_mul Y V')). sring.
Qed.
Lemma dY_act P Y V x : isRotation (rot P) -> force_act P (m6vec (addForceCross (inertia_mul Y V) (inertia_variation Y V)) x) =
  m6vec (addForceCross (inertia_mul (inertia_act P Y) (motion_act P V)) (inertia_variation (inertia_act P Y) (motion_act P V))) (motion_act P x).
Proof.
  intros HR. rewrite !dY_vec, !inertia_act_mul, <- motion_act_cross, inertia_act_mul, <- !force_act_cross by first [exact HR | apply HR]. now rewrite force_act_add, force_act_sub.
Qed.
(* velocity and acceleration vary as well *)
Section Var.
Variables (q v a : R -> vec) (w v' a' : vec) (t : R).
Hypothesis Hq : forall s, validState m (q s).
Hypothesis Hm : moves m q w t.
Hypothesis Hv : accelerates m v v' t.
Hypothesis Ha : accelerates m a a' t.

Lemma share_var u u' i : accelerates m u u' t -> 0 < i < m_njoints m -> deriv6 (fun s => share m (q s) (u s) i) (v6add (dShare m (q t) w (u t) i) (share m (q t) u' i)) t.
Proof.
  intros Hu Hi. pose proof (worldPl_rot m W T Vm (q t) i (Hq t) ltac:(lia)) as HRi.
  apply (deriv6_ext _ (fun s => motion_act (worldPl m (q s) i) (jointTwist m (q t) (u s) i))); [intros s; unfold share; now rewrite (twist_fixed m FA (q s) (q t) (u s) i Hi)|].
  eapply deriv6_eq; [apply (act_deriv (fun s => worldPl m (q s) i) _ (bodyVel m (q t) w i)); [exact HRi | apply hasTwist_b; [apply Hq | exact Hm | lia] | exact (twist_deriv (q t) u u' t i Hu Hi)]|].
  unfold dShare, share, worldVel. rewrite motion_act_add, motion_act_cross by exact HRi. reflexivity.
Qed.
Lemma worldVel_var u u' b : accelerates m u u' t -> b < m_njoints m -> deriv6 (fun s => worldVel m (q s) (u s) b) (v6add (dWorldVel m (q t) w (u t) b) (worldVel m (q t) u' b)) t.
Proof.
  intros Hu Hb. apply (deriv6_ext _ (fun s => sumF (share m (q s) (u s)) (tl (support m b)))); [intros s; apply (worldVel_share m W T Vm); [apply Hq | exact Hb]|].
  rewrite (worldVel_share m W T Vm (q t) u' b (Hq t) Hb). unfold dWorldVel. rewrite <- sumF_add.
  apply (deriv6_sumF (fun s => share m (q s) (u s))). intros i Hi. apply share_var; [exact Hu | apply (tl_range m W T b Hb i Hi)].
Qed.
Lemma vel_deriv u u' b : accelerates m u u' t -> b < m_njoints m ->
  deriv6 (fun s => bodyVel m (q s) (u s) b) (motion_actInv (worldPl m (q t) b) (v6add (DVw (q t) w (u t) b) (worldVel m (q t) u' b))) t.
Proof.
  intros Hu Hb. eapply deriv6_ext; [|eapply deriv6_eq; [exact (local_deriv q w t b (fun s => worldVel m (q s) (u s) b) _ Hq Hm Hb (worldVel_var u u' b Hu Hb))|]].
  - intros s. unfold worldVel. rewrite motion_actInv_act by (apply (worldPl_rot m W T Vm); [apply Hq | exact Hb]). reflexivity.
  - rewrite <- DVw_eq by (apply Hq || exact Hb). f_equal. generalize (dWorldVel m (q t) w (u t) b) (worldVel m (q t) u' b) (motion_cross (worldVel m (q t) w b) (worldVel m (q t) (u t) b)). sring.
Qed.
(* the share of the velocity in the rate of the acceleration *)
Definition DVv q v v' b : V6 := sumF (fun i => v6add (motion_cross (worldVel m q v i) (share m q v' i)) (motion_cross (worldVel m q v (parent m i)) (share m q v' i))) (tl (support m b)).
Lemma DVv_eq q0 v0 x b : validState m q0 -> b < m_njoints m ->
  v6add (sumF (fun i => v6add (motion_cross (worldVel m q0 x i) (share m q0 v0 i)) (motion_cross (worldVel m q0 v0 i) (share m q0 x i))) (tl (support m b))) (motion_cross (worldVel m q0 v0 b) (worldVel m q0 x b)) = DVv q0 v0 x b.
Proof.
  intros H0. revert b. refine (tree_ind m _ W _ _).
  - unfold DVv. rewrite !sumF_root, !(worldVel_0 m W T). sring.
  - intros b Hb IH. unfold DVv in *. rewrite !(sumF_tail _ b Hb), <- IH, (worldVel_step m W T Vm q0 v0 b H0 Hb), (worldVel_step m W T Vm q0 x b H0 Hb). fold (share m q0 v0 b) (share m q0 x b).
    match goal with |- context [sumF ?f (tl (support m (parent m b)))] => generalize (sumF f (tl (support m (parent m b)))) end.
    generalize (worldVel m q0 v0 (parent m b)) (worldVel m q0 x (parent m b)) (share m q0 v0 b) (share m q0 x b). sring.
Qed.
Definition agf' b : V6 := v6add (v6add (DAw (q t) w (v t) (a t) b) (DVv (q t) (v t) v' b)) (worldVel m (q t) a' b).
Lemma agf_deriv b : b < m_njoints m ->
  deriv6 (fun s => v6sub (bodyAcc m (q s) (v s) (a s) b) (gravityAt m (q s) b))
    (motion_actInv (worldPl m (q t) b) (v6sub (agf' b) (motion_cross (worldVel m (q t) (v t) b) (v6add (DVw (q t) w (v t) b) (worldVel m (q t) v' b))))) t.
Proof.
  intros Hb.
  set (S1 := sumF (fun i => v6add (motion_cross (dWorldVel m (q t) w (v t) i) (share m (q t) (v t) i)) (motion_cross (worldVel m (q t) (v t) i) (motion_cross (worldVel m (q t) w i) (share m (q t) (v t) i)))) (tl (support m b))).
  set (S2 := sumF (fun i => v6add (motion_cross (worldVel m (q t) v' i) (share m (q t) (v t) i)) (motion_cross (worldVel m (q t) (v t) i) (share m (q t) v' i))) (tl (support m b))).
  assert (D : deriv6 (fun s => wAgf m (q s) (v s) (a s) b) (v6add (v6add (dWorldVel m (q t) w (a t) b) (worldVel m (q t) a' b)) (v6add S1 S2)) t).
  { apply (deriv6_ext _ (fun s => v6sub (v6add (worldVel m (q s) (a s) b) (sumF (fun i => motion_cross (worldVel m (q s) (v s) i) (share m (q s) (v s) i)) (tl (support m b)))) (m_gravity m))).
    + intros s. unfold wAgf. now rewrite acc_world.
    + eapply deriv6_eq; [apply deriv6_sub; [apply deriv6_add; [exact (worldVel_var a a' b Ha Hb)|]|apply deriv6_const]|].
      * instantiate (1 := v6add S1 S2). unfold S1, S2. rewrite <- sumF_add. apply (deriv6_sumF (fun s i => motion_cross (worldVel m (q s) (v s) i) (share m (q s) (v s) i))).
        intros i Hi. pose proof (tl_range m W T b Hb i Hi) as Hir.
        eapply deriv6_eq; [apply deriv6_cross; [exact (worldVel_var v v' i Hv ltac:(lia)) | exact (share_var v v' i Hv Hir)]|]. cbv beta. unfold dShare.
        generalize (dWorldVel m (q t) w (v t) i) (worldVel m (q t) v' i) (share m (q t) (v t) i) (worldVel m (q t) (v t) i) (worldVel m (q t) w i) (share m (q t) v' i). sring.
      * apply v6sub_0_r. }
  eapply deriv6_ext; [|eapply deriv6_eq; [exact (local_deriv q w t b _ _ Hq Hm Hb D)|]].
  - intros s. pose proof (worldPl_rot m W T Vm (q s) b (Hq s) Hb) as HR. unfold wAgf. rewrite motion_actInv_sub, motion_actInv_act by first [exact HR | apply HR]. reflexivity.
  - f_equal. unfold agf'. rewrite <- (DAw_eq (q t) w (v t) (a t) b (Hq t) Hb), <- (DVv_eq (q t) (v t) v' b (Hq t) Hb). fold S2. unfold dAcc. fold S1.
    generalize (dWorldVel m (q t) w (a t) b) (worldVel m (q t) a' b) S1 S2 (motion_cross (worldVel m (q t) w b) (wAgf m (q t) (v t) (a t) b)) (worldVel m (q t) (v t) b) (DVw (q t) w (v t) b) (worldVel m (q t) v' b). clear. sring.
Qed.
Lemma bodyForce_deriv b : b < m_njoints m -> exists F',
  deriv6 (fun s => bodyForce m (q s) (v s) (a s) b) F' t /\
  force_act (worldPl m (q t) b) F' = v6add (inertia_mul (worldInertia m (q t) b) (agf' b)) (m6vec (dYb m (q t) (v t) b) (v6add (DVw (q t) w (v t) b) (worldVel m (q t) v' b))).
Proof.
  intros Hb. pose proof (worldPl_rot m W T Vm (q t) b (Hq t) Hb) as HR. eexists. split.
  - unfold bodyForce. apply (force_deriv (inertiaOf m b) (fun s => v6sub (bodyAcc m (q s) (v s) (a s) b) (gravityAt m (q s) b)) (fun s => bodyVel m (q s) (v s) b)); [exact (agf_deriv b Hb) | exact (vel_deriv v v' b Hv Hb)].
  - cbv beta. rewrite force_act_add, dY_act, <- inertia_act_mul, motion_act_add, motion_act_cross, !motion_act_actInv by first [exact HR | apply HR]. fold (worldVel m (q t) (v t) b) (worldInertia m (q t) b) (dYb m (q t) (v t) b).
    f_equal. f_equal. generalize (agf' b) (motion_cross (worldVel m (q t) (v t) b) (v6add (DVw (q t) w (v t) b) (worldVel m (q t) v' b))). sring.
Qed.
End Var.
(* the differential of tau . u *)
Definition dqForm q w v a fx u : R := bodies m (fun b => v6dot (DVw q w u b) (wF m q v a fx b) + v6dot (worldVel m q u b) (v6add (m6vec (dYb m q v b) (DVw q w v b)) (inertia_mul (worldInertia m q b) (DAw q w v a b))))%R.
Definition dvForm q v v' u : R := bodies m (fun b => v6dot (worldVel m q u b) (v6add (m6vec (dYb m q v b) (worldVel m q v' b)) (inertia_mul (worldInertia m q b) (DVv q v v' b)))).
Definition daForm q a' u : R := bodies m (fun b => v6dot (worldVel m q u b) (inertia_mul (worldInertia m q b) (worldVel m q a' b))).
Lemma power_deriv (q v a : R -> vec) w v' a' fx u t : (forall s, validState m (q s)) -> moves m q w t -> accelerates m v v' t -> accelerates m a a' t ->
  deriv (fun s => power m (q s) (fun i => v6sub (bodyForce m (q s) (v s) (a s) i) (fx i)) u) (dqForm (q t) w (v t) (a t) fx u + dvForm (q t) (v t) v' u + daForm (q t) a' u)%R t.
Proof.
  intros Hq Hm Hv Ha. unfold power, dqForm, dvForm, daForm. unfold bodies. rewrite <- !sumN_add.
  apply (deriv_sumN _ (fun b s => v6dot (bodyVel m (q s) u (S b)) (v6sub (bodyForce m (q s) (v s) (a s) (S b)) (fx (S b))))).
  intros k Hk. set (b := S k). assert (Hb : b < m_njoints m) by (unfold b; lia). clearbody b. destruct (bodyForce_deriv q v a w v' a' t Hq Hm Hv Ha b Hb) as (F' & HF & EF).
  pose proof (worldPl_rot m W T Vm (q t) b (Hq t) Hb) as HR.
  assert (Hu : accelerates m (fun _ => u) (fun _ => 0%R) t) by (intros l _; apply deriv_const).
  assert (U0 : worldVel m (q t) (fun _ => 0%R) b = v6zero).
  { unfold worldVel. rewrite bodyVel_zero. apply motion_act_0. }
  eapply deriv_eq; [exact (deriv_dot6 _ _ _ _ _ (vel_deriv q w t Hq Hm (fun _ => u) _ b Hu Hb) (deriv6_sub _ _ _ _ _ HF (deriv6_const (fx b) t)))|]. cbv beta.
  rewrite v6sub_0_r, U0, v6add_0_r. rewrite !Rplus_assoc. f_equal.
  - unfold wF. rewrite <- (motion_force_dot (worldPl m (q t) b) (motion_actInv _ _) _ HR), motion_act_actInv by first [exact HR | apply HR]. reflexivity.
  - rewrite <- (motion_force_dot (worldPl m (q t) b) (bodyVel _ _ _ _) _ HR), EF. fold (worldVel m (q t) u b). unfold agf'. rewrite !inertia_mul_add, m6vec_add_r, !v6dot_add_r. ring.
Qed.
End Calc.
