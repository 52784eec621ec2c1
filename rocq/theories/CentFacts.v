(* Centroidal momentum and its time variation. *)
Require Import Reals List Arith ZArith Lia Lra Bool.
From Verif Require Import Vec3 Spatial Inertia InertiaFacts Joints Spec_Joints Deriv JointFacts JointFacts2 Model Spec_Model ModelFacts ModelTree ModelFacts2 Sums Data Kinematics Spec_Kin Spec_Mass KinFacts KinFacts2 KinFacts3 Spec_Dyn Rnea DynFacts DynFacts2 TreeSums MassFacts Crba CrbaFacts CrbaFacts2 Spec_Jac JacFacts JacFacts3 Spec_Com Com ComFacts ComFacts2 ComFacts3 ComFacts4 Centroidal.
Import ListNotations.
Local Open Scope nat_scope.

Lemma toCom_atPoint c f : toCom c f = atPoint c f.
Proof. apply v6_ext; apply v3_ext; cbn; ring. Qed.
Lemma subBodies6_dot m r f e : v6dot e (subBodies6 m r f) = subBodies m r (fun b => v6dot e (f b)).
Proof.
  assert (C : forall a b, v3dot a b = v3dot b a) by (intros; unfold v3dot; ring).
  unfold subBodies6. unfold v6dot at 1. cbn [lin ang]. rewrite (C _ (lin e)), (C _ (ang e)), !subBodies3_dot, <- subBodies_add.
  apply subBodies_ext. intros b _ _. unfold v6dot. now rewrite (C (lin e)), (C (ang e)).
Qed.
Lemma deriv3_sub f g a b t : deriv3 f a t -> deriv3 g b t -> deriv3 (fun s => v3sub (f s) (g s)) (v3sub a b) t.
Proof. intros (A1 & A2 & A3) (B1 & B2 & B3). repeat split; cbn [vx vy vz v3sub]; now apply deriv_minus. Qed.
Lemma deriv_subBodies6 m r (f : R -> nat -> V6) f' t : (forall b, 0 < b < m_njoints m -> deriv6 (fun s => f s b) (f' b) t) ->
  deriv6 (fun s => subBodies6 m r (f s)) (subBodies6 m r f') t.
Proof.
  intros H. split; cbn [lin ang subBodies6]; [apply (deriv_subBodies3 m r (fun s b => lin (f s b))) | apply (deriv_subBodies3 m r (fun s b => ang (f s b)))]; intros b Hb; apply (H b Hb).
Qed.

Section Cent.
Variable m : Model.
Hypothesis W : wellFormed m.
Hypothesis T : treeInv m.
Hypothesis Vm : validModel m.

Lemma lin_momentum q v b : lin (worldMomentum m q v b) = v3scale (mass (inertiaOf m b)) (comVel m q v b).
Proof.
  unfold worldMomentum, comVel. generalize (worldPl m q b) (inertiaOf m b) (bodyVel m q v b). clear. intros M Y V. rewrite <- m3vec_scale.
  unfold force_act, inertia_mul. cbn [lin]. f_equal. apply v3_ext; cbn; ring.
Qed.
Lemma lin_total q v : subtreeMass m 0 <> 0%R -> lin (totalMomentum m q v) = v3scale (subtreeMass m 0) (subtreeVel m q v 0).
Proof.
  intros HM. unfold totalMomentum, subBodies6, subtreeVel. cbn [lin].
  rewrite (subBodies3_ext m 0 _ (fun b => v3scale (mass (inertiaOf m b)) (comVel m q v b))) by (intros; apply lin_momentum).
  apply v3_ext; cbn; field; exact HM.
Qed.

Definition phiF (q : vec) tg e (s : Data) j := v6dot e (force_act (worldPl m q j) (mo (rows s j) tg)).
Lemma mom_pass tv q d : validState m q -> placed m q d ->
  let t := momPass tv m d in
  sc (rows t 0) F_mass = subtreeMass m 0 /\
  p3 (rows t 0) F_com = subBodies3 m 0 (fun b => v3scale (mass (inertiaOf m b)) (bodyCom m q b)) /\
  (forall v, (forall i, 0 < i < m_njoints m -> mo (rows d i) F_v = bodyVel m q v i) -> mo (rows t 0) F_h = totalMomentum m q v) /\
  (tv = true -> forall v a, (forall i, 0 < i < m_njoints m -> mo (rows d i) F_v = bodyVel m q v i /\ mo (rows d i) F_a = bodyAcc m q v a i) ->
     mo (rows t 0) F_f = subBodies6 m 0 (fun i => force_act (worldPl m q i) (v6add (inertia_mul (inertiaOf m i) (bodyAcc m q v a i))
        (force_cross (bodyVel m q v i) (inertia_mul (inertiaOf m i) (bodyVel m q v i)))))).
Proof.
  intros Hq HP. cbv zeta. unfold momPass.
  destruct (upward_rows m (fun i r _ => momRow tv m i r) d W) as (_ & H0 & H).
  change (upward m (rowStep m _) d) with (upward m (fun d i => onRow d i (momRow tv m i)) d) in H0, H.
  set (d1 := upward m _ d) in *. clearbody d1. set (s0 := onRow d1 0 (momZero tv)).
  assert (R0 : rows s0 0 = momZero tv (rows d 0)) by (unfold s0; rewrite onRow_at, H0; reflexivity).
  assert (R1 : forall i, 0 < i < m_njoints m -> rows s0 i = momRow tv m i (rows d i)).
  { intros i Hi. unfold s0. rewrite onRow_at. destruct (Nat.eqb_spec 0 i); [lia | apply H, Hi]. }
  clearbody s0. clear H0 H d1.
  pose (Inv := fun k (s : Data) => (forall i, 0 < i < m_njoints m -> pl (rows s i) F_liMi = relPl m q i) /\
    accInv m phiM s0 true k s /\ (forall e, accInv m (phiC m q e) s0 true k s) /\
    (forall e, accInv m (phiF q F_h e) s0 true k s) /\ (tv = true -> forall e, accInv m (phiF q F_f e) s0 true k s)).
  set (t := downward m _ s0).
  assert (HI : Inv 1 t).
  { apply downward_inv; [apply (wf_n _ W) | |].
    - split; [intros i Hi; rewrite (R1 i Hi); unfold momRow; destruct tv; mem; apply (HP i Hi)|]. repeat split; intros; apply accInv_start.
    - intros i s Hi (I0 & I1 & I2 & I3 & I4). pose proof (wf_parent _ W i Hi) as Hp.
      set (s' := onRow s (parent m i) _).
      assert (ER : forall k, rows s' k = if parent m i =? k then momAdd tv (rows s k) (rows s i) else rows s k).
      { intros k. unfold s'. rewrite onRow_at. destruct (Nat.eqb_spec (parent m i) k) as [<-|]; reflexivity. }
      clearbody s'.
      assert (EW : worldPl m q i = se3_mul (worldPl m q (parent m i)) (relPl m q i)) by (apply (worldPl_step m W T); exact Hi).
      assert (EL := I0 i Hi).
      assert (FM : forall x y, force_act (worldPl m q (parent m i)) (v6add x (force_act (relPl m q i) y)) = v6add (force_act (worldPl m q (parent m i)) x) (force_act (worldPl m q i) y)).
      { intros x y. rewrite EW, force_act_add, force_act_mul; [reflexivity|]. apply (worldPl_rot m W T Vm q); [exact Hq | lia]. }
      split; [|split; [|split; [|split]]].
      + intros k Hk. rewrite ER. destruct (parent m i =? k); [unfold momAdd, addMass; destruct tv; mem|]; apply I0, Hk.
      + apply (accInv_step m W _ _ _ _ _ _ Hi I1). intros k Hk _. unfold phiM. rewrite ER. destruct (parent m i =? k); [unfold momAdd, addMass; destruct tv; mem; reflexivity | ring].
      + intros e. apply (accInv_step m W _ _ _ _ _ _ Hi (I2 e)). intros k Hk _. unfold phiC. rewrite ER.
        destruct (Nat.eqb_spec (parent m i) k) as [<-|]; [|ring].
        assert (EA : p3 (momAdd tv (rows s (parent m i)) (rows s i)) F_com = v3add (p3 (rows s (parent m i)) F_com) (v3add (m3vec (rot (relPl m q i)) (p3 (rows s i) F_com)) (v3scale (sc (rows s i) F_mass) (trans (relPl m q i)))) /\
          sc (momAdd tv (rows s (parent m i)) (rows s i)) F_mass = (sc (rows s (parent m i)) F_mass + sc (rows s i) F_mass)%R).
        { unfold momAdd, addMass. destruct tv; mem; rewrite EL; split; reflexivity. }
        destruct EA as [-> ->]. rewrite EW.
        generalize (worldPl m q (parent m i)) (relPl m q i) (p3 (rows s i) F_com) (p3 (rows s (parent m i)) F_com) (sc (rows s i) F_mass) (sc (rows s (parent m i)) F_mass). clear.
        intros A B c c' x x'. unfold v3dot. cbn. ring.
      + intros e. apply (accInv_step m W _ _ _ _ _ _ Hi (I3 e)). intros k Hk _. unfold phiF. rewrite ER.
        destruct (Nat.eqb_spec (parent m i) k) as [<-|]; [|ring].
        assert (EA : mo (momAdd tv (rows s (parent m i)) (rows s i)) F_h = v6add (mo (rows s (parent m i)) F_h) (force_act (relPl m q i) (mo (rows s i) F_h))).
        { unfold momAdd, addMass. destruct tv; mem; rewrite EL; reflexivity. }
        rewrite EA, FM. apply v6dot_add_r.
      + intros Htv e. apply (accInv_step m W _ _ _ _ _ _ Hi (I4 Htv e)). intros k Hk _. unfold phiF. rewrite ER.
        destruct (Nat.eqb_spec (parent m i) k) as [<-|]; [|ring].
        assert (EA : mo (momAdd tv (rows s (parent m i)) (rows s i)) F_f = v6add (mo (rows s (parent m i)) F_f) (force_act (relPl m q i) (mo (rows s i) F_f))).
        { unfold momAdd, addMass. rewrite Htv. mem. rewrite EL. reflexivity. }
        rewrite EA, FM. apply v6dot_add_r. }
  clearbody t. destruct HI as (_ & I1 & I2 & I3 & I4). pose proof (wf_n _ W) as Hn.
  pose proof (worldPl_0 m W T q) as P0.
  assert (FA0 : forall f, force_act (worldPl m q 0) f = f) by (intros f; rewrite P0; apply v6_ext; apply v3_ext; cbn; ring).
  split; [|split; [|split]].
  - change (phiM t 0 = subtreeMass m 0). rewrite (acc_complete m W T _ _ _ _ _ I1 0 Hn eq_refl (le_n _)), <- (subBodies_subSum m W).
    + apply subBodies_ext. intros b Hb _. unfold phiM. rewrite (R1 b Hb). unfold momRow. destruct tv; reflexivity.
    + unfold phiM. rewrite R0. unfold momZero. destruct tv; reflexivity.
  - apply v3_dot_ext. intros e. transitivity (phiC m q e t 0).
    { unfold phiC. rewrite P0. unfold v3dot; cbn; ring. }
    rewrite (acc_complete m W T _ _ _ _ _ (I2 e) 0 Hn eq_refl (le_n _)), subBodies3_dot, <- (subBodies_subSum m W).
    + apply subBodies_ext. intros b Hb _. unfold phiC. rewrite (R1 b Hb).
      assert (EA : p3 (momRow tv m b (rows d b)) F_com = v3scale (mass (inertiaOf m b)) (lever (inertiaOf m b)) /\ sc (momRow tv m b (rows d b)) F_mass = mass (inertiaOf m b))
        by (unfold momRow; destruct tv; split; reflexivity).
      destruct EA as [-> ->]. unfold bodyCom. generalize (worldPl m q b) (inertiaOf m b). clear. intros M Y. unfold v3dot; cbn; ring.
    + unfold phiC. rewrite R0. assert (EA : p3 (momZero tv (rows d 0)) F_com = v3zero /\ sc (momZero tv (rows d 0)) F_mass = 0%R) by (unfold momZero; destruct tv; split; reflexivity).
      destruct EA as [-> ->]. unfold v3dot; cbn; ring.
  - intros v Hv. apply v6_dot_ext. intros e. transitivity (phiF q F_h e t 0); [unfold phiF; now rewrite FA0|].
    rewrite (acc_complete m W T _ _ _ _ _ (I3 e) 0 Hn eq_refl (le_n _)). unfold totalMomentum. rewrite subBodies6_dot, <- (subBodies_subSum m W).
    + apply subBodies_ext. intros b Hb _. unfold phiF, worldMomentum. rewrite (R1 b Hb), <- (Hv b Hb). unfold momRow. destruct tv; reflexivity.
    + unfold phiF. rewrite FA0, R0. assert (EA : mo (momZero tv (rows d 0)) F_h = v6zero) by (unfold momZero; destruct tv; reflexivity). rewrite EA. apply v6dot_0_r.
  - intros Htv v a Hv. apply v6_dot_ext. intros e. transitivity (phiF q F_f e t 0); [unfold phiF; now rewrite FA0|].
    rewrite (acc_complete m W T _ _ _ _ _ (I4 Htv e) 0 Hn eq_refl (le_n _)), subBodies6_dot, <- (subBodies_subSum m W).
    + apply subBodies_ext. intros b Hb _. unfold phiF. rewrite (R1 b Hb). destruct (Hv b Hb) as [<- <-]. unfold momRow. rewrite Htv. reflexivity.
    + unfold phiF. rewrite FA0, R0. assert (EA : mo (momZero tv (rows d 0)) F_f = v6zero) by (unfold momZero; rewrite Htv; reflexivity). rewrite EA. apply v6dot_0_r.
Qed.
Lemma momEnd_eff tv t : let c := v3scale (/ sc (rows t 0) F_mass) (p3 (rows t 0) F_com) in
  p3 (rows (momEnd tv t) 0) F_com = c /\ gv (gl (momEnd tv t)) F_hg = atPoint c (mo (rows t 0) F_h) /\
  (tv = true -> gv (gl (momEnd tv t)) F_dhg = atPoint c (mo (rows t 0) F_f)) /\
  p3 (rows (momEnd tv t) 0) F_vcom = v3scale (/ sc (rows t 0) F_mass) (lin (mo (rows t 0) F_h)).
Proof.
  cbv zeta. rewrite <- v3div_scale, <- !toCom_atPoint, <- v3div_scale. unfold momEnd. cbv zeta.
  set (d1 := onRow t 0 _).
  assert (E1 : rows d1 0 = setP3 (rows t 0) F_com (v3div (sc (rows t 0) F_mass) (p3 (rows t 0) F_com))) by reflexivity.
  clearbody d1. destruct tv.
  - repeat split; try (rewrite onRow_at; cbn [Nat.eqb rows setGl]; rewrite E1; reflexivity).
    + cbn. rewrite E1. reflexivity.
    + intros _. cbn. rewrite E1. reflexivity.
  - repeat split; try (rewrite onRow_at; cbn [Nat.eqb rows setGl]; rewrite E1; reflexivity); try discriminate.
    cbn. rewrite E1. reflexivity.
Qed.
Theorem momentum_spec q v d : validState m q -> subtreeMass m 0 <> 0%R ->
  let d' := computeCentroidalMomentum m d q v in
  p3 (rows d' 0) F_com = subtreeCom m q 0 /\ gv (gl d') F_hg = atPoint (subtreeCom m q 0) (totalMomentum m q v) /\
  p3 (rows d' 0) F_vcom = subtreeVel m q v 0.
Proof.
  intros Hq HM. cbv zeta. unfold computeCentroidalMomentum, centroidalMomentum.
  destruct (fk1_vel m W d q v) as (V0 & V1 & _). pose proof (fk1_placed m W T d q v) as HP. 
  pose proof (vel_body m W T Vm q v _ Hq V0 V1) as HV. set (d0 := forwardKinematics1 m d q v) in *. clearbody d0.
  destruct (mom_pass false q d0 Hq HP) as (A1 & A2 & A3 & _). specialize (A3 v (fun i Hi => HV i (proj2 Hi))).
  destruct (momEnd_eff false (momPass false m d0)) as (B1 & B2 & _ & B4). rewrite B1, B2, B4, A1, A2, A3.
  split; [reflexivity|]. split; [reflexivity|]. rewrite (lin_total q v HM). apply v3_ext; cbn; field; exact HM.
Qed.
Theorem variation_spec q v a d : validState m q -> subtreeMass m 0 <> 0%R ->
  let d' := computeCentroidalMomentumTimeVariation m d q v a in
  p3 (rows d' 0) F_com = subtreeCom m q 0 /\ gv (gl d') F_hg = atPoint (subtreeCom m q 0) (totalMomentum m q v) /\
  p3 (rows d' 0) F_vcom = subtreeVel m q v 0 /\
  gv (gl d') F_dhg = atPoint (subtreeCom m q 0) (subBodies6 m 0 (fun i => force_act (worldPl m q i) (v6add (inertia_mul (inertiaOf m i) (bodyAcc m q v a i))
        (force_cross (bodyVel m q v i) (inertia_mul (inertiaOf m i) (bodyVel m q v i)))))).
Proof.
  intros Hq HM. cbv zeta. unfold computeCentroidalMomentumTimeVariation, centroidalMomentumTimeVariation.
  destruct (fk2_all m W T d q v a) as (HP & V0 & A0 & V1 & AE).
  pose proof (vel_body m W T Vm q v _ Hq V0 V1) as HV. pose proof (acc_body m W T Vm q v a _ Hq V0 V1 A0 AE) as HA.
  set (d0 := forwardKinematics2 m d q v a) in *. clearbody d0.
  destruct (mom_pass true q d0 Hq HP) as (A1 & A2 & A3 & A4). specialize (A3 v (fun i Hi => HV i (proj2 Hi))).
  specialize (A4 eq_refl v a (fun i Hi => conj (HV i (proj2 Hi)) (HA i (proj2 Hi)))).
  destruct (momEnd_eff true (momPass true m d0)) as (B1 & B2 & B3 & B4). specialize (B3 eq_refl). rewrite B1, B2, B3, B4, A1, A2, A3, A4.
  split; [reflexivity|]. split; [reflexivity|]. split; [|reflexivity]. rewrite (lin_total q v HM). apply v3_ext; cbn; field; exact HM.
Qed.
Theorem momentum_variation (q v : R -> vec) a t d d' : (forall s, validState m (q s)) -> moves m q (v t) t -> accelerates m v a t -> subtreeMass m 0 <> 0%R ->
  deriv6 (fun s => gv (gl (computeCentroidalMomentum m d (q s) (v s))) F_hg) (gv (gl (computeCentroidalMomentumTimeVariation m d' (q t) (v t) a)) F_dhg) t.
Proof.
  intros Hq Hm Ha HM. destruct (variation_spec (q t) (v t) a d' (Hq t) HM) as (_ & _ & _ & ->).
  eapply deriv6_ext; [intros s; apply (momentum_spec (q s) (v s) d (Hq s) HM)|].
  assert (D : deriv6 (fun s => totalMomentum m (q s) (v s)) (subBodies6 m 0 (fun i => force_act (worldPl m (q t) i) (v6add (inertia_mul (inertiaOf m i) (bodyAcc m (q t) (v t) a i))
        (force_cross (bodyVel m (q t) (v t) i) (inertia_mul (inertiaOf m i) (bodyVel m (q t) (v t) i)))))) t).
  { unfold totalMomentum. apply (deriv_subBodies6 m 0 (fun s b => worldMomentum m (q s) (v s) b)). intros b Hb.
    apply (momentum_deriv m W T Vm (inRange m W Vm)); [exact Hq | exact Hm | exact Ha | lia]. }
  pose proof (subtreeCom_deriv m W T Vm q (v t) t 0 (Hq t) Hm) as DC.
  pose proof (lin_total (q t) (v t) HM) as EL.
  set (F := subBodies6 m 0 _) in *. clearbody F. destruct D as [D1 D2].
  split; unfold atPoint; cbn [lin ang].
  - exact D1.
  - eapply deriv3_eq; [apply deriv3_sub; [exact D2 | apply deriv3_cross; [exact DC | exact D1]]|].
    cbv beta. change (subBodies3 m 0 (fun b => lin (worldMomentum m (q t) (v t) b))) with (lin (totalMomentum m (q t) (v t))). rewrite EL. generalize (subtreeVel m (q t) (v t) 0) (subtreeCom m (q t) 0) (subtreeMass m 0). intros x y z. apply v3_ext; cbn; ring.
Qed.
End Cent.
