(* What computeAllTerms leaves in data. *)
Require Import Reals List Arith ZArith Lia Lra Bool.
From Verif Require Import Vec3 Spatial Inertia InertiaFacts SpatialFacts Joints Spec_Joints Deriv JointFacts JointFacts2 Model Spec_Model ModelFacts ModelTree ModelFacts2 Sums Data Kinematics Spec_Kin Spec_Mass KinFacts KinFacts2 KinFacts3 Spec_Dyn Rnea DynFacts DynFacts2 TreeSums MassFacts Crba CrbaFacts CrbaFacts2 CrbaFacts3 Spec_Jac Jacobian JacFacts JacFacts5 Spec_Com Com ComFacts ComFacts2 ComFacts3 ComFacts4 Centroidal CentFacts CentFacts2 Dccrba DccrbaFacts DccrbaFacts2 AllTerms AllTermsFacts.
Import ListNotations.
Local Open Scope nat_scope.

Section S.
Variable eps : R.
Variable m : Model.
Hypothesis W : wellFormed m.
Hypothesis T : treeInv m.
Hypothesis Vm : validModel m.
Hypothesis NM : noMimic m.
Hypothesis RM : regularMasses eps m.
Hypothesis DF : depthFirst m.

Notation force0 q v := (bodyForce m q v (fun _ => 0%R)).

(* ---- one unit velocity at a time ---- *)
Lemma total_unit q j a A : validState m q -> 0 < j < m_njoints m -> a < nvOf m j ->
  v6dot A (totalMomentum m q (unitv (idx_v m j + a))) = subSum m j (fun b => v6dot A (inertia_mul (worldInertia m q b) (worldCol m q j a))).
Proof.
  intros Hq Hj Ha. unfold totalMomentum. rewrite subBodies6_dot, (subBodies_root m W T), (bodies_all m W).
  - unfold subSum. apply sumN_ext. intros b Hb. rewrite <- (world_momentum m W T Vm) by (exact Hq || lia). rewrite (unit_vel m W T Vm NM q j a b Hq Hj Ha Hb).
    destruct (anc m j b); [reflexivity|]. rewrite inertia_mul_0. apply v6dot_0_r.
  - rewrite <- (world_momentum m W T Vm) by (exact Hq || apply (wf_n _ W)). rewrite (worldVel_0 m W T), inertia_mul_0. apply v6dot_0_r.
Qed.
Lemma share_unit q j a i : 0 < j < m_njoints m -> a < nvOf m j -> 0 < i < m_njoints m ->
  share m q (unitv (idx_v m j + a)) i = if j =? i then worldCol m q j a else v6zero.
Proof.
  intros Hj Ha Hi. unfold share. rewrite (twist_unit m W Vm NM q j a i Hj Ha Hi). destruct (Nat.eqb_spec j i) as [<-|]; [reflexivity | apply motion_act_0].
Qed.
Lemma dVel_unit q v j a b : 0 < j < m_njoints m -> a < nvOf m j -> b < m_njoints m ->
  dWorldVel m q v (unitv (idx_v m j + a)) b = if anc m j b then motion_cross (worldVel m q v j) (worldCol m q j a) else v6zero.
Proof.
  intros Hj Ha Hb. apply v6_dot_ext. intros A. unfold dWorldVel.
  rewrite <- (anc_sum m W T (v6dot A) (dShare m q v (unitv (idx_v m j + a))) (v6dot_0_r A) (fun x y => v6dot_add_r x y A) b Hb).
  rewrite (sumN_ext _ _ (fun i => if j =? i then (if anc m i b then v6dot A (motion_cross (worldVel m q v i) (worldCol m q i a)) else 0) else 0)%R).
  - rewrite sumN_delta by lia. destruct (anc m j b); [reflexivity | now rewrite v6dot_0_r].
  - intros i Hi. destruct (Nat.ltb_spec 0 i); cbn [andb]; [|destruct (Nat.eqb_spec j i); [lia|reflexivity]].
    unfold dShare. rewrite share_unit by (assumption || lia). destruct (Nat.eqb_spec j i) as [<-|]; [reflexivity|]. destruct (anc m i b); [|reflexivity].
    replace (motion_cross (worldVel m q v i) v6zero) with v6zero by (generalize (worldVel m q v i); clear; intros; symmetry; sring). apply v6dot_0_r.
Qed.
Lemma dTotal_unit q v j a A : validState m q -> 0 < j < m_njoints m -> a < nvOf m j ->
  v6dot A (dTotal m q v (unitv (idx_v m j + a))) =
  subSum m j (fun b => v6dot A (v6add (m6vec (inertia_variation (worldInertia m q b) (worldVel m q v b)) (worldCol m q j a)) (inertia_mul (worldInertia m q b) (motion_cross (worldVel m q v j) (worldCol m q j a))))).
Proof.
  intros Hq Hj Ha. unfold dTotal. rewrite subBodies6_dot, (subBodies_root m W T), (bodies_all m W).
  - unfold subSum. apply sumN_ext. intros b Hb. unfold dMom. rewrite (dVel_unit q v j a b Hj Ha Hb), (unit_vel m W T Vm NM q j a b Hq Hj Ha Hb).
    destruct (anc m j b); [reflexivity|]. rewrite inertia_mul_0, m6vec_0_r. rewrite v6add_0_r. apply v6dot_0_r.
  - unfold dMom. rewrite (dVel_unit q v j a 0 Hj Ha (wf_n _ W)), (unit_vel m W T Vm NM q j a 0 Hq Hj Ha (wf_n _ W)), (anc_0 m W T).
    destruct (Nat.eqb_spec j 0); [lia|]. rewrite inertia_mul_0, m6vec_0_r, v6add_0_r. apply v6dot_0_r.
Qed.
Lemma power_unit q F j a : validState m q -> 0 < j < m_njoints m -> a < nvOf m j ->
  power m q F (unitv (idx_v m j + a)) = subSum m j (fun b => v6dot (worldCol m q j a) (force_act (worldPl m q b) (F b))).
Proof.
  intros Hq Hj Ha. unfold power. rewrite (bodies_all m W).
  - unfold subSum. apply sumN_ext. intros b Hb.
    rewrite <- (act_dot (worldPl m q b)) by (apply (worldPl_rot m W T Vm q); [exact Hq | exact Hb]).
    fold (worldVel m q (unitv (idx_v m j + a)) b). rewrite (unit_vel m W T Vm NM q j a b Hq Hj Ha Hb). destruct (anc m j b); [reflexivity | apply v6dot_0_l].
  - rewrite (bodyVel_0 m W T). apply v6dot_0_l.
Qed.
Lemma nle_unit d q v j a : validState m q -> 0 < j < m_njoints m -> a < nvOf m j ->
  nonLinearEffects m d q v (idx_v m j + a) = subSum m j (fun b => v6dot (worldCol m q j a) (force_act (worldPl m q b) (force0 q v b))).
Proof.
  intros Hq Hj Ha. pose proof (idx_v_bound m W NM j Hj) as Hb. rewrite <- power_unit by assumption. rewrite <- (nle_power m W T Vm d q v _ Hq).
  symmetry. apply dotv_unit. lia.
Qed.

(* centre of mass of the bodies carried by a joint *)
Lemma lever_sub q Y j : j < m_njoints m -> subtreeMass m j <> 0%R -> mass Y = subtreeMass m j ->
  (forall A B, v6dot A (inertia_mul Y B) = subBodies m j (fun b => v6dot A (inertia_mul (worldInertia m q b) B))) -> lever Y = subtreeCom m q j.
Proof.
  intros Hj HM EM HA. unfold subtreeCom.
  assert (G : forall e w, (subtreeMass m j * v3dot e (v3cross w (lever Y)))%R = v3dot (v3cross e w) (subBodies3 m j (fun b => v3scale (mass (inertiaOf m b)) (bodyCom m q b)))).
  { intros e w. rewrite <- EM, <- lever_action, HA, subBodies3_dot. apply subBodies_ext. intros b Hb _. rewrite lever_action.
    unfold worldInertia, bodyCom, inertia_act, se3_actPoint. cbn [mass lever].
    generalize (worldPl m q b) (inertiaOf m b). clear. intros M Y. unfold v3dot; cbn; ring. }
  pose proof (G (mkV3 0 1 0) (mkV3 0 0 1)) as G1. pose proof (G (mkV3 0 0 1) (mkV3 1 0 0)) as G2. pose proof (G (mkV3 1 0 0) (mkV3 0 1 0)) as G3. clear G.
  revert G1 G2 G3. generalize (subBodies3 m j (fun b => v3scale (mass (inertiaOf m b)) (bodyCom m q b))) (lever Y). intros x y.
  unfold v3dot; cbn. intros G1 G2 G3. apply v3_ext; cbn; apply (Rmult_eq_reg_l (subtreeMass m j)); try exact HM;
    rewrite <- Rmult_assoc, Rinv_r by exact HM; lra.
Qed.

(* ---- after the passes ---- *)
Definition worldForces (q v : vec) : V6 := subBodies6 m 0 (fun i => force_act (worldPl m q i) (force0 q v i)).
Lemma cat_pass q v d : validState m q -> let t := catPass eps m d q v in
  (forall i, 0 < i < m_njoints m -> catKin m q v i (rows t i)) /\
  (forall i a, 0 < i < m_njoints m -> a < nvOf m i -> co (gl t) F_J (idx_v m i + a) = worldCol m q i a /\
     co (gl t) F_dJ (idx_v m i + a) = motion_cross (worldVel m q v i) (worldCol m q i a)) /\
  (forall j, j < m_njoints m -> mass (yi (rows t j) F_oYcrb) = subtreeMass m j /\
     (forall A B, v6dot A (inertia_mul (yi (rows t j) F_oYcrb) B) = subBodies m j (fun b => v6dot A (inertia_mul (worldInertia m q b) B))) /\
     force_act (worldPl m q j) (mo (rows t j) F_h) = subBodies6 m j (worldMomentum m q v)) /\
  mo (rows t 0) F_f = v6add (mo (rows d 0) F_f) (worldForces q v) /\
  (forall k, k < m_nv m -> co (gl t) F_Ag k = totalMomentum m q (unitv k) /\ co (gl t) F_dAg k = dTotal m q v (unitv k) /\
     forall d0, ve (gl t) F_nle k = nonLinearEffects m d0 q v k) /\
  (forall i a j c, 0 < i < m_njoints m -> a < nvOf m i -> 0 < j < m_njoints m -> c < nvOf m j ->
     ma (gl t) F_M (idx_v m i + a) (idx_v m j + c) = if anc m i j then blockForm m q i a j c else ma (gl d) F_M (idx_v m i + a) (idx_v m j + c)) /\
  (forall j, 0 < j < m_njoints m -> sc (rows t j) F_mass = mass (yi (rows t j) F_oYcrb) /\
     p3 (rows t j) F_com = se3_actInvPoint (worldPl m q j) (lever (yi (rows t j) F_oYcrb)) /\
     p3 (rows t j) F_vcom = v3div (mass (yi (rows t j) F_oYcrb)) (lin (mo (rows t j) F_h))).
Proof.
  intros Hq. cbv zeta. unfold catPass. destruct (cat_forward m W T Vm NM q v d Hq) as (F0 & F1 & F2 & F3). cbv zeta in *.
  set (s0 := upward m _ _) in *. clearbody s0.
  assert (Y0 : yi (rows s0 0) F_oYcrb = inertia_Zero) by (rewrite F0; reflexivity).
  assert (H0 : mo (rows s0 0) F_h = v6zero) by (rewrite F0; reflexivity).
  assert (Ff : mo (rows s0 0) F_f = mo (rows d 0) F_f) by (rewrite F0; reflexivity).
  destruct (cat_backward eps m W T Vm NM RM DF q v s0 Hq Y0 F1 F2) as (I0 & (IJ & IdJ) & _ & I2 & I3 & _ & IH & IF & I5 & I6 & I7 & I8 & I9).
  set (t := downward m _ s0) in *. clearbody t. pose proof (wf_n _ W) as Hn.
  pose proof (worldPl_0 m W T q) as P0.
  assert (FA0 : forall f, force_act (worldPl m q 0) f = f) by (intros f; rewrite P0; apply v6_ext; apply v3_ext; cbn; ring).
  split; [exact I0|]. split; [intros i a Hi Ha; rewrite IJ, IdJ; now apply F2|]. split; [|split; [|split; [|split]]].
  - intros j Hj. split; [|split].
    + rewrite (acc_complete m W T _ s0 true 1 t I3 j Hj eq_refl ltac:(lia)). unfold subtreeMass. rewrite <- (subBodies_subSum m W) by (rewrite Y0; reflexivity).
      apply subBodies_ext. intros b Hb _. destruct (F1 b Hb) as (_ & -> & _). reflexivity.
    + intros A B. rewrite (acc_complete m W T _ s0 true 1 t (I2 A B) j Hj eq_refl ltac:(lia)). rewrite <- (subBodies_subSum m W) by (rewrite Y0, inertia_mul_Zero; apply v6dot_0_r).
      apply subBodies_ext. intros b Hb _. destruct (F1 b Hb) as (_ & -> & _). reflexivity.
    + apply v6_dot_ext. intros e. change (phiF m q F_h e t j = v6dot e (subBodies6 m j (worldMomentum m q v))).
      rewrite (acc_complete m W T _ s0 true 1 t (IH e) j Hj eq_refl ltac:(lia)), subBodies6_dot.
      rewrite <- (subBodies_subSum m W) by (unfold phiF; rewrite FA0, H0; apply v6dot_0_r).
      apply subBodies_ext. intros b Hb _. unfold phiF, worldMomentum. destruct (F1 b Hb) as (_ & _ & _ & -> & _). reflexivity.
  - apply v6_dot_ext. intros e. transitivity (phiF m q F_f e t 0); [unfold phiF; now rewrite FA0|].
    rewrite (acc_complete m W T _ s0 true 1 t (IF e) 0 Hn eq_refl (le_n _)), (subSum_root m W T), v6dot_add_r. unfold worldForces. rewrite subBodies6_dot, (subBodies_root m W T).
    unfold bodies. replace (m_njoints m) with (S (m_njoints m - 1)) at 1 by lia. rewrite sumN_shift1. unfold phiF at 1. rewrite FA0, Ff. f_equal.
    apply sumN_ext. intros k Hk. unfold phiF. destruct (F1 (S k) ltac:(lia)) as (_ & _ & _ & _ & ->). reflexivity.
  - intros k Hk. destruct (dof_owner m W k Hk) as (j & a & Hj & Ha & ->). split; [|split].
    + apply v6_dot_ext. intros A. rewrite I5 by lia. symmetry. now apply total_unit.
    + apply v6_dot_ext. intros A. rewrite I6 by lia. symmetry. now apply dTotal_unit.
    + intros d0. rewrite I8 by lia. symmetry. now apply nle_unit.
  - intros i a j c Hi Ha Hj Hc. rewrite (I7 i a j c Hi Ha Hj Hc), F3. destruct (Nat.leb_spec 1 i); [reflexivity|lia].
  - intros j Hj. apply I9; lia.
Qed.
(* ---- computeMechanicalEnergy(model, data) touches the energies only ---- *)
Lemma mech_frame jv d : rows (mechanicalData m jv d) = rows d /\ co (gl (mechanicalData m jv d)) = co (gl d) /\ ma (gl (mechanicalData m jv d)) = ma (gl d) /\
  ve (gl (mechanicalData m jv d)) = ve (gl d) /\ gv (gl (mechanicalData m jv d)) = gv (gl d) /\ jcom (gl (mechanicalData m jv d)) = jcom (gl d) /\ ig (gl (mechanicalData m jv d)) = ig (gl d).
Proof.
  unfold mechanicalData, upward.
  assert (G : forall l s, let s' := fold_left (fun d i => potentialStep m (kineticStep m jv d i) i) l s in
    rows s' = rows s /\ co (gl s') = co (gl s) /\ ma (gl s') = ma (gl s) /\ ve (gl s') = ve (gl s) /\ gv (gl s') = gv (gl s) /\ jcom (gl s') = jcom (gl s) /\ ig (gl s') = ig (gl s)).
  { induction l as [|i l IH]; intros s; cbv zeta; [repeat split|]. cbn [fold_left]. destruct (IH (potentialStep m (kineticStep m jv s i) i)) as (-> & -> & -> & -> & -> & -> & ->). repeat split. }
  match goal with |- context [fold_left ?f ?l ?s] => destruct (G l s) as (E1 & E2 & E3 & E4 & E5 & E6 & E7); set (x := fold_left f l s) in *; clearbody x end.
  repeat split; assumption.
Qed.
(* ---- the end ---- *)
Hypothesis HM : subtreeMass m 0 <> 0%R.
Lemma ve_set x f k : ve (gl (setGl x (setVe (gl x) F_g f))) F_g k = f k. Proof. reflexivity. Qed.
Lemma co_set x f : co (gl (setGl x (setVe (gl x) F_g f))) = co (gl x). Proof. reflexivity. Qed.
Lemma catEnd_g t k : ve (gl (catEnd m t)) F_g k = (- v3dot (lin (co (gl (catEnd m t)) F_Ag k)) (lin (m_gravity m)))%R.
Proof. unfold catEnd. cbv zeta. rewrite ve_set, co_set. reflexivity. Qed.
Lemma diag_rows d : rows (addDiagonal m d) = rows d. Proof. reflexivity. Qed.
Theorem cat_all q v d : validState m q -> let e := computeAllTerms eps m d q v in let c := subtreeCom m q 0 in
  (forall i, 0 < i < m_njoints m -> catKin m q v i (rows e i)) /\
  (forall i a, 0 < i < m_njoints m -> a < nvOf m i -> co (gl e) F_J (idx_v m i + a) = worldCol m q i a /\
     co (gl e) F_dJ (idx_v m i + a) = motion_cross (worldVel m q v i) (worldCol m q i a)) /\
  (forall j, j < m_njoints m -> sc (rows e j) F_mass = subtreeMass m j) /\
  (forall j, j < m_njoints m -> subtreeMass m j <> 0%R -> se3_actPoint (worldPl m q j) (p3 (rows e j) F_com) = subtreeCom m q j /\
     m3vec (rot (worldPl m q j)) (p3 (rows e j) F_vcom) = subtreeVel m q v j) /\
  (forall k, k < m_nv m -> co (gl e) F_Ag k = atPoint c (totalMomentum m q (unitv k)) /\
     co (gl e) F_dAg k = v6add (atPoint c (dTotal m q v (unitv k))) (linCross (subtreeVel m q v 0) (totalMomentum m q (unitv k))) /\
     (forall d0, ve (gl e) F_nle k = nonLinearEffects m d0 q v k) /\
     jcom (gl e) k = subtreeVel m q (unitv k) 0 /\
     ve (gl e) F_g k = (- v3dot (lin (totalMomentum m q (unitv k))) (lin (m_gravity m)))%R) /\
  (forall i a j b, 0 < i < m_njoints m -> a < nvOf m i -> 0 < j < m_njoints m -> b < nvOf m j ->
     ma (gl e) F_M (idx_v m i + a) (idx_v m j + b) = if anc m i j then massMatrix m q (idx_v m i + a) (idx_v m j + b) else ma (gl d) F_M (idx_v m i + a) (idx_v m j + b)) /\
  gv (gl e) F_hg = atPoint c (totalMomentum m q v) /\
  gv (gl e) F_dhg = atPoint c (v6add (mo (rows d 0) F_f) (worldForces q v)) /\
  mass (ig (gl e)) = subtreeMass m 0 /\ lever (ig (gl e)) = v3zero /\
  (forall A V, v6dot A (inertia_mul (ig (gl e)) V) = v6dot A (atPoint c (subBodies6 m 0 (fun b => inertia_mul (worldInertia m q b) (mkV6 (v3add (lin V) (v3cross c (ang V))) (ang V)))))).
Proof.
  intros Hq. cbv zeta. destruct (cat_pass q v d Hq) as (P1 & P2 & P3 & P4 & P5 & P6 & P7). cbv zeta in *.
  unfold computeAllTerms. destruct (mech_frame (jointV m v) (catEnd m (catPass eps m d q v))) as (-> & -> & -> & -> & -> & -> & ->).
  set (t := catPass eps m d q v) in *. clearbody t. pose proof (wf_n _ W) as Hn.
  destruct (P3 0 Hn) as (M0 & A0 & H0). 
  assert (EL : lever (yi (rows t 0) F_oYcrb) = subtreeCom m q 0) by (apply (lever_sub q _ 0); assumption).
  assert (E0 : forall f, force_act (worldPl m q 0) f = f) by (intros f; rewrite (worldPl_0 m W T q); apply v6_ext; apply v3_ext; cbn; ring).
  rewrite E0 in H0. fold (totalMomentum m q v) in H0.
  assert (RE : rows (catEnd m t) = rows (onRow t 0 catCom0)) by reflexivity.
  assert (R0 : forall j, 0 < j -> rows (catEnd m t) j = rows t j) by (intros j Hj; rewrite RE, onRow_at; destruct (Nat.eqb_spec j 0); [lia|]; destruct (Nat.eqb_spec 0 j); [lia|reflexivity]).
  assert (R1 : rows (catEnd m t) 0 = catCom0 (rows t 0)) by (rewrite RE; apply onRow_at).
  assert (HV : forall j, j < m_njoints m -> subtreeMass m j <> 0%R -> m3vec (rot (worldPl m q j)) (v3div (mass (yi (rows t j) F_oYcrb)) (lin (mo (rows t j) F_h))) = subtreeVel m q v j).
  { intros j Hj Hne. destruct (P3 j Hj) as (Mj & _ & Hh). apply (f_equal lin) in Hh. cbn [force_act lin subBodies6] in Hh.
    rewrite Mj. replace (v3div (subtreeMass m j) (lin (mo (rows t j) F_h))) with (v3scale (/ subtreeMass m j) (lin (mo (rows t j) F_h))) by (apply v3_ext; cbn; unfold Rdiv; ring).
    rewrite m3vec_scale, Hh. unfold subtreeVel. rewrite (subBodies3_ext m j _ (fun b => v3scale (mass (inertiaOf m b)) (comVel m q v b))) by (intros; apply lin_momentum).
    reflexivity. }
  split; [|split; [|split; [|split; [|split; [|split; [|split; [|split; [|split; [|split]]]]]]]]].
  - intros i Hi. rewrite R0 by lia. now apply P1.
  - exact P2.
  - intros j Hj. destruct (Nat.eq_dec j 0) as [->|Hj0]; [rewrite R1; exact M0 | rewrite R0 by lia]. destruct (P7 j ltac:(lia)) as (-> & _). now apply P3.
  - intros j Hj Hne. destruct (P3 j Hj) as (Mj & Aj & _). assert (Lj : lever (yi (rows t j) F_oYcrb) = subtreeCom m q j) by (apply lever_sub; assumption).
    destruct (Nat.eq_dec j 0) as [->|Hj0].
    + rewrite R1. split; [|exact (HV 0 Hj Hne)]. unfold catCom0. mem. rewrite EL, (worldPl_0 m W T q). apply v3_ext; cbn; ring.
    + rewrite R0 by lia. destruct (P7 j ltac:(lia)) as (_ & -> & ->). split; [|exact (HV j Hj Hne)]. rewrite Lj. apply se3_act_actInvPoint. apply (worldPl_rot m W T Vm q j Hq Hj).
  - intros k Hk. destruct (P5 k Hk) as (G1 & G2 & G3).
    assert (GA : co (gl (catEnd m t)) F_Ag k = atPoint (subtreeCom m q 0) (totalMomentum m q (unitv k))).
    { change (co (gl (catEnd m t)) F_Ag k) with (if k <? m_nv m then toCom (p3 (rows (onRow t 0 catCom0) 0) F_com) (co (gl t) F_Ag k) else co (gl t) F_Ag k).
      destruct (Nat.ltb_spec k (m_nv m)); [|lia]. rewrite onRow_at. cbn [Nat.eqb]. unfold catCom0. mem. rewrite EL, toCom_atPoint, G1. reflexivity. }
    split; [exact GA|]. split; [|split; [exact G3|split]].
    + change (co (gl (catEnd m t)) F_dAg k) with (co (gl (dAgCom m (onCo (onRow t 0 catCom0) F_Ag (fun x k => if k <? m_nv m then toCom (p3 (rows (onRow t 0 catCom0) 0) F_com) (x k) else x k)))) F_dAg k).
      unfold dAgCom. change (co (gl (onCo ?d F_dAg ?f)) F_dAg) with (f (co (gl d) F_dAg)). cbv beta. destruct (Nat.ltb_spec k (m_nv m)); [|lia].
      change (co (gl (onCo (onRow t 0 catCom0) F_Ag ?f)) F_dAg) with (co (gl t) F_dAg). change (rows (onCo ?d ?t ?g)) with (rows d). rewrite G2.
      assert (EC : p3 (rows (onRow t 0 catCom0) 0) F_com = subtreeCom m q 0) by (rewrite onRow_at; cbn [Nat.eqb]; unfold catCom0; mem; exact EL).
      assert (EV : p3 (rows (onRow t 0 catCom0) 0) F_vcom = subtreeVel m q v 0).
      { rewrite onRow_at. cbn [Nat.eqb]. unfold catCom0. mem. rewrite <- (HV 0 Hn HM). rewrite (worldPl_0 m W T q). apply v3_ext; cbn; ring. }
      rewrite EC, EV. change (co (gl (onCo (onRow t 0 catCom0) F_Ag ?f)) F_Ag k) with (f (co (gl t) F_Ag) k). cbv beta. destruct (Nat.ltb_spec k (m_nv m)); [|lia]. rewrite toCom_atPoint, G1.
      unfold atPoint, linCross. apply v6_ext; apply v3_ext; cbn; ring.
    + change (jcom (gl (catEnd m t)) k) with (v3div (sc (rows (catEnd m t) 0) F_mass) (lin (co (gl (catEnd m t)) F_Ag k))). rewrite GA, R1. unfold catCom0. mem. rewrite M0.
      unfold atPoint. cbn [lin]. rewrite (lin_total m q (unitv k) HM). apply v3_ext; cbn; field; exact HM.
    + rewrite catEnd_g, GA. reflexivity.
  - intros i a j b Hi Ha Hj Hb. change (ma (gl (catEnd m t)) F_M) with (ma (gl (addDiagonal m t)) F_M).
    rewrite addDiagonal_M by (pose proof (idx_v_bound m W NM i Hi); lia).
    rewrite (P6 i a j b Hi Ha Hj Hb). destruct (anc m i j) eqn:A.
    + unfold massMatrix. rewrite (form_unit m W T Vm NM q i a j b Hq Hi Ha Hj Hb A). reflexivity.
    + destruct (Nat.eqb_spec (idx_v m i + a) (idx_v m j + b)) as [E|]; [|ring].
      destruct (dof_unique m W NM i a j b Hi Hj Ha Hb E) as [-> _]. rewrite (anc_self m W T) in A by lia. discriminate.
  - change (gv (gl (catEnd m t)) F_hg) with (toCom (p3 (rows (onRow t 0 catCom0) 0) F_com) (mo (rows (onRow t 0 catCom0) 0) F_h)). rewrite onRow_at. cbn [Nat.eqb]. unfold catCom0. mem. rewrite EL, toCom_atPoint, H0. reflexivity.
  - change (gv (gl (catEnd m t)) F_dhg) with (toCom (p3 (rows (onRow t 0 catCom0) 0) F_com) (mo (rows (onRow t 0 catCom0) 0) F_f)). rewrite onRow_at. cbn [Nat.eqb]. unfold catCom0. mem. rewrite EL, toCom_atPoint, P4. reflexivity.
  - change (ig (gl (catEnd m t))) with (mkInertia (mass (yi (rows (catEnd m t) 0) F_oYcrb)) v3zero (inertia (yi (rows (catEnd m t) 0) F_oYcrb))). rewrite R1. exact M0.
  - reflexivity.
  - intros A V. change (ig (gl (catEnd m t))) with (mkInertia (mass (yi (rows (catEnd m t) 0) F_oYcrb)) v3zero (inertia (yi (rows (catEnd m t) 0) F_oYcrb))). rewrite R1.
    change (yi (catCom0 (rows t 0)) F_oYcrb) with (yi (rows t 0) F_oYcrb). rewrite centred_mul, EL, !atPoint_dot, A0, subBodies6_dot. reflexivity.
Qed.
End S.
