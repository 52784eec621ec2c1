(* The two passes of computeAllTerms. *)
Require Import Reals List Arith ZArith Lia Lra Bool.
From Verif Require Import Vec3 Spatial Inertia InertiaFacts SpatialFacts Joints Spec_Joints Deriv JointFacts JointFacts2 Model Spec_Model ModelFacts ModelTree ModelFacts2 Sums Data Kinematics Spec_Kin Spec_Mass KinFacts KinFacts2 KinFacts3 Spec_Dyn Rnea DynFacts DynFacts2 TreeSums MassFacts Crba CrbaFacts CrbaFacts2 CrbaFacts3 Spec_Jac Spec_Com Com ComFacts ComFacts2 ComFacts3 ComFacts4 Centroidal CentFacts CentFacts2 Dccrba DccrbaFacts DccrbaFacts2 AllTerms.
Import ListNotations.
Local Open Scope nat_scope.

Section S.
Variable eps : R.
Variable m : Model.
Hypothesis W : wellFormed m.
Hypothesis T : treeInv m.
Hypothesis Vm : validModel m.
Hypothesis NM : noMimic m.

Notation acc0 q v := (bodyAcc m q v (fun _ => 0%R)).
Notation force0 q v := (bodyForce m q v (fun _ => 0%R)).

(* rows of joint i after the forward pass; they are kept by the backward pass except for h, f, oYcrb, doYcrb *)
Definition catKin (q v : vec) (i : nat) (r : Row) : Prop :=
  jd r = jointAt m q v i /\ pl r F_liMi = relPl m q i /\ pl r F_oMi = worldPl m q i /\
  mo r F_v = bodyVel m q v i /\ mo r F_a = acc0 q v i /\ mo r F_ov = worldVel m q v i /\
  mo r F_a_gf = v6sub (acc0 q v i) (gravityAt m q i).
Definition catDyn (q v : vec) (i : nat) (r : Row) : Prop :=
  yi r F_oYcrb = worldInertia m q i /\ m6 r F_doYcrb = inertia_variation (worldInertia m q i) (worldVel m q v i) /\
  mo r F_h = inertia_mul (inertiaOf m i) (bodyVel m q v i) /\ mo r F_f = force0 q v i.

Lemma catRow_eq q v i r rp : validState m q -> 0 < i < m_njoints m ->
  mo rp F_v = bodyVel m q v (parent m i) -> mo rp F_a = acc0 q v (parent m i) ->
  mo rp F_a_gf = v6sub (acc0 q v (parent m i)) (gravityAt m q (parent m i)) -> (0 < parent m i -> pl rp F_oMi = worldPl m q (parent m i)) ->
  catKin q v i (catRow m q v i r rp) /\ catDyn q v i (catRow m q v i r rp).
Proof.
  intros Hq Hi Ev Ea Eg Eo. destruct (fk1Row_eq m W q v i r rp Hi) as (E1 & E2 & E3 & E4).
  unfold catRow. set (r1 := fk1Row m q v i r rp) in *. clearbody r1.
  assert (B1 : mo r1 F_v = bodyVel m q v i).
  { rewrite E4, (bodyVel_step m W T Vm q v i Hq Hi), (jv_twist m Vm q v i Hi), Ev. destruct (Nat.ltb_spec 0 (parent m i)); [reflexivity|].
    replace (parent m i) with 0 by lia. now rewrite (bodyVel_0 m W T), motion_actInv_0, v6add_0_r. }
  assert (B2 : pl r1 F_oMi = worldPl m q i).
  { rewrite E3, (worldPl_step m W T q i Hi). destruct (Nat.ltb_spec 0 (parent m i)); [now rewrite Eo|].
    replace (parent m i) with 0 by lia. rewrite (worldPl_0 m W T). symmetry. apply se3_mul_1_l. }
  assert (EJ : jointAcc m q v (fun _ => 0%R) i = v6add (jc (jointAt m q v i)) (motion_cross (bodyVel m q v i) (jv (jointAt m q v i)))).
  { unfold jointAcc. change (shift (idx_v m i) (fun _ : nat => 0%R)) with (fun _ : nat => 0%R). rewrite Smul_0, (jv_twist m Vm q v i Hi).
    f_equal. generalize (jc (jointAt m q v i)). sring. }
  assert (EA : acc0 q v i = v6add (v6add (jc (jointAt m q v i)) (motion_cross (bodyVel m q v i) (jv (jointAt m q v i)))) (motion_actInv (relPl m q i) (acc0 q v (parent m i)))).
  { rewrite (bodyAcc_step m W T Vm q v _ i Hq Hi), EJ. reflexivity. }
  assert (EG : v6sub (acc0 q v i) (gravityAt m q i) = v6add (v6add (jc (jointAt m q v i)) (motion_cross (bodyVel m q v i) (jv (jointAt m q v i)))) (motion_actInv (relPl m q i) (v6sub (acc0 q v (parent m i)) (gravityAt m q (parent m i))))).
  { rewrite EA, (gravityAt_step m W T Vm q i Hq Hi). generalize (v6add (jc (jointAt m q v i)) (motion_cross (bodyVel m q v i) (jv (jointAt m q v i)))) (acc0 q v (parent m i)) (gravityAt m q (parent m i)) (relPl m q i).
    clear. intros a b c M. sring. }
  assert (EP : parent m i = 0 -> motion_actInv (relPl m q i) (acc0 q v (parent m i)) = v6zero).
  { intros ->. now rewrite (bodyAcc_0 m W T), motion_actInv_0. }
  split.
  - unfold catKin. destruct (Nat.ltb_spec 0 (parent m i)) as [Hp|Hp]; mem; rewrite E1, E2, B1, B2, Eg.
    + rewrite Ea, <- EA, <- EG. repeat split; reflexivity.
    + rewrite <- EG. repeat split; try reflexivity. rewrite EA, EP by lia. now rewrite v6add_0_r.
  - unfold catDyn. destruct (Nat.ltb_spec 0 (parent m i)) as [Hp|Hp]; mem; rewrite E1, E2, B1, B2, Eg, <- EG; repeat split; reflexivity.
Qed.

Lemma cat_forward q v d : validState m q ->
  let d1 := upward m (rowStepG m (catRow m q v) (catCols m)) (onRow d 0 (catZero m)) in
  rows d1 0 = catZero m (rows d 0) /\
  (forall i, 0 < i < m_njoints m -> catKin q v i (rows d1 i) /\ catDyn q v i (rows d1 i)) /\
  (forall i a, 0 < i < m_njoints m -> a < nvOf m i -> co (gl d1) F_J (idx_v m i + a) = worldCol m q i a /\
     co (gl d1) F_dJ (idx_v m i + a) = motion_cross (worldVel m q v i) (worldCol m q i a)) /\
  ma (gl d1) F_M = ma (gl d) F_M.
Proof.
  intros Hq. cbv zeta. set (d0 := onRow d 0 (catZero m)).
  destruct (upward_rowsG m (catRow m q v) (catCols m) d0 W) as (H0 & H1 & H2). set (d1 := upward m _ d0) in *.
  assert (R0 : rows d1 0 = catZero m (rows d 0)) by (rewrite H0; unfold d0; rewrite onRow_at; reflexivity).
  assert (G : forall i, i < m_njoints m -> (0 < i -> catKin q v i (rows d1 i) /\ catDyn q v i (rows d1 i)) /\ mo (rows d1 i) F_v = bodyVel m q v i /\ mo (rows d1 i) F_a = acc0 q v i /\
     mo (rows d1 i) F_a_gf = v6sub (acc0 q v i) (gravityAt m q i)).
  { refine (tree_ind m _ W _ _).
    - split; [lia|]. rewrite R0. unfold catZero. mem. rewrite (bodyVel_0 m W T), (bodyAcc_0 m W T), (gravityAt_0 m W T). repeat split. sring.
    - intros i Hi (IH1 & IH2 & IH3 & IH4).
      assert (K : catKin q v i (rows d1 i) /\ catDyn q v i (rows d1 i)).
      { rewrite (H1 i Hi). apply catRow_eq; try assumption. intros Hp. apply IH1. exact Hp. }
      split; [auto|]. destruct K as [(_ & _ & _ & A & B & _ & C) _]. auto. }
  assert (K : forall i, 0 < i < m_njoints m -> catKin q v i (rows d1 i) /\ catDyn q v i (rows d1 i)) by (intros i Hi; apply G; lia).
  split; [exact R0|]. split; [exact K|].
  rewrite H2.
  pose (Inv := fun k (g : Glob) => (forall i a, 0 < i < k -> i < m_njoints m -> a < nvOf m i -> co g F_J (idx_v m i + a) = worldCol m q i a /\
     co g F_dJ (idx_v m i + a) = motion_cross (worldVel m q v i) (worldCol m q i a)) /\ ma g F_M = ma (gl d) F_M).
  assert (HI : Inv (m_njoints m) (upward m (fun g i => catCols m i (rows d1 i) g) (gl d0))).
  { apply upward_inv.
    - apply (wf_n _ W).
    - split; [intros; lia | reflexivity].
    - intros i g Hi [I1 I2]. destruct (jm_v m W Vm NM i Hi) as (E1 & _ & E3 & _).
      split; [|unfold catCols; mem; exact I2]. intros j a Hj Hj' Ha. unfold catCols. cbv zeta. mem. rewrite E1, E3. unfold setCols.
      rewrite (within_own m W NM i j a Hi ltac:(lia) Ha).
      destruct (Nat.eqb_spec i j) as [<-|Hn]; [|apply I1; try lia; exact Ha].
      replace (idx_v m i + a - idx_v m i) with a by lia. rewrite (within_own m W NM i i a Hi Hi Ha), Nat.eqb_refl.
      replace (idx_v m i + a - idx_v m i) with a by lia. destruct (K i Hi) as [(A1 & A2 & A3 & A4 & A5 & A6 & A7) _]. rewrite A1, A3, A6, (jointAt_S m q v noVel i).
      split; reflexivity. }
  destruct HI as [I1 I2]. split; [|exact I2]. intros i a Hi Ha. apply I1; lia.
Qed.

(* ---- backward pass ---- *)
Hypothesis RM : regularMasses eps m.
Hypothesis DF : depthFirst m.

Definition catInv (q v : vec) (s0 : Data) (k : nat) (s : Data) : Prop :=
  (forall i, 0 < i < m_njoints m -> catKin q v i (rows s i)) /\
  (co (gl s) F_J = co (gl s0) F_J /\ co (gl s) F_dJ = co (gl s0) F_dJ) /\
  (forall j, j < m_njoints m -> regularMass eps (mass (yi (rows s j) F_oYcrb))) /\
  (forall A B, accInv m (fun s j => v6dot A (inertia_mul (yi (rows s j) F_oYcrb) B)) s0 true k s) /\
  (accInv m (fun s j => mass (yi (rows s j) F_oYcrb)) s0 true k s) /\
  (forall A B, accInv m (fun s j => v6dot A (m6vec (m6 (rows s j) F_doYcrb) B)) s0 true k s) /\
  (forall e, accInv m (phiF m q F_h e) s0 true k s) /\
  (forall e, accInv m (phiF m q F_f e) s0 true k s) /\
  (forall j a A, k <= j -> 0 < j < m_njoints m -> a < nvOf m j -> v6dot A (co (gl s) F_Ag (idx_v m j + a)) = subSum m j (fun b => v6dot A (inertia_mul (worldInertia m q b) (worldCol m q j a)))) /\
  (forall j a A, k <= j -> 0 < j < m_njoints m -> a < nvOf m j -> v6dot A (co (gl s) F_dAg (idx_v m j + a)) =
     subSum m j (fun b => v6dot A (v6add (m6vec (inertia_variation (worldInertia m q b) (worldVel m q v b)) (worldCol m q j a)) (inertia_mul (worldInertia m q b) (motion_cross (worldVel m q v j) (worldCol m q j a)))))) /\
  (forall i a j c, 0 < i < m_njoints m -> a < nvOf m i -> 0 < j < m_njoints m -> c < nvOf m j ->
     ma (gl s) F_M (idx_v m i + a) (idx_v m j + c) =
     if (k <=? i) && anc m i j then blockForm m q i a j c else ma (gl s0) F_M (idx_v m i + a) (idx_v m j + c)) /\
  (forall j a, k <= j -> 0 < j < m_njoints m -> a < nvOf m j -> ve (gl s) F_nle (idx_v m j + a) =
     subSum m j (fun b => v6dot (worldCol m q j a) (force_act (worldPl m q b) (force0 q v b)))) /\
  (forall j, k <= j -> 0 < j < m_njoints m -> sc (rows s j) F_mass = mass (yi (rows s j) F_oYcrb) /\
     p3 (rows s j) F_com = se3_actInvPoint (worldPl m q j) (lever (yi (rows s j) F_oYcrb)) /\
     p3 (rows s j) F_vcom = v3div (mass (yi (rows s j) F_oYcrb)) (lin (mo (rows s j) F_h))).

Lemma catKin_row q v i r r' : catKin q v i r -> jd r' = jd r -> pl r' = pl r -> mo r' F_v = mo r F_v -> mo r' F_a = mo r F_a -> mo r' F_ov = mo r F_ov -> mo r' F_a_gf = mo r F_a_gf -> catKin q v i r'.
Proof. unfold catKin. intros H -> -> -> -> -> ->. exact H. Qed.

Lemma cat_backward q v s0 : validState m q ->
  yi (rows s0 0) F_oYcrb = inertia_Zero ->
  (forall i, 0 < i < m_njoints m -> catKin q v i (rows s0 i) /\ catDyn q v i (rows s0 i)) ->
  (forall i a, 0 < i < m_njoints m -> a < nvOf m i -> co (gl s0) F_J (idx_v m i + a) = worldCol m q i a /\
     co (gl s0) F_dJ (idx_v m i + a) = motion_cross (worldVel m q v i) (worldCol m q i a)) ->
  catInv q v s0 1 (downward m (catBack eps m) s0).
Proof.
  intros Hq Y0 R1 HJ. destruct RM as [He RM'].
  apply downward_inv; [apply (wf_n _ W) | |].
  - split; [intros i Hi; apply (R1 i Hi)|]. split; [split; reflexivity|]. split; [|split; [|split; [|split; [|split; [|split; [|split; [|split; [|split; [|split]]]]]]]]].
    + intros j Hj. destruct (Nat.eq_dec j 0) as [->|]; [left; rewrite Y0; reflexivity|]. destruct (R1 j ltac:(lia)) as (_ & -> & _). unfold worldInertia, inertia_act. cbn [mass]. apply RM'. lia.
    + intros; apply accInv_start.
    + apply accInv_start.
    + intros; apply accInv_start.
    + intros; apply accInv_start.
    + intros; apply accInv_start.
    + intros; lia.
    + intros; lia.
    + intros i a j c Hi _ _ _. destruct (Nat.leb_spec (m_njoints m) i); [lia|reflexivity].
    + intros; lia.
    + intros; lia.
  - intros i s Hi (I0 & (IJ & IdJ) & I1 & I2 & I3 & I4 & IH & IF & I5 & I6 & I7 & I8 & I9). pose proof (wf_parent _ W i Hi) as Hp.
    destruct (jm_v m W Vm NM i Hi) as (E1 & _ & E3 & _).
    set (s' := catBack eps m s i).
    assert (ER : forall k, rows s' k = if i =? k then catCom (rows s i) else if parent m i =? k then catAdd eps (rows s k) (rows s i) else rows s k).
    { intros k. unfold s', catBack. cbv zeta. rewrite !onRow_at. destruct (Nat.eqb_spec i k) as [<-|].
      - destruct (Nat.eqb_spec (parent m i) i); [lia|]. reflexivity.
      - destruct (Nat.eqb_spec (parent m i) k) as [<-|]; reflexivity. }
    assert (FJ : co (gl s') F_J = co (gl s) F_J) by reflexivity.
    assert (FdJ : co (gl s') F_dJ = co (gl s) F_dJ) by reflexivity.
    assert (FA : co (gl s') F_Ag = setCols (idx_v m i) (nvOf m i) (fun k => inertia_mul (yi (rows s i) F_oYcrb) (co (gl s) F_J (idx_v m i + k))) (co (gl s) F_Ag)).
    { unfold s', catBack. rewrite E1, E3. unfold onRow, onM, onCo. mem. reflexivity. }
    assert (FdA : forall k, co (gl s') F_dAg k = if within (idx_v m i) (nvOf m i) k then v6add (m6vec (m6 (rows s i) F_doYcrb) (co (gl s) F_J (idx_v m i + (k - idx_v m i))))
             (inertia_mul (yi (rows s i) F_oYcrb) (co (gl s) F_dJ (idx_v m i + (k - idx_v m i)))) else co (gl s) F_dAg k).
    { intros k. unfold s', catBack. rewrite E1, E3. unfold onRow, onM, onCo. mem. unfold addCols6, setCols. destruct (within (idx_v m i) (nvOf m i) k); reflexivity. }
    assert (FM : ma (gl s') F_M = setBlock (idx_v m i) (idx_v m i) (nvOf m i) (Z.to_nat (nvSubtree m i))
       (fun k l => v6dot (co (gl s) F_J (idx_v m i + k)) (co (gl s') F_Ag (idx_v m i + l))) (ma (gl s) F_M)).
    { rewrite FA. unfold s', catBack. rewrite E1, E3. unfold onRow, onM, onCo. mem. reflexivity. }
    assert (FN : ve (gl s') F_nle = setSeg (idx_v m i) (nvOf m i) (StMul (jS (jd (rows s i))) (mo (rows s i) F_f)) (ve (gl s) F_nle)) by reflexivity.
    clearbody s'.
    assert (EY : forall k, yi (rows s' k) F_oYcrb = if parent m i =? k then inertia_plus eps (yi (rows s k) F_oYcrb) (yi (rows s i) F_oYcrb) else yi (rows s k) F_oYcrb).
    { intros k. rewrite ER. destruct (Nat.eqb_spec i k) as [<-|]; [destruct (Nat.eqb_spec (parent m i) i); [lia|]; reflexivity|].
      destruct (Nat.eqb_spec (parent m i) k) as [<-|]; [|reflexivity]. unfold catAdd. mem. apply inertia_pequ_plus. }
    assert (E6 : forall k, m6 (rows s' k) F_doYcrb = if parent m i =? k then m6add (m6 (rows s k) F_doYcrb) (m6 (rows s i) F_doYcrb) else m6 (rows s k) F_doYcrb).
    { intros k. rewrite ER. destruct (Nat.eqb_spec i k) as [<-|]; [destruct (Nat.eqb_spec (parent m i) i); [lia|]; reflexivity|].
      destruct (Nat.eqb_spec (parent m i) k) as [<-|]; reflexivity. }
    assert (EHF : forall k, mo (rows s' k) F_h = (if parent m i =? k then v6add (mo (rows s k) F_h) (force_act (relPl m q i) (mo (rows s i) F_h)) else mo (rows s k) F_h) /\
       mo (rows s' k) F_f = (if parent m i =? k then v6add (mo (rows s k) F_f) (force_act (relPl m q i) (mo (rows s i) F_f)) else mo (rows s k) F_f)).
    { intros k. destruct (I0 i Hi) as (_ & EL & _). rewrite ER. destruct (Nat.eqb_spec i k) as [<-|]; [destruct (Nat.eqb_spec (parent m i) i); [lia|]; split; reflexivity|].
      destruct (Nat.eqb_spec (parent m i) k) as [<-|]; [|split; reflexivity]. unfold catAdd. mem. rewrite EL. split; reflexivity. }
    assert (PE : plus_exact eps (yi (rows s (parent m i)) F_oYcrb) (yi (rows s i) F_oYcrb) /\ regularMass eps (mass (inertia_plus eps (yi (rows s (parent m i)) F_oYcrb) (yi (rows s i) F_oYcrb))))
      by (apply regular_plus; [exact He | apply I1; lia | apply I1; lia]).
    assert (C : forall A B, v6dot A (inertia_mul (yi (rows s i) F_oYcrb) B) = subSum m i (fun b => v6dot A (inertia_mul (worldInertia m q b) B))).
    { intros A B. rewrite (acc_complete m W T _ s0 true (i + 1) s (I2 A B) i ltac:(lia) eq_refl ltac:(lia)). apply (subSum_ext m). intros b Hb Ab.
      destruct (R1 b ltac:(apply (anc_le m W T) in Ab; lia)) as (_ & -> & _). reflexivity. }
    assert (C' : forall A B, v6dot A (m6vec (m6 (rows s i) F_doYcrb) B) = subSum m i (fun b => v6dot A (m6vec (inertia_variation (worldInertia m q b) (worldVel m q v b)) B))).
    { intros A B. rewrite (acc_complete m W T _ s0 true (i + 1) s (I4 A B) i ltac:(lia) eq_refl ltac:(lia)). apply (subSum_ext m). intros b Hb Ab.
      destruct (R1 b ltac:(apply (anc_le m W T) in Ab; lia)) as (_ & _ & -> & _). reflexivity. }
    assert (CF : forall e, v6dot e (force_act (worldPl m q i) (mo (rows s i) F_f)) = subSum m i (fun b => v6dot e (force_act (worldPl m q b) (force0 q v b)))).
    { intros e. change (phiF m q F_f e s i = subSum m i (fun b => v6dot e (force_act (worldPl m q b) (force0 q v b)))).
      rewrite (acc_complete m W T _ s0 true (i + 1) s (IF e) i ltac:(lia) eq_refl ltac:(lia)). apply (subSum_ext m). intros b Hb Ab. unfold phiF.
      destruct (R1 b ltac:(apply (anc_le m W T) in Ab; lia)) as (_ & _ & _ & _ & ->). reflexivity. }
    assert (EW : worldPl m q i = se3_mul (worldPl m q (parent m i)) (relPl m q i)) by (apply (worldPl_step m W T); exact Hi).
    assert (FX : forall x y, force_act (worldPl m q (parent m i)) (v6add x (force_act (relPl m q i) y)) = v6add (force_act (worldPl m q (parent m i)) x) (force_act (worldPl m q i) y)).
    { intros x y. rewrite EW, force_act_add, force_act_mul; [reflexivity|]. apply (worldPl_rot m W T Vm q); [exact Hq | lia]. }
    assert (AG : forall j c A, i <= j -> 0 < j < m_njoints m -> c < nvOf m j ->
       v6dot A (co (gl s') F_Ag (idx_v m j + c)) = subSum m j (fun b => v6dot A (inertia_mul (worldInertia m q b) (worldCol m q j c)))).
    { intros j c A Hij Hj Hc. rewrite FA. unfold setCols. rewrite (within_own m W NM i j c Hi Hj Hc). destruct (Nat.eqb_spec i j) as [<-|Hn].
      - replace (idx_v m i + c - idx_v m i) with c by lia. rewrite C, IJ, (proj1 (HJ i c Hi Hc)). reflexivity.
      - apply I5; [lia | exact Hj | exact Hc]. }
    split; [|split; [|split; [|split; [|split; [|split; [|split; [|split; [|split; [|split; [|split; [|split]]]]]]]]]]].
    + intros k Hk. apply (catKin_row q v k (rows s k)); [apply I0, Hk | ..]; rewrite ER; (destruct (Nat.eqb_spec i k) as [<-|]; [reflexivity|]); destruct (parent m i =? k); reflexivity.
    + now rewrite FJ, FdJ.
    + intros k Hk. rewrite EY. destruct (Nat.eqb_spec (parent m i) k) as [<-|]; [apply PE | apply I1, Hk].
    + intros A B. apply (accInv_step m W _ _ _ _ _ _ Hi (I2 A B)). intros k Hk _. rewrite EY.
      destruct (Nat.eqb_spec (parent m i) k) as [<-|]; [|ring]. rewrite inertia_plus_mul by apply PE. apply v6dot_add_r.
    + apply (accInv_step m W _ _ _ _ _ _ Hi I3). intros k Hk _. rewrite EY.
      destruct (Nat.eqb_spec (parent m i) k) as [<-|]; [reflexivity | ring].
    + intros A B. apply (accInv_step m W _ _ _ _ _ _ Hi (I4 A B)). intros k Hk _. rewrite E6.
      destruct (Nat.eqb_spec (parent m i) k) as [<-|]; [|ring]. rewrite m6vec_add_l. apply v6dot_add_r.
    + intros e. apply (accInv_step m W _ _ _ _ _ _ Hi (IH e)). intros k Hk _. unfold phiF. rewrite (proj1 (EHF k)).
      destruct (Nat.eqb_spec (parent m i) k) as [<-|]; [|ring]. rewrite FX. apply v6dot_add_r.
    + intros e. apply (accInv_step m W _ _ _ _ _ _ Hi (IF e)). intros k Hk _. unfold phiF. rewrite (proj2 (EHF k)).
      destruct (Nat.eqb_spec (parent m i) k) as [<-|]; [|ring]. rewrite FX. apply v6dot_add_r.
    + intros j a A Hij Hj Ha. now apply AG.
    + intros j a A Hij Hj Ha. rewrite FdA, (within_own m W NM i j a Hi Hj Ha).
      destruct (Nat.eqb_spec i j) as [<-|]; [|apply I6; [lia | exact Hj | exact Ha]]. replace (idx_v m i + a - idx_v m i) with a by lia.
      rewrite v6dot_add_r, C, C', IJ, IdJ, (proj1 (HJ i a Hi Ha)), (proj2 (HJ i a Hi Ha)). unfold subSum. rewrite <- sumN_add. apply sumN_ext. intros b Hb. destruct (anc m i b); [rewrite v6dot_add_r; reflexivity | ring].
    + intros i' a j c Hi' Ha Hj Hc. rewrite FM. unfold setBlock.
      rewrite (within_own m W NM i i' a Hi Hi' Ha), (within_subtree m W T Vm NM DF i j c Hi Hj Hc).
      destruct (Nat.eqb_spec i i') as [<-|Hn].
      * destruct (Nat.leb_spec i i); [|lia]. cbn [andb]. destruct (anc m i j) eqn:A.
        -- replace (idx_v m i + a - idx_v m i) with a by lia. replace (idx_v m i + (idx_v m j + c - idx_v m i)) with (idx_v m j + c).
           ++ rewrite AG; try assumption; [|now apply (anc_le m W T) in A; lia]. rewrite IJ, (proj1 (HJ i a Hi Ha)). reflexivity.
           ++ apply (anc_le m W T) in A; [|lia]. destruct (Nat.eq_dec i j) as [->|]; [lia|].
              pose proof (idx_v_mono m W NM i j ltac:(lia) ltac:(lia) ltac:(lia)). lia.
        -- rewrite (I7 i a j c Hi Ha Hj Hc). destruct (Nat.leb_spec (i + 1) i); [lia|reflexivity].
      * cbn [andb]. rewrite (I7 i' a j c Hi' Ha Hj Hc). destruct (Nat.leb_spec (i + 1) i'), (Nat.leb_spec i i'); try lia; reflexivity.
    + intros j a Hij Hj Ha. rewrite FN. unfold setSeg. rewrite (within_own m W NM i j a Hi Hj Ha).
      destruct (Nat.eqb_spec i j) as [<-|]; [|apply I8; [lia | exact Hj | exact Ha]]. replace (idx_v m i + a - idx_v m i) with a by lia.
      rewrite <- CF. destruct (I0 i Hi) as (EJ & _). rewrite EJ, (jointAt_S m q v noVel i). unfold StMul, worldCol. 
      symmetry. apply act_dot. apply (worldPl_rot m W T Vm q); [exact Hq | lia].
    + intros j Hij Hj. assert (P0 : parent m i <> j) by lia. rewrite EY, (proj1 (EHF j)). destruct (Nat.eqb_spec (parent m i) j); [lia|].
      rewrite ER. destruct (Nat.eqb_spec i j) as [<-|]; [|destruct (Nat.eqb_spec (parent m i) j); [lia|]; apply I9; lia].
      destruct (I0 i Hi) as (_ & _ & EO & _). unfold catCom. mem. rewrite EO. repeat split; reflexivity.
Qed.
End S.
