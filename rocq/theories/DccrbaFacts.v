(* The time variation of the centroidal map. *)
Require Import Reals List Arith ZArith Lia Lra Bool.
From Verif Require Import Vec3 Spatial Inertia InertiaFacts SpatialFacts Joints Spec_Joints Deriv JointFacts JointFacts2 Model Spec_Model ModelFacts ModelTree ModelFacts2 Sums Data Kinematics Spec_Kin Spec_Mass KinFacts KinFacts2 KinFacts3 Spec_Dyn Rnea DynFacts DynFacts2 TreeSums MassFacts Crba CrbaFacts CrbaFacts2 AbaFacts Jacobian Spec_Jac JacFacts JacFacts2 JacFacts3 JacFacts4 JacFacts5 Spec_Com Com ComFacts ComFacts2 ComFacts3 ComFacts4 Centroidal CentFacts CentFacts2 Dccrba.
Import ListNotations.
Local Open Scope nat_scope.

Lemma variation_vec Y V x : m6vec (inertia_variation Y V) x = v6sub (force_cross V (inertia_mul Y x)) (inertia_mul Y (motion_cross V x)).
Proof. rewrite inertia_variation_spec, m6vec_sub_l, inertia_vxi_vec, inertia_ivx_vec. reflexivity. Qed.
(* a joint with fixed axes has no bias acceleration *)
Lemma fixed_bias j q v : validJoint j -> validConfig j q -> fixedAxes j -> jc (jcalc j q v) = v6zero.
Proof.
  intros Hj Hq HF.
  pose (qq := fun s k => (q k + s * configRate j q v k)%R). pose (vv := fun (_ : R) => v).
  assert (E0 : forall k, qq 0%R k = q k) by (intros; unfold qq; ring).
  assert (EQ : qq 0%R = q) by (apply FunctionalExtensionality.functional_extensionality; exact E0).
  pose proof (jv_biasE j qq vv (fun _ => 0%R) 0%R Hj) as H. cbv zeta in H. rewrite EQ in H.
  specialize (H Hq). 
  assert (D : deriv6 (fun s => jv (jcalc j (qq s) (vv s))) (v6add (Smul (jS (jcalc j q v)) (fun _ => 0%R)) (jc (jcalc j q v))) 0).
  { apply H; [|intros k _; exact (deriv_const (v k) 0)]. intros k Hk. unfold qq, vv. 
    eapply deriv_eq; [apply deriv_plus; [apply deriv_const | apply deriv_mult; [apply derivable_pt_lim_id | apply deriv_const]]|]. unfold id. ring. }
  assert (D2 : deriv6 (fun s => jv (jcalc j (qq s) (vv s))) v6zero 0).
  { apply (deriv6_ext _ (fun _ => Smul (jS (jcalc j q v)) v)); [intros s; rewrite (jv_S j _ _ Hj); unfold vv; rewrite (HF (qq s) q v v); reflexivity|].
    repeat split; apply deriv_const. }
  pose proof (deriv6_unique _ _ _ _ D D2) as E.
  assert (S0 : Smul (jS (jcalc j q v)) (fun _ => 0%R) = v6zero).
  { generalize (jS (jcalc j q v)). induction l as [|c r IH]; [reflexivity|]. cbn [Smul]. unfold shift. rewrite IH. sring. }
  rewrite S0 in E. rewrite <- E. sring.
Qed.

Section Map.
Variable eps : R.
Variable m : Model.
Hypothesis W : wellFormed m.
Hypothesis T : treeInv m.
Hypothesis Vm : validModel m.
Hypothesis NM : noMimic m.

(* what joint i gives to the bodies it carries *)
Definition share q w i : V6 := motion_act (worldPl m q i) (jointTwist m q w i).
(* rate of the share of joint i when the model moves with velocity v *)
Definition dShare q v w i : V6 := motion_cross (worldVel m q v i) (share q w i).
Definition dWorldVel q v w b : V6 := sumF (dShare q v w) (tl (support m b)).

Lemma anc_sum (L : V6 -> R) (g : nat -> V6) : L v6zero = 0%R -> (forall a b, L (v6add a b) = L a + L b)%R -> forall b, b < m_njoints m ->
  sumN (m_njoints m) (fun i => if (0 <? i) && anc m i b then L (g i) else 0%R) = L (sumF g (tl (support m b))).
Proof.
  intros L0 LA. refine (tree_ind m _ W _ _).
  - rewrite (support_0 m W T). cbn. rewrite L0. apply sumN_zero. intros i Hi. rewrite (anc_0 m W T). destruct (Nat.eqb_spec i 0) as [->|]; [reflexivity|]. now rewrite andb_false_r.
  - intros b Hb IH. rewrite (tail_step m W T b Hb), sumF_app, LA, <- IH. unfold sumF at 1. cbn [map sumV6]. rewrite v6add_0_r.
    rewrite <- (sumN_delta (m_njoints m) b (fun b => L (g b))) by lia. rewrite <- sumN_add. apply sumN_ext. intros i Hi. rewrite (anc_step m W T i b Hb), (Nat.eqb_sym i b).
    pose proof (wf_parent _ W b Hb) as Hp. pose proof (anc_le m W T i (parent m b) ltac:(lia)) as HL.
    destruct (Nat.ltb_spec 0 i), (Nat.eqb_spec b i) as [<-|]; try lia; cbn [andb orb]; try ring.
    destruct (anc m b (parent m b)); [specialize (HL eq_refl); lia | ring].
Qed.
Lemma share_sum (L : nat -> V6 -> R) (g : nat -> V6) : (forall b, L b v6zero = 0%R) -> (forall b x y, L b (v6add x y) = L b x + L b y)%R ->
  sumN (m_njoints m) (fun i => if 0 <? i then subSum m i (fun b => L b (g i)) else 0%R) = bodies m (fun b => L b (sumF g (tl (support m b)))).
Proof.
  intros L0 LA. rewrite (bodies_all m W) by (rewrite (support_0 m W T); apply L0).
  rewrite (sumN_ext _ _ (fun i => sumN (m_njoints m) (fun b => if (0 <? i) && anc m i b then L b (g i) else 0%R))).
  - rewrite sumN_swap. apply sumN_ext. intros b Hb. apply (anc_sum (L b) g (L0 b) (LA b) b Hb).
  - intros i Hi. unfold subSum. destruct (0 <? i); cbn [andb]; [reflexivity | now rewrite sumN_0].
Qed.
Lemma worldVel_share q w b : validState m q -> b < m_njoints m -> worldVel m q w b = sumF (share q w) (tl (support m b)).
Proof. intros. unfold share. now apply (worldVel_sum m W T Vm). Qed.
(* columns of the blocks of the joints *)
Lemma cols_blocks (F : nat -> V6) (L : V6 -> R) w : L v6zero = 0%R -> (forall a b, L (v6add a b) = L a + L b)%R -> (forall c a, L (v6scale c a) = c * L a)%R ->
  L (colsMul (m_nv m) F w) = sumN (m_njoints m) (fun i => if 0 <? i then L (colsMul (nvOf m i) (fun k => F (idx_v m i + k)) (shift (idx_v m i) w)) else 0%R).
Proof.
  intros L0 LA LS.
  assert (E : forall n F w, L (colsMul n F w) = sumN n (fun k => w k * L (F k))%R).
  { clear w F. intros n F w. induction n as [|n IH]; cbn [colsMul sumN]; [exact L0|]. now rewrite LA, LS, IH. }
  rewrite E, (dof_sum m W NM). apply sumN_ext. intros i Hi. destruct (0 <? i); [|reflexivity]. rewrite E. reflexivity.
Qed.

Definition dStart d := upward m (fun d i => onRow d i (dccrbaRow m i)) (onYi d 0 F_oYcrb (fun _ => inertia_Zero)).
Lemma dStart_rows q v d : validState m q ->
  let t := dStart (forwardKinematics1 m d q v) in yi (rows t 0) F_oYcrb = inertia_Zero /\ forall i, 0 < i < m_njoints m ->
  pl (rows t i) F_oMi = worldPl m q i /\ jS (jd (rows t i)) = jS (jointAt m q noVel i) /\ mo (rows t i) F_ov = worldVel m q v i /\
  yi (rows t i) F_oYcrb = worldInertia m q i /\ m6 (rows t i) F_doYcrb = inertia_variation (worldInertia m q i) (worldVel m q v i).
Proof.
  intros Hq. cbv zeta. unfold dStart.
  destruct (fk1_vel m W d q v) as (V0 & V1 & VJ). pose proof (fk1_placed m W T d q v) as HP.
  pose proof (vel_body m W T Vm q v _ Hq V0 V1) as HV. set (d0 := forwardKinematics1 m d q v) in *. clearbody d0.
  destruct (upward_rows m (fun i r _ => dccrbaRow m i r) (onYi d0 0 F_oYcrb (fun _ => inertia_Zero)) W) as (_ & H0 & H).
  set (t := upward m _ _) in *. change (upward m (rowStep m _) _) with t in H0, H.
  split; [rewrite H0; reflexivity|]. intros i Hi. rewrite (H i Hi). unfold onYi, setRow. cbn [rows]. rewrite putn_other by lia. unfold dccrbaRow. mem.
  destruct (HP i Hi) as [_ ->]. rewrite (VJ i Hi), (HV i (proj2 Hi)), (jointAt_S m q v noVel i). repeat split; reflexivity.
Qed.

Hypothesis RM : regularMasses eps m.
Lemma dccrba_pass q v d : validState m q ->
  let t := dccrbaPass eps m d q v in
  (forall A B, v6dot A (inertia_mul (yi (rows t 0) F_oYcrb) B) = bodies m (fun b => v6dot A (inertia_mul (worldInertia m q b) B))) /\
  mass (yi (rows t 0) F_oYcrb) = subtreeMass m 0 /\
  (forall w A, v6dot A (colsMul (m_nv m) (co (gl t) F_Ag) w) = v6dot A (totalMomentum m q w)) /\
  (forall w A, v6dot A (colsMul (m_nv m) (co (gl t) F_dAg) w) = bodies m (fun b => v6dot A (v6add (m6vec (inertia_variation (worldInertia m q b) (worldVel m q v b)) (worldVel m q w b))
      (inertia_mul (worldInertia m q b) (dWorldVel q v w b))))) /\
  p3 (rows t 0) F_vcom = p3 (rows d 0) F_vcom.
Proof.
  intros Hq. cbv zeta. change (dccrbaPass eps m d q v) with (downward m (dccrbaBack eps m) (dStart (forwardKinematics1 m d q v))). destruct RM as [He RM'].
  destruct (dStart_rows q v d Hq) as (Y0 & R1).
  assert (VC : p3 (rows (dStart (forwardKinematics1 m d q v)) 0) F_vcom = p3 (rows d 0) F_vcom).
  { unfold dStart. destruct (upward_rows m (fun i r _ => dccrbaRow m i r) (onYi (forwardKinematics1 m d q v) 0 F_oYcrb (fun _ => inertia_Zero)) W) as (_ & H0 & _).
    change (upward m (rowStep m _) _) with (upward m (fun d i => onRow d i (dccrbaRow m i)) (onYi (forwardKinematics1 m d q v) 0 F_oYcrb (fun _ => inertia_Zero))) in H0.
    rewrite H0. unfold onYi. mem. rewrite putn_same. mem. unfold forwardKinematics1. cbv zeta.
    destruct (upward_rows m (fk1Row m q v) (setRow d 0 (setMo (rows d 0) F_v v6zero)) W) as (_ & H1 & _). rewrite H1. mem. rewrite putn_same. reflexivity. }
  set (s0 := dStart _) in *. clearbody s0.
  pose (col := fun j a => motion_act (worldPl m q j) (colOf (jS (jointAt m q noVel j)) a)).
  pose (Inv := fun k (s : Data) => (forall i, 0 < i < m_njoints m -> pl (rows s i) F_oMi = worldPl m q i /\ jS (jd (rows s i)) = jS (jointAt m q noVel i) /\ mo (rows s i) F_ov = worldVel m q v i) /\
    (forall j, j < m_njoints m -> regularMass eps (mass (yi (rows s j) F_oYcrb))) /\
    (forall A B, accInv m (fun s j => v6dot A (inertia_mul (yi (rows s j) F_oYcrb) B)) s0 true k s) /\
    (accInv m (fun s j => mass (yi (rows s j) F_oYcrb)) s0 true k s) /\
    (forall A B, accInv m (fun s j => v6dot A (m6vec (m6 (rows s j) F_doYcrb) B)) s0 false k s) /\
    (forall j a A, k <= j -> 0 < j < m_njoints m -> a < nvOf m j -> v6dot A (co (gl s) F_Ag (idx_v m j + a)) = subSum m j (fun b => v6dot A (inertia_mul (worldInertia m q b) (col j a)))) /\
    (forall j a A, k <= j -> 0 < j < m_njoints m -> a < nvOf m j -> v6dot A (co (gl s) F_dAg (idx_v m j + a)) =
       subSum m j (fun b => v6dot A (v6add (m6vec (inertia_variation (worldInertia m q b) (worldVel m q v b)) (col j a)) (inertia_mul (worldInertia m q b) (motion_cross (worldVel m q v j) (col j a)))))) /\
    p3 (rows s 0) F_vcom = p3 (rows d 0) F_vcom).
  assert (H : Inv 1 (downward m (dccrbaBack eps m) s0)).
  { apply downward_inv; [apply (wf_n _ W) | |].
    - split; [|split; [|split; [|split; [|split; [|split; [|split]]]]]].
      + intros i Hi. destruct (R1 i Hi) as (A1 & A2 & A3 & _). auto.
      + intros j Hj. destruct (Nat.eq_dec j 0) as [->|]; [left; rewrite Y0; reflexivity|]. destruct (R1 j ltac:(lia)) as (_ & _ & _ & -> & _). unfold worldInertia, inertia_act. cbn [mass]. apply RM'. lia.
      + intros; apply accInv_start.
      + apply accInv_start.
      + intros; apply accInv_start.
      + intros; lia.
      + intros; lia.
      + exact VC.
    - intros i s Hi (I0 & I1 & I2 & I3 & I4 & I5 & I6 & I7). pose proof (wf_parent _ W i Hi) as Hp.
      destruct (wf_joint _ W i Hi) as (_ & _ & E1 & _ & EvE & _ & E4).
      assert (EN : nvEOf m i = nvOf m i) by (apply (nvE_nv m W Vm i (NM i Hi) Hi)).
      set (s' := dccrbaBack eps m s i).
      assert (ER : forall k, rows s' k = if parent m i =? k then 
          let r := setYi (rows s k) F_oYcrb (inertia_plus eps (yi (rows s k) F_oYcrb) (yi (rows s i) F_oYcrb)) in
          (if 0 <? k then setM6 r F_doYcrb (m6add (m6 (rows s k) F_doYcrb) (m6 (rows s i) F_doYcrb)) else r) else rows s k).
      { intros k. unfold s', dccrbaBack, onM6, onYi, onCo. cbv zeta. destruct (Nat.ltb_spec 0 (parent m i)); mem; unfold putn; rewrite ?Nat.eqb_refl; destruct (Nat.eqb_spec (parent m i) k) as [<-|]; try reflexivity.
        - destruct (Nat.ltb_spec 0 (parent m i)); [|lia]. rewrite <- inertia_pequ_plus. reflexivity.
        - destruct (Nat.ltb_spec 0 (parent m i)); [lia|]. rewrite <- inertia_pequ_plus. reflexivity. }
      assert (EA : forall k, co (gl s') F_Ag k = if within (idx_v m i) (nvOf m i) k then inertia_mul (yi (rows s i) F_oYcrb) (col i (k - idx_v m i)) else co (gl s) F_Ag k).
      { intros k. unfold s', dccrbaBack, onM6, onYi, onCo. cbv zeta. rewrite E1, E4, EN.
        destruct (0 <? parent m i); mem; unfold setCols at 1; (destruct (within (idx_v m i) (nvOf m i) k) eqn:Ew; [|reflexivity]); apply within_true in Ew; f_equal; unfold setCols;
        (replace (within (jm_idx_vE (joint m i)) (nvOf m i) (jm_idx_vE (joint m i) + (k - idx_v m i))) with true by (symmetry; apply within_true; lia));
        unfold col; destruct (I0 i Hi) as (-> & -> & _); do 2 f_equal; lia. }
      assert (EdA : forall k, co (gl s') F_dAg k = if within (idx_v m i) (nvOf m i) k then v6add (m6vec (m6 (rows s i) F_doYcrb) (col i (k - idx_v m i)))
             (inertia_mul (yi (rows s i) F_oYcrb) (motion_cross (worldVel m q v i) (col i (k - idx_v m i)))) else co (gl s) F_dAg k).
      { intros k. unfold s', dccrbaBack, onM6, onYi, onCo. cbv zeta. rewrite E1, E4, EN.
        destruct (0 <? parent m i); mem; unfold addCols6, setCols; (destruct (within (idx_v m i) (nvOf m i) k) eqn:Ew; [|reflexivity]); apply within_true in Ew;
        assert (Ew2 : within (jm_idx_vE (joint m i)) (nvOf m i) (jm_idx_vE (joint m i) + (k - idx_v m i)) = true) by (apply within_true; lia);
        assert (Ee : jm_idx_vE (joint m i) + (k - idx_v m i) - jm_idx_vE (joint m i) = k - idx_v m i) by lia;
        rewrite ?Ew2, ?Ee, ?Ew2, ?Ee; unfold col; destruct (I0 i Hi) as (-> & -> & ->); reflexivity. }
      clearbody s'.
      assert (PE : plus_exact eps (yi (rows s (parent m i)) F_oYcrb) (yi (rows s i) F_oYcrb) /\ regularMass eps (mass (inertia_plus eps (yi (rows s (parent m i)) F_oYcrb) (yi (rows s i) F_oYcrb))))
        by (apply regular_plus; [exact He | apply I1; lia | apply I1; lia]).
      assert (C : forall A B, v6dot A (inertia_mul (yi (rows s i) F_oYcrb) B) = subSum m i (fun b => v6dot A (inertia_mul (worldInertia m q b) B))).
      { intros A B. rewrite (acc_complete m W T _ s0 true (i + 1) s (I2 A B) i ltac:(lia) eq_refl ltac:(lia)). apply (subSum_ext m). intros b Hb Ab.
        destruct (R1 b ltac:(apply (anc_le m W T) in Ab; lia)) as (_ & _ & _ & -> & _). reflexivity. }
      assert (C' : forall A B, v6dot A (m6vec (m6 (rows s i) F_doYcrb) B) = subSum m i (fun b => v6dot A (m6vec (inertia_variation (worldInertia m q b) (worldVel m q v b)) B))).
      { intros A B. assert (Hb0 : false || (0 <? i) = true) by (cbn [orb]; apply Nat.ltb_lt; lia).
        rewrite (acc_complete m W T _ s0 false (i + 1) s (I4 A B) i ltac:(lia) Hb0 ltac:(lia)). apply (subSum_ext m). intros b Hb Ab.
        destruct (R1 b ltac:(apply (anc_le m W T) in Ab; lia)) as (_ & _ & _ & _ & ->). reflexivity. }
      split; [|split; [|split; [|split; [|split; [|split; [|split]]]]]].
      + intros k Hk. rewrite ER. destruct (parent m i =? k); [destruct (0 <? k)|]; mem; apply I0, Hk.
      + intros k Hk. rewrite ER. destruct (Nat.eqb_spec (parent m i) k) as [<-|]; [destruct (0 <? parent m i); mem; apply PE | apply I1, Hk].
      + intros A B. apply (accInv_step m W _ _ _ _ _ _ Hi (I2 A B)). intros k Hk _. rewrite ER.
        destruct (Nat.eqb_spec (parent m i) k) as [<-|]; [|ring]. destruct (0 <? parent m i); mem; rewrite inertia_plus_mul by apply PE; apply v6dot_add_r.
      + apply (accInv_step m W _ _ _ _ _ _ Hi I3). intros k Hk _. rewrite ER.
        destruct (Nat.eqb_spec (parent m i) k) as [<-|]; [destruct (0 <? parent m i); reflexivity | ring].
      + intros A B. apply (accInv_step m W _ _ _ _ _ _ Hi (I4 A B)). intros k Hk Hk0. cbn [orb] in Hk0. rewrite ER, Hk0.
        destruct (Nat.eqb_spec (parent m i) k) as [<-|]; [|ring]. mem. rewrite m6vec_add_l. apply v6dot_add_r.
      + intros j a A Hij Hj Ha. rewrite EA, (within_own m W NM i j a Hi Hj Ha).
        destruct (Nat.eqb_spec i j) as [<-|]; [|apply I5; [lia | exact Hj | exact Ha]]. replace (idx_v m i + a - idx_v m i) with a by lia. apply C.
      + intros j a A Hij Hj Ha. rewrite EdA, (within_own m W NM i j a Hi Hj Ha).
        destruct (Nat.eqb_spec i j) as [<-|]; [|apply I6; [lia | exact Hj | exact Ha]]. replace (idx_v m i + a - idx_v m i) with a by lia.
        rewrite v6dot_add_r, C, C'. unfold subSum. rewrite <- sumN_add. apply sumN_ext. intros b Hb. destruct (anc m i b); [rewrite v6dot_add_r; reflexivity | ring].
      + rewrite ER. destruct (parent m i =? 0); mem; exact I7. }
  destruct H as (_ & _ & I2 & I3 & _ & I5 & I6 & I7). pose proof (wf_n _ W) as Hn.
  set (t := downward m _ s0) in *. clearbody t.
  assert (SJ : forall i w, 0 < i < m_njoints m -> colsMul (nvOf m i) (col i) (shift (idx_v m i) w) = share q w i).
  { intros i w Hi. unfold share, jointTwist. rewrite <- colsMul_Smul, (jS_len m W Vm NM q noVel i Hi). unfold col.
    rewrite (colsMul_map (motion_act (worldPl m q i))) by (intros; apply motion_act_0 || apply motion_act_add || apply motion_act_scale). reflexivity. }
  assert (SUB : forall i (L : nat -> V6 -> R) w, 0 < i < m_njoints m -> (forall b, L b v6zero = 0%R) -> (forall b x y, L b (v6add x y) = L b x + L b y)%R -> (forall b c x, L b (v6scale c x) = c * L b x)%R ->
      sumN (nvOf m i) (fun k => shift (idx_v m i) w k * subSum m i (fun b => L b (col i k)))%R = subSum m i (fun b => L b (share q w i))).
  { intros i L w Hi L0 LA LS. unfold subSum. rewrite (sumN_ext (nvOf m i) _ (fun k => sumN (m_njoints m) (fun b => if anc m i b then shift (idx_v m i) w k * L b (col i k) else 0))%R).
    - rewrite sumN_swap. apply sumN_ext. intros b Hb. destruct (anc m i b); [|apply sumN_0]. rewrite <- (SJ i w Hi).
      generalize (nvOf m i) (shift (idx_v m i) w). intros n x. induction n as [|n IH]; cbn [colsMul sumN]; [now rewrite L0|]. now rewrite LA, LS, IH.
    - intros k Hk. rewrite <- sumN_scale. apply sumN_ext. intros b Hb. destruct (anc m i b); ring. }
  split; [|split; [|split; [|split; [|exact I7]]]].
  - intros A B. rewrite (acc_complete m W T _ s0 true 1 _ (I2 A B) 0 Hn eq_refl (le_n _)), (subSum_root m W T), <- (bodies_all m W).
    + unfold bodies. apply sumN_ext. intros k Hk. destruct (R1 (S k) ltac:(lia)) as (_ & _ & _ & -> & _). reflexivity.
    + rewrite Y0, inertia_mul_Zero. apply v6dot_0_r.
  - rewrite (acc_complete m W T _ s0 true 1 _ I3 0 Hn eq_refl (le_n _)). unfold subtreeMass. rewrite <- (subBodies_subSum m W).
    + apply subBodies_ext. intros b Hb _. destruct (R1 b Hb) as (_ & _ & _ & -> & _). reflexivity.
    + rewrite Y0. reflexivity.
  - intros w A. rewrite (cols_blocks _ (v6dot A)) by (intros; first [apply v6dot_0_r | apply v6dot_add_r | apply v6dot_scale_r]).
    rewrite (sumN_ext _ _ (fun i => if 0 <? i then subSum m i (fun b => v6dot A (inertia_mul (worldInertia m q b) (share q w i))) else 0%R)).
    + rewrite (share_sum (fun b x => v6dot A (inertia_mul (worldInertia m q b) x)) (share q w)).
      * unfold totalMomentum. rewrite subBodies6_dot, (subBodies_root m W T). unfold bodies. apply sumN_ext. intros b Hb.
        rewrite <- (worldVel_share q w (S b) Hq ltac:(lia)), (world_momentum m W T Vm) by (exact Hq || lia). reflexivity.
      * intros b. rewrite inertia_mul_0. apply v6dot_0_r.
      * intros b x y. rewrite inertia_mul_add. apply v6dot_add_r.
    + intros i Hi. destruct (Nat.ltb_spec 0 i); [|reflexivity]. rewrite colsMul_dot, <- (SUB i (fun b x => v6dot A (inertia_mul (worldInertia m q b) x)) w ltac:(lia)).
      * apply sumN_ext. intros k Hk. now rewrite I5 by lia.
      * intros b. rewrite inertia_mul_0. apply v6dot_0_r.
      * intros b x y. rewrite inertia_mul_add. apply v6dot_add_r.
      * intros b c x. rewrite inertia_mul_scale. apply v6dot_scale_r.
  - intros w A. rewrite (cols_blocks _ (v6dot A)) by (intros; first [apply v6dot_0_r | apply v6dot_add_r | apply v6dot_scale_r]).
    pose (dY := fun b => inertia_variation (worldInertia m q b) (worldVel m q v b)).
    assert (X0 : forall x, motion_cross x v6zero = v6zero) by (intros; sring).
    assert (XA : forall x a b, motion_cross x (v6add a b) = v6add (motion_cross x a) (motion_cross x b)) by (intros; sring).
    assert (XS : forall x c a, motion_cross x (v6scale c a) = v6scale c (motion_cross x a)) by (intros; sring).
    rewrite (sumN_ext _ _ (fun i => (if 0 <? i then subSum m i (fun b => v6dot A (m6vec (dY b) (share q w i))) else 0) + (if 0 <? i then subSum m i (fun b => v6dot A (inertia_mul (worldInertia m q b) (dShare q v w i))) else 0))%R).
    + rewrite sumN_add, (share_sum (fun b x => v6dot A (m6vec (dY b) x)) (share q w)), (share_sum (fun b x => v6dot A (inertia_mul (worldInertia m q b) x)) (dShare q v w)).
      * unfold bodies. rewrite <- sumN_add. apply sumN_ext. intros b Hb. rewrite v6dot_add_r, <- (worldVel_share q w (S b) Hq ltac:(lia)). reflexivity.
      * intros b. rewrite inertia_mul_0. apply v6dot_0_r.
      * intros b x y. rewrite inertia_mul_add. apply v6dot_add_r.
      * intros b. rewrite m6vec_0_r. apply v6dot_0_r.
      * intros b x y. rewrite m6vec_add_r. apply v6dot_add_r.
    + intros i Hi. destruct (Nat.ltb_spec 0 i); [|ring]. rewrite colsMul_dot.
      rewrite (sumN_ext (nvOf m i) _ (fun k => shift (idx_v m i) w k * subSum m i (fun b => (fun b x => v6dot A (m6vec (dY b) x)) b (col i k)) +
           shift (idx_v m i) w k * subSum m i (fun b => (fun b x => v6dot A (inertia_mul (worldInertia m q b) (motion_cross (worldVel m q v i) x))) b (col i k)))%R).
      * rewrite sumN_add, (SUB i (fun b x => v6dot A (m6vec (dY b) x)) w), (SUB i (fun b x => v6dot A (inertia_mul (worldInertia m q b) (motion_cross (worldVel m q v i) x))) w); [reflexivity | lia | | | | lia | | |].
        -- intros b. rewrite X0, inertia_mul_0. apply v6dot_0_r.
        -- intros b x y. rewrite XA, inertia_mul_add. apply v6dot_add_r.
        -- intros b c x. rewrite XS, inertia_mul_scale. apply v6dot_scale_r.
        -- intros b. rewrite m6vec_0_r. apply v6dot_0_r.
        -- intros b x y. rewrite m6vec_add_r. apply v6dot_add_r.
        -- intros b c x. rewrite m6vec_scale_r. apply v6dot_scale_r.
      * intros k Hk. rewrite I6 by lia. rewrite <- Rmult_plus_distr_l. f_equal. unfold subSum. rewrite <- sumN_add. apply sumN_ext. intros b Hb.
        destruct (anc m i b); [apply v6dot_add_r | ring].
Qed.
End Map.
