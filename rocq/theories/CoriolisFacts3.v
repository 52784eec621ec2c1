(* getCoriolisMatrix, and what the Coriolis matrix is. *)
Require Import Reals List Arith ZArith Lia Lra Bool.
From Verif Require Import Vec3 Spatial Inertia InertiaFacts SpatialFacts Joints Spec_Joints Deriv JointFacts JointFacts2 Model Spec_Model ModelFacts ModelTree ModelFacts2 Sums Data Kinematics Spec_Kin Spec_Mass KinFacts KinFacts2 Spec_Dyn Rnea DynFacts DynFacts2 TreeSums MassFacts Crba CrbaFacts CrbaFacts2 AbaFacts AbaFacts3 Jacobian Spec_Jac JacFacts JacFacts2 JacFacts3 JacFacts5 CholFacts4 Com Dccrba DccrbaFacts DccrbaFacts2 DataX Coriolis DerSums CoriolisFacts CoriolisFacts2.
Import ListNotations.
Local Open Scope nat_scope.
Local Open Scope bool_scope.

Section Get.
Variable eps : R.
Variable m : Model.
Hypothesis Bt : Built eps m.
Let W : wellFormed m := Built_wf eps m Bt.
Let T : treeInv m := Built_tree eps m Bt.
Hypothesis Vm : validModel m.
Hypothesis NM : noMimic m.
Hypothesis Pos : noRigidJoint m.
Hypothesis DF : depthFirst m.

(* what the algorithm reads, as the derivatives of the dynamics leave it *)
Definition corReady (q v : vec) (d : Data) : Prop := forall i, 0 < i < m_njoints m ->
  pl (rows d i) F_oMi = worldPl m q i /\ mo (rows d i) F_ov = worldVel m q v i /\ mo (rows d i) F_oh = inertia_mul (worldInertia m q i) (worldVel m q v i) /\
  (forall a, a < nvOf m i -> co (gl d) F_J (idx_v m i + a) = worldCol m q i a /\ co (gl d) F_dJ (idx_v m i + a) = dCol m q v i a) /\
  (forall A B, v6dot A (inertia_mul (yi (rows d i) F_oYcrb) B) = subSum m i (fun b => v6dot A (inertia_mul (worldInertia m q b) B))).
Theorem getCoriolis_entries d q v i a j c : corReady q v d -> 0 < i < m_njoints m -> a < nvOf m i -> 0 < j < m_njoints m -> c < nvOf m j ->
  ma (gl (getCoriolisMatrix m d)) F_C (idx_v m i + a) (idx_v m j + c) =
  if anc m i j || anc m j i then cEntry m q v i a j c else ma (gl d) F_C (idx_v m i + a) (idx_v m j + c).
Proof.
  intros RD Hi Ha Hj Hc. unfold getCoriolisMatrix.
  destruct (upward_rows m (fun i r _ => getCorRow m i r) d W) as (U1 & U2 & U3). cbv zeta in U1, U2, U3. change (upward m (fun d i => onRow d i (getCorRow m i)) d) with (upward m (rowStep m (fun i r _ => getCorRow m i r)) d).
  set (s1 := upward m _ d) in *.
  set (J := co (gl d) F_J). set (dJ := co (gl d) F_dJ).
  pose (YI := fun (k : nat) (s : Data) => co (gl s) F_J = J /\ co (gl s) F_dJ = dJ /\ forall j, 0 < j < m_njoints m -> yi (rows s j) F_oYcrb = yi (rows d j) F_oYcrb).
  rewrite <- (corEntry_world m q v J dJ i a j c Hi Ha Hj Hc (fun i Hi a Ha => proj1 (proj2 (proj2 (proj2 (RD i Hi)))) a Ha)).
  assert (ST : forall i t, 0 < i < m_njoints m -> let t' := getCorBack m t i in exists F, F = fcrb (gl t') 0 /\
      (forall k, F k = if within (idx_v m i) (nvOf m i) k then v6add (inertia_mul (yi (rows t i) F_oYcrb) (co (gl t) F_dJ k)) (m6vec (m6 (rows t i) F_oB) (co (gl t) F_J k)) else fcrb (gl t) 0 k) /\
      co (gl t') F_J = co (gl t) F_J /\ co (gl t') F_dJ = co (gl t) F_dJ /\ (forall j, yi (rows t' j) F_oYcrb = yi (rows t j) F_oYcrb) /\
      (forall j, 0 < j -> m6 (rows t' j) F_oB = if parent m i =? j then m6add (m6 (rows t j) F_oB) (m6 (rows t i) F_oB) else m6 (rows t j) F_oB) /\
      forall k l, ma (gl t') F_C k l = if within (idx_v m i) (nvOf m i) k then
        if inb l (aboveRows m i) then Rplus (v6dot (inertia_mul (yi (rows t i) F_oYcrb) (co (gl t) F_J k)) (co (gl t) F_dJ l)) (v6dot (co (gl t) F_J k) (m6vec (m6 (rows t i) F_oB) (co (gl t) F_J l)))
        else if within (idx_v m i) (Z.to_nat (nvSubtree m i)) l then v6dot (co (gl t) F_J k) (F l) else ma (gl t) F_C k l
      else ma (gl t) F_C k l).
  { clear i a j c Hi Ha Hj Hc. intros i t Hi. cbv zeta. unfold getCorBack. cbv zeta. destruct (jm_v m W Vm NM i Hi) as (E1 & E2 & E3 & E4). rewrite E1, E3.
    match goal with |- context [corBlocks m i ?F ?d] => set (Fx := F); set (dx := d) end.
    destruct (corBlocks_spec eps m Bt Vm NM Pos i Fx dx Hi) as (B1 & B2 & B3 & B4 & _ & B5).
    assert (X1 : fcrb (gl dx) 0 = Fx) by reflexivity. 
    assert (X3 : co (gl dx) = co (gl t)) by reflexivity. assert (X4 : ma (gl dx) = ma (gl t)) by reflexivity. assert (X5 : rows dx = rows t) by reflexivity.
    assert (X6 : forall k, Fx k = if within (idx_v m i) (nvOf m i) k then v6add (inertia_mul (yi (rows t i) F_oYcrb) (co (gl t) F_dJ k)) (m6vec (m6 (rows t i) F_oB) (co (gl t) F_J k)) else fcrb (gl t) 0 k).
    { intros k. unfold Fx. mem. rewrite ?putn_same. unfold plusCols, setCols. destruct (within (idx_v m i) (nvOf m i) k) eqn:Ek; [|reflexivity].
      assert (Ek' : idx_v m i + (k - idx_v m i) = k) by (apply within_true in Ek; lia). rewrite Ek'. reflexivity. }
    rewrite X3, X4, X5 in *. clearbody Fx dx. exists Fx.
    destruct (Nat.ltb_spec 0 (parent m i)); unfold onM6; mem; rewrite ?B1, ?B2, ?B3, ?B4, ?X1; (split; [reflexivity|]; split; [exact X6|]; split; [reflexivity|]; split; [reflexivity|]; split; [|split; [|exact B5]]).
    - intros j. destruct (Nat.eq_dec (parent m i) j) as [<-|Hn]; [rewrite putn_same; mem; reflexivity | now rewrite putn_other by exact Hn].
    - intros j Hj. destruct (Nat.eqb_spec (parent m i) j) as [<-|Hn]; [rewrite putn_same; mem; reflexivity | now rewrite putn_other by exact Hn].
    - reflexivity.
    - intros j Hj. destruct (Nat.eqb_spec (parent m i) j); [lia | reflexivity]. }
  rewrite (cor_pass eps m Bt Vm NM Pos DF (getCorBack m) (fun s i => yi (rows s i) F_oYcrb) (fun s i => m6 (rows s i) F_oB) (fun s => fcrb (gl s) 0) (fun s => ma (gl s) F_C) s1 J dJ (worldInertia m q) (corB m q v) YI); try assumption.
  - now rewrite U1.
  - split; [now rewrite U1|]. split; [now rewrite U1|]. intros b Hb. rewrite (U3 b Hb). unfold getCorRow. mem. reflexivity.
  - intros e t He (Y1 & Y2 & Y3). destruct (ST e t He) as (F & _ & _ & S1 & S2 & S3 & _). cbv zeta in *. split; [now rewrite S1|]. split; [now rewrite S2|]. intros b Hb. rewrite S3. auto.
  - intros e t A B He (Y1 & Y2 & Y3). rewrite (Y3 e He). apply (RD e He).
  - intros b Hb. rewrite (U3 b Hb). unfold getCorRow. mem. destruct (RD b Hb) as (-> & -> & -> & _). reflexivity.
  - intros e t b He Hb _. destruct (ST e t He) as (F & _ & _ & S1 & S2 & S3 & S4 & _). now apply S4.
  - intros e t k He (Y1 & Y2 & Y3). destruct (ST e t He) as (F & SF & SF' & _). cbv zeta in *. rewrite <- SF, SF', Y1, Y2. reflexivity.
  - intros e t k l He (Y1 & Y2 & Y3). destruct (ST e t He) as (F & SF & SF' & _ & _ & _ & _ & S5). cbv zeta in *. rewrite <- SF, S5, Y1, Y2. reflexivity.
Qed.

(* ---- the bilinear form ---- *)
Definition matForm (C : nat -> nat -> R) (u w : vec) : R := sumN (m_nv m) (fun k => sumN (m_nv m) (fun l => C k l * w l) * u k)%R.
Definition corForm q v u w : R := bodies m (fun b => v6dot (worldVel m q u b) (v6add (inertia_mul (worldInertia m q b) (dWorldVel m q v w b)) (m6vec (corB m q v b) (worldVel m q w b)))).
Lemma sum_dcol q v w b : b < m_njoints m -> sumF (colsOf m (dCol m q v) w) (tl (support m b)) = dWorldVel m q v w b.
Proof.
  intros Hb. unfold dWorldVel. apply sumF_ext. intros i Hi. pose proof (tl_range m W T b Hb i Hi) as Hr.
  rewrite (colsOf_lin m W Vm NM q w i (fun j x => motion_cross (worldVel m q v j) x) (dCol m q v) Hr); [reflexivity | | | |].
  - intros j. sring.
  - intros. sring.
  - intros. sring.
  - intros. reflexivity.
Qed.
Lemma bodies_add f g : (bodies m f + bodies m g)%R = bodies m (fun b => f b + g b)%R.
Proof. unfold bodies. now rewrite <- sumN_add. Qed.
Lemma bodies_eq f g : (forall b, 0 < b < m_njoints m -> f b = g b) -> bodies m f = bodies m g.
Proof. intros H. apply sumN_ext. intros k Hk. apply H. lia. Qed.
Theorem cor_form (C : nat -> nat -> R) q v u w : validState m q ->
  (forall i a j c, 0 < i < m_njoints m -> a < nvOf m i -> 0 < j < m_njoints m -> c < nvOf m j -> C (idx_v m i + a) (idx_v m j + c) = cEntry m q v i a j c) ->
  matForm C u w = corForm q v u w.
Proof.
  intros Hq H.
  pose (at2 := fun (g : nat -> nat -> nat -> nat -> R) k l => sumN (m_njoints m) (fun i => if (0 <? i) && within (idx_v m i) (nvOf m i) k then sumN (m_njoints m) (fun j => if (0 <? j) && within (idx_v m j) (nvOf m j) l then g i (k - idx_v m i) j (l - idx_v m j) else 0%R) else 0%R)).
  assert (AT : forall g i a j c, 0 < i < m_njoints m -> a < nvOf m i -> 0 < j < m_njoints m -> c < nvOf m j -> at2 g (idx_v m i + a) (idx_v m j + c) = g i a j c).
  { intros g i a j c Hi Ha Hj Hc. unfold at2. rewrite (sumN_ext _ _ (fun i' => if i =? i' then g i a j c else 0%R)).
    - apply (sumN_delta (m_njoints m) i (fun _ => g i a j c)). lia.
    - intros i' Hi'. destruct (Nat.ltb_spec 0 i'); cbn [andb]; [|destruct (Nat.eqb_spec i i'); [lia|reflexivity]]. rewrite (within_own m W NM i' i a ltac:(lia) Hi Ha), (Nat.eqb_sym i' i).
      destruct (Nat.eqb_spec i i') as [<-|]; [|reflexivity]. replace (idx_v m i + a - idx_v m i) with a by lia.
      rewrite (sumN_ext _ _ (fun j' => if j =? j' then g i a j c else 0%R)).
      + apply (sumN_delta (m_njoints m) j (fun _ => g i a j c)). lia.
      + intros j' Hj'. destruct (Nat.ltb_spec 0 j'); cbn [andb]; [|destruct (Nat.eqb_spec j j'); [lia|reflexivity]]. rewrite (within_own m W NM j' j c ltac:(lia) Hj Hc), (Nat.eqb_sym j' j).
        destruct (Nat.eqb_spec j j') as [<-|]; [|reflexivity]. replace (idx_v m j + c - idx_v m j) with c by lia. reflexivity. }
  set (g1 := fun i a j c => common m i j (fun b => v6dot (worldCol m q i a) (inertia_mul (worldInertia m q b) (dCol m q v j c)))).
  set (g2 := fun i a j c => common m i j (fun b => v6dot (worldCol m q i a) (m6vec (corB m q v b) (worldCol m q j c)))).
  assert (EC : forall k l, k < m_nv m -> l < m_nv m -> C k l = (at2 g1 k l + at2 g2 k l)%R).
  { intros k l Hk Hl. destruct (dof_owner m W k Hk) as (i & a & Hi & Ha & ->). destruct (dof_owner m W l Hl) as (j & c & Hj & Hc & ->).
    rewrite (H i a j c Hi Ha Hj Hc), !AT by assumption. unfold g1, g2. rewrite <- (common_add m). unfold cEntry. apply (common_ext m W T); [lia|]. intros b _. now rewrite v6dot_add_r. }
  unfold matForm. rewrite (sumN_ext _ _ (fun k => sumN (m_nv m) (fun l => at2 g1 k l * w l) * u k + sumN (m_nv m) (fun l => at2 g2 k l * w l) * u k)%R).
  - rewrite sumN_add.
    rewrite (common_form m W T NM (fun b x y => v6dot x (inertia_mul (worldInertia m q b) y)) (worldCol m q) (dCol m q v) (at2 g1) u w),
            (common_form m W T NM (fun b x y => v6dot x (m6vec (corB m q v b) y)) (worldCol m q) (worldCol m q) (at2 g2) u w).
    + rewrite bodies_add. apply bodies_eq. intros b Hb. rewrite sum_dcol, !(sum_world m W T Vm NM) by (assumption || lia). now rewrite v6dot_add_r.
    + intros. apply v6dot_0_l.
    + intros. apply v6dot_add_l.
    + intros. apply v6dot_scale_l.
    + intros. rewrite m6vec_0_r. apply v6dot_0_r.
    + intros. rewrite m6vec_add_r. apply v6dot_add_r.
    + intros. rewrite m6vec_scale_r. apply v6dot_scale_r.
    + intros i a j c Hi Ha Hj Hc. now rewrite AT.
    + intros. apply v6dot_0_l.
    + intros. apply v6dot_add_l.
    + intros. apply v6dot_scale_l.
    + intros. rewrite inertia_mul_0. apply v6dot_0_r.
    + intros. rewrite inertia_mul_add. apply v6dot_add_r.
    + intros. rewrite inertia_mul_scale. apply v6dot_scale_r.
    + intros i a j c Hi Ha Hj Hc. now rewrite AT.
  - intros k Hk. rewrite <- Rmult_plus_distr_r, <- sumN_add. f_equal. apply sumN_ext. intros l Hl. rewrite (EC k l Hk Hl). ring.
Qed.

(* ---- C(q,v) v ---- *)
Lemma corB_self q v b : m6vec (corB m q v b) (worldVel m q v b) = force_cross (worldVel m q v b) (inertia_mul (worldInertia m q b) (worldVel m q v b)).
Proof.
  unfold corB. rewrite addForceCross_vec, variation_half, variation_vec.
  assert (E : motion_cross (worldVel m q v b) (worldVel m q v b) = v6zero) by sring. rewrite E, inertia_mul_0.
  generalize (inertia_mul (worldInertia m q b) (worldVel m q v b)) (worldVel m q v b). intros; sext; ssimp; field.
Qed.
Theorem cor_gap q v u d d' : validState m q ->
  (dotv (m_nv m) (nonLinearEffects m d q v) u - dotv (m_nv m) (computeGeneralizedGravity m d' q) u)%R =
  (corForm q v u v + bodies m (fun b => v6dot (worldVel m q u b) (inertia_mul (worldInertia m q b) (biasSum m q v b))))%R.
Proof.
  intros Hq. rewrite (nle_power m W T Vm) by exact Hq. rewrite (gravity_power m W T Vm) by exact Hq. unfold power, corForm. rewrite bodies_add.
  unfold Rminus. rewrite <- (Rmult_1_l (bodies m _)) at 1. 
  replace (- bodies m (fun i => v6dot (bodyVel m q u i) (weight m q i)))%R with (bodies m (fun i => - v6dot (bodyVel m q u i) (weight m q i)))%R.
  - rewrite Rmult_1_l, bodies_add. apply bodies_eq. intros b Hb. pose proof (worldPl_rot m W T Vm q b Hq ltac:(lia)) as HR.
    pose proof (acc_share m W T Vm q v (fun _ => 0%R) b Hq ltac:(lia)) as AS.
    assert (V0 : worldVel m q (fun _ => 0%R) b = v6zero).
    { rewrite (worldVel_share m W T Vm q _ b Hq ltac:(lia)). apply sumF_zero. intros i Hi. unfold share, jointTwist.
      rewrite (Smul_ext _ _ (fun _ => 0%R)) by reflexivity. rewrite Smul_0. apply motion_act_0. }
    rewrite V0 in AS. 
    rewrite corB_self, <- v6dot_add_r.
    assert (EW : v6add (v6add (inertia_mul (worldInertia m q b) (dWorldVel m q v v b)) (force_cross (worldVel m q v b) (inertia_mul (worldInertia m q b) (worldVel m q v b)))) (inertia_mul (worldInertia m q b) (biasSum m q v b)) =
      force_act (worldPl m q b) (v6add (inertia_mul (inertiaOf m b) (bodyAcc m q v (fun _ => 0%R) b)) (force_cross (bodyVel m q v b) (inertia_mul (inertiaOf m b) (bodyVel m q v b))))).
    { rewrite force_act_add, force_act_cross by exact HR. unfold worldVel. rewrite <- !inertia_act_mul by exact HR. unfold worldInertia. rewrite <- AS.
      rewrite !inertia_mul_add, inertia_mul_0. set (x := inertia_mul _ (dWorldVel m q v v b)). set (y := force_cross _ _). set (z := inertia_mul _ (biasSum m q v b)).
      generalize x y z. sring. }
    rewrite EW. unfold worldVel. rewrite <- act_dot_dual, motion_actInv_act by apply HR. unfold bodyForce, weight. rewrite inertia_mul_sub.
    unfold gravityAt. set (G := inertia_mul (inertiaOf m b) (motion_actInv (worldPl m q b) (m_gravity m))). set (A := inertia_mul (inertiaOf m b) (bodyAcc _ _ _ _ _)). set (F := force_cross _ _).
    rewrite ?v6dot_add_r, ?v6dot_sub_r. 
    assert (EO : forall x, inertia_mul (inertiaOf m b) (v6opp x) = v6opp (inertia_mul (inertiaOf m b) x)) by (intros x; assert (E : forall y, v6opp y = v6scale (-1) y) by sring; now rewrite !E, inertia_mul_scale). rewrite EO. fold G.
    assert (EP : forall x y, v6dot x (v6opp y) = (- v6dot x y)%R) by (intros; ssimp; ring). rewrite EP. ring.
  - unfold bodies. rewrite <- (Rmult_1_l (sumN _ (fun k => v6dot _ _))), Ropp_mult_distr_l, <- sumN_scale. apply sumN_ext. intros; ring.
Qed.
End Get.
