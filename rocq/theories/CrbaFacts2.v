Require Import Reals List Arith ZArith Lia Lra Bool.
From Verif Require Import Vec3 Spatial Inertia InertiaFacts Joints Spec_Joints Deriv JointFacts JointFacts2 Model Spec_Model ModelFacts ModelTree ModelFacts2 Sums Data Kinematics Spec_Kin Spec_Mass KinFacts KinFacts2 Spec_Dyn DynFacts DynFacts2 TreeSums MassFacts Crba CrbaFacts.
Import ListNotations.
Local Open Scope nat_scope.

Lemma v6_dot_ext a b : (forall A, v6dot A a = v6dot A b) -> a = b.
Proof.
  intros H. destruct a as [[a1 a2 a3] [a4 a5 a6]], b as [[b1 b2 b3] [b4 b5 b6]].
  pose proof (H (mkV6 (mkV3 1 0 0) v3zero)) as H1. pose proof (H (mkV6 (mkV3 0 1 0) v3zero)) as H2. pose proof (H (mkV6 (mkV3 0 0 1) v3zero)) as H3.
  pose proof (H (mkV6 v3zero (mkV3 1 0 0))) as H4. pose proof (H (mkV6 v3zero (mkV3 0 1 0))) as H5. pose proof (H (mkV6 v3zero (mkV3 0 0 1))) as H6.
  unfold v6dot, v3dot, v3zero in *. cbn [lin ang vx vy vz] in *. f_equal; f_equal; lra.
Qed.
Lemma within_eq b n k : within b n (b + k) = (k <? n).
Proof. unfold within. destruct (Nat.leb_spec b (b + k)), (Nat.ltb_spec (b + k) (b + n)), (Nat.ltb_spec k n); try lia; reflexivity. Qed.

Section World.
Variable eps : R.
Variable m : Model.
Hypothesis W : wellFormed m.
Hypothesis T : treeInv m.
Hypothesis Vm : validModel m.
Hypothesis NM : noMimic m.
Hypothesis RM : regularMasses eps m.

Lemma mimicking_nil : m_mimicking m = [].
Proof.
  rewrite (proj1 (ti_mimicking _ T)). 
  assert (H : forall l, (forall k, In k l -> 0 < k < m_njoints m) -> filter (fun k => isMimic (joint m k)) l = []).
  { induction l as [|a l IH]; intros H; [reflexivity|]. cbn [filter]. rewrite NM by (apply H; now left). apply IH. intros; apply H; now right. }
  apply H. intros k Hk. apply in_seq in Hk. lia.
Qed.
Lemma addDiagonal_M d k l : k < m_nv m -> 
  ma (gl (addDiagonal m d)) F_M k l = (ma (gl d) F_M k l + (if k =? l then nth k (m_armature m) 0 else 0))%R.
Proof.
  intros Hk. unfold addDiagonal, onM. mem. destruct (Nat.ltb_spec k (m_nv m)); [|lia]. rewrite andb_true_r. destruct (k =? l); [reflexivity|ring].
Qed.

(* forward pass *)
Lemma crbaW_forward d q : validState m q ->
  let d0 := onYi d 0 F_oYcrb (fun _ => inertia_Zero) in
  let d' := upward m (rowStepG m (crbaWRow m q) (crbaWCols m)) d0 in
  ma (gl d') F_M = ma (gl d) F_M /\ yi (rows d' 0) F_oYcrb = inertia_Zero /\
  forall i, 0 < i < m_njoints m -> yi (rows d' i) F_oYcrb = worldInertia m q i /\ pl (rows d' i) F_oMi = worldPl m q i /\
    (forall a, a < nvOf m i -> co (gl d') F_J (idx_v m i + a) = worldCol m q i a).
Proof.
  intros Hq d0. cbv zeta.
  destruct (upward_rowsG m (crbaWRow m q) (crbaWCols m) d0 W) as (H0 & H1 & H2). set (d' := upward m _ d0) in *. 
  assert (P : forall i, 0 < i < m_njoints m -> pl (rows d' i) F_oMi = worldPl m q i /\ jS (jd (rows d' i)) = jS (jointAt m q noVel i)).
  { assert (E : forall i r rp, 0 < i < m_njoints m -> jS (jd (crbaWRow m q i r rp)) = jS (jointAt m q noVel i) /\ pl (crbaWRow m q i r rp) F_liMi = relPl m q i /\
       pl (crbaWRow m q i r rp) F_oMi = if 0 <? parent m i then se3_mul (pl rp F_oMi) (relPl m q i) else relPl m q i).
    { intros i r rp Hi. unfold crbaWRow, fk0Row, place. destruct (calcJoint0_at m W i (jd r) q Hi) as (E1 & E2). mem. rewrite E1, E2. auto. }
    assert (G : forall i, i < m_njoints m -> 0 < i -> pl (rows d' i) F_oMi = worldPl m q i).
    { refine (tree_ind m _ W _ _); [lia|]. intros i Hi IH _. rewrite (H1 i Hi). destruct (E i (rows d0 i) (rows d' (parent m i)) Hi) as (_ & _ & ->).
      rewrite (worldPl_step m W T q i Hi). destruct (Nat.ltb_spec 0 (parent m i)); [now rewrite IH|].
      replace (parent m i) with 0 by lia. rewrite (worldPl_0 m W T). symmetry. apply se3_mul_1_l. }
    intros i Hi. split; [apply G; lia|]. rewrite (H1 i Hi). apply E, Hi. }
  assert (GL : ma (gl d') F_M = ma (gl d) F_M /\ forall i, 0 < i < m_njoints m -> forall a, a < nvOf m i -> co (gl d') F_J (idx_v m i + a) = worldCol m q i a).
  { rewrite H2. 
    pose (Inv := fun k (g : Glob) => ma g F_M = ma (gl d) F_M /\ forall i, 0 < i < k -> i < m_njoints m -> forall a, a < nvOf m i -> co g F_J (idx_v m i + a) = worldCol m q i a).
    assert (HI : Inv (m_njoints m) (upward m (fun g i => crbaWCols m i (rows d' i) g) (gl d0))).
    { apply upward_inv.
      - apply (wf_n _ W).
      - split; [reflexivity|]. intros; lia.
      - intros i g Hi [I1 I2]. split; [unfold crbaWCols; mem; exact I1|]. intros j Hj Hj' a Ha. unfold crbaWCols. mem. unfold setCols.
        destruct (jm_v m W Vm NM i Hi) as (_ & -> & _ & ->). rewrite (within_own m W NM i j a Hi ltac:(lia) Ha).
        destruct (Nat.eqb_spec i j) as [<-|Hn]; [|apply I2; try lia; exact Ha].
        replace (idx_v m i + a - idx_v m i) with a by lia. unfold worldCol, colOf. destruct (P i Hi) as [-> ->]. reflexivity. }
    destruct HI as [I1 I2]. split; [exact I1|]. intros i Hi. apply I2; lia. }
  destruct GL as [G1 G2]. split; [exact G1|]. split; [rewrite H0; unfold d0, onYi; mem; now rewrite putn_same|].
  intros i Hi. split; [|split; [apply P, Hi | now apply G2]]. unfold worldInertia. rewrite <- (proj1 (P i Hi)), (H1 i Hi). unfold crbaWRow. mem. reflexivity.
Qed.

Hypothesis DF : depthFirst m.
(* backward pass: what the processed joints leave in Ag and M *)
Definition blockForm q i a j c : R := subSum m j (fun b => v6dot (worldCol m q i a) (inertia_mul (worldInertia m q b) (worldCol m q j c))).
Definition wInv (q : vec) (d0 : Data) (k : nat) (s : Data) : Prop :=
  (co (gl s) F_J = co (gl d0) F_J) /\
  (forall j, j < m_njoints m -> regularMass eps (mass (yi (rows s j) F_oYcrb))) /\
  (forall A B, accInv m (fun s j => v6dot A (inertia_mul (yi (rows s j) F_oYcrb) B)) d0 true k s) /\
  (accInv m (fun s j => mass (yi (rows s j) F_oYcrb)) d0 true k s) /\
  (forall j c, k <= j -> 0 < j < m_njoints m -> c < nvOf m j ->
     forall A, v6dot A (co (gl s) F_Ag (idx_v m j + c)) = subSum m j (fun b => v6dot A (inertia_mul (worldInertia m q b) (worldCol m q j c)))) /\
  (forall i a j c, 0 < i < m_njoints m -> a < nvOf m i -> 0 < j < m_njoints m -> c < nvOf m j ->
     ma (gl s) F_M (idx_v m i + a) (idx_v m j + c) =
     if (k <=? i) && anc m i j then blockForm q i a j c else ma (gl d0) F_M (idx_v m i + a) (idx_v m j + c)).

Lemma crbaW_backward d0 q : validState m q ->
  yi (rows d0 0) F_oYcrb = inertia_Zero ->
  (forall i, 0 < i < m_njoints m -> yi (rows d0 i) F_oYcrb = worldInertia m q i) ->
  (forall i a, 0 < i < m_njoints m -> a < nvOf m i -> co (gl d0) F_J (idx_v m i + a) = worldCol m q i a) ->
  wInv q d0 1 (downward m (crbaWBack eps m) d0).
Proof.
  intros Hq Y0 Yi HJ. destruct RM as [He RM'].
  apply downward_inv; [apply (wf_n _ W) | |].
  - split; [reflexivity|]. split; [|split; [|split; [|split]]].
    + intros j Hj. destruct (Nat.eq_dec j 0) as [->|Hn]; [left; rewrite Y0; reflexivity|]. rewrite Yi by lia. unfold worldInertia, inertia_act. cbn [mass]. apply RM'. lia.
    + intros A B. apply accInv_start.
    + apply accInv_start.
    + intros; lia.
    + intros i a j c Hi _ _ _. destruct (Nat.leb_spec (m_njoints m) i); [lia|reflexivity].
  - intros i s Hi (I1 & I2 & I3 & I3' & I4 & I5). pose proof (wf_parent _ W i Hi) as Hp.
    destruct (jm_v m W Vm NM i Hi) as (E1 & E2 & E3 & E4).
    set (s' := crbaWBack eps m s i).
    (* memory effect of the step *)
    assert (FJ : co (gl s') F_J = co (gl s) F_J) by (unfold s', crbaWBack; rewrite (NM i Hi); unfold onYi, onM, onCo; mem; reflexivity).
    assert (FY : forall j, yi (rows s' j) F_oYcrb = if parent m i =? j then inertia_plus eps (yi (rows s j) F_oYcrb) (yi (rows s i) F_oYcrb) else yi (rows s j) F_oYcrb).
    { intros j. unfold s', crbaWBack. rewrite (NM i Hi). unfold onYi, onM, onCo. mem. destruct (Nat.eqb_spec (parent m i) j) as [<-|Hn].
      - rewrite putn_same. mem. apply inertia_pequ_plus.
      - now rewrite putn_other by exact Hn. }
    assert (FA : co (gl s') F_Ag = setCols (idx_v m i) (nvOf m i) (fun k => inertia_mul (yi (rows s i) F_oYcrb) (co (gl s) F_J (idx_v m i + k))) (co (gl s) F_Ag)).
    { unfold s', crbaWBack. rewrite (NM i Hi), E1, E2, E4. unfold onYi, onM, onCo. mem. reflexivity. }
    assert (FM : ma (gl s') F_M = setBlock (idx_v m i) (idx_v m i) (nvOf m i) (Z.to_nat (nvSubtree m i))
       (fun k l => v6dot (co (gl s) F_J (idx_v m i + k)) (co (gl s') F_Ag (idx_v m i + l))) (ma (gl s) F_M)).
    { rewrite FA. unfold s', crbaWBack. rewrite (NM i Hi), E1, E2, E3, E4. unfold onYi, onM, onCo. mem. reflexivity. }
    clearbody s'.
    assert (PE : plus_exact eps (yi (rows s (parent m i)) F_oYcrb) (yi (rows s i) F_oYcrb) /\ regularMass eps (mass (inertia_plus eps (yi (rows s (parent m i)) F_oYcrb) (yi (rows s i) F_oYcrb))))
      by (apply regular_plus; [exact He | apply I2; lia | apply I2; lia]).
    (* the composite inertia of joint i is complete *)
    assert (C : forall A B, v6dot A (inertia_mul (yi (rows s i) F_oYcrb) B) = subSum m i (fun b => v6dot A (inertia_mul (worldInertia m q b) B))).
    { intros A B. rewrite (acc_complete m W T _ d0 true (i + 1) s (I3 A B) i ltac:(lia) eq_refl ltac:(lia)). apply (subSum_ext m). intros b Hb Ab.
      rewrite Yi; [reflexivity|]. apply (anc_le m W T) in Ab; [lia | exact Hb]. }
    assert (AG : forall j c, i <= j -> 0 < j < m_njoints m -> c < nvOf m j ->
     forall A, v6dot A (co (gl s') F_Ag (idx_v m j + c)) = subSum m j (fun b => v6dot A (inertia_mul (worldInertia m q b) (worldCol m q j c)))).
    { intros j c Hij Hj Hc A. rewrite FA. unfold setCols. rewrite (within_own m W NM i j c Hi Hj Hc). destruct (Nat.eqb_spec i j) as [<-|Hn].
      - replace (idx_v m i + c - idx_v m i) with c by lia. rewrite C, I1, HJ by assumption. reflexivity.
      - apply I4; [lia | exact Hj | exact Hc]. }
    split; [now rewrite FJ|]. split; [|split; [|split; [|split]]].
    + intros j Hj. rewrite FY. destruct (Nat.eqb_spec (parent m i) j) as [<-|Hn]; [apply PE | now apply I2].
    + intros A B. apply (accInv_step m W _ d0 true i s s' Hi (I3 A B)). intros j Hj _. rewrite FY.
      destruct (Nat.eqb_spec (parent m i) j) as [<-|Hn]; [|ring]. rewrite inertia_plus_mul by apply PE. apply v6dot_add_r.
    + apply (accInv_step m W _ d0 true i s s' Hi I3'). intros j Hj _. rewrite FY.
      destruct (Nat.eqb_spec (parent m i) j) as [<-|Hn]; [reflexivity | ring].
    + exact AG.
    + intros i' a j c Hi' Ha Hj Hc. rewrite FM. unfold setBlock.
      rewrite (within_own m W NM i i' a Hi Hi' Ha), (within_subtree m W T Vm NM DF i j c Hi Hj Hc).
      destruct (Nat.eqb_spec i i') as [<-|Hn].
      * destruct (Nat.leb_spec i i); [|lia]. cbn [andb]. destruct (anc m i j) eqn:A.
        -- replace (idx_v m i + a - idx_v m i) with a by lia. replace (idx_v m i + (idx_v m j + c - idx_v m i)) with (idx_v m j + c).
           ++ rewrite AG; try assumption; [|now apply (anc_le m W T) in A; lia]. rewrite I1, HJ by assumption. reflexivity.
           ++ apply (anc_le m W T) in A; [|lia]. destruct (Nat.eq_dec i j) as [->|]; [lia|].
              pose proof (idx_v_mono m W NM i j ltac:(lia) ltac:(lia) ltac:(lia)). lia.
        -- rewrite (I5 i a j c Hi Ha Hj Hc). destruct (Nat.leb_spec (i + 1) i); [lia|reflexivity].
      * cbn [andb]. rewrite (I5 i' a j c Hi' Ha Hj Hc). destruct (Nat.leb_spec (i + 1) i'), (Nat.leb_spec i i'); try lia; reflexivity.
Qed.

Theorem crbaWorld_spec d q : validState m q -> exists d', crbaWorld eps m d q = Ok d' tt /\
  (forall i a j c, 0 < i < m_njoints m -> a < nvOf m i -> 0 < j < m_njoints m -> c < nvOf m j ->
    ma (gl d') F_M (idx_v m i + a) (idx_v m j + c) =
    if anc m i j then massMatrix m q (idx_v m i + a) (idx_v m j + c) else ma (gl d) F_M (idx_v m i + a) (idx_v m j + c)) /\
  (* the inertia of the whole tree is left in oYcrb[0], and Ag is the centroidal momentum matrix *)
  (forall A B, v6dot A (inertia_mul (yi (rows d' 0) F_oYcrb) B) = bodies m (fun b => v6dot A (inertia_mul (worldInertia m q b) B))) /\
  mass (yi (rows d' 0) F_oYcrb) = bodies m (fun b => mass (inertiaOf m b)) /\
  sc (rows d' 0) F_mass = mass (yi (rows d' 0) F_oYcrb) /\ p3 (rows d' 0) F_com = lever (yi (rows d' 0) F_oYcrb) /\
  (forall j c, 0 < j < m_njoints m -> c < nvOf m j -> exists h, 
     (forall A, v6dot A h = subSum m j (fun b => v6dot A (inertia_mul (worldInertia m q b) (worldCol m q j c)))) /\
     co (gl d') F_Ag (idx_v m j + c) = mkV6 (lin h) (v3add (ang h) (v3cross (lin h) (lever (yi (rows d' 0) F_oYcrb))))).
Proof.
  intros Hq. destruct (crbaW_forward d q Hq) as (F1 & F2 & F3). unfold crbaWorld.
  set (d1 := upward m _ _) in *. pose proof (crbaW_backward d1 q Hq F2 (fun i Hi => proj1 (F3 i Hi)) (fun i a Hi Ha => proj2 (proj2 (F3 i Hi)) a Ha)) as BW.
  set (d2 := downward m _ d1) in *. rewrite mimicking_nil. cbn [mimicPass]. eexists. split; [reflexivity|].
  destruct BW as (B1 & B2 & B3 & B3' & B4 & B5).
  split; [|split; [|split; [|split; [|split]]]].
  - intros i a j c Hi Ha Hj Hc. unfold onCo. mem. rewrite addDiagonal_M by (pose proof (idx_v_bound m W NM i Hi); lia).
    rewrite (B5 i a j c Hi Ha Hj Hc). destruct (Nat.leb_spec 1 i); [|lia]. cbn [andb]. rewrite F1. destruct (anc m i j) eqn:A.
    + unfold massMatrix. rewrite (form_unit m W T Vm NM q i a j c Hq Hi Ha Hj Hc A). reflexivity.
    + destruct (Nat.eqb_spec (idx_v m i + a) (idx_v m j + c)) as [E|]; [|ring].
      destruct (dof_unique m W NM i a j c Hi Hj Ha Hc E) as [-> _]. rewrite (anc_self m W T) in A by lia. discriminate.
  - intros A B. unfold onCo, addDiagonal, onM. mem. rewrite putn_same. mem.
    rewrite (acc_complete m W T _ d1 true 1 d2 (B3 A B) 0 ltac:(pose proof (wf_n _ W); lia) eq_refl ltac:(lia)), (subSum_root m W T).
    rewrite <- (bodies_all m W).
    + unfold bodies. apply sumN_ext. intros k Hk. rewrite (proj1 (F3 (S k) ltac:(lia))). reflexivity.
    + rewrite F2. rewrite inertia_mul_Zero. apply v6dot_0_r.
  - unfold onCo, addDiagonal, onM. mem. rewrite putn_same. mem.
    rewrite (acc_complete m W T _ d1 true 1 d2 B3' 0 ltac:(pose proof (wf_n _ W); lia) eq_refl ltac:(lia)), (subSum_root m W T).
    rewrite <- (bodies_all m W).
    + unfold bodies. apply sumN_ext. intros k Hk. rewrite (proj1 (F3 (S k) ltac:(lia))). reflexivity.
    + rewrite F2. reflexivity.
  - unfold onCo, addDiagonal, onM. mem. rewrite putn_same. mem. reflexivity.
  - unfold onCo, addDiagonal, onM. mem. rewrite putn_same. mem. reflexivity.
  - intros j c Hj Hc. exists (co (gl d2) F_Ag (idx_v m j + c)). split; [apply B4; (exact Hc || lia)|].
    unfold onCo, addDiagonal, onM. mem. rewrite putn_same. mem. 
    destruct (Nat.ltb_spec (idx_v m j + c) (m_nv m)) as [_|Hl]; [reflexivity|]. pose proof (idx_v_bound m W NM j Hj). lia.
Qed.

(* ---- local convention ---- *)
Definition locIn q j A := motion_actInv (worldPl m q j) A.
Definition lInv (q : vec) (d0 : Data) (k : nat) (s : Data) : Prop :=
  (forall j, jd (rows s j) = jd (rows d0 j) /\ pl (rows s j) F_liMi = pl (rows d0 j) F_liMi) /\
  (forall j, 0 < j < m_njoints m -> regularMass eps (mass (yi (rows s j) F_Ycrb))) /\
  (forall A B, accInv m (fun s j => v6dot (locIn q j A) (inertia_mul (yi (rows s j) F_Ycrb) (locIn q j B))) d0 false k s) /\
  (forall i j c, 0 < i < m_njoints m -> 0 < j < m_njoints m -> c < nvOf m j -> anc m i j = true ->
     (k <= i \/ exists e, k <= e /\ 0 < e < m_njoints m /\ parent m e = i /\ anc m e j = true) ->
     forall A, v6dot A (fcrb (gl s) i (idx_v m j + c)) = subSum m j (fun b => v6dot (motion_act (worldPl m q i) A) (inertia_mul (worldInertia m q b) (worldCol m q j c)))) /\
  (forall i a j c, 0 < i < m_njoints m -> a < nvOf m i -> 0 < j < m_njoints m -> c < nvOf m j ->
     ma (gl s) F_M (idx_v m i + a) (idx_v m j + c) =
     if (k <=? i) && anc m i j then blockForm q i a j c else ma (gl d0) F_M (idx_v m i + a) (idx_v m j + c)).

Lemma crbaL_backward d0 q : validState m q ->
  (forall i, 0 < i < m_njoints m -> yi (rows d0 i) F_Ycrb = inertiaOf m i /\ pl (rows d0 i) F_liMi = relPl m q i /\ jS (jd (rows d0 i)) = jS (jointAt m q noVel i)) ->
  lInv q d0 1 (downward m (crbaLBack eps m) d0).
Proof.
  intros Hq F0. destruct RM as [He RM'].
  assert (RW : forall i, i < m_njoints m -> isRotation (rot (worldPl m q i))) by (intros; now apply (worldPl_rot m W T Vm)).
  assert (LS : forall i A, 0 < i < m_njoints m -> locIn q i A = motion_actInv (relPl m q i) (locIn q (parent m i) A)).
  { intros i A Hi. pose proof (wf_parent _ W i Hi). unfold locIn. rewrite (worldPl_step m W T q i Hi). apply motion_actInv_mul; [apply RW; lia | now apply (relPl_rot m Vm)]. }
  apply downward_inv; [apply (wf_n _ W) | |].
  - split; [auto|]. split; [|split; [|split]].
    + intros j Hj. rewrite (proj1 (F0 j Hj)). now apply RM'.
    + intros A B. apply accInv_start.
    + intros i j c Hi Hj _ _ [H|(e & H1 & H2 & _)]; lia.
    + intros i a j c Hi _ _ _. destruct (Nat.leb_spec (m_njoints m) i); [lia|reflexivity].
  - intros i s Hi (I1 & I2 & I3 & I4 & I5). pose proof (wf_parent _ W i Hi) as Hp.
    destruct (jm_v m W Vm NM i Hi) as (E1 & E2 & E3 & E4). destruct (F0 i Hi) as (Y0 & L0 & S0).
    set (s' := crbaLBack eps m s i).
    set (F1 := setCols (idx_v m i) (nvOf m i) (fun k => inertia_mul (yi (rows s i) F_Ycrb) (colOf (jS (jointAt m q noVel i)) k)) (fcrb (gl s) i)).
    assert (HL : pl (rows s i) F_liMi = relPl m q i) by (rewrite (proj2 (I1 i)); exact L0).
    assert (HS : jS (jd (rows s i)) = jS (jointAt m q noVel i)) by (rewrite (proj1 (I1 i)); exact S0).
    assert (FR : forall j, jd (rows s' j) = jd (rows s j) /\ pl (rows s' j) F_liMi = pl (rows s j) F_liMi).
    { intros j. unfold s', crbaLBack. rewrite (NM i Hi). unfold onYi, onM, onF. destruct (0 <? parent m i); mem; [|auto].
      destruct (Nat.eq_dec (parent m i) j) as [<-|Hn]; [rewrite putn_same; mem; auto | rewrite putn_other by exact Hn; auto]. }
    assert (FY : forall j, 0 < j -> yi (rows s' j) F_Ycrb = if parent m i =? j then inertia_plus eps (yi (rows s j) F_Ycrb) (inertia_act (relPl m q i) (yi (rows s i) F_Ycrb)) else yi (rows s j) F_Ycrb).
    { intros j H0. unfold s', crbaLBack. rewrite (NM i Hi). unfold onYi, onM, onF. destruct (Nat.ltb_spec 0 (parent m i)); mem.
      - destruct (Nat.eqb_spec (parent m i) j) as [<-|Hn]; [rewrite putn_same; mem; rewrite HL; apply inertia_pequ_plus | now rewrite putn_other by exact Hn].
      - destruct (Nat.eqb_spec (parent m i) j); [lia|reflexivity]. }
    assert (FF : forall j, fcrb (gl s') j = if i =? j then F1 else if (0 <? parent m i) && (parent m i =? j)
        then setCols (idx_v m i) (Z.to_nat (nvSubtree m i)) (fun k => force_act (relPl m q i) (F1 (idx_v m i + k))) (fcrb (gl s) j) else fcrb (gl s) j).
    { intros j. unfold s', crbaLBack. rewrite (NM i Hi), E1, E3, E4. unfold onYi, onM, onF. unfold F1. rewrite <- HS.
      destruct (Nat.ltb_spec 0 (parent m i)); mem; cbn [andb].
      - rewrite !(putn_other (rows s) (parent m i) i) by lia. rewrite HL. rewrite putn_same. rewrite (putn_other (fcrb (gl s)) i (parent m i)) by lia.
        destruct (Nat.eqb_spec i j) as [<-|Hn]; [rewrite putn_other by lia; now rewrite putn_same|].
        destruct (Nat.eqb_spec (parent m i) j) as [<-|Hn']; [now rewrite putn_same | now rewrite !putn_other by assumption].
      - destruct (Nat.eqb_spec i j) as [<-|Hn]; [now rewrite putn_same | now rewrite putn_other by assumption]. }
    assert (FM : ma (gl s') F_M = setBlock (idx_v m i) (idx_v m i) (nvOf m i) (Z.to_nat (nvSubtree m i))
       (fun k l => v6dot (colOf (jS (jointAt m q noVel i)) k) (F1 (idx_v m i + l))) (ma (gl s) F_M)).
    { unfold s', crbaLBack. rewrite (NM i Hi), E1, E3, E4. unfold onYi, onM, onF. unfold F1. rewrite <- HS.
      destruct (0 <? parent m i); mem; rewrite putn_same; reflexivity. }
    clearbody s'.
    assert (PE : 0 < parent m i -> plus_exact eps (yi (rows s (parent m i)) F_Ycrb) (inertia_act (relPl m q i) (yi (rows s i) F_Ycrb)) /\ regularMass eps (mass (inertia_plus eps (yi (rows s (parent m i)) F_Ycrb) (inertia_act (relPl m q i) (yi (rows s i) F_Ycrb)))))
      by (intros; apply regular_plus; [exact He | apply I2; lia | apply (I2 i Hi)]).
    assert (C : forall A B, v6dot (locIn q i A) (inertia_mul (yi (rows s i) F_Ycrb) (locIn q i B)) = subSum m i (fun b => v6dot A (inertia_mul (worldInertia m q b) B))).
    { intros A B. rewrite (acc_complete m W T _ d0 false (i + 1) s (I3 A B) i ltac:(lia)); [|apply Nat.ltb_lt; lia|lia]. apply (subSum_ext m). intros b Hb Ab.
      apply (anc_le m W T) in Ab; [|exact Hb]. rewrite (proj1 (F0 b ltac:(lia))). unfold locIn, worldInertia. 
      rewrite act_dot_dual, <- inertia_act_mul by now apply RW. rewrite motion_act_actInv by now apply RW. reflexivity. }
    assert (AG : forall j c, 0 < j < m_njoints m -> c < nvOf m j -> anc m i j = true ->
     forall A, v6dot A (F1 (idx_v m j + c)) = subSum m j (fun b => v6dot (motion_act (worldPl m q i) A) (inertia_mul (worldInertia m q b) (worldCol m q j c)))).
    { intros j c Hj Hc Aij A. unfold F1, setCols. rewrite (within_own m W NM i j c Hi Hj Hc). destruct (Nat.eqb_spec i j) as [<-|Hn].
      - replace (idx_v m i + c - idx_v m i) with c by lia. rewrite <- C. unfold locIn, worldCol. rewrite !motion_actInv_act by (apply RW; lia). reflexivity.
      - apply I4; try assumption. right. destruct (anc_child m W T i j ltac:(lia) Aij Hn) as (e & X1 & X2 & X3). exists e.
        pose proof (wf_parent _ W e X1). repeat split; try assumption; lia. }
    split; [|split; [|split; [|split]]].
    + intros j. destruct (FR j) as [-> ->]. apply I1.
    + intros j Hj. rewrite FY by lia. destruct (Nat.eqb_spec (parent m i) j) as [<-|Hn]; [apply PE; lia | now apply I2].
    + intros A B. apply (accInv_step m W _ d0 false i s s' Hi (I3 A B)). intros j Hj Hr. apply Nat.ltb_lt in Hr. rewrite FY by exact Hr.
      destruct (Nat.eqb_spec (parent m i) j) as [<-|Hn]; [|ring]. rewrite inertia_plus_mul by (apply PE, Hr). rewrite v6dot_add_r. f_equal.
      rewrite !(LS i _ Hi). pose proof (relPl_rot m Vm q i Hq Hi) as RR.
      rewrite act_dot_dual, <- inertia_act_mul by exact RR. now rewrite motion_act_actInv by apply RR.
    + intros i' j c Hi' Hj Hc Aij Hre A. rewrite FF. destruct (Nat.eqb_spec i i') as [<-|Hn]; [now apply AG|].
      destruct (Nat.ltb_spec 0 (parent m i)), (Nat.eqb_spec (parent m i) i') as [Ep|Ep]; cbn [andb]; try lia.
      * unfold setCols. rewrite (within_subtree m W T Vm NM DF i j c Hi Hj Hc). destruct (anc m i j) eqn:Aj.
        -- replace (idx_v m i + (idx_v m j + c - idx_v m i)) with (idx_v m j + c).
           ++ rewrite <- act_dot_dual, AG by assumption. subst i'. rewrite (worldPl_step m W T q i Hi).
              rewrite motion_act_mul by (apply RW; lia). rewrite motion_act_actInv by (apply (relPl_rot m Vm q i Hq Hi)). reflexivity.
           ++ apply (anc_le m W T) in Aj; [|lia]. destruct (Nat.eq_dec i j) as [->|]; [lia|].
              pose proof (idx_v_mono m W NM i j ltac:(lia) ltac:(lia) ltac:(lia)). lia.
        -- apply I4; try assumption. destruct Hre as [Hre|(e & X1 & X2 & X3 & X4)]; [lia|]. right. exists e.
           assert (e <> i) by (intros ->; congruence). repeat split; try assumption; lia.
      * apply I4; try assumption. destruct Hre as [Hre|(e & X1 & X2 & X3 & X4)]; [left; lia|]. right. exists e.
        assert (e <> i) by (intros ->; congruence). repeat split; try assumption; lia.
      * apply I4; try assumption. destruct Hre as [Hre|(e & X1 & X2 & X3 & X4)]; [left; lia|]. right. exists e.
        assert (e <> i) by (intros ->; lia). repeat split; try assumption; lia.
    + intros i' a j c Hi' Ha Hj Hc. rewrite FM. unfold setBlock.
      rewrite (within_own m W NM i i' a Hi Hi' Ha), (within_subtree m W T Vm NM DF i j c Hi Hj Hc).
      destruct (Nat.eqb_spec i i') as [<-|Hn].
      * destruct (Nat.leb_spec i i); [|lia]. cbn [andb]. destruct (anc m i j) eqn:A.
        -- replace (idx_v m i + a - idx_v m i) with a by lia. replace (idx_v m i + (idx_v m j + c - idx_v m i)) with (idx_v m j + c).
           ++ rewrite AG by assumption. reflexivity.
           ++ apply (anc_le m W T) in A; [|lia]. destruct (Nat.eq_dec i j) as [->|]; [lia|].
              pose proof (idx_v_mono m W NM i j ltac:(lia) ltac:(lia) ltac:(lia)). lia.
        -- rewrite (I5 i a j c Hi Ha Hj Hc). destruct (Nat.leb_spec (i + 1) i); [lia|reflexivity].
      * cbn [andb]. rewrite (I5 i' a j c Hi' Ha Hj Hc). destruct (Nat.leb_spec (i + 1) i'), (Nat.leb_spec i i'); try lia; reflexivity.
Qed.

Theorem crbaLocal_spec d q : validState m q -> exists d', crbaLocal eps m d q = Ok d' tt /\
  (forall i a j c, 0 < i < m_njoints m -> a < nvOf m i -> 0 < j < m_njoints m -> c < nvOf m j ->
    ma (gl d') F_M (idx_v m i + a) (idx_v m j + c) =
    if anc m i j then massMatrix m q (idx_v m i + a) (idx_v m j + c) else ma (gl d) F_M (idx_v m i + a) (idx_v m j + c)).
Proof.
  intros Hq. unfold crbaLocal. destruct (upward_rows m (crbaLRow m q) d W) as (H0 & H1 & H2). cbv zeta in *. set (d1 := upward m _ _) in *.
  assert (F0 : forall i, 0 < i < m_njoints m -> yi (rows d1 i) F_Ycrb = inertiaOf m i /\ pl (rows d1 i) F_liMi = relPl m q i /\ jS (jd (rows d1 i)) = jS (jointAt m q noVel i)).
  { intros i Hi. rewrite (H2 i Hi). unfold crbaLRow. destruct (calcJoint0_at m W i (jd (rows d i)) q Hi) as (E1 & E2). mem. rewrite E1, E2. auto. }
  destruct (crbaL_backward d1 q Hq F0) as (_ & _ & _ & _ & B5). set (d2 := downward m _ d1) in *.
  rewrite mimicking_nil. cbn [mimicPass]. eexists. split; [reflexivity|].
  intros i a j c Hi Ha Hj Hc. rewrite addDiagonal_M by (pose proof (idx_v_bound m W NM i Hi); lia).
  rewrite (B5 i a j c Hi Ha Hj Hc). destruct (Nat.leb_spec 1 i); [|lia]. cbn [andb]. rewrite H0. destruct (anc m i j) eqn:A.
  - unfold massMatrix. rewrite (form_unit m W T Vm NM q i a j c Hq Hi Ha Hj Hc A). reflexivity.
  - destruct (Nat.eqb_spec (idx_v m i + a) (idx_v m j + c)) as [E|]; [|ring].
    destruct (dof_unique m W NM i a j c Hi Hj Ha Hc E) as [-> _]. rewrite (anc_self m W T) in A by lia. discriminate.
Qed.
End World.
