(* Jacobian of the centre of mass. *)
Require Import Reals List Arith ZArith Lia Lra Bool.
From Verif Require Import Vec3 Spatial Inertia InertiaFacts Joints Spec_Joints Deriv JointFacts JointFacts2 Model Spec_Model ModelFacts ModelTree ModelFacts2 Sums Data Kinematics Spec_Kin Spec_Mass KinFacts KinFacts2 KinFacts3 Spec_Dyn Rnea DynFacts DynFacts2 TreeSums MassFacts Crba CrbaFacts CrbaFacts2 Spec_Jac JacFacts JacFacts3 Spec_Com Com ComFacts ComFacts2 ComFacts3.
Import ListNotations.
Local Open Scope nat_scope.

Lemma cols3_dot n J w e : v3dot e (cols3Mul n J w) = sumN n (fun k => w k * v3dot e (J k))%R.
Proof. induction n as [|n IH]; cbn [cols3Mul sumN]; [unfold v3dot; cbn; ring|]. now rewrite v3dot_add_r, v3dot_scale_r, IH. Qed.
Lemma cols3_scale n J w c : cols3Mul n (fun k => v3scale c (J k)) w = v3scale c (cols3Mul n J w).
Proof.
  apply v3_dot_ext. intros e. rewrite v3dot_scale_r, !cols3_dot, <- sumN_scale. apply sumN_ext. intros. rewrite v3dot_scale_r. ring.
Qed.
Lemma cols3_ext n J J' w : (forall k, k < n -> J k = J' k) -> cols3Mul n J w = cols3Mul n J' w.
Proof. induction n as [|n IH]; intros H; cbn [cols3Mul]; [reflexivity|]. rewrite IH, (H n) by (intros; try apply H; lia). reflexivity. Qed.
Lemma cols3_addCols n b l f J w : b + l <= n -> 
  cols3Mul n (addCols3 b l f J) w = v3add (cols3Mul n J w) (cols3Mul l f (shift b w)).
Proof.
  intros Hn. apply v3_dot_ext. intros e. rewrite v3dot_add_r, !cols3_dot.
  rewrite (sumN_ext n _ (fun k => w k * v3dot e (J k) + (if (b <=? k) && (k <? b + l) then w k * v3dot e (f (k - b)%nat) else 0))%R).
  - rewrite sumN_add. f_equal. rewrite (sumN_seg n b l _ Hn). apply sumN_ext. intros k _. unfold shift. replace (b + k - b) with k by lia. reflexivity.
  - intros k _. unfold addCols3, within. destruct ((b <=? k) && (k <? b + l)); [rewrite v3dot_add_r; ring | ring].
Qed.
Lemma jcomCol_dot e M c J : v3dot e (jcomCol M c J) = (M * v3dot e (lin J) - v3dot e (v3cross c (ang J)))%R.
Proof. unfold jcomCol, v3dot. cbn. ring. Qed.
Lemma jcomCol_cols n M c (P : SE3) S w : n = length S ->
  cols3Mul n (fun k => jcomCol M c (motion_act P (colOf S k))) w = jcomCol M c (motion_act P (Smul S w)).
Proof.
  intros ->. rewrite <- colsMul_Smul. generalize (length S). intros n. induction n as [|n IH].
  - apply v3_ext; cbn; ring.
  - cbn [cols3Mul colsMul]. rewrite IH. unfold colOf. generalize (nth n S v6zero) (colsMul n (fun k => nth k S v6zero) w) (w n). clear.
    intros x y z. apply v3_ext; cbn; ring.
Qed.

Section Jac.
Variable m : Model.
Hypothesis W : wellFormed m.
Hypothesis T : treeInv m.
Hypothesis Vm : validModel m.

Definition jcomStart d :=
  let d := onRow d 0 (comZero 0) in
  let d := upward m (fun d i => onRow d i (fun r => setP3 (setSc r F_mass (mass (inertiaOf m i))) F_com
                        (v3scale (mass (inertiaOf m i)) (se3_actPoint (pl r F_oMi) (lever (inertiaOf m i)))))) d in
  setGl d (setJcom (gl d) (fun _ => v3zero)).
Definition world3 (U : V6) (x : V3) : V3 := v3add (lin U) (v3cross (ang U) x).

Section Pass.
Variables (q : vec) (d : Data).
Hypothesis HP : placed m q d.
Hypothesis HS : forall i, 0 < i < m_njoints m -> jS (jd (rows d i)) = jS (jointAt m q noVel i).

Lemma jcomStart_rows : (sc (rows (jcomStart d) 0) F_mass = 0%R /\ p3 (rows (jcomStart d) 0) F_com = v3zero) /\
  (forall k, jcom (gl (jcomStart d)) k = v3zero) /\
  forall i, 0 < i < m_njoints m -> sc (rows (jcomStart d) i) F_mass = mass (inertiaOf m i) /\
    p3 (rows (jcomStart d) i) F_com = v3scale (mass (inertiaOf m i)) (bodyCom m q i) /\
    pl (rows (jcomStart d) i) F_oMi = worldPl m q i /\ jS (jd (rows (jcomStart d) i)) = jS (jointAt m q noVel i).
Proof.
  destruct (upward_rows m (fun i r _ => setP3 (setSc r F_mass (mass (inertiaOf m i))) F_com
                        (v3scale (mass (inertiaOf m i)) (se3_actPoint (pl r F_oMi) (lever (inertiaOf m i))))) (onRow d 0 (comZero 0)) W) as (_ & H0 & H).
  unfold jcomStart. cbv zeta. set (d2 := upward m _ _) in *.
  change (upward m (rowStep m _) (onRow d 0 (comZero 0))) with d2 in H0, H. 
  change (rows (setGl d2 (setJcom (gl d2) (fun _ => v3zero)))) with (rows d2). split; [|split].
  - rewrite H0. split; reflexivity.
  - reflexivity.
  - intros i Hi. rewrite (H i Hi), onRow_at. destruct (Nat.eqb_spec 0 i); [lia|]. mem. destruct (HP i Hi) as [_ EP]. rewrite EP, (HS i Hi). repeat split.
Qed.

Definition phiW e (s : Data) j := v3dot e (p3 (rows s j) F_com).
Definition colTerm (w : vec) (i : nat) : V3 :=
  jcomCol (subtreeMass m i) (subBodies3 m i (fun b => v3scale (mass (inertiaOf m b)) (bodyCom m q b))) (motion_act (worldPl m q i) (jointTwist m q w i)).

Definition upto k (f : nat -> V3) : V3 := mkV3 (sumN (m_njoints m) (fun i => if (k <=? i) && (0 <? i) then vx (f i) else 0%R))
  (sumN (m_njoints m) (fun i => if (k <=? i) && (0 <? i) then vy (f i) else 0%R)) (sumN (m_njoints m) (fun i => if (k <=? i) && (0 <? i) then vz (f i) else 0%R)).
Lemma upto_step i f : 0 < i < m_njoints m -> upto i f = v3add (upto (i + 1) f) (f i).
Proof.
  intros Hi.
  assert (G : forall g : nat -> R, sumN (m_njoints m) (fun k => if (i <=? k) && (0 <? k) then g k else 0%R) =
     (sumN (m_njoints m) (fun k => if (i + 1 <=? k) && (0 <? k) then g k else 0%R) + g i)%R).
  { intros g. rewrite <- (sumN_delta (m_njoints m) i g) by lia. rewrite <- sumN_add. apply sumN_ext. intros k Hk.
    destruct (Nat.leb_spec i k), (Nat.leb_spec (i + 1) k), (Nat.eqb_spec i k), (Nat.ltb_spec 0 k); try lia; cbn [andb]; ring. }
  apply v3_ext; unfold upto, v3add; cbn [vx vy vz].
  - apply (G (fun k => vx (f k))).
  - apply (G (fun k => vy (f k))).
  - apply (G (fun k => vz (f k))).
Qed.
Lemma upto_none k f : m_njoints m <= k -> upto k f = v3zero.
Proof.
  intros H. apply v3_ext; unfold upto; cbn [vx vy vz v3zero]; apply sumN_zero; intros i Hi; destruct (Nat.leb_spec k i); try lia; reflexivity.
Qed.

Lemma jcom_pass : let t := downward m (jcomBack false m) (jcomStart d) in
  (forall j, j < m_njoints m -> sc (rows t j) F_mass = subtreeMass m j /\ p3 (rows t j) F_com = subBodies3 m j (fun b => v3scale (mass (inertiaOf m b)) (bodyCom m q b))) /\
  (forall w, cols3Mul (m_nv m) (jcom (gl t)) w = upto 1 (colTerm w)).
Proof.
  cbv zeta. destruct jcomStart_rows as ((Z1 & Z2) & ZJ & R1). set (s0 := jcomStart d) in *. clearbody s0.
  assert (S1 : forall j, j < m_njoints m -> subSum m j (phiM s0) = subtreeMass m j).
  { intros j Hj. rewrite <- (subBodies_subSum m W); [|exact Z1]. apply subBodies_ext. intros b Hb _. apply (R1 b Hb). }
  assert (S2 : forall e j, j < m_njoints m -> subSum m j (phiW e s0) = v3dot e (subBodies3 m j (fun b => v3scale (mass (inertiaOf m b)) (bodyCom m q b)))).
  { intros e j Hj. rewrite subBodies3_dot, <- (subBodies_subSum m W); [|unfold phiW; rewrite Z2; unfold v3dot; cbn; ring].
    apply subBodies_ext. intros b Hb _. unfold phiW. now rewrite (proj1 (proj2 (R1 b Hb))). }
  pose (Inv := fun k (s : Data) => (forall i, 0 < i < m_njoints m -> pl (rows s i) F_oMi = worldPl m q i /\ jS (jd (rows s i)) = jS (jointAt m q noVel i)) /\
    accInv m phiM s0 true k s /\ (forall e, accInv m (phiW e) s0 true k s) /\
    (forall w, cols3Mul (m_nv m) (jcom (gl s)) w = upto k (colTerm w))).
  assert (H : Inv 1 (downward m (jcomBack false m) s0)).
  { apply downward_inv; [apply (wf_n _ W) | |].
    - split; [intros i Hi; apply (R1 i Hi)|]. split; [apply accInv_start|]. split; [intros; apply accInv_start|].
      intros w. rewrite upto_none by lia. rewrite (cols3_ext _ _ (fun _ => v3zero)) by (intros; apply ZJ).
      induction (m_nv m) as [|n IH]; [reflexivity|]. cbn [cols3Mul]. rewrite IH. apply v3_ext; cbn; ring.
    - intros i s Hi (I0 & I1 & I2 & I3). pose proof (wf_parent _ W i Hi) as Hp.
      assert (EM : sc (rows s i) F_mass = subtreeMass m i).
      { rewrite <- S1 by lia. apply (acc_complete m W T _ _ _ _ _ I1 i ltac:(lia) eq_refl); lia. }
      assert (EC : p3 (rows s i) F_com = subBodies3 m i (fun b => v3scale (mass (inertiaOf m b)) (bodyCom m q b))).
      { apply v3_dot_ext. intros e. rewrite <- S2 by lia. apply (acc_complete m W T _ _ _ _ _ (I2 e) i ltac:(lia) eq_refl); lia. }
      assert (ER : forall k, rows (jcomBack false m s i) k = if parent m i =? k then jcomAdd (rows s k) (rows s i) else rows s k).
      { intros k. change (rows (jcomBack false m s i)) with (rows (onRow s (parent m i) (fun r => jcomAdd r (rows s i)))).
        rewrite onRow_at. destruct (Nat.eqb_spec (parent m i) k) as [<-|]; reflexivity. }
      split; [|split; [|split]].
      + intros k Hk. rewrite ER. destruct (parent m i =? k); [unfold jcomAdd, addMass; mem|]; apply I0, Hk.
      + apply (accInv_step m W _ _ _ _ _ _ Hi I1). intros k Hk _. unfold phiM. rewrite ER. destruct (parent m i =? k); [reflexivity | ring].
      + intros e. apply (accInv_step m W _ _ _ _ _ _ Hi (I2 e)). intros k Hk _. unfold phiW. rewrite ER. destruct (parent m i =? k); [|ring].
        unfold jcomAdd, addMass. mem. apply v3dot_add_r.
      + intros w. rewrite (upto_step i _ Hi), <- (I3 w).
        destruct (wf_joint _ W i Hi) as (_ & _ & E1 & _ & EvE & _ & E4).
        assert (EJ : exists f, jcom (gl (jcomBack false m s i)) = addCols3 (idx_v m i) (nvEOf m i) f (jcom (gl s)) /\
            forall k, k < nvEOf m i -> f k = jcomCol (subtreeMass m i) (subBodies3 m i (fun b => v3scale (mass (inertiaOf m b)) (bodyCom m q b))) (motion_act (worldPl m q i) (colOf (jS (jointAt m q noVel i)) k))).
        { eexists. split.
          - unfold jcomBack. cbv zeta. rewrite E1, E4. unfold onCo. cbn [gl setGl jcom setJcom]. change (jcom (setCo ?g _ _)) with (jcom g). 
            change (jcom (gl (onRow s _ _))) with (jcom (gl s)). reflexivity.
          - intros k Hk. cbv beta.
            set (d1 := onRow s (parent m i) _).
            assert (Er : rows d1 i = rows s i) by (unfold d1; rewrite onRow_at; destruct (Nat.eqb_spec (parent m i) i); [lia | reflexivity]).
            cbn [rows setGl gl co setCo]. unfold put. cbn [CoT_beq]. rewrite Er, EM, EC. f_equal. unfold setCols.
            destruct (within _ _ _) eqn:Ew.
            + destruct (I0 i Hi) as [-> ->]. do 2 f_equal. lia.
            + exfalso. assert (within (jm_idx_vE (joint m i)) (nvEOf m i) (jm_idx_vE (joint m i) + k) = true) by (apply within_true; lia). congruence. }
        destruct EJ as (f & -> & Ef). rewrite cols3_addCols.
        * f_equal. rewrite (cols3_ext _ _ _ _ Ef), jcomCol_cols; [reflexivity|]. symmetry. apply (jS_lenE m W Vm q noVel i Hi).
        * destruct (nvEOf m i) as [|n] eqn:En; [|pose proof (inRange m W Vm i n Hi ltac:(lia)); lia].
          destruct (wf_inrange m W i Hi) as [_ Hv]. lia. }
  destruct H as (_ & I1 & I2 & I3). split; [|exact I3]. intros j Hj. split.
  - rewrite <- S1 by exact Hj. apply (acc_complete m W T _ _ _ _ _ I1 j Hj eq_refl); lia.
  - apply v3_dot_ext. intros e. rewrite <- S2 by exact Hj. apply (acc_complete m W T _ _ _ _ _ (I2 e) j Hj eq_refl); lia.
Qed.
Lemma jcom_sub : let s := downward m (jcomBack true m) (jcomStart d) in let t := downward m (jcomBack false m) (jcomStart d) in
  (forall j, j < m_njoints m -> rows s j = if 1 <=? j then comDiv 0 (rows t j) else rows t j) /\ jcom (gl s) = jcom (gl t).
Proof.
  cbv zeta. set (s0 := jcomStart d). clearbody s0.
  pose (Rel := fun k (s t : Data) => (forall j, j < m_njoints m -> rows s j = if k <=? j then comDiv 0 (rows t j) else rows t j) /\ gl s = gl t).
  assert (H : Rel 1 (downward m (jcomBack true m) s0) (downward m (jcomBack false m) s0)); [|destruct H as [H1 H2]; now rewrite H2].
  apply downward_rel; [apply (wf_n _ W) | |].
  - split; [|reflexivity]. intros j Hj. destruct (Nat.leb_spec (m_njoints m) j); [lia | reflexivity].
  - intros i s t Hi [HI HG]. pose proof (wf_parent _ W i Hi) as Hp.
    assert (Ei : rows s i = rows t i) by (rewrite (HI i ltac:(lia)); destruct (Nat.leb_spec (i + 1) i); [lia | reflexivity]).
    assert (Ep : rows s (parent m i) = rows t (parent m i)) by (rewrite (HI (parent m i) ltac:(lia)); destruct (Nat.leb_spec (i + 1) (parent m i)); [lia | reflexivity]).
    assert (Ef : gl (jcomBack false m s i) = gl (jcomBack false m t i)).
    { unfold jcomBack. cbv zeta. 
      assert (Er : rows (onRow s (parent m i) (fun r => jcomAdd r (rows s i))) i = rows (onRow t (parent m i) (fun r => jcomAdd r (rows t i))) i)
        by (rewrite !onRow_at; destruct (Nat.eqb_spec (parent m i) i); [lia | exact Ei]).
      unfold onCo. cbn [gl setGl rows]. change (gl (onRow s _ _)) with (gl s). change (gl (onRow t _ _)) with (gl t).
      rewrite Er, HG. reflexivity. }
    split; [|exact Ef].
    intros j Hj. change (rows (jcomBack true m s i) j) with (rows (onRow (jcomBack false m s i) i (comDiv 0)) j). rewrite onRow_at.
    assert (ER : forall (x : Data) k, rows (jcomBack false m x i) k = if parent m i =? k then jcomAdd (rows x k) (rows x i) else rows x k).
    { intros x k. change (rows (jcomBack false m x i)) with (rows (onRow x (parent m i) (fun r => jcomAdd r (rows x i)))).
      rewrite onRow_at. destruct (Nat.eqb_spec (parent m i) k) as [<-|]; reflexivity. }
    rewrite !ER. destruct (Nat.eqb_spec i j) as [<-|Hn].
    + destruct (Nat.eqb_spec (parent m i) i); [lia|]. destruct (Nat.leb_spec i i); [now rewrite Ei | lia].
    + destruct (Nat.eqb_spec (parent m i) j) as [<-|].
      * destruct (Nat.leb_spec i (parent m i)); [lia|]. now rewrite Ei, Ep.
      * rewrite (HI j Hj). destruct (Nat.leb_spec (i + 1) j), (Nat.leb_spec i j); try lia; reflexivity.
Qed.
End Pass.

(* contribution of the joints to the velocity of a point *)
Lemma point_contrib q w x e b : validState m q -> b < m_njoints m ->
  sumN (m_njoints m) (fun i => if (1 <=? i) && (0 <? i) then (if anc m i b then v3dot e (world3 (motion_act (worldPl m q i) (jointTwist m q w i)) x) else 0) else 0)%R
  = v3dot e (world3 (worldVel m q w b) x).
Proof.
  intros Hq. revert b. refine (tree_ind m _ W _ _).
  - rewrite (worldVel_0 m W T). rewrite sumN_zero; [unfold v3dot; cbn; ring|]. intros i Hi. rewrite (anc_0 m W T).
    destruct (Nat.eqb_spec i 0) as [->|]; [reflexivity|]. destruct ((1 <=? i) && (0 <? i)); reflexivity.
  - intros b Hb IH. rewrite (worldVel_step m W T Vm q w b Hq Hb).
    transitivity (v3dot e (world3 (worldVel m q w (parent m b)) x) + v3dot e (world3 (motion_act (worldPl m q b) (jointTwist m q w b)) x))%R.
    2:{ generalize (worldVel m q w (parent m b)) (motion_act (worldPl m q b) (jointTwist m q w b)). clear. intros X Y. unfold v3dot; cbn; ring. }
    rewrite <- IH, <- (sumN_delta (m_njoints m) b (fun b => v3dot e (world3 (motion_act (worldPl m q b) (jointTwist m q w b)) x))) by lia.
    rewrite <- sumN_add. apply sumN_ext. intros i Hi. rewrite (anc_step m W T i b Hb), (Nat.eqb_sym i b).
    pose proof (wf_parent _ W b Hb) as Hp. pose proof (anc_le m W T i (parent m b) ltac:(lia)) as HL.
    destruct (Nat.leb_spec 1 i), (Nat.ltb_spec 0 i), (Nat.eqb_spec b i) as [<-|]; try lia; cbn [andb orb]; try ring.
    destruct (anc m b (parent m b)); [specialize (HL eq_refl); lia | ring].
Qed.
Lemma world_com q w b : validState m q -> b < m_njoints m -> world3 (worldVel m q w b) (bodyCom m q b) = comVel m q w b.
Proof.
  intros Hq Hb. pose proof (worldPl_rot m W T Vm q b Hq Hb) as HR. unfold worldVel, bodyCom, comVel.
  generalize dependent (worldPl m q b). intros M HR. generalize (bodyVel m q w b) (lever (inertiaOf m b)). clear - HR. intros V c.
  unfold world3, se3_actPoint, motion_act. cbn [lin ang]. rewrite m3vec_add_r.
  rewrite (rotation_cross (rot M) (ang V) c HR).
  generalize (m3vec (rot M) (lin V)) (m3vec (rot M) (ang V)) (m3vec (rot M) c) (trans M). clear. intros a b c p. apply v3_ext; cbn; ring.
Qed.
Lemma colTerm_sum q w : validState m q -> upto 1 (colTerm q w) = subBodies3 m 0 (fun b => v3scale (mass (inertiaOf m b)) (comVel m q w b)).
Proof.
  intros Hq. apply v3_dot_ext. intros e. rewrite subBodies3_dot, (subBodies_root m W T).
  assert (EU : forall f, v3dot e (upto 1 f) = sumN (m_njoints m) (fun i => if (1 <=? i) && (0 <? i) then v3dot e (f i) else 0%R)).
  { intros f. unfold upto, v3dot. cbn [vx vy vz]. rewrite <- !sumN_scale, <- !sumN_add. apply sumN_ext. intros i Hi. destruct ((1 <=? i) && (0 <? i)); ring. }
  rewrite EU. unfold bodies.
  set (U := fun i => motion_act (worldPl m q i) (jointTwist m q w i)).
  rewrite (sumN_ext (m_njoints m) _ (fun i => sumN (m_njoints m - 1) (fun b => if (1 <=? i) && (0 <? i) then (if anc m i (S b) then mass (inertiaOf m (S b)) * v3dot e (world3 (U i) (bodyCom m q (S b))) else 0) else 0)%R)).
  - rewrite sumN_swap. apply sumN_ext. intros b Hb. rewrite v3dot_scale_r, <- (world_com q w (S b) Hq ltac:(lia)).
    rewrite <- (point_contrib q w _ e (S b) Hq ltac:(lia)), <- sumN_scale. apply sumN_ext. intros i Hi. fold (U i).
    destruct ((1 <=? i) && (0 <? i)), (anc m i (S b)); ring.
  - intros i Hi. destruct ((1 <=? i) && (0 <? i)) eqn:E; [|rewrite sumN_0; reflexivity].
    unfold colTerm. fold (U i). rewrite jcomCol_dot. unfold subtreeMass.
    transitivity (subBodies m i (fun b => mass (inertiaOf m b) * v3dot e (world3 (U i) (bodyCom m q b)))%R); [|reflexivity].
    rewrite (subBodies_ext m i (fun b => mass (inertiaOf m b) * v3dot e (world3 (U i) (bodyCom m q b)))%R
      (fun b => v3dot e (lin (U i)) * mass (inertiaOf m b) + v3dot (v3cross e (ang (U i))) (v3scale (mass (inertiaOf m b)) (bodyCom m q b)))%R).
    + rewrite subBodies_add, subBodies_scale, <- subBodies3_dot.
      generalize (subBodies3 m i (fun b => v3scale (mass (inertiaOf m b)) (bodyCom m q b))) (U i) (subBodies m i (fun b => mass (inertiaOf m b))). clear.
      intros c U x. unfold v3dot; cbn; ring.
    + intros b _ _. generalize (U i) (bodyCom m q b) (mass (inertiaOf m b)). clear. intros U c x. unfold v3dot; cbn; ring.
Qed.

Theorem jcom_spec q d sub : validState m q ->
  let d' := jacobianCenterOfMass m d q sub in
  (forall v, cols3Mul (m_nv m) (jcom (gl d')) v = subtreeVel m q v 0) /\
  (forall j, j < m_njoints m -> sc (rows d' j) F_mass = subtreeMass m j) /\
  (forall j, j < m_njoints m -> j = 0 \/ sub = true -> p3 (rows d' j) F_com = subtreeCom m q j).
Proof.
  intros Hq. cbv zeta. unfold jacobianCenterOfMass, jacobianCenterOfMassFK.
  set (d0 := forwardKinematics0 m d q).
  assert (HP : placed m q d0) by apply (fk0_placed m W T d q).
  assert (HS : forall i, 0 < i < m_njoints m -> jS (jd (rows d0 i)) = jS (jointAt m q noVel i)) by (intros i Hi; apply (fk0_jd m W d q i Hi)).
  clearbody d0.
  change (setGl (upward m _ (onRow d0 0 (comZero 0))) _) with (jcomStart d0).
  destruct (jcom_pass q d0 HP HS) as [P1 P2]. destruct (jcom_sub d0) as [Q1 Q2]. cbv zeta in P1, P2, Q1, Q2.
  assert (E : exists s, downward m (jcomBack sub m) (jcomStart d0) = s /\
    (forall j, j < m_njoints m -> sc (rows s j) F_mass = subtreeMass m j) /\
    (forall j, 0 < j < m_njoints m -> sub = true -> p3 (rows s j) F_com = subtreeCom m q j) /\
    p3 (rows s 0) F_com = subBodies3 m 0 (fun b => v3scale (mass (inertiaOf m b)) (bodyCom m q b)) /\
    (forall w, cols3Mul (m_nv m) (jcom (gl s)) w = upto 1 (colTerm q w))).
  { eexists. split; [reflexivity|]. destruct sub.
    - rewrite Q2. split; [|split; [|split; [|exact P2]]].
      + intros j Hj. rewrite (Q1 j Hj). destruct (1 <=? j); rewrite ?comDiv_mass; apply (P1 j Hj).
      + intros j Hj _. rewrite (Q1 j ltac:(lia)). destruct (Nat.leb_spec 1 j); [|lia]. rewrite comDiv_com. destruct (P1 j ltac:(lia)) as [-> ->]. reflexivity.
      + rewrite (Q1 0 (wf_n _ W)). apply (P1 0 (wf_n _ W)).
    - split; [|split; [discriminate|split; [|exact P2]]].
      + intros j Hj. apply (P1 j Hj).
      + apply (P1 0 (wf_n _ W)). }
  destruct E as (s & -> & E1 & E2 & E3 & E4). 
  assert (ER : forall j, rows (setGl (onRow s 0 (comDiv 0)) (setJcom (gl (onRow s 0 (comDiv 0))) (fun k => v3div (sc (rows (onRow s 0 (comDiv 0)) 0) F_mass) (jcom (gl (onRow s 0 (comDiv 0))) k)))) j
     = if 0 =? j then comDiv 0 (rows s 0) else rows s j) by (intros j; exact (onRow_at s 0 (comDiv 0) j)).
  split; [|split].
  - intros v. change (gl (onRow s 0 (comDiv 0))) with (gl s). cbn [gl setGl jcom setJcom]. rewrite onRow_at. cbn [Nat.eqb]. rewrite comDiv_mass, (E1 0 (wf_n _ W)).
    rewrite (cols3_ext _ _ (fun k => v3scale (/ subtreeMass m 0) (jcom (gl s) k))) by (intros; apply v3div_scale).
    rewrite cols3_scale, E4, (colTerm_sum q v Hq). reflexivity.
  - intros j Hj. rewrite ER. destruct (Nat.eqb_spec 0 j) as [<-|]; [rewrite comDiv_mass|]; apply E1, Hj.
  - intros j Hj Hs. rewrite ER. destruct (Nat.eqb_spec 0 j) as [<-|].
    + rewrite comDiv_com, (E1 0 Hj), E3. reflexivity.
    + apply E2; [lia|]. destruct Hs; [lia | assumption].
Qed.
End Jac.
