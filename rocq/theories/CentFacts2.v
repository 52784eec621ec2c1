(* The centroidal map. *)
Require Import Reals List Arith ZArith Lia Lra Bool.
From Verif Require Import Vec3 Spatial Inertia InertiaFacts Joints Spec_Joints Deriv JointFacts JointFacts2 Model Spec_Model ModelFacts ModelTree ModelFacts2 Sums Data Kinematics Spec_Kin Spec_Mass KinFacts KinFacts2 KinFacts3 Spec_Dyn Rnea DynFacts DynFacts2 TreeSums MassFacts Crba CrbaFacts CrbaFacts2 Spec_Jac JacFacts JacFacts3 Spec_Com Com ComFacts ComFacts2 ComFacts3 ComFacts4 Centroidal CentFacts.
Import ListNotations.
Local Open Scope nat_scope.

Lemma colsMul_dot n J w e : v6dot e (colsMul n J w) = sumN n (fun k => w k * v6dot e (J k))%R.
Proof. induction n as [|n IH]; cbn [colsMul sumN]; [apply v6dot_0_r|]. now rewrite v6dot_add_r, v6dot_scale_r, IH. Qed.
Lemma colsMul_addCols n b l f J w : b + l <= n -> 
  colsMul n (addCols6 b l f J) w = v6add (colsMul n J w) (colsMul l f (shift b w)).
Proof.
  intros Hn. apply v6_dot_ext. intros e. rewrite v6dot_add_r, !colsMul_dot.
  rewrite (sumN_ext n _ (fun k => w k * v6dot e (J k) + (if (b <=? k) && (k <? b + l) then w k * v6dot e (f (k - b)%nat) else 0))%R).
  - rewrite sumN_add. f_equal. rewrite (sumN_seg n b l _ Hn). apply sumN_ext. intros k _. unfold shift. replace (b + k - b) with k by lia. reflexivity.
  - intros k _. unfold addCols6, within. destruct ((b <=? k) && (k <? b + l)); [rewrite v6dot_add_r; ring | ring].
Qed.
Lemma colsMul_zero n w : colsMul n (fun _ => v6zero) w = v6zero.
Proof. induction n as [|n IH]; [reflexivity|]. cbn [colsMul]. rewrite IH. sring. Qed.
(* an inertia is determined by its action *)
Lemma lever_action Y e w : v6dot (mkV6 e v3zero) (inertia_mul Y (mkV6 v3zero w)) = (mass Y * v3dot e (v3cross w (lever Y)))%R.
Proof. destruct Y as [mm [c1 c2 c3] S]. unfold v6dot, v3dot. cbn. unfold v3zero, v3cross, v3scale, v3sub; cbn. ring. Qed.
Lemma centred_mul Y V : inertia_mul (mkInertia (mass Y) v3zero (inertia Y)) V = atPoint (lever Y) (inertia_mul Y (mkV6 (v3add (lin V) (v3cross (lever Y) (ang V))) (ang V))).
Proof. destruct Y as [mm [c1 c2 c3] S], V as [[a b c] [x y z]]. destruct S. apply v6_ext; apply v3_ext; cbn; ring. Qed.

Section Map.
Variable eps : R.
Variable m : Model.
Hypothesis W : wellFormed m.
Hypothesis T : treeInv m.
Hypothesis Vm : validModel m.
Hypothesis RM : regularMasses eps m.

Definition ccrbaStart d :=
  let d := onYi d 0 F_oYcrb (fun _ => inertia_Zero) in
  let d := upward m (fun d i => onRow d i (fun r => setYi r F_oYcrb (inertia_act (pl r F_oMi) (inertiaOf m i)))) d in
  onCo d F_Ag (fun _ _ => v6zero).
(* momentum, in the world, of the bodies carried by joint i when joint i alone moves *)
Definition colMom q w i A : R := subSum m i (fun b => v6dot A (inertia_mul (worldInertia m q b) (motion_act (worldPl m q i) (jointTwist m q w i)))).
Lemma ccrba_pass q d : validState m q -> placed m q d -> (forall i, 0 < i < m_njoints m -> jS (jd (rows d i)) = jS (jointAt m q noVel i)) ->
  let t := ccrbaPass eps m d in
  (forall A B, v6dot A (inertia_mul (yi (rows t 0) F_oYcrb) B) = bodies m (fun b => v6dot A (inertia_mul (worldInertia m q b) B))) /\
  mass (yi (rows t 0) F_oYcrb) = subtreeMass m 0 /\
  (forall w A, v6dot A (colsMul (m_nv m) (co (gl t) F_Ag) w) = sumN (m_njoints m) (fun i => if (1 <=? i) && (0 <? i) then colMom q w i A else 0%R)).
Proof.
  intros Hq HP HS. cbv zeta. change (ccrbaPass eps m d) with (downward m (ccrbaBack eps m) (ccrbaStart d)). destruct RM as [He RM'].
  assert (ST : co (gl (ccrbaStart d)) F_Ag = (fun _ => v6zero) /\ yi (rows (ccrbaStart d) 0) F_oYcrb = inertia_Zero /\ forall i, 0 < i < m_njoints m ->
     yi (rows (ccrbaStart d) i) F_oYcrb = worldInertia m q i /\ pl (rows (ccrbaStart d) i) F_oMi = worldPl m q i /\ jS (jd (rows (ccrbaStart d) i)) = jS (jointAt m q noVel i)).
  { destruct (upward_rows m (fun i r _ => setYi r F_oYcrb (inertia_act (pl r F_oMi) (inertiaOf m i))) (onYi d 0 F_oYcrb (fun _ => inertia_Zero)) W) as (_ & H0 & H).
    unfold ccrbaStart. cbv zeta. set (d2 := upward m _ _) in *. change (upward m (rowStep m _) _) with d2 in H0, H.
    change (rows (onCo d2 F_Ag (fun _ _ => v6zero))) with (rows d2). split; [reflexivity|]. split; [rewrite H0; reflexivity|].
    intros i Hi. rewrite (H i Hi). unfold onYi, setRow. cbn [rows]. rewrite putn_other by lia. mem. destruct (HP i Hi) as [_ ->]. rewrite (HS i Hi). auto. }
  destruct ST as (A0 & Y0 & R1). set (s0 := ccrbaStart d) in *. clearbody s0.
  pose (Inv := fun k (s : Data) => (forall i, 0 < i < m_njoints m -> pl (rows s i) F_oMi = worldPl m q i /\ jS (jd (rows s i)) = jS (jointAt m q noVel i)) /\
    (forall j, j < m_njoints m -> regularMass eps (mass (yi (rows s j) F_oYcrb))) /\
    (forall A B, accInv m (fun s j => v6dot A (inertia_mul (yi (rows s j) F_oYcrb) B)) s0 true k s) /\
    (accInv m (fun s j => mass (yi (rows s j) F_oYcrb)) s0 true k s) /\
    (forall w A, v6dot A (colsMul (m_nv m) (co (gl s) F_Ag) w) = sumN (m_njoints m) (fun i => if (k <=? i) && (0 <? i) then colMom q w i A else 0%R))).
  assert (H : Inv 1 (downward m (ccrbaBack eps m) s0)).
  { apply downward_inv; [apply (wf_n _ W) | |].
    - split; [intros i Hi; apply (R1 i Hi)|]. split; [|split; [|split]].
      + intros j Hj. destruct (Nat.eq_dec j 0) as [->|]; [left; rewrite Y0; reflexivity|]. rewrite (proj1 (R1 j ltac:(lia))). unfold worldInertia, inertia_act. cbn [mass]. apply RM'. lia.
      + intros; apply accInv_start.
      + apply accInv_start.
      + intros w A. rewrite A0, colsMul_zero, v6dot_0_r, sumN_zero; [reflexivity|]. intros i Hi. destruct (Nat.leb_spec (m_njoints m) i); [lia | reflexivity].
    - intros i s Hi (I0 & I1 & I2 & I3 & I4). pose proof (wf_parent _ W i Hi) as Hp.
      destruct (wf_joint _ W i Hi) as (_ & _ & E1 & _ & EvE & _ & E4).
      set (s' := ccrbaBack eps m s i).
      assert (ER : forall k, rows s' k = if parent m i =? k then setYi (rows s k) F_oYcrb (inertia_plus eps (yi (rows s k) F_oYcrb) (yi (rows s i) F_oYcrb)) else rows s k).
      { intros k. unfold s', ccrbaBack, onYi, onCo. mem. unfold putn. destruct (Nat.eqb_spec (parent m i) k) as [<-|]; [|reflexivity].
        rewrite <- inertia_pequ_plus. reflexivity. }
      assert (EA : exists f, co (gl s') F_Ag = addCols6 (idx_v m i) (nvEOf m i) f (co (gl s) F_Ag) /\
            forall k, k < nvEOf m i -> f k = inertia_mul (yi (rows s i) F_oYcrb) (motion_act (worldPl m q i) (colOf (jS (jointAt m q noVel i)) k))).
      { eexists. split.
        - unfold s', ccrbaBack, onYi, onCo. cbv zeta. rewrite E1, E4. mem. reflexivity.
        - intros k Hk. cbv beta. unfold setCols.
          assert (Ew : within (jm_idx_vE (joint m i)) (nvEOf m i) (jm_idx_vE (joint m i) + k) = true) by (apply within_true; lia).
          rewrite Ew. replace (jm_idx_vE (joint m i) + k - jm_idx_vE (joint m i)) with k by lia. destruct (I0 i Hi) as [-> ->]. reflexivity. }
      clearbody s'.
      assert (PE : plus_exact eps (yi (rows s (parent m i)) F_oYcrb) (yi (rows s i) F_oYcrb) /\ regularMass eps (mass (inertia_plus eps (yi (rows s (parent m i)) F_oYcrb) (yi (rows s i) F_oYcrb))))
        by (apply regular_plus; [exact He | apply I1; lia | apply I1; lia]).
      assert (C : forall A B, v6dot A (inertia_mul (yi (rows s i) F_oYcrb) B) = subSum m i (fun b => v6dot A (inertia_mul (worldInertia m q b) B))).
      { intros A B. rewrite (acc_complete m W T _ s0 true (i + 1) s (I2 A B) i ltac:(lia) eq_refl ltac:(lia)). apply (subSum_ext m). intros b Hb Ab.
        rewrite (proj1 (R1 b ltac:(apply (anc_le m W T) in Ab; lia))). reflexivity. }
      split; [|split; [|split; [|split]]].
      + intros k Hk. rewrite ER. destruct (parent m i =? k); mem; apply I0, Hk.
      + intros k Hk. rewrite ER. destruct (Nat.eqb_spec (parent m i) k) as [<-|]; [apply PE | apply I1, Hk].
      + intros A B. apply (accInv_step m W _ _ _ _ _ _ Hi (I2 A B)). intros k Hk _. rewrite ER.
        destruct (Nat.eqb_spec (parent m i) k) as [<-|]; [|ring]. mem. rewrite inertia_plus_mul by apply PE. apply v6dot_add_r.
      + apply (accInv_step m W _ _ _ _ _ _ Hi I3). intros k Hk _. rewrite ER.
        destruct (Nat.eqb_spec (parent m i) k) as [<-|]; [reflexivity | ring].
      + intros w A. destruct EA as (f & -> & Ef). rewrite colsMul_addCols.
        * rewrite v6dot_add_r, I4.
          assert (EC : v6dot A (colsMul (nvEOf m i) f (shift (idx_v m i) w)) = colMom q w i A).
          { unfold colMom. rewrite <- C. f_equal. rewrite (colsMul_ext _ _ _ _ Ef). unfold jointTwist. rewrite <- colsMul_Smul, (jS_lenE m W Vm q noVel i Hi).
            generalize (nvEOf m i) (shift (idx_v m i) w) (yi (rows s i) F_oYcrb) (worldPl m q i). clear. intros n w Y M. unfold colOf.
            induction n as [|n IH]; cbn [colsMul]; [rewrite motion_act_0, inertia_mul_0; reflexivity|].
            rewrite IH, motion_act_add, inertia_mul_add, motion_act_scale, inertia_mul_scale. reflexivity. }
          rewrite EC. rewrite <- (sumN_delta (m_njoints m) i (fun i => colMom q w i A)) by lia. rewrite <- sumN_add. apply sumN_ext. intros k Hk.
          destruct (Nat.leb_spec i k), (Nat.leb_spec (i + 1) k), (Nat.eqb_spec i k), (Nat.ltb_spec 0 k); try lia; cbn [andb]; ring.
        * destruct (nvEOf m i) as [|n] eqn:En; [|pose proof (inRange m W Vm i n Hi ltac:(lia)); lia].
          destruct (wf_inrange m W i Hi) as [_ Hv]. lia. }
  destruct H as (_ & _ & I2 & I3 & I4). pose proof (wf_n _ W) as Hn. split; [|split; [|exact I4]].
  - intros A B. rewrite (acc_complete m W T _ s0 true 1 _ (I2 A B) 0 Hn eq_refl (le_n _)), (subSum_root m W T), <- (bodies_all m W).
    + unfold bodies. apply sumN_ext. intros k Hk. rewrite (proj1 (R1 (S k) ltac:(lia))). reflexivity.
    + rewrite Y0, inertia_mul_Zero. apply v6dot_0_r.
  - rewrite (acc_complete m W T _ s0 true 1 _ I3 0 Hn eq_refl (le_n _)). unfold subtreeMass. rewrite <- (subBodies_subSum m W).
    + apply subBodies_ext. intros b Hb _. rewrite (proj1 (R1 b Hb)). reflexivity.
    + rewrite Y0. reflexivity.
Qed.
(* the momentum of a body is the sum of what the joints of its support give it *)
Lemma mom_contrib q w A b : validState m q -> b < m_njoints m ->
  sumN (m_njoints m) (fun i => if (1 <=? i) && (0 <? i) then (if anc m i b then v6dot A (inertia_mul (worldInertia m q b) (motion_act (worldPl m q i) (jointTwist m q w i))) else 0) else 0)%R
  = v6dot A (inertia_mul (worldInertia m q b) (worldVel m q w b)).
Proof.
  intros Hq. generalize (worldInertia m q b) as Y. intros Y. revert b. refine (tree_ind m _ W _ _).
  - rewrite (worldVel_0 m W T), inertia_mul_0, v6dot_0_r. apply sumN_zero. intros i Hi. rewrite (anc_0 m W T).
    destruct (Nat.eqb_spec i 0) as [->|]; [reflexivity|]. destruct ((1 <=? i) && (0 <? i)); reflexivity.
  - intros b Hb IH. rewrite (worldVel_step m W T Vm q w b Hq Hb), inertia_mul_add, v6dot_add_r, <- IH.
    rewrite <- (sumN_delta (m_njoints m) b (fun b => v6dot A (inertia_mul Y (motion_act (worldPl m q b) (jointTwist m q w b))))) by lia.
    rewrite <- sumN_add. apply sumN_ext. intros i Hi. rewrite (anc_step m W T i b Hb), (Nat.eqb_sym i b).
    pose proof (wf_parent _ W b Hb) as Hp. pose proof (anc_le m W T i (parent m b) ltac:(lia)) as HL.
    destruct (Nat.leb_spec 1 i), (Nat.ltb_spec 0 i), (Nat.eqb_spec b i) as [<-|]; try lia; cbn [andb orb]; try ring.
    destruct (anc m b (parent m b)); [specialize (HL eq_refl); lia | ring].
Qed.
Lemma world_momentum q w b : validState m q -> b < m_njoints m -> inertia_mul (worldInertia m q b) (worldVel m q w b) = worldMomentum m q w b.
Proof. intros Hq Hb. unfold worldInertia, worldVel, worldMomentum. apply inertia_act_mul, (worldPl_rot m W T Vm q b Hq Hb). Qed.
Lemma colMom_sum q w A : validState m q ->
  sumN (m_njoints m) (fun i => if (1 <=? i) && (0 <? i) then colMom q w i A else 0%R) = v6dot A (totalMomentum m q w).
Proof.
  intros Hq. unfold totalMomentum. rewrite subBodies6_dot, (subBodies_root m W T).
  set (h := fun i b => (if (1 <=? i) && (0 <? i) then (if anc m i b then v6dot A (inertia_mul (worldInertia m q b) (motion_act (worldPl m q i) (jointTwist m q w i))) else 0) else 0)%R).
  rewrite (sumN_ext _ _ (fun i => sumN (m_njoints m) (h i))).
  - rewrite sumN_swap. rewrite <- (bodies_all m W (fun b => sumN (m_njoints m) (fun i => h i b))).
    + unfold bodies. apply sumN_ext. intros b Hb. unfold h. rewrite (mom_contrib q w A (S b) Hq) by lia. rewrite world_momentum by (exact Hq || lia). reflexivity.
    + apply sumN_zero. intros i Hi. unfold h. rewrite (anc_0 m W T). destruct (Nat.eqb_spec i 0) as [->|]; [reflexivity|]. destruct ((1 <=? i) && (0 <? i)); reflexivity.
  - intros i Hi. unfold h, colMom, subSum. destruct ((1 <=? i) && (0 <? i)); [reflexivity | now rewrite sumN_0].
Qed.
Lemma lever_com q Y : subtreeMass m 0 <> 0%R -> mass Y = subtreeMass m 0 ->
  (forall A B, v6dot A (inertia_mul Y B) = bodies m (fun b => v6dot A (inertia_mul (worldInertia m q b) B))) -> lever Y = subtreeCom m q 0.
Proof.
  intros HM EM HA. unfold subtreeCom.
  assert (G : forall e w, (subtreeMass m 0 * v3dot e (v3cross w (lever Y)))%R = v3dot (v3cross e w) (subBodies3 m 0 (fun b => v3scale (mass (inertiaOf m b)) (bodyCom m q b)))).
  { intros e w. rewrite <- EM, <- lever_action, HA, subBodies3_dot, (subBodies_root m W T). unfold bodies. apply sumN_ext. intros b Hb. rewrite lever_action.
    unfold worldInertia, bodyCom, inertia_act, se3_actPoint. cbn [mass lever].
    generalize (worldPl m q (S b)) (inertiaOf m (S b)). clear. intros M Y. unfold v3dot; cbn; ring. }
  pose proof (G (mkV3 0 1 0) (mkV3 0 0 1)) as G1. pose proof (G (mkV3 0 0 1) (mkV3 1 0 0)) as G2. pose proof (G (mkV3 1 0 0) (mkV3 0 1 0)) as G3. clear G.
  revert G1 G2 G3. generalize (subBodies3 m 0 (fun b => v3scale (mass (inertiaOf m b)) (bodyCom m q b))) (lever Y). intros x y.
  unfold v3dot; cbn. intros G1 G2 G3. apply v3_ext; cbn; apply (Rmult_eq_reg_l (subtreeMass m 0)); try exact HM;
    rewrite <- Rmult_assoc, Rinv_r by exact HM; lra.
Qed.
Lemma atPoint_dot c f A : v6dot A (atPoint c f) = v6dot (mkV6 (v3sub (lin A) (v3cross (ang A) c)) (ang A)) f.
Proof. unfold v6dot, v3dot, atPoint. cbn. ring. Qed.
Lemma colsMul_atPoint n c J w : colsMul n (fun k => atPoint c (J k)) w = atPoint c (colsMul n J w).
Proof.
  apply v6_dot_ext. intros A. rewrite atPoint_dot, !colsMul_dot. apply sumN_ext. intros k _. now rewrite atPoint_dot.
Qed.
Lemma ccrba_end q d : validState m q -> subtreeMass m 0 <> 0%R -> let d' := computeCentroidalMap eps m d q in
  (forall w, colsMul (m_nv m) (co (gl d') F_Ag) w = atPoint (subtreeCom m q 0) (totalMomentum m q w)) /\
  p3 (rows d' 0) F_com = subtreeCom m q 0 /\ 
  mass (yi (rows d' 0) F_oYcrb) = subtreeMass m 0 /\ lever (yi (rows d' 0) F_oYcrb) = subtreeCom m q 0 /\
  (forall A B, v6dot A (inertia_mul (yi (rows d' 0) F_oYcrb) B) = bodies m (fun b => v6dot A (inertia_mul (worldInertia m q b) B))).
Proof.
  intros Hq HM. cbv zeta. unfold computeCentroidalMap.
  destruct (ccrba_pass q (forwardKinematics0 m d q) Hq (fk0_placed m W T d q) (fun i Hi => fk0_jd m W d q i Hi)) as (P1 & P2 & P3).
  set (t := ccrbaPass eps m _) in *. clearbody t.
  assert (EL : lever (yi (rows t 0) F_oYcrb) = subtreeCom m q 0) by (apply lever_com; assumption).
  unfold ccrbaEnd. cbv zeta. 
  split; [|split; [|split; [|split]]].
  - intros w. change (co (gl (onCo ?d F_Ag ?f)) F_Ag) with (f (co (gl d) F_Ag)). cbv beta.
    rewrite (colsMul_ext _ _ (fun k => atPoint (subtreeCom m q 0) (co (gl t) F_Ag k))).
    + rewrite colsMul_atPoint. f_equal. apply v6_dot_ext. intros A. rewrite P3. apply colMom_sum, Hq.
    + intros k Hk. destruct (Nat.ltb_spec k (m_nv m)); [|lia]. rewrite toCom_atPoint. f_equal. rewrite onRow_at. cbn [Nat.eqb]. mem. exact EL.
  - change (rows (onCo ?d F_Ag ?f)) with (rows d). rewrite onRow_at. cbn [Nat.eqb]. mem. exact EL.
  - exact P2.
  - exact EL.
  - exact P1.
Qed.
Theorem map_spec q d v : validState m q -> subtreeMass m 0 <> 0%R ->
  let d1 := computeCentroidalMap eps m d q in let d2 := ccrba eps m d q v in
  (forall w, colsMul (m_nv m) (co (gl d1) F_Ag) w = atPoint (subtreeCom m q 0) (totalMomentum m q w)) /\
  (forall w, colsMul (m_nv m) (co (gl d2) F_Ag) w = atPoint (subtreeCom m q 0) (totalMomentum m q w)) /\
  gv (gl d2) F_hg = atPoint (subtreeCom m q 0) (totalMomentum m q v) /\
  p3 (rows d1 0) F_com = subtreeCom m q 0 /\ p3 (rows d2 0) F_com = subtreeCom m q 0 /\
  (forall A V, let c := subtreeCom m q 0 in
     v6dot A (inertia_mul (ig (gl d2)) V) = v6dot A (atPoint c (subBodies6 m 0 (fun b => inertia_mul (worldInertia m q b) (mkV6 (v3add (lin V) (v3cross c (ang V))) (ang V)))))).
Proof.
  intros Hq HM. cbv zeta. destruct (ccrba_end q d Hq HM) as (A1 & A2 & A3 & A4 & A5).
  split; [exact A1|]. unfold ccrba. fold (computeCentroidalMap eps m d q). set (d1 := computeCentroidalMap eps m d q) in *. clearbody d1. cbv zeta.
  split; [exact A1|]. split; [exact (A1 v)|]. split; [exact A2|]. split; [exact A2|].
  intros A V. change (ig (gl _)) with (mkInertia (mass (yi (rows d1 0) F_oYcrb)) v3zero (inertia (yi (rows d1 0) F_oYcrb))).
  rewrite centred_mul, A4, !atPoint_dot, A5, subBodies6_dot, (subBodies_root m W T). reflexivity.
Qed.
End Map.
