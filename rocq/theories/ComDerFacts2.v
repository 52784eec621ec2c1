(* getCenterOfMassVelocityDerivatives after centerOfMass and after computeAllTerms. *)
Require Import Reals List Arith ZArith Lia Lra Bool.
From Verif Require Import Vec3 Spatial Inertia InertiaFacts SpatialFacts Joints Spec_Joints Deriv JointFacts JointFacts2 Model Spec_Model ModelFacts ModelTree ModelFacts2 ModelFacts3 Sums Data Kinematics Spec_Kin Spec_Mass KinFacts KinFacts2 KinFacts3 Spec_Dyn Rnea DynFacts DynFacts2 TreeSums MassFacts Crba CrbaFacts CrbaFacts2 CrbaFacts3 CrbaFacts4 Jacobian Spec_Jac JacFacts JacFacts2 JacFacts3 Spec_Com Com ComFacts ComFacts2 ComFacts3 ComFacts4 ComFacts5 ComFacts6 AllTerms AllTermsFacts AllTermsFacts2 CholFacts5 KinDerFacts KinDerEx RneaDerFacts8 DccrbaFacts3 SubCom ComDer ComDerFacts.
Import ListNotations.
Local Open Scope nat_scope.

Definition sameKin (d d' : Data) : Prop := forall j, jd (rows d' j) = jd (rows d j) /\ pl (rows d' j) = pl (rows d j) /\ mo (rows d' j) = mo (rows d j).
Lemma sameKin_onRow d d' i f : (forall r, jd (f r) = jd r /\ pl (f r) = pl r /\ mo (f r) = mo r) -> sameKin d d' -> sameKin d (onRow d' i f).
Proof. intros H S j. rewrite onRow_at. destruct (Nat.eqb_spec i j) as [<-|]; [|apply S]. destruct (H (rows d' i)) as (-> & -> & ->). apply S. Qed.
Lemma fold_same {X} (g : Data -> X -> Data) d l : (forall s i, sameKin d s -> sameKin d (g s i)) -> forall s, sameKin d s -> sameKin d (fold_left g l s).
Proof. intros H. induction l as [|i l IH]; intros s S; [exact S|]. cbn [fold_left]. apply IH, H, S. Qed.
Lemma com_same m d lvl sub d' c : centerOfMass m d lvl sub = Ok d' c -> sameKin d d'.
Proof.
  unfold centerOfMass. destruct (2 <? lvl); [discriminate|]. intros E. injection E as E _. rewrite <- E.
  apply sameKin_onRow; [intros r; unfold comDiv; destruct (1 <=? lvl), (2 <=? lvl); repeat split|].
  apply (fold_same (comBack lvl sub m)).
  - intros s i S. unfold comBack. cbv zeta. assert (S1 : sameKin d (onRow s (parent m i) (fun r => comAdd lvl r (rows s i)))) by (apply sameKin_onRow; [intros r; unfold comAdd, addMass; destruct (1 <=? lvl), (2 <=? lvl); repeat split | exact S]).
    destruct sub; [|exact S1]. apply sameKin_onRow; [intros r; unfold comDiv; destruct (1 <=? lvl), (2 <=? lvl); repeat split | exact S1].
  - apply (fold_same (comForward lvl m)).
    + intros s i S. apply sameKin_onRow; [intros r; destruct (1 <=? lvl), (2 <=? lvl); repeat split | exact S].
    + apply sameKin_onRow; [intros r; unfold comZero; destruct (1 <=? lvl), (2 <=? lvl); repeat split | intros j; repeat split].
Qed.

Section CD.
Variable eps : R.
Variable m : Model.
Hypothesis Bt : Built eps m.
Let W : wellFormed m := Built_wf eps m Bt.
Let T : treeInv m := Built_tree eps m Bt.
Hypothesis Vm : validModel m.
Hypothesis NM : noMimic m.
Hypothesis HM : subtreeMass m 0 <> 0%R.

Lemma com1_ready d q v : validState m q -> exists d', centerOfMass1 m d q v true = Ok d' (subtreeCom m q 0) /\ ready m q v d'.
Proof.
  intros Hq. unfold centerOfMass1. destruct (fk1_vel m W d q v) as (V0 & V1 & VJ). pose proof (fk1_placed m W T d q v) as HP. pose proof (vel_body m W T Vm q v _ Hq V0 V1) as HV.
  set (d1 := forwardKinematics1 m d q v) in *. clearbody d1. destruct (com_spec m W T 1 true q d1 ltac:(lia) HP HM) as (d' & E & C1 & C2 & C3 & _). exists d'. split; [exact E|].
  pose proof (com_same m d1 1 true d' _ E) as S. split; [|split; [exact C1|]].
  - intros i Hi. destruct (S i) as (-> & -> & ->). destruct (HP i Hi) as [_ EP]. repeat split; [apply VJ, Hi | exact EP | apply HV; lia].
  - intros j Hj Hne. split; [apply C2; auto; lia|]. apply C3; auto; [intros i Hi; apply HV|]; lia.
Qed.
Lemma com1_vel d q v sub : validState m q -> exists d', centerOfMass1 m d q v sub = Ok d' (subtreeCom m q 0) /\ p3 (rows d' 0) F_vcom = subtreeVel m q v 0.
Proof.
  intros Hq. unfold centerOfMass1. destruct (fk1_vel m W d q v) as (V0 & V1 & VJ). pose proof (fk1_placed m W T d q v) as HP. pose proof (vel_body m W T Vm q v _ Hq V0 V1) as HV.
  set (d1 := forwardKinematics1 m d q v) in *. clearbody d1. destruct (com_spec m W T 1 sub q d1 ltac:(lia) HP HM) as (d' & E & C1 & C2 & C3 & _). exists d'. split; [exact E|].
  rewrite <- (C3 v 0 (le_n _) (fun i Hi => HV i (proj2 Hi)) (wf_n _ W) (or_introl eq_refl)), (worldPl_0 m W T). apply v3_ext; cbn; ring.
Qed.
Lemma all_ready d q v : regularMasses eps m -> depthFirst m -> validState m q -> ready m q v (computeAllTerms eps m d q v).
Proof.
  intros RM DF Hq. destruct (cat_all eps m W T Vm NM RM DF HM q v d Hq) as (K1 & _ & KM & KC & _). split; [|split; [exact KM|]].
  - intros i Hi. destruct (K1 i Hi) as (A1 & _ & A3 & A4 & _). auto.
  - intros j Hj Hne. apply KC; [lia | exact Hne].
Qed.
Hypothesis FA : forall i, 0 < i < m_njoints m -> fixedAxes (jm_type (joint m i)).
Hypothesis HMs : forall j, 0 < j < m_njoints m -> subtreeMass m j <> 0%R.
Variables (q v : R -> vec) (w v' : vec) (t : R).
Hypothesis Hq : forall s, validState m (q s).
Hypothesis Hm : moves m q w t.
Hypothesis Hv : accelerates m v v' t.
Lemma comder_any d d0 sub res : ready m (q t) (v t) d -> exists vel, (forall s, exists d', centerOfMass1 m d0 (q s) (v s) sub = Ok d' (subtreeCom m (q s) 0) /\ p3 (rows d' 0) F_vcom = vel s) /\
  deriv3 vel (v3add (cols3Mul (m_nv m) (getCenterOfMassVelocityDerivatives m d res) w) (cols3Mul (m_nv m) (jcom (gl (jacobianCenterOfMass m d0 (q t) sub))) v')) t.
Proof.
  intros HD. exists (fun s => subtreeVel m (q s) (v s) 0). split; [intros s; apply com1_vel, Hq|].
  destruct (jcom_spec m W T Vm (q t) d0 sub (Hq t)) as (-> & _). exact (vcom_deriv eps m Bt Vm NM FA q v w v' t d res Hq Hm Hv HM HMs HD).
Qed.
Theorem comder_com d d0 sub res : exists d1, centerOfMass1 m d (q t) (v t) true = Ok d1 (subtreeCom m (q t) 0) /\
  exists vel, (forall s, exists d', centerOfMass1 m d0 (q s) (v s) sub = Ok d' (subtreeCom m (q s) 0) /\ p3 (rows d' 0) F_vcom = vel s) /\
  deriv3 vel (v3add (cols3Mul (m_nv m) (getCenterOfMassVelocityDerivatives m d1 res) w) (cols3Mul (m_nv m) (jcom (gl (jacobianCenterOfMass m d0 (q t) sub))) v')) t.
Proof. destruct (com1_ready d (q t) (v t) (Hq t)) as (d1 & E & HD). exists d1. split; [exact E | exact (comder_any d1 d0 sub res HD)]. Qed.
Theorem comder_all d d0 sub res : regularMasses eps m -> depthFirst m ->
  exists vel, (forall s, exists d', centerOfMass1 m d0 (q s) (v s) sub = Ok d' (subtreeCom m (q s) 0) /\ p3 (rows d' 0) F_vcom = vel s) /\
  deriv3 vel (v3add (cols3Mul (m_nv m) (getCenterOfMassVelocityDerivatives m (computeAllTerms eps m d (q t) (v t)) res) w) (cols3Mul (m_nv m) (jcom (gl (jacobianCenterOfMass m d0 (q t) sub))) v')) t.
Proof. intros RM DF. exact (comder_any _ d0 sub res (all_ready d (q t) (v t) RM DF (Hq t))). Qed.
End CD.

(* every column is overwritten *)
Theorem comder_fresh m d res res' : wellFormed m -> validModel m -> noMimic m -> forall k, k < m_nv m ->
  getCenterOfMassVelocityDerivatives m d res k = getCenterOfMassVelocityDerivatives m d res' k.
Proof.
  intros W Vm NM k Hk. destruct (dof_owner m W k Hk) as (j & c & Hj & Hc & ->).
  assert (G : forall l x y, (forall i, In i l -> 0 < i < m_njoints m) -> (x (idx_v m j + c) = y (idx_v m j + c) \/ In j l) -> fold_left (comDerStep m d) l x (idx_v m j + c) = fold_left (comDerStep m d) l y (idx_v m j + c)).
  { induction l as [|i l IH]; intros x y Hl H; [destruct H as [H|[]]; exact H|]. cbn [fold_left]. apply IH; [intros; apply Hl; right; assumption|].
    pose proof (Hl i (or_introl eq_refl)) as Hi. destruct (jm_v m W Vm NM i Hi) as (E1 & _ & E3 & _). unfold comDerStep. cbv zeta. rewrite E1, E3. unfold setCols. rewrite (within_own m W NM i j c Hi Hj Hc).
    destruct (Nat.eqb_spec i j) as [->|Hn]; [left; reflexivity|]. destruct H as [H|[H|H]]; [left; exact H | contradiction | right; exact H]. }
  apply G; [intros i Hi; apply in_seq in Hi; lia|]. right. apply in_seq. lia.
Qed.
Lemma exD_allmass j : 0 < j < m_njoints (exD (1/1000)) -> subtreeMass (exD (1/1000)) j <> 0%R.
Proof.
  intros Hj. change (m_njoints (exD (1/1000))) with 4 in Hj. unfold subtreeMass, subBodies, bodies. change (m_njoints (exD (1/1000)) - 1) with 3.
  destruct j as [|[|[|[|j]]]]; try lia.
  - rewrite (sumN_ext 3 _ (fun k => 2%R)); [cbn; lra|]. intros k Hk. destruct k as [|[|[|k]]]; try lia; cbn; ring.
  - rewrite (sumN_ext 3 _ (fun k => if k =? 1 then 2%R else 0%R)); [cbn; lra|]. intros k Hk. destruct k as [|[|[|k]]]; try lia; cbn; ring.
  - rewrite (sumN_ext 3 _ (fun k => if k =? 2 then 2%R else 0%R)); [cbn; lra|]. intros k Hk. destruct k as [|[|[|k]]]; try lia; cbn; ring.
Qed.
Lemma exComDer s (u : vec) : let m := exD (1/1000) in Built (1/1000) m /\ validModel m /\ noMimic m /\ depthFirst m /\ regularMasses (1/1000) m /\
  (forall i, 0 < i < m_njoints m -> fixedAxes (jm_type (joint m i))) /\ (forall x, validState m (exQ x)) /\ moves m exQ (exV s) s /\ accelerates m (fun x k => x * u k)%R u s /\
  subtreeMass m 0 <> 0%R /\ (forall j, 0 < j < m_njoints m -> subtreeMass m j <> 0%R) /\ m_njoints m = 4 /\ m_nv m = 10.
Proof.
  exact (conj (exD_built _) (conj (exD_valid _) (conj (exD_noMimic _) (conj (exD_df _) (conj exD_regularMasses (conj (exD_fixed _) (conj (exD_validState _) (conj (exD_moves s) (conj (linear_accelerates _ u s) (conj exD_masses (conj exD_allmass (conj eq_refl eq_refl)))))))))))).
Qed.
