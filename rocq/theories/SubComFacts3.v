(* jacobianSubtreeCenterOfMass as a whole. *)
Require Import Reals List Arith ZArith Lia Lra Bool.
From Verif Require Import Vec3 Spatial Inertia InertiaFacts Joints Spec_Joints Deriv JointFacts JointFacts2 Model Spec_Model ModelFacts ModelTree ModelFacts2 ModelFacts3 Sums Data Kinematics Spec_Kin Spec_Mass KinFacts KinFacts2 KinFacts3 Spec_Dyn Rnea DynFacts DynFacts2 TreeSums MassFacts Crba CrbaFacts CrbaFacts2 CrbaFacts3 CrbaFacts4 Spec_Jac JacFacts JacFacts3 Spec_Com Com ComFacts ComFacts2 ComFacts3 ComFacts4 ComFacts5 Jacobian SubCom SubComFacts SubComFacts2.
Import ListNotations.
Local Open Scope nat_scope.

Lemma cols3_unit n J k : k < n -> cols3Mul n J (unitv k) = J k.
Proof.
  intros Hk. apply v3_dot_ext. intros e. rewrite cols3_dot, (sumN_ext n _ (fun i => if k =? i then v3dot e (J i) else 0%R)).
  - apply sumN_delta, Hk.
  - intros i _. unfold unitv. destruct (k =? i); ring.
Qed.
Lemma cols3_add n J J' w : cols3Mul n (fun k => v3add (J k) (J' k)) w = v3add (cols3Mul n J w) (cols3Mul n J' w).
Proof. induction n as [|n IH]; cbn [cols3Mul]; [apply v3_ext; cbn; ring|]. rewrite IH. generalize (cols3Mul n J w) (cols3Mul n J' w) (J n) (J' n) (w n). clear. intros a b c d x. apply v3_ext; cbn; ring. Qed.
(* the columns of the matrix of the caller that the call divides by the mass of the subtree *)
Definition divided (m : Model) (r k : nat) : bool := (r =? 0) || within (jm_idx_v (joint m r)) (Z.to_nat (nvSubtree m r)) k.
Definition kept (m : Model) (r : nat) (res : Mat3) (k : nat) : V3 := if divided m r k then v3scale (/ subtreeMass m r) (res k) else res k.

Section Sub3.
Variable m : Model.
Hypothesis W : wellFormed m.
Hypothesis T : treeInv m.
Hypothesis Vm : validModel m.
Hypothesis NM : noMimic m.

Definition Done (d : Data) (q : vec) (r : nat) (d' : Data) : Prop :=
  sc (rows d' r) F_mass = subtreeMass m r /\
  p3 (rows d' r) F_com = (if r =? 0 then v3scale (subtreeMass m r) (subtreeCom m q r) else subtreeCom m q r) /\
  (forall k, jcom (gl d') k = v3zero) /\
  (0 < r -> sc (rows d' (parent m r)) F_mass = (sc (rows d (parent m r)) F_mass + subtreeMass m r)%R).
Theorem subcom_spec q r d res : validState m q -> r < m_njoints m ->
  if Rlt_dec 0 (subtreeMass m r) then
    exists d' J, jacobianSubtreeCenterOfMass m d q r res = Ok (d', J) tt /\ Done (forwardKinematics0 m d q) q r d' /\
      forall w, cols3Mul (m_nv m) J w = v3add (subtreeVel m q w r) (cols3Mul (m_nv m) (kept m r res) w)
  else exists s, jacobianSubtreeCenterOfMass m d q r res = Throw s.
Proof.
  intros Hq Hr. unfold jacobianSubtreeCenterOfMass, jacobianSubtreeCenterOfMassFK. set (d0 := forwardKinematics0 m d q).
  assert (HP : placed m q d0) by apply (fk0_placed m W T d q).
  assert (HS : forall i, 0 < i < m_njoints m -> jS (jd (rows d0 i)) = jS (jointAt m q noVel i)) by (intros i Hi; apply (fk0_jd m W d q i Hi)).
  clearbody d0. cbv zeta. destruct (Nat.ltb_spec r (m_njoints m)); [|lia]. cbn [negb]. fold (start m r d0).
  destruct (sub_pass m W T Vm q r Hr d0 HP HS res) as (I0 & I1 & I2 & I3 & I4 & I5). set (s := fold_left (subBack m) (rev (subtree m r)) (start m r d0, res)) in *. clearbody s.
  assert (F : sc (rows (fst s) r) F_mass = subtreeMass m r /\ (subtreeMass m r <> 0%R -> p3 (rows (fst s) r) F_com = (if r =? 0 then v3scale (subtreeMass m r) (subtreeCom m q r) else subtreeCom m q r))).
  { destruct (Nat.eqb_spec r 0) as [E|E].
    - rewrite E in *. destruct (I1 0 Hr (anc_root m W T 0 Hr) ltac:(lia)) as [A B]. rewrite (part_all m W 0 Hr) in A by lia. rewrite <- (mass_rec m W T 0 Hr 0 Hr) in A. split; [exact A|]. intros HM.
      assert (EC : p3 (rows (fst s) 0) F_com = sumsC m q 0). { apply v3_dot_ext. intros e. rewrite B, (part_all m W 0 Hr) by lia. symmetry. apply (com_rec m W T q 0 Hr e 0 Hr). }
      rewrite EC. unfold subtreeCom. fold (sumsC m q 0). generalize (sumsC m q 0). intros c. apply v3_ext; cbn; field; exact HM.
    - destruct (I2 r ltac:(lia) (anc_self m W T r Hr) ltac:(lia)) as [A B]. split; [exact A | intros _; exact B]. }
  destruct F as [FM FC]. rewrite FM. destruct (Rlt_dec 0 (subtreeMass m r)) as [HM|_]; [|exists s; reflexivity].
  assert (HM' : subtreeMass m r <> 0%R) by lra. specialize (FC HM').
  destruct (Nat.eqb_spec r 0) as [E|E].
  - eexists _, _. split; [reflexivity|]. split.
    + split; [exact FM|]. split; [destruct (Nat.eqb_spec r 0); [exact FC | contradiction]|]. split; [exact I4|]. intros; lia.
    + intros w. rewrite cols3_scale, I3. unfold kept, divided. rewrite E. cbn [Nat.eqb orb]. rewrite cols3_scale.
      rewrite (upto_ext m 1 _ (colTerm m q w)) by (intros i Hi; unfold masked; rewrite (anc_root m W T i) by lia; reflexivity). rewrite (colTerm_sum m W T Vm q w Hq). unfold subtreeVel.
      generalize (cols3Mul (m_nv m) res w) (subBodies3 m 0 (fun b => v3scale (mass (inertiaOf m b)) (comVel m q w b))). intros x y. apply v3_ext; cbn; ring.
  - pose proof (wf_parent _ W r ltac:(lia)) as Hp.
    match goal with |- context [subUps m r (m_njoints m) (parent m r) ?x] => set (s1 := x) end.
    destruct (ups m W T Vm q r Hr (subtreeCom m q r) (m_njoints m) (parent m r) s1 ltac:(lia) ltac:(lia) I0 FC) as (A1 & A2 & A3).
    exists (fst (subUps m r (m_njoints m) (parent m r) s1)), (snd (subUps m r (m_njoints m) (parent m r) s1)). split; [now rewrite <- surjective_pairing|]. split.
    + unfold Done. rewrite A2, A3. cbn [fst s1]. split; [exact FM|]. split; [destruct (Nat.eqb_spec r 0); [contradiction | exact FC]|]. split; [exact I4|]. intros H0. rewrite (I5 H0). destruct (Nat.leb_spec 1 r); [reflexivity | lia].
    + intros w. rewrite A1. cbn [snd s1]. rewrite cols3_rescale. fold (slow m r w). rewrite I3, (masked_slow m W T Vm NM q r Hr w ltac:(lia)), <- (sub_vel m W T Vm q r Hr w ltac:(lia) Hq HM').
      assert (EK : cols3Mul (m_nv m) (kept m r res) w = cols3Mul (m_nv m) res (slow m r w)).
      { unfold kept, divided. destruct (Nat.eqb_spec r 0); [contradiction|]. cbn [orb]. apply cols3_rescale. }
      rewrite EK. generalize (cols3Mul (m_nv m) res (slow m r w)) (v3scale (/ subtreeMass m r) (upto m 1 (masked m q r w))) (upto m 1 (above m q (subtreeCom m q r) w (parent m r))). clear. intros x y z. apply v3_ext; cbn; ring.
Qed.
Theorem subcom_jac (q : R -> vec) v t r d : (forall s, validState m (q s)) -> moves m q v t -> r < m_njoints m -> (0 < subtreeMass m r)%R ->
  exists d' J, jacobianSubtreeCenterOfMass m d (q t) r (fun _ => v3zero) = Ok (d', J) tt /\ deriv3 (fun s => subtreeCom m (q s) r) (cols3Mul (m_nv m) J v) t.
Proof.
  intros Hq Hm Hr HM. pose proof (subcom_spec (q t) r d (fun _ => v3zero) (Hq t) Hr) as H. destruct (Rlt_dec 0 (subtreeMass m r)); [|contradiction].
  destruct H as (d' & J & E & _ & EJ). exists d', J. split; [exact E|]. rewrite EJ, (cols3_ext _ _ (fun _ => v3zero)).
  - rewrite cols3_zero. eapply deriv3_eq; [apply (subtreeCom_deriv m W T Vm q v t r (Hq t) Hm)|]. apply v3_ext; cbn; ring.
  - intros k _. unfold kept. destruct (divided m r k); [apply v3_ext; cbn; ring | reflexivity].
Qed.
Theorem subcom_res q r d res : validState m q -> r < m_njoints m -> (0 < subtreeMass m r)%R ->
  exists s0 s1, jacobianSubtreeCenterOfMass m d q r (fun _ => v3zero) = Ok s0 tt /\ jacobianSubtreeCenterOfMass m d q r res = Ok s1 tt /\
  forall k, k < m_nv m -> snd s1 k = v3add (snd s0 k) (kept m r res k).
Proof.
  intros Hq Hr HM. pose proof (subcom_spec q r d (fun _ => v3zero) Hq Hr) as H0. pose proof (subcom_spec q r d res Hq Hr) as H1. destruct (Rlt_dec 0 (subtreeMass m r)); [|contradiction].
  destruct H0 as (d0 & J0 & E0 & _ & F0). destruct H1 as (d1 & J1 & E1 & _ & F1). exists (d0, J0), (d1, J1). split; [exact E0|]. split; [exact E1|]. intros k Hk. cbn [snd].
  rewrite <- (cols3_unit (m_nv m) J1 k Hk), <- (cols3_unit (m_nv m) J0 k Hk), F0, F1, !cols3_unit by exact Hk.
  assert (E : kept m r (fun _ => v3zero) k = v3zero) by (unfold kept; destruct (divided m r k); [apply v3_ext; cbn; ring | reflexivity]). rewrite E.
  generalize (subtreeVel m q (unitv k) r) (kept m r res k). intros x y. apply v3_ext; cbn; ring.
Qed.
End Sub3.
