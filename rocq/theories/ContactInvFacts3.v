(* contactInverseDynamics: the torques. *)
Require Import Reals List Arith Lia Lra Bool FunctionalExtensionality.
From Verif Require Import Vec3 Spatial Inertia Joints Spec_Joints Sums Deriv Model Spec_Model ModelFacts ModelTree ModelFacts2 ModelFacts3 Data Kinematics Spec_Kin Spec_Mass KinFacts KinFacts2 KinFacts3 TreeSums MassFacts Rnea Spec_Dyn DynFacts DynFacts2 Jacobian Spec_Jac Cone Contact Spec_Reg Constraint ConstraintFacts ConstraintFacts2 ConstraintFacts3 ContactInv Spec_ContactInv.
Import ListNotations.
Local Open Scope nat_scope.

Section T.
Variable eps : R.
Variable m : Model.
Hypothesis Bt : Built eps m.
Hypothesis Vm : validModel m.
Hypothesis NM : noMimic m.
Let W := Built_wf eps m Bt.
Let T := Built_tree eps m Bt.
Variable q : vec.
Hypothesis Hq : validState m q.

(* velocity of the origin of the frame p of joint j, in the axes of that frame *)
Definition ptVel (w : vec) (j : nat) (p : SE3) : V3 := lin (motion_actInv p (bodyVel m q w j)).
Lemma bodies_addAt w f j x : j < m_njoints m -> bodies m (fun i => v6dot (bodyVel m q w i) (addAt f j x i)) = (bodies m (fun i => v6dot (bodyVel m q w i) (f i)) + v6dot (bodyVel m q w j) x)%R.
Proof.
  intros Hj. unfold bodies. destruct j as [|j].
  - rewrite (bodyVel_0 m W T). transitivity (sumN (m_njoints m - 1) (fun k => v6dot (bodyVel m q w (S k)) (f (S k)))); [apply sumN_ext; intros; reflexivity|]. unfold v6dot, v3dot. cbn [lin ang v6zero v3zero vx vy vz]. ring.
  - transitivity (sumN (m_njoints m - 1) (fun k => v6dot (bodyVel m q w (S k)) (f (S k)) + (if j =? k then v6dot (bodyVel m q w (S j)) x else 0))%R).
    + apply sumN_ext. intros k Hk. unfold addAt. cbn [Nat.eqb]. rewrite (Nat.eqb_sym k j). destruct (Nat.eqb_spec j k) as [->|]; [unfold v6dot, v6add, v3dot, v3add; cbn [lin ang vx vy vz]; ring | ring].
    + rewrite sumN_add. f_equal. apply (sumN_delta (m_njoints m - 1) j (fun _ => v6dot (bodyVel m q w (S j)) x)). lia.
Qed.
Lemma force_pt w j p l : v6dot (bodyVel m q w j) (force_act p (mkV6 l v3zero)) = v3dot l (ptVel w j p).
Proof. rewrite <- act_dot_dual. unfold ptVel. generalize (motion_actInv p (bodyVel m q w j)). intros y. unfold v6dot, v3dot. cbn [lin ang v3zero vx vy vz]. ring. Qed.
Definition listsum (f : nat -> RigidConstraintModel -> R) : nat -> list RigidConstraintModel -> R := fix go r cs := match cs with [] => 0%R | c :: cs => (f r c + go (r + 3)%nat cs)%R end.
Lemma forces_power w lam cs : forall r f, (forall c, In c cs -> rc_j1 c < m_njoints m /\ rc_j2 c < m_njoints m) ->
  bodies m (fun i => v6dot (bodyVel m q w i) (ciForces cs r lam f i)) =
  (bodies m (fun i => v6dot (bodyVel m q w i) (f i)) + listsum (fun r c => v3dot (seg3 lam r) (ptVel w (rc_j1 c) (rc_p1 c)) + v3dot (seg3 lam r) (ptVel w (rc_j2 c) (rc_p2 c))) r cs)%R.
Proof.
  induction cs as [|c cs IH]; intros r f H; cbn [ciForces listsum]; [ring|]. cbv zeta. destruct (H c (or_introl eq_refl)) as [H1 H2].
  rewrite IH by (intros; apply H; now right). rewrite bodies_addAt by exact H2. rewrite bodies_addAt by exact H1. rewrite !force_pt. ring.
Qed.

(* the rows of one constraint *)
Variable d : Data.
Hypothesis HD : jacReady m q d.
Lemma row_vel j1 p1 j2 p2 k r : isRotation (rot p1) -> isRotation (rot p2) -> j1 < m_njoints m -> j2 < m_njoints m -> k < m_nv m -> r < 3 ->
  getConstraintJacobian m d (rcFill m CONTACT_3D j1 p1 j2 p2 LOCAL) 0 (fun _ _ => 0%R) r k =
  comp6 (mkV6 (v3sub (ptVel (unitv k) j1 p1) (m3vec (rot (se3_actInv_se3 (se3_mul (worldPl m q j1) p1) (se3_mul (worldPl m q j2) p2))) (ptVel (unitv k) j2 p2))) v3zero) r.
Proof.
  intros P1 P2 H1 H2 Hk Hr. pose proof (cj_mul eps m Bt Vm NM CONTACT_3D j1 p1 j2 p2 LOCAL d q (unitv k) (fun _ _ => 0%R) 0 r ltac:(discriminate) H1 H2 HD Hq) as C. cbv zeta in C. specialize (C Hr (fun _ => eq_refl)). cbn [Nat.add] in C.
  rewrite (dotv_unit (m_nv m) k) in C by exact Hk. rewrite C. unfold side1, side2, toFrame, worldVel. f_equal.
  assert (X : forall j p, isRotation (rot p) -> j < m_njoints m -> motion_actInv (se3_mul (worldPl m q j) p) (motion_act (worldPl m q j) (bodyVel m q (unitv k) j)) = motion_actInv p (bodyVel m q (unitv k) j)).
  { intros j p Hp Hj. pose proof (worldPl_rot m W T Vm q j Hq Hj) as O. rewrite motion_actInv_mul by assumption. now rewrite motion_actInv_act by apply O. }
  rewrite !X by assumption. unfold ptVel. cbv zeta. generalize (lin (motion_actInv p1 (bodyVel m q (unitv k) j1))) (m3vec (rot (se3_actInv_se3 (se3_mul (worldPl m q j1) p1) (se3_mul (worldPl m q j2) p2))) (lin (motion_actInv p2 (bodyVel m q (unitv k) j2)))). intros; sring.
Qed.

(* the constraints of a list *)
Definition is3 (c : RigidConstraintModel) : Prop := exists j1 p1 j2 p2, c = rcFill m CONTACT_3D j1 p1 j2 p2 LOCAL /\ j1 < m_njoints m /\ j2 < m_njoints m /\ isRotation (rot p1) /\ isRotation (rot p2).
Lemma sum_by3 n f : sumN (3 * n) f = sumN n (fun i => f (3 * i)%nat + f (3 * i + 1)%nat + f (3 * i + 2)%nat)%R.
Proof. induction n as [|n IH]; [reflexivity|]. replace (3 * S n) with (S (S (S (3 * n)))) by lia. cbn [sumN]. rewrite IH. replace (S (3 * n)) with (3 * n + 1) by lia. replace (S (3 * n + 1)) with (3 * n + 2) by lia. ring. Qed.
Lemma listsum_nth f c0 cs : forall r, listsum f r cs = sumN (length cs) (fun i => f (r + 3 * i) (nth i cs c0)).
Proof.
  induction cs as [|c cs IH]; intros r; [reflexivity|]. cbn [listsum length]. rewrite IH. replace (sumN (S (length cs)) (fun i => f (r + 3 * i) (nth i (c :: cs) c0))) with (f (r + 3 * 0)%nat c + sumN (length cs) (fun i => f (r + 3 * S i)%nat (nth i cs c0)))%R.
  - rewrite Nat.mul_0_r, Nat.add_0_r. f_equal. apply sumN_ext. intros i _. f_equal. lia.
  - generalize (length cs). clear. intros n. induction n as [|n IH]; [cbn [sumN nth]; ring|]. cbn [sumN] in *. rewrite <- Rplus_assoc, IH. reflexivity.
Qed.
Lemma size3 cs : (forall c, In c cs -> is3 c) -> getTotalConstraintSize cs = 3 * length cs.
Proof.
  unfold getTotalConstraintSize. assert (G : forall n, (forall c, In c cs -> is3 c) -> fold_left (fun n c => n + rc_size c) cs n = n + 3 * length cs).
  { induction cs as [|c cs IH]; intros n H; cbn [fold_left length]; [lia|]. rewrite IH by (intros; apply H; now right). destruct (H c (or_introl eq_refl)) as (j1 & p1 & j2 & p2 & -> & _). cbn [rc_size rc_type rcFill]. lia. }
  apply G.
Qed.
Lemma list_rows cs i r k c0 : (forall c, In c cs -> is3 c) -> i < length cs -> r < 3 ->
  getConstraintsJacobian m d cs (fun _ _ => 0%R) (3 * i + r) k = getConstraintJacobian m d (nth i cs c0) 0 (fun _ _ => 0%R) r k.
Proof.
  intros H Hi Hr. destruct (nth_split cs c0 Hi) as (xs & ys & E & L). set (c := nth i cs c0) in *. destruct (stacked m d xs c ys (fun _ _ => 0%R)) as [S _].
  assert (C : is3 c) by (apply H, nth_In, Hi). assert (Z : getTotalConstraintSize xs = 3 * i). { rewrite size3, L; [reflexivity|]. intros x Hx. apply H. rewrite E. apply in_or_app. now left. }
  rewrite Z in S. rewrite E. apply S. destruct C as (j1 & p1 & j2 & p2 & -> & _). exact Hr.
Qed.
Theorem torque a v d' (cs : list RigidConstraintModel) lam k : (forall c, In c cs -> is3 c) -> k < m_nv m ->
  (rneaExt m d q v a (ciForces cs 0 lam (fun _ => v6zero)) k =
   rnea m d' q v a k - sumN (3 * length cs)%nat (fun r => getConstraintsJacobian m d cs (fun _ _ => 0) r k * lam r)
   - listsum (fun r c => v3dot (seg3 lam r) (v3add (ptVel (unitv k) (rc_j2 c) (rc_p2 c))
       (m3vec (rot (se3_actInv_se3 (se3_mul (worldPl m q (rc_j1 c)) (rc_p1 c)) (se3_mul (worldPl m q (rc_j2 c)) (rc_p2 c)))) (ptVel (unitv k) (rc_j2 c) (rc_p2 c))))) 0 cs)%R.
Proof.
  intros H Hk. rewrite (rneaExt_diff m W T Vm d d' q v a _ k Hq Hk). rewrite forces_power by (intros c Hc; destruct (H c Hc) as (j1 & p1 & j2 & p2 & -> & H1 & H2 & _); cbn; auto).
  unfold Rminus. rewrite Rplus_assoc. f_equal. set (c0 := rcFill m CONTACT_3D 0 se3_Identity 0 se3_Identity LOCAL). rewrite !(listsum_nth _ c0), sum_by3.
  replace (bodies m (fun i => v6dot (bodyVel m q (unitv k) i) v6zero)) with 0%R by (symmetry; unfold bodies; apply sumN_zero; intros; unfold v6dot, v3dot; cbn [lin ang v6zero v3zero vx vy vz]; ring).
  rewrite Rplus_0_l, <- Ropp_plus_distr, <- sumN_add. f_equal. apply sumN_ext. intros i Hi.
  assert (C : is3 (nth i cs c0)) by (apply H, nth_In, Hi). pose proof (list_rows cs i 0 k c0 H Hi ltac:(lia)) as L0. rewrite Nat.add_0_r in L0. rewrite L0, !(list_rows cs i _ k c0 H Hi) by lia. clear L0. set (c := nth i cs c0) in *. destruct C as (j1 & p1 & j2 & p2 & -> & H1 & H2 & P1 & P2).
  rewrite !row_vel by (assumption || lia). cbn [rc_j1 rc_j2 rc_p1 rc_p2 rcFill Nat.add]. rewrite ?Nat.add_0_r. generalize (ptVel (unitv k) j1 p1) (ptVel (unitv k) j2 p2). intros x y. generalize (m3vec (rot (se3_actInv_se3 (se3_mul (worldPl m q j1) p1) (se3_mul (worldPl m q j2) p2))) y). intros z.
  unfold seg3, v3dot, v3add, v3sub, comp6. cbn [lin ang vx vy vz nth]. ring.
Qed.
(* frames of the universe *)
Theorem torque_universe a v d' (cs : list RigidConstraintModel) lam k : (forall c, In c cs -> is3 c /\ rc_j2 c = 0) -> k < m_nv m ->
  (rneaExt m d q v a (ciForces cs 0 lam (fun _ => v6zero)) k = rnea m d' q v a k - sumN (3 * length cs)%nat (fun r => getConstraintsJacobian m d cs (fun _ _ => 0) r k * lam r))%R.
Proof.
  intros H Hk. rewrite (torque a v d' cs lam k (fun c Hc => proj1 (H c Hc)) Hk). set (c0 := rcFill m CONTACT_3D 0 se3_Identity 0 se3_Identity LOCAL). rewrite (listsum_nth _ c0), (sumN_zero (length cs)); [ring|].
  intros i Hi. destruct (H (nth i cs c0) (nth_In _ _ Hi)) as [_ E]. rewrite E. unfold ptVel. rewrite (bodyVel_0 m W T). replace (motion_actInv (rc_p2 (nth i cs c0)) v6zero) with v6zero by (generalize (rc_p2 (nth i cs c0)); intros; sring).
  generalize (rot (se3_actInv_se3 (se3_mul (worldPl m q (rc_j1 (nth i cs c0))) (rc_p1 (nth i cs c0))) (se3_mul (worldPl m q 0) (rc_p2 (nth i cs c0))))). intros M. unfold v3dot, v3add, m3vec. cbn [lin ang v6zero v3zero vx vy vz]. ring.
Qed.
End T.
