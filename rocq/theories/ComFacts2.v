(* Energies along trajectories. *)
Require Import Reals List Arith ZArith Lia Lra Bool.
From Verif Require Import Vec3 Spatial Inertia InertiaFacts Joints Spec_Joints Deriv JointFacts JointFacts2 Model Spec_Model ModelFacts ModelTree ModelFacts2 Sums Data Kinematics Spec_Kin Spec_Mass KinFacts KinFacts2 KinFacts3 Spec_Dyn Rnea DynFacts DynFacts2 TreeSums MassFacts Crba CrbaFacts Spec_Com Com ComFacts.
Import ListNotations.
Local Open Scope nat_scope.

Lemma deriv_sumN n (f : nat -> R -> R) f' t : (forall k, k < n -> deriv (f k) (f' k) t) -> deriv (fun s => sumN n (fun k => f k s)) (sumN n f') t.
Proof.
  induction n as [|n IH]; intros H; cbn [sumN]; [apply deriv_const|]. apply deriv_plus; [apply IH; intros; apply H; lia | apply H; lia].
Qed.
Lemma inertia_linear_field Y g : inertia_mul Y (mkV6 g v3zero) = mkV6 (v3scale (mass Y) g) (v3scale (mass Y) (v3cross (lever Y) g)).
Proof. destruct Y as [mm [c1 c2 c3] [i0 i1 i2 i3 i4 i5]], g as [g1 g2 g3]. apply v6_ext; apply v3_ext; cbn; ring. Qed.

Section Energy.
Variable m : Model.
Hypothesis W : wellFormed m.
Hypothesis T : treeInv m.
Hypothesis Vm : validModel m.

Lemma dof_sum_all f : sumN (m_nv m) f =
  sumN (m_njoints m) (fun i => if (0 <? i) && negb (isMimic (joint m i)) then sumN (nvOf m i) (fun k => f (idx_v m i + k)) else 0%R).
Proof.
  rewrite (sumN_ext (m_nv m) f (fun k => sumN (m_njoints m) (fun j => if (0 <? j) && negb (isMimic (joint m j)) && within (idx_v m j) (nvOf m j) k then f k else 0%R))).
  - rewrite sumN_swap. apply sumN_ext. intros i Hi. destruct (Nat.ltb_spec 0 i); cbn [andb]; [|apply sumN_0].
    destruct (isMimic (joint m i)) eqn:Mi; cbn [negb]; [apply sumN_0|].
    unfold within. apply sumN_seg. destruct (wf_range _ W i ltac:(lia) Mi) as [_ ->]. destruct (wf_total _ W) as (_ & -> & _).
    destruct (wf_lengths _ W) as (L1&L2&L3&L4&L5&L6&L7&_). unfold nvOf. rewrite <- sum_firstn_S by lia.
    rewrite <- (firstn_all (m_nvs m)) at 2. apply sum_firstn_mono. lia.
  - intros k Hk. destruct (proj2 (wf_cover m W) k Hk) as (i & (Hi & Mi & Ri) & U).
    transitivity (sumN (m_njoints m) (fun j => if i =? j then f k else 0%R)); [symmetry; exact (sumN_delta (m_njoints m) i (fun _ => f k) ltac:(lia))|]. apply sumN_ext. intros j Hj.
    destruct (Nat.eqb_spec i j) as [<-|Hn].
    + rewrite Mi. unfold within. destruct (Nat.ltb_spec 0 i), (Nat.leb_spec (idx_v m i) k), (Nat.ltb_spec k (idx_v m i + nvOf m i)); try lia; reflexivity.
    + destruct ((0 <? j) && negb (isMimic (joint m j)) && within (idx_v m j) (nvOf m j) k) eqn:E; [|reflexivity].
      apply andb_prop in E as [E E3]. apply andb_prop in E as [E1 E2]. unfold within in E3. apply andb_prop in E3 as [E3 E4].
      exfalso. apply Hn. symmetry. apply U. apply Nat.ltb_lt in E1. apply Nat.leb_le in E3. apply Nat.ltb_lt in E4. 
      split; [lia|]. split; [now destruct (isMimic (joint m j)) | lia].
Qed.
Lemma noMimic_plain : noMimic m -> plainRotors m.
Proof. intros N i k Hi Hm. rewrite (N i Hi) in Hm. discriminate. Qed.
Lemma armSum_power v : plainRotors m -> bodies m (armSum m v) = armaturePower m v v.
Proof.
  intros P. unfold armaturePower. rewrite dof_sum_all.
  rewrite <- (bodies_all m W (fun i => if (0 <? i) && negb (isMimic (joint m i)) then sumN (nvOf m i) (fun k => nth (idx_v m i + k) (m_armature m) 0 * v (idx_v m i + k)%nat * v (idx_v m i + k)%nat)%R else 0%R) eq_refl).
  unfold bodies. apply sumN_ext. intros j Hj. change (0 <? S j) with true. cbn [andb]. unfold armSum, armatureOf.
  destruct (isMimic (joint m (S j))) eqn:Mi; cbn [negb].
  - apply sumN_zero. intros k Hk. rewrite (P (S j) k ltac:(lia) Mi Hk). ring.
  - rewrite (nvE_nv m W Vm (S j) Mi ltac:(lia)). apply sumN_ext. intros; ring.
Qed.
Theorem kinetic_matrix d q v : validState m q -> plainRotors m ->
  computeKineticEnergy m d q v = (/2 * dotv (m_nv m) v (fun k => dotv (m_nv m) (massMatrix m q k) v))%R.
Proof. intros Hq P. rewrite (kinetic_energy m W T Vm d q v Hq), (armSum_power v P). f_equal. symmetry. apply (massMatrix_form m W T Vm). Qed.

Hypothesis G0 : ang (m_gravity m) = v3zero.
(* weights deliver the power that the potential energy loses *)
Lemma weight_power q v i : validState m q -> 0 < i < m_njoints m ->
  v6dot (bodyVel m q v i) (inertia_mul (inertiaOf m i) (gravityAt m q i)) =
  (mass (inertiaOf m i) * v3dot (lin (m_gravity m)) (m3vec (rot (worldPl m q i)) (v3add (lin (bodyVel m q v i)) (v3cross (ang (bodyVel m q v i)) (lever (inertiaOf m i))))))%R.
Proof.
  intros Hq Hi. unfold gravityAt. destruct (m_gravity m) as [g g'] eqn:Eg. cbn [ang] in G0. subst g'. cbn [lin].
  assert (E : motion_actInv (worldPl m q i) (mkV6 g v3zero) = mkV6 (m3vec (m3tr (rot (worldPl m q i))) g) v3zero).
  { generalize (worldPl m q i). clear. intros M. apply v6_ext; apply v3_ext; cbn; ring. }
  rewrite E, inertia_linear_field. generalize (bodyVel m q v i) (inertiaOf m i) (rot (worldPl m q i)). clear.
  intros [[a1 a2 a3] [b1 b2 b3]] [mm [c1 c2 c3] S] A. destruct A, g. cbn. unfold v6dot, v3dot, m3vec, v3cross, v3scale, v3add, m3tr. cbn. ring.
Qed.
Theorem potential_deriv (q : R -> vec) v t d : (forall s, validState m (q s)) -> moves m q v t ->
  deriv (fun s => computePotentialEnergy m d (q s)) (dotv (m_nv m) (computeGeneralizedGravity m d (q t)) v) t.
Proof.
  intros Hq Hm. rewrite (gravity_power m W T Vm) by apply Hq.
  eapply deriv_ext; [intros s; apply (potential_energy m W T)|]. unfold power, bodies, weight.
  eapply deriv_eq.
  - apply deriv_opp. apply (deriv_sumN _ (fun k s => mass (inertiaOf m (S k)) * v3dot (lin (m_gravity m)) (bodyCom m (q s) (S k)))%R
      (fun k => v6dot (bodyVel m (q t) v (S k)) (inertia_mul (inertiaOf m (S k)) (gravityAt m (q t) (S k))))).
    intros k Hk. rewrite (weight_power (q t) v (S k) (Hq t) ltac:(lia)).
    eapply deriv_eq.
    + apply deriv_mult; [apply deriv_const|]. apply deriv_dot; [apply deriv3_const|]. unfold bodyCom.
      apply (point_vel (fun s => worldPl m (q s) (S k))). apply (worldPl_twist m W T Vm); [apply Hq | exact Hm | lia].
    + cbv beta. unfold v3dot, v3zero. cbn [vx vy vz]. ring.
  - cbv beta. rewrite <- (Rmult_1_l (sumN _ _)), <- Ropp_mult_distr_l_reverse, <- sumN_scale. apply sumN_ext. intros k Hk.
    change (v6opp (gravityAt m (q t) (S k))) with (v6opp (gravityAt m (q t) (S k))).
    replace (v6opp (gravityAt m (q t) (S k))) with (v6scale (-1) (gravityAt m (q t) (S k))) by (generalize (gravityAt m (q t) (S k)); clear; sring).
    rewrite inertia_mul_scale, v6dot_scale_r. ring.
Qed.
Hypothesis IR : forall i k, 0 < i < m_njoints m -> k < nvEOf m i -> idx_v m i + k < m_nv m.
Lemma kinetic_deriv (q v : R -> vec) a t d : (forall s, validState m (q s)) -> moves m q (v t) t -> accelerates m v a t -> plainRotors m ->
  deriv (fun s => computeKineticEnergy m d (q s) (v s))
    (bodies m (fun i => v6dot (bodyVel m (q t) (v t) i) (inertia_mul (inertiaOf m i) (bodyAcc m (q t) (v t) a i))) + armaturePower m a (v t))%R t.
Proof.
  intros Hq Hm Ha P. 
  eapply deriv_ext; [intros s; rewrite (kinetic_energy m W T Vm d (q s) (v s) (Hq s)), (armSum_power (v s) P); reflexivity|].
  eapply deriv_eq.
  - apply deriv_mult; [apply deriv_const|]. apply deriv_plus.
    + unfold kineticForm, bodies.
      apply (deriv_sumN _ (fun k s => v6dot (bodyVel m (q s) (v s) (S k)) (inertia_mul (inertiaOf m (S k)) (bodyVel m (q s) (v s) (S k))))
        (fun k => 2 * v6dot (bodyVel m (q t) (v t) (S k)) (inertia_mul (inertiaOf m (S k)) (bodyAcc m (q t) (v t) a (S k))))%R).
      intros k Hk. pose proof (bodyAcc_deriv m W T Vm IR q v a t (S k) Hq Hm Ha ltac:(lia)) as D.
      eapply deriv_eq; [apply deriv_dot6; [exact D | apply deriv6_inertia; exact D]|]. cbv beta. rewrite inertia_mul_sym. ring.
    + unfold armaturePower. 
      apply (deriv_sumN _ (fun k s => nth k (m_armature m) 0 * v s k * v s k)%R (fun k => 2 * (nth k (m_armature m) 0 * a k * v t k))%R).
      intros k Hk. pose proof (Ha k Hk) as D. eapply deriv_eq; [apply deriv_mult; [apply deriv_mult; [apply deriv_const | exact D] | exact D]|]. cbv beta. ring.
  - cbv beta. unfold bodies, armaturePower. rewrite !sumN_scale. lra.
Qed.
Theorem power_balance (q v : R -> vec) a t d d' : (forall s, validState m (q s)) -> moves m q (v t) t -> accelerates m v a t -> plainRotors m ->
  deriv (fun s => computeMechanicalEnergy m d (q s) (v s)) (dotv (m_nv m) (rnea m d' (q t) (v t) a) (v t)) t.
Proof.
  intros Hq Hm Ha P. eapply deriv_ext; [intros s; apply (mechanical_energy m W T d d d (q s) (v s))|].
  eapply deriv_eq; [apply deriv_plus; [exact (kinetic_deriv q v a t d Hq Hm Ha P) | exact (potential_deriv q (v t) t d Hq Hm)]|].
  rewrite (rnea_power m W T Vm) by apply Hq. rewrite (gravity_power m W T Vm) by apply Hq.
  unfold power, bodies. rewrite Rplus_comm, <- Rplus_assoc. f_equal. rewrite <- sumN_add. apply sumN_ext. intros k Hk.
  unfold weight, bodyForce. rewrite inertia_mul_sub, v6dot_add_r, v6dot_sub_r.
  assert (C : v6dot (bodyVel m (q t) (v t) (S k)) (force_cross (bodyVel m (q t) (v t) (S k)) (inertia_mul (inertiaOf m (S k)) (bodyVel m (q t) (v t) (S k)))) = 0%R).
  { generalize (bodyVel m (q t) (v t) (S k)) (inertia_mul (inertiaOf m (S k)) (bodyVel m (q t) (v t) (S k))). clear. intros V F.
    pose proof (cross_dot_dual V V F) as H. rewrite motion_cross_self in H. rewrite v6dot_0_l in H. lra. }
  rewrite C.
  replace (v6opp (gravityAt m (q t) (S k))) with (v6scale (-1) (gravityAt m (q t) (S k))) by (generalize (gravityAt m (q t) (S k)); clear; sring).
  rewrite inertia_mul_scale, v6dot_scale_r. ring.
Qed.
End Energy.
