(* The regressors give back the forces, torques, energies and centre of mass. *)
Require Import Reals List Arith ZArith Lia Lra Bool.
From Verif Require Import Vec3 Spatial Inertia InertiaFacts Joints Spec_Joints Deriv JointFacts JointFacts2 Model Spec_Model ModelFacts ModelTree ModelFacts2 Sums Data Kinematics Spec_Kin Spec_Mass KinFacts KinFacts2 KinFacts3 Spec_Dyn Rnea DynFacts DynFacts2 TreeSums MassFacts Crba CrbaFacts Spec_Com Com ComFacts ComFacts2 ComFacts3 Aba Spec_Jac Regressor Spec_Reg.
Import ListNotations.
Local Open Scope nat_scope.

Lemma sumN_blocks w n f : sumN (w * n) f = sumN n (fun i => sumN w (fun k => f (w * i + k))).
Proof.
  induction n as [|n IH]; [now rewrite Nat.mul_0_r|].
  replace (w * S n) with (w * n + w) by lia. rewrite sumN_split, IH. reflexivity.
Qed.
Lemma colsMul_sum n J x e : v6dot e (colsMul n J x) = sumN n (fun k => x k * v6dot e (J k))%R.
Proof. induction n as [|p IH]; cbn [colsMul sumN]; [apply v6dot_0_r|]. rewrite v6dot_add_r, v6dot_scale_r, IH. reflexivity. Qed.
Lemma block_div w i k : k < w -> (w * i + k) / w = i /\ (w * i + k) mod w = k.
Proof.
  intros H. rewrite (Nat.mul_comm w i), Nat.div_add_l, (Nat.div_small k w H), Nat.add_0_r, Nat.add_comm, Nat.mod_add by lia.
  split; [reflexivity | now apply Nat.mod_small].
Qed.
(* a loop over the joints that fills the segment of width w at s * (i - 1) *)
Lemma upward_fill {A} m s w (step : (nat -> A) -> nat -> nat -> A) (F : nat -> nat -> A) E0 : 1 <= m_njoints m -> w <= s ->
  (forall E i c, step E i c = if within (s * (i - 1)) w c then F i (c - s * (i - 1)) else E c) ->
  forall i k, 0 < i < m_njoints m -> k < s -> upward m step E0 (s * (i - 1) + k) = if k <? w then F i k else E0 (s * (i - 1) + k).
Proof.
  intros Hn Hw Hs.
  assert (G : forall i k, 0 < i < m_njoints m -> k < s ->
     upward m step E0 (s * (i - 1) + k) = if (i <? m_njoints m) && (k <? w) then F i k else E0 (s * (i - 1) + k)).
  { apply (upward_inv m step (fun j E => forall i k, 0 < i < m_njoints m -> k < s ->
      E (s * (i - 1) + k) = if (i <? j) && (k <? w) then F i k else E0 (s * (i - 1) + k)) E0 Hn).
    - intros i k Hi Hk. destruct (Nat.ltb_spec i 1); [lia | reflexivity].
    - intros j E Hj IH i k Hi Hk. rewrite Hs. unfold within.
      destruct (Nat.eq_dec i j) as [->|Hne].
      + rewrite (proj2 (Nat.leb_le _ _)) by lia. cbn [andb]. rewrite (proj2 (Nat.ltb_lt j (j + 1))) by lia. cbn [andb].
        destruct (Nat.ltb_spec (s * (j - 1) + k) (s * (j - 1) + w)), (Nat.ltb_spec k w); try lia.
        * f_equal. lia.
        * rewrite (IH j k Hj Hk). rewrite (proj2 (Nat.ltb_ge k w)) by lia. now rewrite andb_false_r.
      + replace (i <? j + 1) with (i <? j) by (destruct (Nat.ltb_spec i j), (Nat.ltb_spec i (j + 1)); lia).
        assert (Z : (s * (j - 1) <=? s * (i - 1) + k) && (s * (i - 1) + k <? s * (j - 1) + w) = false).
        { apply andb_false_iff. destruct (Nat.lt_trichotomy i j) as [L|[L|L]]; [left|lia|right].
          - apply Nat.leb_gt. assert (s * i <= s * (j - 1)) by (apply Nat.mul_le_mono_l; lia). nia.
          - apply Nat.ltb_ge. assert (s * j <= s * (i - 1)) by (apply Nat.mul_le_mono_l; lia). nia. }
        rewrite Z. now apply IH. }
  intros i k Hi Hk. rewrite (G i k Hi Hk). now rewrite (proj2 (Nat.ltb_lt _ _) (proj2 Hi)).
Qed.

(* ---- one body ---- *)
Lemma body_regressor v a Y : colsMul 10 (bodyRegressor v a) (param Y) = v6add (inertia_mul Y a) (force_cross v (inertia_mul Y v)).
Proof.
  destruct v as [[v0 v1 v2] [w0 w1 w2]], a as [[a0 a1 a2] [b0 b1 b2]], Y as [mm [c0 c1 c2] [i0 i1 i2 i3 i4 i5]].
  apply v6_ext; apply v3_ext; cbn; ring.
Qed.
Lemma param_dyn Y k : param Y k = dyn_get (inertia_toDynamicParameters Y) k.
Proof.
  destruct Y as [mm [c0 c1 c2] [i0 i1 i2 i3 i4 i5]].
  do 9 (destruct k as [|k]; [cbn; ring|]). cbn. ring.
Qed.
Lemma kinetic_body Y V : sumN 10 (fun k => kineticReg V k * param Y k)%R = (/ 2 * v6dot V (inertia_mul Y V))%R.
Proof.
  destruct V as [[v0 v1 v2] [w0 w1 w2]], Y as [mm [c0 c1 c2] [i0 i1 i2 i3 i4 i5]]. cbn [sumN kineticReg param]. unfold v6dot, inertia_mul, v3dot, v3cross, v3scale, v3sub, v3add, sym3_vec. cbn. field.
Qed.

Section Reg.
Variable m : Model.
Hypothesis W : wellFormed m.
Hypothesis T : treeInv m.
Hypothesis Vm : validModel m.

Lemma njoints_pos : 1 <= m_njoints m. Proof. pose proof (wf_n _ W). lia. Qed.
Lemma params_at i k : k < 10 -> params m (10 * i + k) = param (inertiaOf m (S i)) k.
Proof. intros H. unfold params. destruct (block_div 10 i k H) as [-> ->]. reflexivity. Qed.
Lemma params4_at i k : k < 4 -> params4 m (4 * i + k) = param (inertiaOf m (S i)) k.
Proof. intros H. unfold params4. destruct (block_div 4 i k H) as [-> ->]. reflexivity. Qed.

(* ---- energies ---- *)
Theorem kinetic_regressor d q v : validState m q ->
  dotv (10 * (m_njoints m - 1)) (computeKineticEnergyRegressor m d q v) (params m) = (/ 2 * kineticForm m q v v)%R.
Proof.
  intros Hq. unfold dotv. rewrite sumN_blocks. unfold kineticForm, bodies. rewrite <- sumN_scale. apply sumN_ext. intros i Hi.
  rewrite <- kinetic_body. apply sumN_ext. intros k Hk. rewrite (params_at i k Hk). f_equal. unfold computeKineticEnergyRegressor. cbv zeta.
  set (d1 := forwardKinematics1 m d q v). replace i with (S i - 1) at 1 by lia.
  rewrite (upward_fill m 10 10 _ (fun i k => kineticReg (mo (rows d1 i) F_v) k)) by first [apply njoints_pos | lia | reflexivity].
  rewrite (proj2 (Nat.ltb_lt k 10) Hk). destruct (fk1_vel m W d q v) as (H0 & H1 & _). unfold d1.
  now rewrite (vel_body m W T Vm q v _ Hq H0 H1 (S i) ltac:(lia)).
Qed.
Theorem potential_regressor d d' q :
  dotv (10 * (m_njoints m - 1)) (computePotentialEnergyRegressor m d q) (params m) = computePotentialEnergy m d' q.
Proof.
  rewrite (potential_energy m W T). unfold dotv. rewrite sumN_blocks. unfold bodies.
  replace (- sumN (m_njoints m - 1) (fun i => mass (inertiaOf m (S i)) * v3dot (lin (m_gravity m)) (bodyCom m q (S i))))%R
     with ((-1) * sumN (m_njoints m - 1) (fun i => mass (inertiaOf m (S i)) * v3dot (lin (m_gravity m)) (bodyCom m q (S i))))%R by ring.
  rewrite <- sumN_scale. apply sumN_ext. intros i Hi. unfold computePotentialEnergyRegressor. cbv zeta.
  set (d1 := forwardKinematics0 m d q).
  set (Fp := fun i k => let t := trans (pl (rows d1 i) F_oMi) in
    let gl := m3vec (m3tr (rot (pl (rows d1 i) F_oMi))) (v3opp (lin (m_gravity m))) in
     match k with 0 => v3dot (v3opp (lin (m_gravity m))) t | 1 => vx gl | 2 => vy gl | _ => vz gl end).
  rewrite (sumN_ext 10 _ (fun k => (if k <? 4 then Fp (S i) k else 0%R) * param (inertiaOf m (S i)) k)%R).
  2:{ intros k Hk. rewrite (params_at i k Hk). f_equal. replace i with (S i - 1) at 1 by lia.
      rewrite (upward_fill m 10 4 _ Fp) by first [apply njoints_pos | lia | reflexivity]. reflexivity. }
  unfold Fp, d1, bodyCom. destruct (fk0_placed m W T d q (S i) ltac:(lia)) as [_ ->].
  destruct (worldPl m q (S i)) as [[r00 r01 r02 r10 r11 r12 r20 r21 r22] [t0 t1 t2]].
  destruct (inertiaOf m (S i)) as [mm [c0 c1 c2] [i0 i1 i2 i3 i4 i5]], (m_gravity m) as [[g0 g1 g2] w]. cbn. unfold v3dot. cbn. ring.
Qed.
(* ---- centre of mass ---- *)
Lemma static_mass : upward m (fun x i => x + mass (inertiaOf m i))%R 0%R = subtreeMass m 0.
Proof.
  rewrite <- (total_mass m W T). reflexivity.
Qed.
Theorem static_regressor d S0 q : 
  cols3Mul (4 * (m_njoints m - 1)) (computeStaticRegressor m d S0 q) (params4 m) = subtreeCom m q 0.
Proof.
  unfold subtreeCom. apply v3_dot_ext. intros e. rewrite v3dot_scale_r, (subBodies3_dot m), (subBodies_root m W T). unfold bodies.
  assert (G : forall p J w, v3dot e (cols3Mul p J w) = sumN p (fun k => w k * v3dot e (J k))%R).
  { intros p J w. induction p as [|p IH]; cbn [cols3Mul sumN]; [unfold v3dot; cbn; ring|]. now rewrite v3dot_add_r, v3dot_scale_r, IH. }
  rewrite G, sumN_blocks, <- sumN_scale. apply sumN_ext. intros i Hi. unfold computeStaticRegressor. cbv zeta. rewrite static_mass.
  set (d1 := forwardKinematics0 m d q). set (M := subtreeMass m 0).
  set (Fs := fun i k => let oMi := pl (rows d1 i) F_oMi in v3scale (1 / M) match k with
             | 0 => trans oMi
             | 1 => mkV3 (m00 (rot oMi)) (m10 (rot oMi)) (m20 (rot oMi))
             | 2 => mkV3 (m01 (rot oMi)) (m11 (rot oMi)) (m21 (rot oMi))
             | _ => mkV3 (m02 (rot oMi)) (m12 (rot oMi)) (m22 (rot oMi))
             end).
  rewrite (sumN_ext 4 _ (fun k => param (inertiaOf m (S i)) k * v3dot e (Fs (S i) k))%R).
  2:{ intros k Hk. rewrite (params4_at i k Hk). f_equal. f_equal. replace i with (S i - 1) at 1 by lia.
      rewrite (upward_fill m 4 4 _ Fs); [now rewrite (proj2 (Nat.ltb_lt k 4) Hk) | apply njoints_pos | lia | | lia | lia].
      intros E j c. unfold staticStep. now rewrite (Nat.mul_comm (j - 1) 4). }
  unfold Fs, d1, bodyCom. destruct (fk0_placed m W T d q (S i) ltac:(lia)) as [_ ->].
  destruct (worldPl m q (S i)) as [[r00 r01 r02 r10 r11 r12 r20 r21 r22] [t0 t1 t2]].
  destruct (inertiaOf m (S i)) as [mm [c0 c1 c2] [i0 i1 i2 i3 i4 i5]], e as [e0 e1 e2]. unfold Rdiv. rewrite Rmult_1_l. generalize (/ M)%R. intros u. cbn. unfold v3dot. cbn. ring.
Qed.
End Reg.
