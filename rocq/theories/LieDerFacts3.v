(* dIntegrate on SE(2) and products *)
Require Import Reals Lra Lia Arith List.
From Verif Require Import Vec3 Spatial Rot Deriv Joints JointFacts ExpLog Spec_Exp ExpFacts ExpFacts2 ExpFacts3 ExpFacts4 ExpJac Spec_ExpJac ExpJacFacts ExpJacFacts2 Kinematics LieGroup Spec_Lie
  LieFacts LieFacts2 LieFacts3 LieFacts4 LieFacts7 RotFacts LogMat Spec_LogMat LogMatFacts5 LogMatFacts6 LieDer Spec_LieDer LieDerFacts LieDerFacts2.
Local Open Scope R_scope.

Definition Rz (c s : R) : M3 := mkM3 c (- s) 0 s c 0 0 0 1.
Definition pose2 (q : vec) : SE3 := mkSE3 (Rz (q 2%nat) (q 3%nat)) (mkV3 (q 0%nat) (q 1%nat) 0).
Definition planarOf (V : V6) : vec := v3Out (mkV3 (vx (lin V)) (vy (lin V)) (vz (ang V))).
Lemma pose2_moves q w t : movesAt LSE2 q w t -> hasTwist (fun u => pose2 (q u)) (planarTwist w) t.
Proof.
  intros (A & B & C & D). assert (Z : forall x, x = 0 -> deriv (fun _ => 0) x t) by (intros x ->; apply deriv_const). assert (O : forall x, x = 0 -> deriv (fun _ => 1) x t) by (intros x ->; apply deriv_const).
  repeat split; cbn;
    lazymatch goal with
    | |- deriv (fun _ => 0) _ _ => apply Z; ring
    | |- deriv (fun _ => 1) _ _ => apply O; ring
    | |- deriv (fun u => - q u 3%nat) _ _ => eapply deriv_eq; [apply deriv_opp; exact D|ring]
    | |- deriv (fun u => q u 0%nat) _ _ => eapply deriv_eq; [exact A|ring]
    | |- deriv (fun u => q u 1%nat) _ _ => eapply deriv_eq; [exact B|ring]
    | |- deriv (fun u => q u 2%nat) _ _ => eapply deriv_eq; [exact C|ring]
    | |- deriv (fun u => q u 3%nat) _ _ => eapply deriv_eq; [exact D|ring]
    end.
Qed.
Lemma moves_pose2 q V t : hasTwist (fun u => pose2 (q u)) V t -> movesAt LSE2 q (planarOf V) t.
Proof.
  intros [((A & _) & (B & _) & _) (C & D & _)]. cbn in A, B, C, D. repeat split; cbn.
  - eapply deriv_eq; [exact C|ring].
  - eapply deriv_eq; [exact D|ring].
  - eapply deriv_eq; [exact A|ring].
  - eapply deriv_eq; [exact B|ring].
Qed.
Lemma norm_z x : v3norm (mkV3 0 0 x) = Rabs x.
Proof. unfold v3norm, v3dot. cbn. replace (0 * 0 + 0 * 0 + x * x) with (Rsqr x) by (unfold Rsqr; ring). apply sqrt_Rsqr_abs. Qed.
Lemma exp_planar v : SE3exp (planarTwist v) = mkSE3 (Rz (cos (v 2%nat)) (sin (v 2%nat)))
  (mkV3 (sinc (v 2%nat) * v 0%nat - v 2%nat * cosc (v 2%nat) * v 1%nat) (v 2%nat * cosc (v 2%nat) * v 0%nat + sinc (v 2%nat) * v 1%nat) 0).
Proof.
  unfold SE3exp, Rexp, Texp, planarTwist. cbn [lin ang]. rewrite norm_z, sinc_even, cosc_even, sinc3_even. pose proof (sinc_mul (v 2%nat)) as S. pose proof (cosc_mul (v 2%nat)) as C.
  replace (cos (Rabs (v 2%nat))) with (cos (v 2%nat)) by (unfold Rabs; destruct (Rcase_abs (v 2%nat)); [symmetry; apply cos_neg|reflexivity]).
  revert S C. generalize (v 0%nat) (v 1%nat) (v 2%nat). intros a b w. generalize (sinc w) (cosc w) (cos w) (sin w) (sinc3 w). intros s k c sn s3 S C. f_equal.
  - apply m3_ext; cbv [Rz m3add m3scale m3id skew m3outer vx vy vz m00 m01 m02 m10 m11 m12 m20 m21 m22]; try ring; lra.
  - apply v3_ext; cbv [v3add v3scale v3dot v3cross vx vy vz]; ring.
Qed.
Lemma pose2_flow q v p : leadsTo LSE2 q v p -> pose2 p = se3_mul (pose2 q) (SE3exp (planarTwist v)).
Proof.
  intros L. cbn [leadsTo] in L. rewrite exp_planar. unfold pose2. rewrite !L by lia. unfold planarFlow, se3_mul. cbn [rot trans]. f_equal.
  - apply m3_ext; cbv [Rz m3mul m00 m01 m02 m10 m11 m12 m20 m21 m22]; ring.
  - apply v3_ext; cbv [Rz m3vec v3add vx vy vz m00 m01 m02 m10 m11 m12 m20 m21 m22]; ring.
Qed.
Lemma actInv_planar v w : v 2%nat <> 0 -> e14 < Rabs (v 2%nat) -> planarOf (motion_actInv (SE3exp (planarTwist v)) (planarTwist w)) = v3Out (m3vec (se2_inv v) (v3At w)).
Proof.
  intros N B. rewrite exp_planar. unfold se2_inv, se2_exp, planarOf. cbv zeta. change (1 / 10 ^ 14) with e14. destruct (Rlt_dec e14 (Rabs (v 2%nat))) as [_|X]; [|contradiction]. rewrite (sinc_nz _ N), (cosc_nz _ N).
  unfold motion_actInv, planarTwist, v3At. cbn [lin ang rot trans]. generalize (v 0%nat) (v 1%nat) (cos (v 2%nat)) (sin (v 2%nat)). intros a b c s. f_equal. apply v3_ext; cbv [Rz m3vec m3tr v3sub v3cross vx vy vz m00 m01 m02 m10 m11 m12 m20 m21 m22]; field; exact N.
Qed.
Lemma planarOf_add a b k : (k < 3)%nat -> planarOf (v6add a b) k = planarOf a k + planarOf b k.
Proof. intros H. destruct a as [[? ? ?] [? ? ?]], b as [[? ? ?] [? ? ?]]. unfold planarOf. destruct k as [|[|[|k]]]; try reflexivity. lia. Qed.
Lemma planarPart_vec J w : planarOf (m66vec J (planarTwist w)) = v3Out (m3vec (planarPart J) (v3At w)).
Proof. destruct J as [[? ? ? ? ? ? ? ? ?] [? ? ? ? ? ? ? ? ?] [? ? ? ? ? ? ? ? ?] [? ? ? ? ? ? ? ? ?]]. unfold planarOf, m66vec, planarTwist, planarPart, v3At. cbn. f_equal. apply v3_ext; cbn; ring. Qed.
Lemma dint_se2 eps q w v dv p t J K : 0 < eps <= 1 / 4 -> turning eps LSE2 (v t) -> movesAt LSE2 q w t -> derivTo 3 v dv t -> (forall u, leadsTo LSE2 (q u) (v u) (p u)) ->
  exists w', movesAt LSE2 p w' t /\
  sameRate eps LSE2 (v t) w w' (fun k => jacMul 3 (lg_dIntegrate eps LSE2 ARG0 SETTO (v t) J) w k + jacMul 3 (lg_dIntegrate eps LSE2 ARG1 SETTO (v t) K) dv k).
Proof.
  intros He (T & B & C) M D L. pose proof (ts3_pos eps (proj1 He)) as P. assert (N : v t 2%nat <> 0) by (intros E; rewrite E, Rabs_R0 in T; lra).
  exists (planarOf (v6add (motion_actInv (SE3exp (planarTwist (v t))) (planarTwist w)) (m66vec (Jexp6 eps SETTO (planarTwist (v t)) m66any) (planarTwist dv)))). split.
  - apply moves_pose2. eapply (hasTwist_ext _ (fun u => se3_mul (pose2 (q u)) (SE3exp (planarTwist (v u))))); [intros u; apply pose2_flow, L|].
    apply (hasTwist_mul (fun u => pose2 (q u)) (fun u => SE3exp (planarTwist (v u)))); [apply rodrigues_rot|apply pose2_moves, M|]. apply (jexp6_rate eps (fun u => planarTwist (v u))); [apply He| | |].
    + cbn. rewrite norm_z. exact T.
    + cbn. rewrite norm_z. unfold Rabs. destruct (Rcase_abs (v t 2%nat)); [rewrite cos_neg|]; exact C.
    + assert (Z : deriv (fun _ : R => 0) 0 t) by apply deriv_const. repeat split; cbn; try exact Z; apply D; lia.
  - intros k Hk. rewrite planarOf_add, (actInv_planar _ _ N B), planarPart_vec by exact Hk. cbn [lg_dIntegrate lg_dIntegrate_dq lg_dIntegrate_dv put3]. rewrite !jac3 by exact Hk. reflexivity.
Qed.
Lemma v3At_ext f g : eqTo 3 f g -> v3At f = v3At g. Proof. intros H. unfold v3At. rewrite !H by lia. reflexivity. Qed.
Lemma v6At_ext f g : eqTo 6 f g -> v6At f = v6At g. Proof. intros H. unfold v6At. f_equal; apply v3At_ext; intros k Hk; unfold shift; apply H; lia. Qed.
Lemma movesAt_ext g : forall q w w' t, eqTo (lg_nv g) w w' -> movesAt g q w t -> movesAt g q w' t.
Proof.
  induction g as [n| | | | |a IHa b IHb]; intros q w w' t E; cbn [movesAt lg_nv] in *.
  - intros H k Hk. rewrite <- E by exact Hk. apply H, Hk.
  - rewrite !E by lia. tauto.
  - now rewrite (v3At_ext _ _ E).
  - rewrite !E by lia. tauto.
  - now rewrite (v6At_ext _ _ E).
  - intros [A B]. split; [apply (IHa q w w' t); [intros k Hk; apply E; lia|exact A]|]. eapply IHb; [|exact B]. intros k Hk. unfold shift. apply E. lia.
Qed.
Lemma sameRate_ext eps g : forall v w x x' y y', eqTo (lg_nv g) x x' -> eqTo (lg_nv g) y y' -> sameRate eps g v w x y -> sameRate eps g v w x' y'.
Proof.
  induction g as [n| | | | |a IHa b IHb]; intros v w x x' y y' E F; cbn [sameRate lg_nv] in *.
  - intros H k Hk. rewrite <- E, <- F by exact Hk. apply H, Hk.
  - rewrite !E, !F by lia. tauto.
  - now rewrite (v3At_ext _ _ E), (v3At_ext _ _ F).
  - intros H k Hk. rewrite <- E, <- F by exact Hk. apply H, Hk.
  - now rewrite (v6At_ext _ _ E), (v6At_ext _ _ F).
  - intros [A B]. split; [eapply IHa; [| |exact A]; intros k Hk; [apply E|apply F]; lia|]. eapply IHb; [| |exact B]; intros k Hk; unfold shift; [apply E|apply F]; lia.
Qed.
Lemma jac_zero n w k : jacMul n (fun _ _ => 0) w k = 0.
Proof. unfold jacMul. rewrite (sum_ext n _ (fun _ => 0)); [apply sum_zero|]. intros; ring. Qed.
Theorem dIntegrate_rate eps g : forall q w v dv p t J K, 0 < eps <= 1 / 4 -> turning eps g (v t) -> movesAt g q w t -> derivTo (lg_nv g) v dv t -> (forall u, leadsTo g (q u) (v u) (p u)) ->
  exists w', movesAt g p w' t /\
  sameRate eps g (v t) w w' (fun k => jacMul (lg_nv g) (lg_dIntegrate eps g ARG0 SETTO (v t) J) w k + jacMul (lg_nv g) (lg_dIntegrate eps g ARG1 SETTO (v t) K) dv k).
Proof.
  induction g as [n| | | | |a IHa b IHb]; intros q w v dv p t J K He T M D L.
  - eexists. split; [eapply (dint_vec eps n q w v dv p t J K); eassumption|]. intros k Hk. reflexivity.
  - eexists. split; [eapply (dint_so2 eps q w v dv p t J K); eassumption|]. reflexivity.
  - apply (dint_so3 eps q w v dv p t J K); assumption.
  - apply (dint_se2 eps q w v dv p t J K); assumption.
  - apply (dint_se3 eps q w v dv p t J K); assumption.
  - destruct T as [Ta Tb], M as [Ma Mb]. cbn [lg_nv] in *. set (n := lg_nv a) in *.
    destruct (IHa q w v dv p t J K He Ta Ma) as (wa & Wa & Sa); [intros k Hk; apply D; lia|intros u; apply L|].
    destruct (IHb (fun u => shift (lg_nq a) (q u)) (shift n w) (fun u => shift n (v u)) (shift n dv) (fun u => shift (lg_nq a) (p u)) t (blockAt n n J) (blockAt n n K) He Tb Mb) as (wb & Wb & Sb);
      [intros k Hk; unfold shift; apply D; lia|intros u; apply L|].
    exists (fun k => if (k <? n)%nat then wa k else wb (k - n)%nat).
    assert (Ea : eqTo n wa (fun k => if (k <? n)%nat then wa k else wb (k - n)%nat)) by (intros k Hk; rewrite (proj2 (Nat.ltb_lt k n)) by exact Hk; reflexivity).
    assert (Eb : eqTo (lg_nv b) wb (shift n (fun k => if (k <? n)%nat then wa k else wb (k - n)%nat))).
    { intros k Hk. unfold shift. rewrite (proj2 (Nat.ltb_ge (n + k) n)) by lia. f_equal. lia. }
    split.
    + split; [exact (movesAt_ext a _ _ _ _ Ea Wa)|exact (movesAt_ext b _ _ _ _ Eb Wb)].
    + cbn [sameRate]. fold n. cbn [lg_dIntegrate lg_dIntegrate_dq lg_dIntegrate_dv] in *. fold n. split.
      * eapply sameRate_ext; [exact Ea| |exact Sa]. intros k Hk. cbn beta. fold n in Hk. rewrite !jac_blocks by lia. rewrite !(proj2 (Nat.ltb_lt k n)) by exact Hk.
        change (jacMul (lg_nv b) (blockAt 0 n (fun _ _ => 0))) with (jacMul (lg_nv b) (fun _ _ => 0)). rewrite !jac_zero. ring.
      * eapply sameRate_ext; [exact Eb| |exact Sb]. intros k Hk. unfold shift at 5. cbn beta. rewrite !jac_blocks by lia. rewrite !(proj2 (Nat.ltb_ge (n + k) n)) by lia.
        change (jacMul n (blockAt n 0 (fun _ _ => 0))) with (jacMul n (fun _ _ => 0)). rewrite !jac_zero. replace (n + k - n)%nat with k by lia. ring.
Qed.
