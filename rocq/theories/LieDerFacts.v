(* dIntegrate on the groups *)
Require Import Reals Lra Lia Arith List.
From Verif Require Import Vec3 Spatial Rot Deriv Joints ExpLog Spec_Exp ExpFacts ExpFacts2 ExpFacts4 ExpJac Spec_ExpJac ExpJacFacts ExpJacFacts2 Kinematics LieGroup Spec_Lie LieFacts
  LieFacts3 LieFacts4 LieFacts7 RotFacts LogMat Spec_LogMat LogMatFacts5 LogMatFacts6 LieDer Spec_LieDer.
Local Open Scope R_scope.

(* matrices as functions *)
Lemma jac3 A w k : (k < 3)%nat -> jacMul 3 (m3Out A) w k = v3Out (m3vec A (v3At w)) k.
Proof. intros H. destruct A as [a0 a1 a2 a3 a4 a5 a6 a7 a8]. destruct k as [|[|[|k]]]; [| | |exfalso; lia]; unfold jacMul, m3Out, m3get, m3row, v3At; cbn; ring. Qed.
Lemma jac3_at A w : v3At (jacMul 3 (m3Out A) w) = m3vec A (v3At w).
Proof. unfold v3At at 1. rewrite !jac3 by lia. generalize (m3vec A (v3At w)). intros [x y z]. reflexivity. Qed.
Lemma sum_ext n f g : (forall k, (k < n)%nat -> f k = g k) -> sumTo n f = sumTo n g.
Proof. intros H. apply sumTo_ext. exact H. Qed.
Lemma sum_zero n : sumTo n (fun _ => 0) = 0. Proof. induction n as [|n IH]; cbn; [reflexivity|rewrite IH; ring]. Qed.
Lemma sum_add n f g : sumTo n (fun k => f k + g k) = sumTo n f + sumTo n g. Proof. induction n as [|n IH]; cbn; [ring|rewrite IH; ring]. Qed.
Lemma jac_blocks n p a b c d w k : (k < n + p)%nat -> jacMul (n + p) (blocks n a b c d) w k =
  if (k <? n)%nat then jacMul n a w k + jacMul p b (shift n w) k else jacMul n c w (k - n)%nat + jacMul p d (shift n w) (k - n)%nat.
Proof.
  intros H. unfold jacMul at 1. rewrite sumTo_split. unfold shift at 1, jacMul, blocks. destruct (Nat.ltb_spec k n) as [L|L].
  - f_equal; apply sum_ext; intros j Hj.
    + now rewrite (proj2 (Nat.ltb_lt j n)) by lia.
    + rewrite (proj2 (Nat.ltb_ge (n + j) n)) by lia. unfold shift. repeat f_equal; lia.
  - f_equal; apply sum_ext; intros j Hj.
    + now rewrite (proj2 (Nat.ltb_lt j n)) by lia.
    + rewrite (proj2 (Nat.ltb_ge (n + j) n)) by lia. unfold shift. repeat f_equal; lia.
Qed.
Lemma jac6_lin A w : lin (v6At (jacMul 6 (m66Out A) w)) = v3add (m3vec (tl6 A) (lin (v6At w))) (m3vec (tr6 A) (ang (v6At w))).
Proof.
  unfold v6At at 1, m66Out; cbn [lin]. unfold v3At at 1. rewrite !(jac_blocks 3 3) by lia. cbn [Nat.ltb Nat.leb]. rewrite !jac3 by lia. unfold v6At; cbn [lin ang].
  destruct (tl6 A), (tr6 A). unfold v3At, shift. cbn. reflexivity.
Qed.
Lemma jac6_ang A w : ang (v6At (jacMul 6 (m66Out A) w)) = v3add (m3vec (bl6 A) (lin (v6At w))) (m3vec (br6 A) (ang (v6At w))).
Proof.
  unfold v6At at 1, m66Out; cbn [ang]. unfold v3At at 1, shift at 1 2 3. rewrite !(jac_blocks 3 3) by lia. cbn [Nat.ltb Nat.leb Nat.add Nat.sub]. rewrite !jac3 by lia. unfold v6At; cbn [lin ang].
  destruct (bl6 A), (br6 A). unfold v3At, shift. cbn. reflexivity.
Qed.
Lemma jac6_at A w : v6At (jacMul 6 (m66Out A) w) = m66vec A (v6At w).
Proof. unfold m66vec. rewrite <- jac6_lin, <- jac6_ang. reflexivity. Qed.
Lemma jac_id n w k : (k < n)%nat -> jacMul n idJac w k = w k.
Proof.
  unfold jacMul, idJac. induction n as [|n IH]; intros H; [lia|]. cbn [sumTo]. destruct (Nat.eq_dec k n) as [->|N].
  - rewrite Nat.eqb_refl, (sum_ext n _ (fun _ => 0)), sum_zero; [ring|]. intros j Hj. rewrite (proj2 (Nat.eqb_neq n j)) by lia. ring.
  - rewrite IH by lia. rewrite (proj2 (Nat.eqb_neq k n)) by exact N. ring.
Qed.
Lemma v3At_add f g : v3At (fun k => f k + g k) = v3add (v3At f) (v3At g). Proof. reflexivity. Qed.
Lemma v6At_add f g : v6At (fun k => f k + g k) = v6add (v6At f) (v6At g). Proof. reflexivity. Qed.
Lemma deriv3_at v dv t : derivTo 3 v dv t -> deriv3 (fun u => v3At (v u)) (v3At dv) t.
Proof. intros H. repeat split; cbn; apply H; lia. Qed.
Lemma deriv6_at v dv t : derivTo 6 v dv t -> deriv6 (fun u => v6At (v u)) (v6At dv) t.
Proof. intros H. split; [apply deriv3_at; intros k Hk; apply H; lia|]. cbn. apply (deriv3_at (fun u => shift 3 (v u)) (shift 3 dv)). intros k Hk. unfold shift. apply H. lia. Qed.

(* flat groups and circles *)
Lemma dint_vec eps n q w v dv p t J K : movesAt (LVec n) q w t -> derivTo n v dv t -> (forall u, leadsTo (LVec n) (q u) (v u) (p u)) ->
  movesAt (LVec n) p (fun k => jacMul n (lg_dIntegrate eps (LVec n) ARG0 SETTO (v t) J) w k + jacMul n (lg_dIntegrate eps (LVec n) ARG1 SETTO (v t) K) dv k) t.
Proof.
  intros M D L k Hk. cbn [lg_dIntegrate lg_dIntegrate_dq lg_dIntegrate_dv]. change (putJac SETTO idJac J) with idJac. change (putJac SETTO idJac K) with idJac.
  rewrite !jac_id by exact Hk. apply (deriv_ext _ (fun u => q u k + v u k)); [intros u; apply L, Hk|]. apply deriv_plus; [apply M, Hk|apply D, Hk].
Qed.
Lemma dint_so2 eps q w v dv p t J K : movesAt LSO2 q w t -> derivTo 1 v dv t -> (forall u, leadsTo LSO2 (q u) (v u) (p u)) ->
  movesAt LSO2 p (fun k => jacMul 1 (lg_dIntegrate eps LSO2 ARG0 SETTO (v t) J) w k + jacMul 1 (lg_dIntegrate eps LSO2 ARG1 SETTO (v t) K) dv k) t.
Proof.
  intros [M0 M1] D L. pose proof (D 0%nat ltac:(lia)) as D0. unfold jacMul; cbn.
  pose proof (deriv_cos _ _ _ D0) as Dc. pose proof (deriv_sin _ _ _ D0) as Ds. cbv beta in Dc, Ds.
  split.
  - eapply deriv_eq; [apply (deriv_ext _ (fun u => q u 0%nat * cos (v u 0%nat) - q u 1%nat * sin (v u 0%nat))); [intros u; apply L|]|].
    + apply deriv_minus; apply deriv_mult; [exact M0|exact Dc|exact M1|exact Ds].
    + rewrite (proj2 (L t)). cbn; ring.
  - eapply deriv_eq; [apply (deriv_ext _ (fun u => q u 0%nat * sin (v u 0%nat) + q u 1%nat * cos (v u 0%nat))); [intros u; apply L|]|].
    + apply deriv_plus; apply deriv_mult; [exact M0|exact Ds|exact M1|exact Dc].
    + rewrite (proj1 (L t)). cbn; ring.
Qed.
