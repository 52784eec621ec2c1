(* dDifference on products; the assignment operators; transport *)
Require Import Reals Lra Lia Arith List.
From Verif Require Import Vec3 Spatial Rot Deriv Joints JointFacts ExpLog Spec_Exp ExpFacts ExpJac Spec_ExpJac ExpJacFacts ExpJacFacts2 Kinematics LieGroup Spec_Lie
  LieFacts LieFacts2 LieFacts3 LieFacts7 LogMat Spec_LogMat LogMatFacts6 LieDer Spec_LieDer LieDerFacts LieDerFacts2 LieDerFacts3 LieDerFacts4 LieDerFacts5.
Local Open Scope R_scope.

Theorem dDifference_rate eps g : forall q0 q1 w0 w1 d t, 0 < eps <= 1 / 4096 -> (forall u, onGroup g (q0 u)) -> (forall u, onGroup g (q1 u)) -> movesAt g q0 w0 t -> movesAt g q1 w1 t ->
  (forall u, leadsTo g (q0 u) (d u) (q1 u)) -> (forall u, shortest g (d u)) -> apart eps g (d t) ->
  derivTo (lg_nv g) d (fun k => jacMul (lg_nv g) (lg_dDifference eps g ARG0 (q0 t) (q1 t)) w0 k + jacMul (lg_nv g) (lg_dDifference eps g ARG1 (q0 t) (q1 t)) w1 k) t.
Proof.
  induction g as [n| | | | |a IHa b IHb]; intros q0 q1 w0 w1 d t He G0 G1 M0 M1 L S P.
  - apply dd_vec; assumption.
  - apply dd_so2; assumption.
  - apply dd_so3; assumption.
  - apply dd_se2; assumption.
  - apply dd_se3; assumption.
  - cbn [lg_nv]. set (n := lg_nv a). intros k Hk. destruct (Nat.ltb_spec k n) as [K|K].
    + pose proof (IHa q0 q1 w0 w1 d t He (fun u => proj1 (G0 u)) (fun u => proj1 (G1 u)) (proj1 M0) (proj1 M1) (fun u => proj1 (L u)) (fun u => proj1 (S u)) (proj1 P) k K) as D.
      eapply deriv_eq; [exact D|]. cbv beta. cbn [lg_dDifference]. fold n. rewrite !jac_blocks by lia. rewrite !(proj2 (Nat.ltb_lt k n)) by exact K. rewrite !jac_zero. ring.
    + pose proof (IHb (fun u => shift (lg_nq a) (q0 u)) (fun u => shift (lg_nq a) (q1 u)) (shift n w0) (shift n w1) (fun u => shift n (d u)) t He (fun u => proj2 (G0 u)) (fun u => proj2 (G1 u)) (proj2 M0) (proj2 M1)
        (fun u => proj2 (L u)) (fun u => proj2 (S u)) (proj2 P) (k - n)%nat ltac:(lia)) as D.
      unfold shift at 1 in D. replace (n + (k - n))%nat with k in D by lia. eapply deriv_eq; [exact D|]. cbv beta. cbn [lg_dDifference]. fold n. rewrite !jac_blocks by lia. rewrite !(proj2 (Nat.ltb_ge k n)) by exact K. rewrite !jac_zero. ring.
Qed.
(* assignment operators *)
Lemma out_put3 op A J k l : (k < 3)%nat -> (l < 3)%nat -> m3Out (put3 op A (m3At J)) k l = putJac op (m3Out A) J k l.
Proof. intros Hk Hl. destruct A as [a0 a1 a2 a3 a4 a5 a6 a7 a8]. destruct k as [|[|[|k]]]; [| | |lia]; destruct l as [|[|[|l]]]; try lia; destruct op; cbn; ring. Qed.
Lemma out_put66 op A J k l : (k < 6)%nat -> (l < 6)%nat -> m66Out (put66 op A (m66At J)) k l = putJac op (m66Out A) J k l.
Proof.
  intros Hk Hl. unfold m66Out, blocks, put66, m66At, putJac. cbn [tl6 tr6 bl6 br6]. destruct (Nat.ltb_spec k 3), (Nat.ltb_spec l 3); rewrite ?out_put3 by lia; unfold putJac, blockAt; destruct op; try reflexivity; rewrite ?Nat.add_0_l; repeat f_equal; lia.
Qed.
Lemma jexp3_put eps op r J K : Jexp3 eps op r J = put3 op (Jexp3 eps SETTO r K) J.
Proof. destruct op; [reflexivity| |]; destruct (jexp_ops eps r J K) as [A B]; assumption. Qed.
Lemma jexp3_any eps r J K : Jexp3 eps SETTO r J = Jexp3 eps SETTO r K. Proof. apply (jexp3_put eps SETTO r J K). Qed.
Lemma jexp6_put eps op nu J K : Jexp6 eps op nu J = put66 op (Jexp6 eps SETTO nu K) J.
Proof.
  destruct op; [rewrite put66_set; unfold Jexp6; cbv zeta; rewrite (jexp3_any eps (ang nu) (br6 J) (br6 K)); reflexivity| |]; destruct (jexp6_ops eps nu J K) as [A B]; assumption.
Qed.
Lemma jexp6_any eps nu J K : Jexp6 eps SETTO nu J = Jexp6 eps SETTO nu K. Proof. rewrite (jexp6_put eps SETTO nu J K). apply put66_set. Qed.
Theorem lg_ops eps g : forall arg op v J K k l, (k < lg_nv g)%nat -> (l < lg_nv g)%nat -> lg_dIntegrate eps g arg op v J k l = putJac op (lg_dIntegrate eps g arg SETTO v K) J k l.
Proof.
  unfold lg_dIntegrate. induction g as [n| | | | |a IHa b IHb]; intros arg op v J K k l Hk Hl; cbn [lg_nv] in *.
  - destruct arg; reflexivity.
  - destruct arg; reflexivity.
  - destruct arg; cbn [lg_dIntegrate_dq lg_dIntegrate_dv]; [|rewrite (jexp3_put eps op _ _ (m3At K))]; rewrite out_put3 by assumption; reflexivity.
  - destruct arg; cbn [lg_dIntegrate_dq lg_dIntegrate_dv]; rewrite out_put3 by assumption; reflexivity.
  - destruct arg; cbn [lg_dIntegrate_dq lg_dIntegrate_dv]; [|rewrite (jexp6_put eps op _ _ (m66At K))]; rewrite out_put66 by assumption; [rewrite put66_set|]; reflexivity.
  - set (n := lg_nv a) in *. pose proof (fun J K => IHa arg op v J K k l) as Ia. pose proof (fun J K => IHb arg op (shift n v) (blockAt n n J) (blockAt n n K) (k - n)%nat (l - n)%nat) as Ib.
    destruct arg; cbn [lg_dIntegrate_dq lg_dIntegrate_dv]; fold n; unfold putJac, blocks; destruct (Nat.ltb_spec k n), (Nat.ltb_spec l n).
    all: try (rewrite (Ia J K) by assumption; reflexivity).
    all: try (rewrite (Ib J K) by lia; unfold putJac, blockAt; destruct op; try reflexivity; repeat f_equal; lia).
    all: unfold blockAt; destruct op; try reflexivity; rewrite ?Nat.add_0_l; try (replace (n + (k - n))%nat with k by lia); try (replace (n + (l - n))%nat with l by lia); ring.
Qed.
(* transport: the product with the matrix of dIntegrate *)
Definition colOf (J : jac) (l : nat) : vec := fun j => J j l.
Lemma mul3_sum A J k l : (k < 3)%nat -> mul3 A J k l = jacMul 3 (m3Out A) (colOf J l) k.
Proof. intros H. rewrite jac3 by exact H. reflexivity. Qed.
Lemma mul66_sum A J k l : (k < 6)%nat -> bl6 A = m3scale 0 m3id -> mul66 A J k l = jacMul 6 (m66Out A) (colOf J l) k.
Proof.
  intros H Z. unfold mul66, m66Out. rewrite (jac_blocks 3 3) by lia. destruct (Nat.ltb_spec k 3) as [K|K].
  - rewrite !mul3_sum by exact K. reflexivity.
  - rewrite !mul3_sum by lia. rewrite Z. assert (E : jacMul 3 (m3Out (m3scale 0 m3id)) (colOf J l) (k - 3)%nat = 0).
    { rewrite jac3 by lia. unfold v3At. destruct (k - 3)%nat as [|[|[|x]]]; cbn; ring. }
    rewrite E, Rplus_0_l. reflexivity.
Qed.
Lemma bl_dual M : bl6 (dualActionTr M) = m3scale 0 m3id. Proof. reflexivity. Qed.
Lemma bl_jexp eps nu J : bl6 (Jexp6 eps SETTO nu J) = m3scale 0 m3id. Proof. reflexivity. Qed.
Lemma jac_row_ext n J K w k : (forall j, (j < n)%nat -> J k j = K k j) -> jacMul n J w k = jacMul n K w k.
Proof. intros H. apply sum_ext. intros j Hj. now rewrite H. Qed.
Theorem lg_transport_sum eps g : forall arg v Jin J k l, (k < lg_nv g)%nat -> lg_transport eps g arg v Jin k l = jacMul (lg_nv g) (lg_dIntegrate eps g arg SETTO v J) (colOf Jin l) k.
Proof.
  induction g as [n| | | | |a IHa b IHb]; intros arg v Jin J k l Hk; cbn [lg_nv] in *.
  - cbn [lg_transport]. destruct arg; cbn [lg_dIntegrate lg_dIntegrate_dq lg_dIntegrate_dv]; (change (putJac SETTO idJac J) with idJac); rewrite jac_id by exact Hk; reflexivity.
  - cbn [lg_transport]. assert (k = 0)%nat by lia. subst k. destruct arg; unfold jacMul, colOf; cbn; ring.
  - cbn [lg_transport]. rewrite mul3_sum by exact Hk. destruct arg; cbn [lg_dIntegrate lg_dIntegrate_dq lg_dIntegrate_dv put3]; [reflexivity|]. rewrite (jexp3_any eps _ m3zero (m3At J)). reflexivity.
  - cbn [lg_transport]. destruct arg; cbn [lg_dIntegrate lg_dIntegrate_dq lg_dIntegrate_dv put3]; rewrite jac3 by exact Hk; unfold v3At, colOf.
    + unfold se2_inv. destruct (se2_exp (v 0%nat) (v 1%nat) (v 2%nat)) as [[[c s] t0] t1]. destruct k as [|[|[|k]]]; [| | |lia]; cbn; ring.
    + destruct (se2_Jexp eps v) as [a0 a1 a2 a3 a4 a5 a6 a7 a8]. destruct k as [|[|[|k]]]; [| | |lia]; cbn; ring.
  - cbn [lg_transport]. destruct arg; cbn [lg_dIntegrate lg_dIntegrate_dq lg_dIntegrate_dv].
    + rewrite put66_set. apply mul66_sum; [exact Hk|apply bl_dual].
    + rewrite (jexp6_any eps _ (m66At J) m66any). apply mul66_sum; [exact Hk|apply bl_jexp].
  - cbn [lg_transport]. set (n := lg_nv a) in *.
    assert (E : jacMul (n + lg_nv b) (lg_dIntegrate eps (LProd a b) arg SETTO v J) (colOf Jin l) k =
      if (k <? n)%nat then jacMul n (lg_dIntegrate eps a arg SETTO v J) (colOf Jin l) k else jacMul (lg_nv b) (lg_dIntegrate eps b arg SETTO (shift n v) (blockAt n n J)) (shift n (colOf Jin l)) (k - n)%nat).
    { destruct arg; cbn [lg_dIntegrate lg_dIntegrate_dq lg_dIntegrate_dv]; fold n; rewrite jac_blocks by exact Hk; change (blockAt 0 n (fun _ _ => 0)) with (fun _ _ : nat => 0); change (blockAt n 0 (fun _ _ => 0)) with (fun _ _ : nat => 0); rewrite !jac_zero; destruct (k <? n)%nat; ring. }
    rewrite E. destruct (Nat.ltb_spec k n) as [K|K]; [apply IHa; exact K|]. rewrite (IHb arg (shift n v) (rowsAt n Jin) (blockAt n n J)) by lia. reflexivity.
Qed.
Theorem lg_inPlace eps g : forall arg v J k l, (k < lg_nv g)%nat -> lg_transportInPlace eps g arg v J k l = lg_transport eps g arg v J k l.
Proof.
  induction g as [n| | | | |a IHa b IHb]; intros arg v J k l Hk; cbn [lg_nv] in *; try reflexivity.
  - destruct arg; cbn [lg_transportInPlace lg_transport]; cbv zeta.
    + unfold se2_inv. destruct (se2_exp (v 0%nat) (v 1%nat) (v 2%nat)) as [[[c s] t0] t1]. destruct k as [|[|[|k]]]; [| | |lia]; cbn; ring.
    + assert (Z : m20 (se2_Jexp eps v) = 0 /\ m21 (se2_Jexp eps v) = 0) by (unfold se2_Jexp, planarPart; cbn [m20 m21]; rewrite bl_jexp; cbn; split; ring). destruct Z as [Z0 Z1].
      destruct k as [|[|[|k]]]; [| | |lia]; unfold mul21; rewrite ?Z0, ?Z1; ring.
  - cbn [lg_transportInPlace lg_transport]. set (A := match arg with ARG0 => dualActionTr (exp6 eps (v6At v)) | ARG1 => Jexp6 eps SETTO (v6At v) m66any end). cbv zeta. unfold mul66. destruct (Nat.ltb_spec k 3) as [K|K].
    + reflexivity.
    + reflexivity.
  - cbn [lg_transportInPlace lg_transport]. set (n := lg_nv a) in *. destruct (Nat.ltb_spec k n) as [K|K]; [apply IHa; exact K|apply IHb; lia].
Qed.
