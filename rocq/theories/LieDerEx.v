(* Cases that meet the hypotheses of the theorems on the derivatives of the operations of the Lie groups. *)
Require Import Reals Lra Lia Arith List.
From Verif Require Import Vec3 Spatial Rot Deriv Joints ExpLog Spec_Exp ExpFacts ExpFacts5 ExpJac Spec_ExpJac ExpJacEx Kinematics LieGroup Spec_Lie LieFacts3 LieFacts8 LogFacts LogFacts4 ExpFacts2 ExpJacFacts ExpJacFacts3 LogMat LogMatFacts LogMatFacts4 LogMatFacts5 LogMatFacts6 LogMatEx Model Spec_Model ModelFacts3 Kinematics KinFacts3 LieDer Spec_LieDer LieDerFacts3.
Import ListNotations.
Local Open Scope R_scope.
Definition exG : LG := LProd (LVec 1) (LProd LSE3 LSO3).
Definition exS (u : R) : R := 1 + sin u / 2.
(* a coordinate, a placement that moves along x and a fixed rotation, a tangent vector that changes, and where it leads *)
Definition exQ0 (u : R) : vec := fun k => match k with 0%nat => 5 * u | 1%nat => u | 7%nat => 1 | 11%nat => 1 | _ => 0 end.
Definition exW0 : vec := fun k => match k with 0%nat => 5 | 1%nat => 1 | _ => 0 end.
Definition exD (u : R) : vec := fun k => match k with 0%nat => exS u | 1%nat => 2 * exS u | 2%nat => 3 * exS u | 3%nat => 5 * exS u | 4%nat => exS u | 7%nat => exS u | _ => 0 end.
Definition exDd : vec := fun k => match k with 0%nat => 1 / 2 | 1%nat => 1 | 2%nat => 3 / 2 | 3%nat => 5 / 2 | 4%nat => 1 / 2 | 7%nat => 1 / 2 | _ => 0 end.
Definition exQ1 (u : R) : vec :=
  let p := v3add (mkV3 u 0 0) (Texp (v6At (shift 1 (exD u)))) in let a := Qexp (mkV3 (exS u) 0 0) in
  fun k => match k with 0%nat => 5 * u + exS u | 1%nat => vx p | 2%nat => vy p | 3%nat => vz p | 4%nat | 8%nat => qx a | 5%nat | 9%nat => qy a | 6%nat | 10%nat => qz a | 7%nat | 11%nat => qw a | _ => 0 end.
Lemma exS_rate : deriv exS (1 / 2) 0.
Proof.
  unfold exS. eapply deriv_eq; [apply deriv_plus; [apply deriv_const|]; apply (deriv_ext _ (fun u => / 2 * sin u)); [intros u; field|]; apply deriv_mult; [apply deriv_const|apply (deriv_sin (fun u => u) 1 0), derivable_pt_lim_id]|].
  cbv beta. rewrite cos_0, sin_0. field.
Qed.
Lemma exS_0 : exS 0 = 1. Proof. unfold exS. rewrite sin_0. field. Qed.
Lemma exS_bound u : 0 < exS u <= 3 / 2. Proof. unfold exS. pose proof (SIN_bound u). lra. Qed.
Lemma exD_ang u : ang (v6At (shift 1 (exD u))) = mkV3 (exS u) 0 0. Proof. reflexivity. Qed.
Lemma exD_rot u : v3At (shift 6 (shift 1 (exD u))) = mkV3 (exS u) 0 0. Proof. reflexivity. Qed.
Lemma norm_s u : v3norm (mkV3 (exS u) 0 0) = exS u. Proof. apply norm_x. pose proof (exS_bound u). lra. Qed.
Lemma exQ_se3 u : quatAt (shift 3 (shift 1 (exQ1 u))) = Qexp (mkV3 (exS u) 0 0). Proof. unfold quatAt, shift, exQ1. cbv zeta. generalize (Qexp (mkV3 (exS u) 0 0)). intros [x y z w]. reflexivity. Qed.
Lemma exQ_so3 u : quatAt (shift 7 (shift 1 (exQ1 u))) = Qexp (mkV3 (exS u) 0 0). Proof. unfold quatAt, shift, exQ1. cbv zeta. generalize (Qexp (mkV3 (exS u) 0 0)). intros [x y z w]. reflexivity. Qed.
Lemma exd_onGroup : (forall u, onGroup exG (exQ0 u)) /\ (forall u, onGroup exG (exQ1 u)).
Proof.
  split; intros u; (split; [exact I|split]).
  - cbn. ring.
  - cbn. ring.
  - apply on_se3. change (shift (lg_nq (LVec 1)) (exQ1 u)) with (shift 1 (exQ1 u)). rewrite exQ_se3. apply Qexp_spec.
  - apply on_so3. change (quatAt (shift 7 (shift 1 (exQ1 u))) ) with (quatAt (shift (lg_nq LSE3) (shift (lg_nq (LVec 1)) (exQ1 u)))). rewrite exQ_so3. apply Qexp_spec.
Qed.
Lemma exd_leads u : leadsTo exG (exQ0 u) (exD u) (exQ1 u).
Proof.
  split; [|split].
  - intros k Hk. assert (k = 0)%nat by lia. subst k. reflexivity.
  - change (poseOf (shift 1 (exQ1 u)) = se3_mul (poseOf (shift 1 (exQ0 u))) (SE3exp (v6At (shift 1 (exD u))))). unfold poseOf, se3_mul, SE3exp. cbn [rot trans]. rewrite exQ_se3, (proj2 (Qexp_spec _)), exD_ang.
    assert (I3 : qmat (quatAt (shift 3 (shift 1 (exQ0 u)))) = m3id) by (unfold quatAt, shift, exQ0; apply m3_ext; cbn; ring). rewrite I3, m3mul_1_l. f_equal.
    change (v3At (shift 1 (exQ1 u))) with (v3add (mkV3 u 0 0) (Texp (v6At (shift 1 (exD u))))). generalize (Texp (v6At (shift 1 (exD u)))). intros [x y z]. change (v3At (shift 1 (exQ0 u))) with (mkV3 u 0 0). apply v3_ext; cbn; ring.
  - change (qmat (quatAt (shift 7 (shift 1 (exQ1 u)))) = m3mul (qmat (quatAt (shift 7 (shift 1 (exQ0 u))))) (Rexp (v3At (shift 6 (shift 1 (exD u)))))). rewrite exQ_so3, (proj2 (Qexp_spec _)), exD_rot.
    assert (I3 : qmat (quatAt (shift 7 (shift 1 (exQ0 u)))) = m3id) by (unfold quatAt, shift, exQ0; apply m3_ext; cbn; ring). rewrite I3, m3mul_1_l. reflexivity.
Qed.
Lemma exd_moves : movesAt exG exQ0 exW0 0.
Proof.
  assert (Z : forall x, x = 0 -> deriv (fun _ : R => 0) x 0) by (intros x ->; apply deriv_const).
  assert (C : forall f c x, (forall u, f u = c) -> x = 0 -> deriv f x 0) by (intros f c x H ->; apply (deriv_ext _ (fun _ => c)); [exact H|apply deriv_const]).
  split; [|split].
  - intros k Hk. assert (k = 0)%nat by lia. subst k. cbn. eapply deriv_eq; [apply deriv_mult; [apply deriv_const|apply derivable_pt_lim_id]|cbv beta; ring].
  - split.
    + cbn. repeat split; cbn; (eapply C; [intros u; reflexivity|ring]).
    + repeat split; cbn; [eapply deriv_eq; [apply derivable_pt_lim_id|ring]|apply Z; ring|apply Z; ring].
  - cbn. repeat split; cbn; (eapply C; [intros u; reflexivity|ring]).
Qed.
Lemma exd_deriv : derivTo (lg_nv exG) exD exDd 0.
Proof.
  intros k Hk. cbn in Hk. do 10 (destruct k as [|k]; [cbn; first [exact exS_rate | apply deriv_const | eapply deriv_eq; [apply deriv_mult; [apply deriv_const|exact exS_rate]|cbv beta; field] ]|]). lia.
Qed.
Lemma exd_turning : turning (1 / 16) exG (exD 0).
Proof.
  destruct ex_big as (A & B & C). split; [exact I|]. split; [change (ts3 (1 / 16) < v3norm (ang (v6At (shift 1 (exD 0)))) /\ cos (v3norm (ang (v6At (shift 1 (exD 0))))) <> 1)|change (ts3 (1 / 16) <= v3norm (v3At (shift 6 (shift 1 (exD 0)))))].
  - rewrite exD_ang, exS_0. split; assumption.
  - rewrite exD_rot, exS_0. left. exact B.
Qed.
Lemma exd_shortest u : shortest exG (exD u).
Proof.
  pose proof (exS_bound u). pose proof PI2_3_2. split; [exact I|]. split; [change (v3norm (ang (v6At (shift 1 (exD u)))) <= PI); rewrite exD_ang|change (v3norm (v3At (shift 6 (shift 1 (exD u)))) <= PI); rewrite exD_rot]; rewrite norm_s; lra.
Qed.
Lemma exd_apart : apart (1 / 4096) exG (exD 0).
Proof.
  pose proof exl_cos1. destruct (ts2_bounds _ exl_eps) as [_ B]. pose proof (ts2_pos (1 / 4096)).
  split; [exact I|]. split; [change (between (1 / 4096) (v3norm (ang (v6At (shift 1 (exD 0)))))); rewrite exD_ang|change (between (1 / 4096) (v3norm (v3At (shift 6 (shift 1 (exD 0)))))); rewrite exD_rot]; rewrite norm_s, exS_0; unfold between; lra.
Qed.
Theorem dIntegrate_ex : 0 < 1 / 16 <= 1 / 4 /\ turning (1 / 16) exG (exD 0) /\ movesAt exG exQ0 exW0 0 /\ derivTo (lg_nv exG) exD exDd 0 /\ (forall u, leadsTo exG (exQ0 u) (exD u) (exQ1 u)).
Proof. split; [lra|]. split; [exact exd_turning|]. split; [exact exd_moves|]. split; [exact exd_deriv|exact exd_leads]. Qed.
Theorem dDifference_ex : exists w1, 0 < 1 / 4096 <= 1 / 4096 /\ (forall u, onGroup exG (exQ0 u)) /\ (forall u, onGroup exG (exQ1 u)) /\ movesAt exG exQ0 exW0 0 /\ movesAt exG exQ1 w1 0 /\
  (forall u, leadsTo exG (exQ0 u) (exD u) (exQ1 u)) /\ (forall u, shortest exG (exD u)) /\ apart (1 / 4096) exG (exD 0).
Proof.
  destruct dIntegrate_ex as (A & B & C & D & E). destruct (dIntegrate_rate (1 / 16) exG exQ0 exW0 exD exDd exQ1 0 (fun _ _ => 0) (fun _ _ => 0) A B C D E) as (w1 & F & _).
  exists w1. split; [lra|]. split; [apply exd_onGroup|]. split; [apply exd_onGroup|]. split; [exact C|]. split; [exact F|]. split; [exact E|]. split; [exact exd_shortest|exact exd_apart].
Qed.

(* the same curves, as configurations of a model with a revolute, a free-flyer and a spherical joint, and a mimic joint *)
Lemma exd_leaves eps iq iv s : leafOf (exTree eps) iq iv s -> (iq = 0 /\ iv = 0 /\ s = JRevolute 2)%nat \/ (iq = 1 /\ iv = 1 /\ s = JFreeFlyer)%nat \/ (iq = 8 /\ iv = 7 /\ s = JSpherical)%nat.
Proof.
  intros (i & oq & ov & Hi & L & -> & ->). change (m_njoints (exTree eps)) with 5%nat in Hi. destruct (exTree_types eps i Hi) as (E1 & E2 & E3). rewrite E1 in L. rewrite E2, E3.
  destruct i as [|[|[|[|[|i]]]]]; try lia; cbn [nth] in *; inversion L; subst; auto.
Qed.
Theorem model_ex eps : Built eps (exTree eps) /\ leafOf (exTree eps) 1 1 JFreeFlyer /\ (forall u, validConf (exTree eps) (exQ0 u)) /\ derivTo (m_nv (exTree eps)) exD exDd 0 /\ forall iq iv s, leafOf (exTree eps) iq iv s ->
  turning (1 / 16) (lieGroup1 s) (shift iv (exD 0)) /\ movesAt (lieGroup1 s) (fun u => shift iq (exQ0 u)) (shift iv exW0) 0 /\ (forall u, leadsTo (lieGroup1 s) (shift iq (exQ0 u)) (shift iv (exD u)) (shift iq (exQ1 u))).
Proof.
  destruct dIntegrate_ex as (A & B & C & D & E). split; [apply exTree_built|]. split; [apply exLie|]. split; [|split; [exact D|]].
  - intros u iq iv s L. destruct (proj1 exd_onGroup u) as (G1 & G2 & G3). destruct (exd_leaves eps iq iv s L) as [(-> & -> & ->)|[(-> & -> & ->)|(-> & -> & ->)]]; [exact I|exact G2|exact G3].
  - intros iq iv s L. destruct B as (B1 & B2 & B3), C as (C1 & C2 & C3). destruct (exd_leaves eps iq iv s L) as [(-> & -> & ->)|[(-> & -> & ->)|(-> & -> & ->)]].
    + split; [exact I|]. split; [exact C1|]. intros u. exact (proj1 (E u)).
    + split; [exact B2|]. split; [exact C2|]. intros u. exact (proj1 (proj2 (E u))).
    + split; [exact B3|]. split; [exact C3|]. intros u. exact (proj2 (proj2 (E u))).
Qed.
Theorem model_diff_ex eps : exists w1, (forall u, validConf (exTree eps) (exQ0 u)) /\ (forall u, validConf (exTree eps) (exQ1 u)) /\
  (forall iq iv s, leafOf (exTree eps) iq iv s -> movesAt (lieGroup1 s) (fun u => shift iq (exQ0 u)) (shift iv exW0) 0 /\ movesAt (lieGroup1 s) (fun u => shift iq (exQ1 u)) (shift iv w1) 0 /\
     (forall u, leadsTo (lieGroup1 s) (shift iq (exQ0 u)) (shift iv (exD u)) (shift iq (exQ1 u))) /\ (forall u, shortest (lieGroup1 s) (shift iv (exD u))) /\ apart (1 / 4096) (lieGroup1 s) (shift iv (exD 0))).
Proof.
  destruct dDifference_ex as (w1 & A & B & C & D & E & F & G & H). exists w1. split; [|split].
  - apply (model_ex eps).
  - intros u iq iv s L. destruct (C u) as (G1 & G2 & G3). destruct (exd_leaves eps iq iv s L) as [(-> & -> & ->)|[(-> & -> & ->)|(-> & -> & ->)]]; [exact I|exact G2|exact G3].
  - intros iq iv s L. destruct D as (D1 & D2 & D3), E as (E1 & E2 & E3), H as (H1 & H2 & H3). destruct (exd_leaves eps iq iv s L) as [(-> & -> & ->)|[(-> & -> & ->)|(-> & -> & ->)]].
    + split; [exact D1|]. split; [exact E1|]. split; [intros u; exact (proj1 (F u))|]. split; [intros u; exact (proj1 (G u))|exact H1].
    + split; [exact D2|]. split; [exact E2|]. split; [intros u; exact (proj1 (proj2 (F u)))|]. split; [intros u; exact (proj1 (proj2 (G u)))|exact H2].
    + split; [exact D3|]. split; [exact E3|]. split; [intros u; exact (proj2 (proj2 (F u)))|]. split; [intros u; exact (proj2 (proj2 (G u)))|exact H3].
Qed.
