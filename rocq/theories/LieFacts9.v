(* lemmas in the form of the property theorems, and their examples *)
Require Import Reals Lra Arith Bool List Lia FunctionalExtensionality.
From Verif Require Import Vec3 Spatial Deriv Joints Spec_Joints JointFacts Model Spec_Model ModelFacts ModelFacts2 ModelFacts3 Kinematics Spec_Kin KinFacts3 Rot Spec_Rot ExpLog Spec_Exp ExpFacts LieGroup Spec_Lie
  LieFacts LieFacts2 LieFacts3 LogFacts2 LogFacts4 LieFacts4 LieFacts5 LieFacts6 LieFacts7 LieFacts8.
Import ListNotations.
Local Open Scope R_scope.

Lemma vec_diff_int eps n q v : eqTo n (lg_difference eps (LVec n) q (lg_integrate eps (LVec n) q v)) v.
Proof. intros k _. cbn. ring. Qed.
Lemma vec_int_diff eps n q p : eqTo n (lg_integrate eps (LVec n) q (lg_difference eps (LVec n) q p)) p.
Proof. intros k _. cbn. ring. Qed.
Lemma vec_inter eps n q p : eqTo n (lg_interpolate eps (LVec n) q p 0) q /\ eqTo n (lg_interpolate eps (LVec n) q p 1) p /\
  (forall u k, (k < n)%nat -> lg_interpolate eps (LVec n) q p u k = (1 - u) * q k + u * p k).
Proof. split; [|split]; [intros k _ | intros k _ | intros u k _]; cbn; ring. Qed.
Lemma vec_dist eps n q p : 0 <= lg_squaredDistance eps (LVec n) q p /\ (lg_squaredDistance eps (LVec n) q p = 0 <-> eqTo n q p) /\
  lg_squaredDistance eps (LVec n) q p = sumTo n (fun k => (p k - q k) * (p k - q k)).
Proof.
  split; [apply (norm2_pos n (fun k => p k - q k))|]. split; [|reflexivity]. cbn [lg_squaredDistance lg_difference lg_nv]. 
  change (sumTo n (fun k => (p k - q k) * (p k - q k)) = 0 <-> eqTo n q p). rewrite (sumTo_sq_0 n (fun k => p k - q k)). unfold eqTo. split; intros H k Hk; specialize (H k Hk); lra.
Qed.
Lemma so2_turn eps q v : onGroup LSO2 q -> let r := lg_integrate eps LSO2 q v in
  r 0%nat = q 0%nat * cos (v 0%nat) - q 1%nat * sin (v 0%nat) /\ r 1%nat = q 0%nat * sin (v 0%nat) + q 1%nat * cos (v 0%nat) /\ onGroup LSO2 r.
Proof.
  intros H r. split; [|split; [|apply so2_on, H]]; unfold r; rewrite (so2_integrate_exact eps q v H) by lia; reflexivity.
Qed.
Lemma so2_ex : onGroup LSO2 (v2Out (3 / 5) (4 / 5)) /\ onGroup LSO2 (v2Out (4 / 5) (- (3 / 5))) /\ - PI < v2Out 1 0 0%nat <= PI.
Proof. pose proof PI2_3_2. unfold PI2 in *. cbn. repeat split; lra. Qed.
Lemma so2_diff_range eps q p : onGroup LSO2 q -> onGroup LSO2 p ->
  - PI < lg_difference eps LSO2 q p 0%nat <= PI /\ eqTo 2 (lg_integrate eps LSO2 q (lg_difference eps LSO2 q p)) p.
Proof.
  intros H K. split; [|apply so2_int_diff; assumption]. rewrite so2_difference by assumption. cbn [onGroup] in H, K.
  apply (atan2_circle (q 0%nat * p 0%nat + q 1%nat * p 1%nat) (q 0%nat * p 1%nat - q 1%nat * p 0%nat)).
  transitivity ((q 0%nat * q 0%nat + q 1%nat * q 1%nat) * (p 0%nat * p 0%nat + p 1%nat * p 1%nat)); [ring | rewrite H, K; ring].
Qed.
Lemma so2_inter_refuted : exists q0 q1, onGroup LSO2 q0 /\ onGroup LSO2 q1 /\ opposite q0 q1 /\ q0 0%nat <> q1 0%nat /\
  forall eps u, lg_interpolate eps LSO2 q0 q1 u 0%nat = q0 0%nat.
Proof. destruct so2_opp_witness as [A [B [C D]]]. exists (v2Out 1 0), (v2Out (-1) 0). split; [exact A|]. split; [exact B|]. split; [exact C|]. split; [exact D|]. intros. apply so2_inter_opp, C. Qed.
Definition exPose0 : vec := join 3 (v3Out (mkV3 1 2 3)) (quatOut (mkQ 0 0 0 1)).
Definition exPose1 : vec := join 3 (v3Out (mkV3 (-1) 0 5)) (quatOut (mkQ (3 / 5) 0 (4 / 5) 0)).
Lemma inter_ex : 0 < 1 / 4096 <= 1 / 4096 /\ onGroup LSE3 exPose0 /\ onGroup LSE3 exPose1 /\ ~ eqTo 7 exPose0 exPose1 /\ ~ opposite (v2Out 1 0) (v2Out 0 1).
Proof.
  split; [lra|]. split; [cbn; lra|]. split; [cbn; lra|]. split; [intros H; specialize (H 0%nat ltac:(lia)); cbn in H; lra|].
  unfold opposite. cbn [v2Out]. replace (1 * 0 + 0 * 1) with (cos (PI / 2)) by (rewrite cos_PI2; ring). replace (1 * 1 - 0 * 0) with (sin (PI / 2)) by (rewrite sin_PI2; ring).
  pose proof PI2_3_2 as P. unfold PI2 in P. rewrite atan2_angle by lra. rewrite Rabs_right by lra. assert (1 / 10 ^ 6 < 1) by (cbn; lra). lra.
Qed.
Lemma deriv_sinc_like (w : R) t : deriv (fun s => s * sinc (s * w)) (cos (t * w)) t /\ deriv (fun s => s * (s * w) * cosc (s * w)) (sin (t * w)) t.
Proof.
  assert (Hid : deriv (fun s => s) 1 t) by (apply derivable_pt_lim_id).
  destruct (Req_EM_T w 0) as [->|N].
  - split.
    + apply (deriv_ext _ (fun s => s)).
      * intros s. rewrite Rmult_0_r. unfold sinc. destruct (Req_EM_T 0 0); [ring | lra].
      * rewrite Rmult_0_r, cos_0. exact Hid.
    + apply (deriv_ext _ (fun _ => 0)).
      * intros s. ring.
      * rewrite Rmult_0_r, sin_0. apply deriv_const.
  - assert (Hw : deriv (fun s => s * w) w t). { eapply deriv_eq; [apply (deriv_mult (fun s => s) (fun _ => w)); [exact Hid | apply deriv_const]|]. cbv beta. ring. }
    split.
    + apply (deriv_ext _ (fun s => sin (s * w) * / w)).
      * intros s. rewrite <- sinc_mul. field. exact N.
      * eapply deriv_eq; [apply (deriv_mult (fun s => sin (s * w)) (fun _ => / w)); [apply (deriv_sin (fun s => s * w)); exact Hw | apply deriv_const]|]. cbv beta. field. exact N.
    + apply (deriv_ext _ (fun s => (1 - cos (s * w)) * / w)).
      * intros s. rewrite <- cosc_mul. field. exact N.
      * eapply deriv_eq; [apply (deriv_mult (fun s => 1 - cos (s * w)) (fun _ => / w)); [apply (deriv_minus (fun _ => 1) (fun s => cos (s * w))); [apply deriv_const | apply (deriv_cos (fun s => s * w)); exact Hw] | apply deriv_const]|]. cbv beta. field. exact N.
Qed.
Lemma planar_flow (q v : vec) (t : R) : eqTo 4 (planarFlow q (fun k => 0 * v k)) q /\
  (let p s := planarFlow q (fun k => s * v k) in
   derivable_pt_lim (fun s => p s 0%nat) t (p t 2%nat * v 0%nat - p t 3%nat * v 1%nat) /\ derivable_pt_lim (fun s => p s 1%nat) t (p t 3%nat * v 0%nat + p t 2%nat * v 1%nat) /\
   derivable_pt_lim (fun s => p s 2%nat) t (- v 2%nat * p t 3%nat) /\ derivable_pt_lim (fun s => p s 3%nat) t (v 2%nat * p t 2%nat)).
Proof.
  split.
  - intros k Hk. unfold planarFlow. rewrite !Rmult_0_l, cos_0, sin_0. destruct k as [|[|[|[|k]]]]; try lia; ring.
  - intros p. destruct (deriv_sinc_like (v 2%nat) t) as [A B]. set (w := v 2%nat) in *. set (F := fun s => s * sinc (s * w)) in *. set (G := fun s => s * (s * w) * cosc (s * w)) in *.
    assert (Hid : deriv (fun s => s) 1 t) by (apply derivable_pt_lim_id).
    assert (Hw : deriv (fun s => s * w) w t). { eapply deriv_eq; [apply (deriv_mult (fun s => s) (fun _ => w)); [exact Hid | apply deriv_const]|]. cbv beta. ring. }
    assert (Hs : deriv (fun s => sin (s * w)) (w * cos (t * w)) t). { eapply deriv_eq; [apply (deriv_sin (fun s => s * w)); exact Hw|]. cbv beta. ring. }
    assert (Hc : deriv (fun s => cos (s * w)) (- w * sin (t * w)) t). { eapply deriv_eq; [apply (deriv_cos (fun s => s * w)); exact Hw|]. cbv beta. ring. }
    assert (L : forall a b c f g df dg, deriv f df t -> deriv g dg t -> deriv (fun s => c + a * f s + b * g s) (a * df + b * dg) t).
    { intros a b c f g df dg Hf Hg. eapply deriv_eq; [apply (deriv_plus (fun s => c + a * f s) (fun s => b * g s)); [apply (deriv_plus (fun _ => c) (fun s => a * f s)); [apply deriv_const | apply (deriv_mult (fun _ => a) f); [apply deriv_const | exact Hf]] | apply (deriv_mult (fun _ => b) g); [apply deriv_const | exact Hg]]|].
      cbv beta. ring. }
    split; [|split; [|split]].
    + apply (deriv_ext _ (fun s => q 0%nat + (q 2%nat * v 0%nat - q 3%nat * v 1%nat) * F s + (- q 2%nat * v 1%nat - q 3%nat * v 0%nat) * G s)).
      * intros s. unfold p, planarFlow, F, G. fold w. ring.
      * eapply deriv_eq; [apply L; [exact A | exact B]|]. unfold p, planarFlow. fold w. ring.
    + apply (deriv_ext _ (fun s => q 1%nat + (q 3%nat * v 0%nat + q 2%nat * v 1%nat) * F s + (- q 3%nat * v 1%nat + q 2%nat * v 0%nat) * G s)).
      * intros s. unfold p, planarFlow, F, G. fold w. ring.
      * eapply deriv_eq; [apply L; [exact A | exact B]|]. unfold p, planarFlow. fold w. ring.
    + apply (deriv_ext _ (fun s => 0 + q 2%nat * cos (s * w) + - q 3%nat * sin (s * w))).
      * intros s. unfold p, planarFlow. fold w. ring.
      * eapply deriv_eq; [apply L; [exact Hc | exact Hs]|]. unfold p, planarFlow. fold w. ring.
    + apply (deriv_ext _ (fun s => 0 + q 3%nat * cos (s * w) + q 2%nat * sin (s * w))).
      * intros s. unfold p, planarFlow. fold w. ring.
      * eapply deriv_eq; [apply L; [exact Hc | exact Hs]|]. unfold p, planarFlow. fold w. ring.
Qed.
Lemma se2_integrate_all eps q v : onGroup LSE2 q -> let r := lg_integrate eps LSE2 q v in
  onGroup LSE2 r /\ (forall k, (2 <= k < 4)%nat -> r k = planarFlow q v k) /\ (v 2%nat = 0 \/ e14 < Rabs (v 2%nat) -> eqTo 4 r (planarFlow q v)) /\
  (forall k, (k < 2)%nat -> Rabs (r k - planarFlow q v k) <= e14 * (Rabs (v 0%nat) + Rabs (v 1%nat))).
Proof.
  intros H r. split; [apply se2_on, H|]. split; [intros k Hk; apply se2_heading, Hk|]. split; [apply se2_integrate_exact|]. intros k Hk. apply se2_integrate_close; assumption.
Qed.
Lemma se2_ex : onGroup LSE2 (join 2 (v2Out 7 (-2)) (v2Out (3 / 5) (4 / 5))) /\ - PI < 1 <= PI.
Proof. pose proof PI2_3_2. unfold PI2 in *. cbn. repeat split; lra. Qed.
Lemma so3se3_norm eps q v : 0 < eps <= 1 / 4 ->
  (onGroup LSO3 q -> let e := qnorm2 (qexp3 eps (v3At v)) - 1 in Rabs (qnorm2 (quatAt (lg_integrate eps LSO3 q v)) - 1) <= e * e /\ Rabs e <= 2 * eE eps) /\
  (onGroup LSE3 q -> let e := qnorm2 (qexp3 eps (v3At (shift 3 v))) - 1 in Rabs (qnorm2 (quatAt (shift 3 (lg_integrate eps LSE3 q v))) - 1) <= e * e /\ Rabs e <= 2 * eE eps).
Proof.
  intros H. split; intros G e.
  - apply (proj1 (on_so3 q)) in G. split; [rewrite so3_integrate_eq; apply so3_norm; assumption | apply exp_norm_err, H].
  - apply (proj1 (on_se3 q)) in G. split; [|apply exp_norm_err, H]. destruct (se3_integrate_quat eps q v) as [s [S [-> _]]]. rewrite qscale_norm.
    replace (s * s) with 1 by (destruct S as [-> | ->]; ring). rewrite Rmult_1_l. apply so3_norm; assumption.
Qed.
Lemma so3se3_steps eps l q : 0 < eps <= 1 / 64 ->
  (onGroup LSO3 q -> Rabs (qnorm2 (quatAt (steps eps LSO3 q l)) - 1) <= 16 * eE eps * eE eps) /\
  (onGroup LSE3 q -> Rabs (qnorm2 (quatAt (shift 3 (steps eps LSE3 q l))) - 1) <= 16 * eE eps * eE eps).
Proof.
  intros H. assert (Z : forall x, x = 1 -> Rabs (x - 1) <= 16 * eE eps * eE eps) by (intros x ->; rewrite Rminus_diag_eq, Rabs_R0 by reflexivity; pose proof (Rle_0_sqr (eE eps)) as Q; unfold Rsqr in Q; lra).
  split; intros G; [apply so3_steps | apply se3_steps]; try exact H; apply Z; [apply (proj1 (on_so3 q)), G | apply (proj1 (on_se3 q)), G].
Qed.
Lemma se3_ex : 0 < 1 / 4096 <= 1 / 64 /\ onGroup LSE3 exPose1 /\ onGroup LSO3 (shift 3 exPose1).
Proof. split; [lra|]. split; cbn; lra. Qed.
Lemma so3_integrate_close eps q v : 0 < eps <= 1 / 4 -> onGroup LSO3 q -> qclose (4 * eE eps) (quatAt (lg_integrate eps LSO3 q v)) (qmul (quatAt q) (Qexp (v3At v))).
Proof. intros H G. apply (proj1 (on_so3 q)) in G. rewrite so3_integrate_eq. apply so3_close; assumption. Qed.
Lemma se3_integrate_all eps q v : 0 < eps <= 1 / 4 -> onGroup LSE3 q -> let r := lg_integrate eps LSE3 q v in
  sameRotation (4 * eE eps) (quatAt (shift 3 r)) (qmul (quatAt (shift 3 q)) (Qexp (v3At (shift 3 v)))) /\
  v3At r = v3add (v3At q) (m3vec (qmat (quatAt (shift 3 q))) (fst (qexp6 eps (v6At v)))) /\
  v3close (28 * eps * v3norm (v3At v)) (v3At r) (v3add (v3At q) (m3vec (qmat (quatAt (shift 3 q))) (Texp (v6At v)))).
Proof. intros H G r. destruct (se3_close eps q v H G) as [A B]. split; [exact A|]. split; [apply se3_integrate_trans | exact B]. Qed.
(* ---------- models ---------- *)
Section model.
Variable e : R.
Variable m : Model.
Hypothesis W : wellFormed m.
Lemma model_round_trip q0 q1 out out' : 0 < e <= 1 / 4096 -> validConf m q0 -> validConf m q1 ->
  forall iq iv s, leafOf m iq iv s -> reaches (reachErr e) (lieGroup1 s) (shift iq q0) (shift iq q1) (shift iq (integrate e m q0 (difference e m q0 q1 out) out')).
Proof.
  intros H V0 V1 iq iv s L. eapply reaches_ext; [|exact (int_diff e (lieGroup1 s) H _ _ (V0 _ _ _ L) (V1 _ _ _ L))].
  rewrite (proj1 (group_dims s)). intros k Hk. rewrite (integrate_leaf e m W q0 _ out' iq iv s L k Hk). symmetry.
  apply int_ext; [|rewrite (proj1 (group_dims s)); exact Hk]. rewrite (proj2 (group_dims s)). intros j Hj. apply (difference_leaf e m W q0 q1 out iq iv s L j Hj).
Qed.
Lemma model_zero q v out : 0 < e <= 1 / 4 -> validConf m q -> (forall k, (k < m_nv m)%nat -> v k = 0) -> eqTo (m_nq m) (integrate e m q v out) q.
Proof.
  intros H V Z k Hk. destruct (leaves_cover_q m W k Hk) as [iq [iv [s [L B]]]]. pose proof (integrate_leaf e m W q v out iq iv s L (k - iq)%nat ltac:(lia)) as E.
  pose proof (leaf_in m W iq iv s L) as [_ Bv].
  rewrite (int_zero e (lieGroup1 s) H (shift iq q) (shift iv v) (V _ _ _ L)) in E.
  - unfold shift in E. replace (iq + (k - iq))%nat with k in E by lia. exact E.
  - intros j Hj. rewrite (proj2 (group_dims s)) in Hj. apply Z. lia.
  - rewrite (proj1 (group_dims s)). lia.
Qed.
Lemma model_neutral out : validConf m (neutral m out) /\ forall iq iv s, leafOf m iq iv s -> eqTo (nq1 s) (shift iq (neutral m out)) (neutral1 s).
Proof. split; [apply neutral_valid, W|]. intros iq iv s L k Hk. rewrite (neutral_leaf m W out iq iv s L k Hk). apply neutral1_eq, Hk. Qed.
End model.
Lemma dist_accumulates e m q0 q1 out k : (k < m_njoints m - 1)%nat -> squaredDistance e m q0 q1 out k = out k + squaredDistance e m q0 q1 (fun _ => 0) k.
Proof. intros H. rewrite !dist_entry. rewrite (proj2 (Nat.ltb_lt k (m_njoints m - 1))) by exact H. ring. Qed.
Lemma random_ex eps : Built eps (exTree eps) /\ stream (fun k => / INR (S k)) /\ orderedLimits (fun _ => Some (-1)) (fun k => if Nat.eqb k 2 then None else Some 1) /\ euclidean (exTree eps) 2.
Proof.
  destruct (exLie eps) as [B [_ [_ [L _]]]]. split; [exact B|]. split; [|split].
  - intros k. assert (P : 1 <= INR (S k)) by (rewrite S_INR; pose proof (pos_INR k); lra). split; [apply Rlt_le, Rinv_0_lt_compat; lra|]. rewrite <- Rinv_1. apply Rinv_le_contravar; lra.
  - intros k l u E F. injection E as <-. destruct (Nat.eqb k 2); [discriminate|]. injection F as <-. lra.
  - exists 1%nat, 1%nat, JFreeFlyer, 1%nat. split; [exact L|]. split; [cbn; lia | reflexivity].
Qed.
Lemma random_group g lower upper r : stream r -> orderedLimits lower upper ->
  match lg_random g lower upper r with
  | Some (q, _) => onGroup g q /\ (forall k, euclid g k -> inLimit lower upper k (q k))
  | None => exists k, euclid g k /\ (lower k = None \/ upper k = None)
  end.
Proof.
  intros SR OL. destruct (lg_random g lower upper r) as [[q c]|] eqn:E; [exact (random_ok g _ _ _ _ _ E SR OL) | exact (proj1 (random_none g _ _ _) E)].
Qed.
