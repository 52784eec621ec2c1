(* facts for every Lie group, by induction on products *)
Require Import Reals Lra Arith Bool List Lia FunctionalExtensionality.
From Verif Require Import Vec3 Spatial Joints JointFacts Model Kinematics Deriv Rot RotFacts ExpLog Spec_Exp ExpFacts ExpFacts2 ExpFacts3 ExpFacts4 ExpFacts5 LieGroup Spec_Lie LieFacts LieFacts2 LieFacts3 LogFacts LogFacts2 LogFacts3 LogFacts4.
Local Open Scope R_scope.

Lemma shift_join n f g : shift n (join n f g) = g.
Proof. extensionality k. unfold shift. apply join_hi. Qed.
Lemma join_lt n f g k : (n <= k)%nat -> join n f g k = g (k - n)%nat.
Proof. intros H. unfold join. rewrite (proj2 (Nat.ltb_ge k n) H). reflexivity. Qed.
Lemma eqTo_join a b f g q : eqTo a f q -> eqTo b g (shift a q) -> eqTo (a + b) (join a f g) q.
Proof.
  intros F G k Hk. destruct (Nat.lt_ge_cases k a) as [L|L]; [rewrite join_lo by exact L; apply F; exact L|].
  rewrite join_lt by exact L. rewrite G by lia. unfold shift. f_equal. lia.
Qed.
Lemma quatAt_ext p q : eqTo 4 p q -> quatAt p = quatAt q.
Proof. intros H. unfold quatAt. rewrite !H by lia. reflexivity. Qed.
Lemma v3At_ext p q : eqTo 3 p q -> v3At p = v3At q.
Proof. intros H. unfold v3At. rewrite !H by lia. reflexivity. Qed.
Lemma eqTo_shift a b p q : eqTo (a + b) p q -> eqTo b (shift a p) (shift a q).
Proof. intros H k Hk. unfold shift. apply H. lia. Qed.
Lemma eqTo_le a b p q : eqTo b p q -> (a <= b)%nat -> eqTo a p q. Proof. intros H L k Hk. apply H. lia. Qed.
(* the conditions and results read the coordinates of the group only *)
Lemma on_ext g : forall p q, eqTo (lg_nq g) p q -> onGroup g p -> onGroup g q.
Proof.
  induction g; cbn [lg_nq onGroup]; intros p q H G; try exact I; try (rewrite !H in G by lia; exact G).
  destruct G as [A B]. split.
  - eapply IHg1; [|exact A]. eapply eqTo_le; [exact H|lia].
  - eapply IHg2; [|exact B]. apply eqTo_shift. exact H.
Qed.
Lemma reaches_ext d g : forall a b p q, eqTo (lg_nq g) p q -> reaches d g a b p -> reaches d g a b q.
Proof.
  induction g; cbn [lg_nq reaches]; intros a b p q H G.
  - intros k Hk. rewrite <- H by exact Hk. apply G. exact Hk.
  - intros k Hk. rewrite <- H by exact Hk. apply G. exact Hk.
  - rewrite <- (quatAt_ext _ _ H). exact G.
  - destruct G as [A B]. split.
    + intros k Hk. unfold shift. rewrite <- H by lia. apply A. exact Hk.
    + intros k Hk. rewrite <- H by lia. apply B. exact Hk.
  - rewrite <- (quatAt_ext _ _ (eqTo_shift 3 4 _ _ H)), <- (v3At_ext _ _ (eqTo_le 3 7 _ _ H ltac:(lia))). exact G.
  - destruct G as [A B]. split.
    + eapply IHg1; [|exact A]. eapply eqTo_le; [exact H | lia].
    + eapply IHg2; [|exact B]. apply eqTo_shift. exact H.
Qed.

Lemma v6At_ext p q : eqTo 6 p q -> v6At p = v6At q.
Proof. intros H. unfold v6At. rewrite (v3At_ext p q) by (eapply eqTo_le; [exact H | lia]). rewrite (v3At_ext (shift 3 p) (shift 3 q)) by (apply (eqTo_shift 3 3); exact H). reflexivity. Qed.
Lemma int_ext eps g : forall q v w, eqTo (lg_nv g) v w -> eqTo (lg_nq g) (lg_integrate eps g q v) (lg_integrate eps g q w).
Proof.
  induction g as [n| | | | |a IHa b IHb]; intros q v w H k Hk; cbn [lg_nv lg_nq lg_integrate] in *.
  - rewrite H by exact Hk. reflexivity.
  - rewrite H by lia. reflexivity.
  - rewrite (v3At_ext _ _ H). reflexivity.
  - rewrite !H by lia. reflexivity.
  - rewrite (v6At_ext _ _ H). reflexivity.
  - destruct (Nat.lt_ge_cases k (lg_nq a)) as [L|L].
    + rewrite !join_lo by exact L. apply IHa; [|exact L]. eapply eqTo_le; [exact H | lia].
    + rewrite !join_lt by exact L. apply IHb; [|lia]. apply eqTo_shift. exact H.
Qed.

(* ---------- integrating zero, interpolation ---------- *)
Lemma int_zero eps g : 0 < eps <= 1 / 4 -> forall q v, onGroup g q -> (forall k, (k < lg_nv g)%nat -> v k = 0) -> eqTo (lg_nq g) (lg_integrate eps g q v) q.
Proof.
  intros He. induction g as [n| | | | |a IHa b IHb]; intros q v G V.
  - intros k Hk. cbn [lg_integrate]. rewrite V by exact Hk. ring.
  - apply so2_zero; [exact G | apply V; cbn; lia].
  - apply so3_zero; assumption.
  - apply se2_zero. exact V.
  - apply se3_zero; assumption.
  - cbn [lg_nq lg_integrate] in *. destruct G as [Ga Gb]. apply eqTo_join.
    + apply IHa; [exact Ga|]. intros k Hk. apply V. cbn. lia.
    + apply IHb; [exact Gb|]. intros k Hk. unfold shift. apply V. cbn. lia.
Qed.
Lemma inter_0 eps g q0 q1 : 0 < eps <= 1 / 4 -> onGroup g q0 -> onGroup g q1 -> eqTo (lg_nq g) (lg_interpolate eps g q0 q1 0) q0.
Proof.
  intros He G0 G1. assert (I : eqTo (lg_nq g) (lg_integrate eps g q0 (fun k => 0 * lg_difference eps g q0 q1 k)) q0).
  { apply int_zero; [exact He | exact G0|]. intros k _. ring. }
  destruct g; try exact I. apply so2_inter_0; assumption.
Qed.
Lemma reaches_mono d e g : d <= e -> forall q0 q1 p, reaches d g q0 q1 p -> reaches e g q0 q1 p.
Proof.
  intros L. induction g; cbn [reaches]; intros q0 q1 p H; try exact H.
  - eapply sameRotation_mono; eassumption.
  - destruct H as [A B]. split; [exact A|]. intros k Hk. eapply Rle_trans; [apply B; exact Hk|]. apply Rmult_le_compat_r; [|exact L]. pose proof (Rabs_pos (q1 0%nat - q0 0%nat)). pose proof (Rabs_pos (q1 1%nat - q0 1%nat)). lra.
  - destruct H as [A [B [C D]]]. split; [eapply sameRotation_mono; eassumption|].
    assert (K : d * v3norm (v3sub (v3At q1) (v3At q0)) <= e * v3norm (v3sub (v3At q1) (v3At q0))) by (apply Rmult_le_compat_r; [apply norm_nonneg | exact L]).
    split; [|split]; eapply Rle_trans; eassumption.
  - destruct H as [A B]. auto.
Qed.
Lemma int_diff eps g : 0 < eps <= 1 / 4096 -> forall q0 q1, onGroup g q0 -> onGroup g q1 -> reaches (reachErr eps) g q0 q1 (lg_integrate eps g q0 (lg_difference eps g q0 q1)).
Proof.
  intros He. assert (R14 : e14 <= reachErr eps /\ 4 * eE eps + 16 * eps <= reachErr eps).
  { pose proof (pow2_ge_0 (ts2 eps)). pose proof (ts3_le1 eps ltac:(lra)) as [T3 _]. assert (0 <= ts3 eps ^ 3) by (apply pow_le; lra). pose proof e14_pos. unfold reachErr, eE. lra. }
  induction g as [n| | | | |a IHa b IHb]; intros q0 q1 G0 G1.
  - intros k Hk. cbn [lg_integrate lg_difference]. ring.
  - apply so2_int_diff; assumption.
  - cbn [reaches]. rewrite so3_integrate_eq. apply (proj1 (on_so3 q0)) in G0. apply (proj1 (on_so3 q1)) in G1.
    cbn [lg_difference]. rewrite v3At_Out. eapply sameRotation_mono; [exact (proj2 R14)|]. apply so3_reaches; assumption.
  - eapply reaches_mono; [exact (proj1 R14)|]. apply se2_reaches; assumption.
  - apply se3_reaches; assumption.
  - cbn [lg_integrate lg_difference reaches onGroup] in *. destruct G0 as [A0 B0], G1 as [A1 B1]. rewrite !shift_join. split.
    + apply (reaches_ext _ _ _ _ (lg_integrate eps a q0 (lg_difference eps a q0 q1))); [|apply IHa; assumption].
      intros k Hk. rewrite join_lo by exact Hk. apply int_ext; [|exact Hk]. intros i Hi. rewrite join_lo by exact Hi. reflexivity.
    + apply IHb; assumption.
Qed.
Lemma inter_1 eps g q0 q1 : 0 < eps <= 1 / 4096 -> onGroup g q0 -> onGroup g q1 -> (g = LSO2 -> ~ opposite q0 q1) -> reaches (reachErr eps) g q0 q1 (lg_interpolate eps g q0 q1 1).
Proof.
  intros He G0 G1 Op. assert (E : (fun k => 1 * lg_difference eps g q0 q1 k) = lg_difference eps g q0 q1) by (extensionality k; ring).
  pose proof (int_diff eps g He q0 q1 G0 G1) as I. rewrite <- E in I. destruct g; try exact I. apply so2_inter_1; auto.
Qed.

(* ---------- distances ---------- *)
Lemma sumTo_join n f g : forall m, sumTo (n + m) (join n f g) = sumTo n f + sumTo m g.
Proof.
  induction m as [|m IH].
  - rewrite Nat.add_0_r. cbn. rewrite Rplus_0_r. assert (K : forall k, (k <= n)%nat -> sumTo k (join n f g) = sumTo k f).
    { induction k as [|k IHk]; intros H; [reflexivity|]. cbn. rewrite IHk, join_lo by lia. reflexivity. }
    apply K. lia.
  - rewrite Nat.add_succ_r. cbn [sumTo]. rewrite IH, join_hi. ring.
Qed.
Lemma sumTo_ext n f g : eqTo n f g -> sumTo n f = sumTo n g.
Proof. induction n as [|n IH]; intros H; [reflexivity|]. cbn. rewrite IH, H by (first [lia | eapply eqTo_le; [exact H | lia]]). reflexivity. Qed.
Lemma sumTo_sq_pos n f : 0 <= sumTo n (fun k => f k * f k).
Proof. induction n as [|n IH]; cbn; [lra|]. pose proof (Rle_0_sqr (f n)) as S. unfold Rsqr in S. lra. Qed.
Lemma sumTo_sq_0 n f : sumTo n (fun k => f k * f k) = 0 <-> (forall k, (k < n)%nat -> f k = 0).
Proof.
  induction n as [|n IH]; cbn; [split; [intros _ k Hk; lia | reflexivity]|].
  pose proof (sumTo_sq_pos n f) as P. pose proof (Rle_0_sqr (f n)) as S. unfold Rsqr in S. split.
  - intros H k Hk. assert (A : sumTo n (fun k => f k * f k) = 0) by lra. assert (B : f n * f n = 0) by lra.
    destruct (Nat.eq_dec k n) as [-> | N]; [destruct (Rmult_integral _ _ B); assumption|]. apply IH; [exact A | lia].
  - intros H. rewrite (proj2 IH) by (intros; apply H; lia). rewrite (H n) by lia. ring.
Qed.
Lemma dist_sum eps g : forall q0 q1, lg_squaredDistance eps g q0 q1 = sumTo (lg_nv g) (fun k => lg_difference eps g q0 q1 k * lg_difference eps g q0 q1 k).
Proof.
  induction g as [n| | | | |a IHa b IHb]; intros q0 q1; try reflexivity. cbn [lg_squaredDistance lg_nv lg_difference]. rewrite IHa, IHb.
  rewrite <- sumTo_join. f_equal. extensionality k. unfold join. destruct (k <? lg_nv a); reflexivity.
Qed.
Lemma qclose_0 p q : qclose 0 p q <-> p = q.
Proof.
  split.
  - intros [A [B [C D]]]. apply rabs_inv in A, B, C, D. destruct p, q. cbn in *. f_equal; lra.
  - intros ->. unfold qclose. rewrite !Rminus_diag_eq, Rabs_R0 by reflexivity. lra.
Qed.
Lemma v3close_0 d p q : d = 0 -> v3close d p q <-> p = q.
Proof.
  intros ->. split.
  - intros [A [B C]]. apply rabs_inv in A, B, C. destruct p, q. cbn in *. f_equal; lra.
  - intros ->. unfold v3close. rewrite !Rminus_diag_eq, Rabs_R0 by reflexivity. lra.
Qed.
Lemma rabs_0 x : Rabs x = 0 -> x = 0. Proof. unfold Rabs. destruct (Rcase_abs x); lra. Qed.
Lemma lgK_pos eps n w : 0 < eps <= 1 / 4096 -> 0 <= n -> 0 <= w -> n * n + w * w = 1 -> 0 < lgK eps n w.
Proof.
  intros He Hn Hw U. destruct (Rlt_dec (n * n) (ts2 eps)) as [S|S].
  - destruct (lgK_small eps n w (w_pos _ _ _ He Hw U S) S) as [K _]. rewrite K.
    set (T := (1 - n / w * (n / w) / 3) * (nrm eps n / w) * ((1 - n / w * (n / w) / 3) * (nrm eps n / w))). assert (T0 : 0 <= T) by (apply Rle_0_sqr). clearbody T. nra.
  - destruct (lgK_big eps n w S) as [K _]. rewrite K. destruct (th2_spec eps n w He Hn Hw U) as [T _]. set (t := atan2 (nrm eps n) w) in *. clearbody t.
    assert (P : 0 < sin t) by (apply sin_gt_0; pose proof PI2_3_2; lra). assert (0 < / sin t) by (apply Rinv_0_lt_compat; exact P). unfold Rdiv. nra.
Qed.
(* q1 = +-q0 when the relative quaternion has no vector part *)
Lemma log3_zero eps p q : 0 < eps <= 1 / 4096 -> qnorm2 p = 1 -> qnorm2 q = 1 -> fst (qlog3 eps (qmul (qconj p) q)) = v3zero <-> (p = q \/ p = qscale (-1) q).
Proof.
  intros He Np Nq. set (d := qmul (qconj p) q). assert (Nd : qnorm2 d = 1).
  { unfold d. rewrite qmul_norm, Nq. replace (qnorm2 (qconj p)) with (qnorm2 p) by (unfold qnorm2, qdot, qconj; cbn; ring). rewrite Np. ring. }
  destruct (qlog3_eq eps d Nd) as [E [_ [Hn [Hw [U P]]]]]. rewrite E. clear E. fold (posOf d) in *.
  pose proof (lgK_pos eps _ _ He Hn Hw U) as K. set (k := lgK _ _ _) in *. clearbody k.
  assert (D : v3scale k (v3scale (posOf d) (qvec d)) = v3zero <-> qvec d = v3zero).
  { split; intros H.
    - apply norm_zero. apply (f_equal v3norm) in H. rewrite !norm_scale, norm0 in H.
      destruct (Rmult_integral _ _ H) as [H1|H1]; [apply rabs_0 in H1; lra|]. destruct (Rmult_integral _ _ H1) as [H2|H2]; [|exact H2]. apply rabs_0 in H2. rewrite H2 in P. lra.
    - rewrite H. unfold v3scale, v3zero. cbn. f_equal; ring. }
  rewrite D. clear D. assert (Q : q = qmul p d).
  { unfold d. clear - Np. destruct p as [a b c e], q as [a' b' c' e']. unfold qnorm2, qdot in Np. cbn in Np. unfold qmul, qconj. cbn. f_equal; symmetry.
    - transitivity ((a * a + b * b + c * c + e * e) * a'); [ring | rewrite Np; ring].
    - transitivity ((a * a + b * b + c * c + e * e) * b'); [ring | rewrite Np; ring].
    - transitivity ((a * a + b * b + c * c + e * e) * c'); [ring | rewrite Np; ring].
    - transitivity ((a * a + b * b + c * c + e * e) * e'); [ring | rewrite Np; ring]. }
  split.
  - clearbody d. intros H. assert (W : qw d = 1 \/ qw d = -1).
    { unfold qnorm2, qdot in Nd. unfold qvec, v3zero in H. injection H as H1 H2 H3. rewrite H1, H2, H3 in Nd. assert (S : (qw d - 1) * (qw d + 1) = 0) by lra. destruct (Rmult_integral _ _ S); [left | right]; lra. }
    unfold qvec, v3zero in H. injection H as H1 H2 H3. destruct d as [d1 d2 d3 d4]. cbn in *. subst d1 d2 d3.
    destruct W as [-> | ->]; [left | right]; rewrite Q; destruct p; unfold qmul, qscale; cbn; f_equal; ring.
  - intros [H|H]; unfold d; rewrite H; destruct q; unfold qvec, qmul, qconj, qscale, v3zero; cbn; f_equal; ring.
Qed.
Lemma v3Out_zero u : (forall k, (k < 3)%nat -> v3Out u k = 0) <-> u = v3zero.
Proof.
  split.
  - intros H. pose proof (H 0%nat ltac:(lia)). pose proof (H 1%nat ltac:(lia)). pose proof (H 2%nat ltac:(lia)). destruct u. cbn in *. subst. reflexivity.
  - intros -> k Hk. destruct k as [|[|[|k]]]; [reflexivity | reflexivity | reflexivity | lia].
Qed.
Lemma neg1_id q : qscale (-1) (qscale (-1) q) = q. Proof. destruct q. unfold qscale. cbn. f_equal; ring. Qed.
Lemma atan2_0_iff c s : c * c + s * s = 1 -> atan2 s c = 0 <-> (c = 1 /\ s = 0).
Proof.
  intros H. destruct (atan2_circle c s H) as [A [B _]]. split.
  - intros E. rewrite E, cos_0 in A. rewrite E, sin_0 in B. lra.
  - intros [-> ->]. pose proof PI_RGT_0. transitivity (atan2 (sin 0) (cos 0)); [rewrite sin_0, cos_0; reflexivity|]. apply atan2_angle. lra.
Qed.
Lemma unit_same a b c d : a * a + b * b = 1 -> c * c + d * d = 1 -> (a * c + b * d = 1 /\ a * d - b * c = 0) <-> (a = c /\ b = d).
Proof.
  intros H K. split.
  - intros [P Q]. split.
    + transitivity ((c * c + d * d) * a); [rewrite K; ring|]. transitivity (c * (a * c + b * d) + d * (a * d - b * c)); [ring|]. rewrite P, Q. ring.
    + transitivity ((c * c + d * d) * b); [rewrite K; ring|]. transitivity (d * (a * c + b * d) - c * (a * d - b * c)); [ring|]. rewrite P, Q. ring.
  - intros [-> ->]. split; [exact K | ring].
Qed.
Lemma so2_unit_same q0 q1 : onGroup LSO2 q0 -> onGroup LSO2 q1 ->
  atan2 (q0 0%nat * q1 1%nat - q0 1%nat * q1 0%nat) (q0 0%nat * q1 0%nat + q0 1%nat * q1 1%nat) = 0 <-> reaches 0 LSO2 q1 q1 q0.
Proof.
  intros H K. cbn [onGroup] in H, K. rewrite atan2_0_iff.
  - rewrite unit_same by assumption. cbn [reaches]. split; [intros [A B] k Hk; destruct k as [|[|k]]; [exact A | exact B | lia] | intros E; split; apply E; lia].
  - transitivity ((q0 0%nat * q0 0%nat + q0 1%nat * q0 1%nat) * (q1 0%nat * q1 0%nat + q1 1%nat * q1 1%nat)); [ring | rewrite H, K; ring].
Qed.
Lemma se2_same q0 q1 : onGroup LSE2 q0 -> onGroup LSE2 q1 -> atan2 (crs2 q0 q1) (dot2 q0 q1) = 0 <-> eqTo 2 (shift 2 q0) (shift 2 q1).
Proof.
  intros H K. rewrite atan2_0_iff by (apply dc_unit; assumption). cbn [onGroup] in H, K.
  transitivity (q0 2%nat = q1 2%nat /\ q0 3%nat = q1 3%nat).
  - rewrite <- (unit_same (q0 2%nat) (q0 3%nat) (q1 2%nat) (q1 3%nat)) by assumption. unfold dot2, crs2. split; intros [A B]; split; lra.
  - unfold shift. split; [intros [A B] k Hk; destruct k as [|[|k]]; [exact A | exact B | lia] | intros E; split; [apply (E 0%nat) | apply (E 1%nat)]; lia].
Qed.
Lemma v3norm0_sub u : v3norm (v3sub u u) = 0.
Proof. replace (v3sub u u) with v3zero by (destruct u; unfold v3sub, v3zero; cbn; f_equal; ring). apply norm0. Qed.
Lemma diff_zero eps g : 0 < eps <= 1 / 4096 -> forall q0 q1, onGroup g q0 -> onGroup g q1 -> (forall k, (k < lg_nv g)%nat -> lg_difference eps g q0 q1 k = 0) <-> sameConf g q0 q1.
Proof.
  intros He. unfold sameConf. induction g as [n| | | | |a IHa b IHb]; intros q0 q1 G0 G1.
  - cbn. split; intros H k Hk; specialize (H k Hk); lra.
  - cbn [lg_nv]. rewrite <- (so2_unit_same q0 q1 G0 G1). split.
    + intros H. specialize (H 0%nat ltac:(lia)). rewrite so2_difference in H by assumption. exact H.
    + intros H k Hk. replace k with 0%nat by lia. rewrite so2_difference by assumption. exact H.
  - apply (proj1 (on_so3 q0)) in G0. apply (proj1 (on_so3 q1)) in G1. cbn [lg_nv lg_difference reaches]. rewrite v3Out_zero, log3_zero by assumption.
    unfold sameRotation. rewrite !qclose_0. reflexivity.
  - cbn [lg_nv]. destruct (se2_difference_eq eps q0 q1 G0 G1) as [D0 [D1 D2]]. pose proof (dc_unit q0 q1 G0 G1) as DU. pose proof (se2_same q0 q1 G0 G1) as SS. cbn [onGroup] in G0, G1.
    cbn [reaches]. split.
    + intros H. pose proof (H 0%nat ltac:(lia)) as H0. pose proof (H 1%nat ltac:(lia)) as H1. pose proof (H 2%nat ltac:(lia)) as H2.
      rewrite D2 in H2. rewrite D0, H2 in H0. rewrite D1, H2 in H1. apply SS in H2.
      assert (A : se2_alpha 0 = 1). { unfold se2_alpha. rewrite Rabs_R0. destruct (Rlt_dec 0 (1 / 10 ^ 4)) as [L|L]; [field | exfalso; apply L; apply Rdiv_lt_0_compat; [lra | apply pow_lt; lra]]. }
      rewrite A in H0, H1. set (x := q1 0%nat - q0 0%nat) in *. set (y := q1 1%nat - q0 1%nat) in *.
      assert (X : x = 0). { transitivity ((q0 2%nat * q0 2%nat + q0 3%nat * q0 3%nat) * x); [rewrite G0; ring|]. transitivity (q0 2%nat * (q0 2%nat * x + q0 3%nat * y) - q0 3%nat * (- q0 3%nat * x + q0 2%nat * y)); [ring|]. replace (q0 2%nat * x + q0 3%nat * y) with 0 by lra. replace (- q0 3%nat * x + q0 2%nat * y) with 0 by lra. ring. }
      assert (Y : y = 0). { transitivity ((q0 2%nat * q0 2%nat + q0 3%nat * q0 3%nat) * y); [rewrite G0; ring|]. transitivity (q0 3%nat * (q0 2%nat * x + q0 3%nat * y) + q0 2%nat * (- q0 3%nat * x + q0 2%nat * y)); [ring|]. replace (q0 2%nat * x + q0 3%nat * y) with 0 by lra. replace (- q0 3%nat * x + q0 2%nat * y) with 0 by lra. ring. }
      split; [exact H2|]. intros k Hk. rewrite Rmult_0_l. destruct k as [|[|k]]; [| |lia]; [replace (q0 0%nat - q1 0%nat) with (- x) by (unfold x; ring); rewrite X | replace (q0 1%nat - q1 1%nat) with (- y) by (unfold y; ring); rewrite Y]; rewrite Ropp_0, Rabs_R0; lra.
    + intros [S P]. apply SS in S. rewrite S in *. pose proof (P 0%nat ltac:(lia)) as P0. pose proof (P 1%nat ltac:(lia)) as P1. rewrite Rmult_0_l in P0, P1. apply rabs_inv in P0. apply rabs_inv in P1.
      assert (X : q1 0%nat - q0 0%nat = 0) by lra. assert (Y : q1 1%nat - q0 1%nat = 0) by lra. rewrite X, Y in *.
      intros k Hk. destruct k as [|[|[|k]]]; [rewrite D0; field | rewrite D1; field | rewrite D2; reflexivity | lia].
  - apply (proj1 (on_se3 q0)) in G0. apply (proj1 (on_se3 q1)) in G1. cbn [lg_nv reaches]. rewrite v3norm0_sub, Rmult_0_r, v3close_0 by reflexivity. unfold sameRotation. rewrite !qclose_0. rewrite <- (log3_zero eps _ _ He G0 G1).
    cbn [lg_difference]. cbv zeta. set (dq := qmul _ _). set (dp := qtransform _ _).
    assert (DPZ : dp = v3zero <-> v3At q0 = v3At q1).
    { unfold dp. rewrite qtransform_mat, qmat_conj. pose proof (proj1 (qmat_rot _ G0)) as RT. split.
      - intros H. apply (f_equal (m3vec (qmat (quatAt (shift 3 q0))))) in H. rewrite orthogonal_vec_tr in H by exact RT.
        replace (m3vec (qmat (quatAt (shift 3 q0))) v3zero) with v3zero in H by (unfold m3vec, v3zero; cbn; f_equal; ring).
        unfold v3sub, v3zero in H. injection H as H1 H2 H3. unfold v3At in *. cbn in *. f_equal; lra.
      - intros ->. unfold v3sub, m3vec, v3zero. cbn. f_equal; ring. }
    rewrite <- DPZ. destruct (qlog6_eq eps dq dp) as [beta [E _]].
    { unfold dq. rewrite qmul_norm, G1. replace (qnorm2 (qconj (quatAt (shift 3 q0)))) with (qnorm2 (quatAt (shift 3 q0))) by (unfold qnorm2, qdot, qconj; cbn; ring). rewrite G0. ring. }
    rewrite E. unfold v6Out. cbn [lin ang]. set (w := fst (qlog3 eps dq)).
    assert (L0 : logLin beta v3zero dp = dp). { destruct dp. unfold logLin, v3add, v3sub, v3scale, v3cross, v3zero. cbn. f_equal; ring. }
    split.
    + intros H. assert (W : w = v3zero). { apply v3Out_zero. intros k Hk. specialize (H (3 + k)%nat ltac:(lia)). rewrite join_hi in H. exact H. }
      split; [exact W|]. rewrite W, L0 in H. apply v3Out_zero. intros k Hk. specialize (H k ltac:(lia)). rewrite join_lo in H by exact Hk. exact H.
    + intros [W D]. rewrite W, L0, D. intros k Hk. destruct (Nat.lt_ge_cases k 3) as [L|L]; [rewrite join_lo by exact L | rewrite join_lt by exact L]; apply (proj2 (v3Out_zero v3zero) eq_refl); lia.
  - cbn [lg_nv lg_difference reaches onGroup] in *. destruct G0 as [A0 B0], G1 as [A1 B1]. rewrite <- (IHa q0 q1 A0 A1), <- (IHb _ _ B0 B1). split.
    + intros H. split; intros k Hk; [specialize (H k ltac:(lia)); rewrite join_lo in H by exact Hk | specialize (H (lg_nv a + k)%nat ltac:(lia)); rewrite join_hi in H]; exact H.
    + intros [H K] k Hk. destruct (Nat.lt_ge_cases k (lg_nv a)) as [L|L]; [rewrite join_lo by exact L; apply H; exact L | rewrite join_lt by exact L; apply K; lia].
Qed.
Lemma dist_zero eps g q0 q1 : 0 < eps <= 1 / 4096 -> onGroup g q0 -> onGroup g q1 -> 0 <= lg_squaredDistance eps g q0 q1 /\ (lg_squaredDistance eps g q0 q1 = 0 <-> sameConf g q0 q1).
Proof. intros He G0 G1. rewrite dist_sum. split; [apply sumTo_sq_pos|]. rewrite sumTo_sq_0. apply diff_zero; assumption. Qed.
