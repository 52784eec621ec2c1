(* integrate follows the motion of the joint *)
Require Import Reals Lra Arith Bool List Lia FunctionalExtensionality.
From Verif Require Import Vec3 Spatial Deriv Joints Spec_Joints JointFacts Model Spec_Model ModelFacts Kinematics Rot Spec_Rot RotFacts ExpLog Spec_Exp ExpFacts ExpFacts5 LieGroup Spec_Lie
  LieFacts LieFacts2 LieFacts3 LogFacts LogFacts2 LogFacts4 LieFacts4 LieFacts5 LieFacts6 LieFacts7 LieFacts9.
Local Open Scope R_scope.

Lemma Qexp_line v s : let w := v3norm v / 2 in
  Qexp (v3scale s v) = mkQ (s * sinc (s * w) / 2 * vx v) (s * sinc (s * w) / 2 * vy v) (s * sinc (s * w) / 2 * vz v) (cos (s * w)).
Proof.
  intros w. unfold Qexp. cbv zeta. rewrite norm_scale. assert (E : Rabs s * v3norm v / 2 = Rabs (s * w)).
  { unfold w. rewrite Rabs_mult. rewrite (Rabs_right (v3norm v / 2)) by (pose proof (norm_nonneg v); lra). field. }
  rewrite E, sinc_even. assert (C : cos (Rabs (s * w)) = cos (s * w)) by (unfold Rabs; destruct (Rcase_abs (s * w)); [apply cos_neg | reflexivity]).
  rewrite C. unfold v3scale. cbn [vx vy vz]. f_equal; field.
Qed.
Lemma Qexp_0v v : Qexp (v3scale 0 v) = mkQ 0 0 0 1.
Proof. rewrite Qexp_line. rewrite !Rmult_0_l, cos_0. f_equal; field. Qed.
Definition quatK (q : Quat) (k : nat) : R := quatOut q k.
Lemma quat_motion q0 v t k : (k < 4)%nat -> 
  deriv (fun s => quatOut (qmul q0 (Qexp (v3scale s v))) k) (let q := quatOut (qmul q0 (Qexp (v3scale t v))) in quatRate (q 0%nat) (q 1%nat) (q 2%nat) (q 3%nat) (vx v) (vy v) (vz v) k) t.
Proof.
  intros Hk. set (w := v3norm v / 2). destruct (deriv_sinc_like w t) as [A _]. set (F := fun s => s * sinc (s * w)) in *.
  assert (Hid : deriv (fun s => s) 1 t) by (apply derivable_pt_lim_id).
  assert (Hw : deriv (fun s => s * w) w t). { eapply deriv_eq; [apply (deriv_mult (fun s => s) (fun _ => w)); [exact Hid | apply deriv_const]|]. cbv beta. ring. }
  assert (Hc : deriv (fun s => cos (s * w)) (- w * sin (t * w)) t). { eapply deriv_eq; [apply (deriv_cos (fun s => s * w)); exact Hw|]. cbv beta. ring. }
  assert (S : w * w * F t = w * sin (t * w)). { unfold F. rewrite <- sinc_mul. ring. }
  assert (N : vx v * vx v + vy v * vy v + vz v * vz v = 4 * (w * w)). { unfold w. pose proof (norm_sq v) as E. unfold v3dot in E. replace (4 * (v3norm v / 2 * (v3norm v / 2))) with (v3norm v * v3norm v) by field. lra. }
  assert (L : forall a b f g df dg, deriv f df t -> deriv g dg t -> deriv (fun s => a * f s + b * g s) (a * df + b * dg) t).
  { intros a b f g df dg Hf Hg. eapply deriv_eq; [apply (deriv_plus (fun s => a * f s) (fun s => b * g s)); [apply (deriv_mult (fun _ => a) f); [apply deriv_const | exact Hf] | apply (deriv_mult (fun _ => b) g); [apply deriv_const | exact Hg]]|]. cbv beta. ring. }
  cbv zeta. rewrite !(Qexp_line v t). fold w. 
  assert (E : forall s, Qexp (v3scale s v) = mkQ (F s / 2 * vx v) (F s / 2 * vy v) (F s / 2 * vz v) (cos (s * w))) by (intros s; apply Qexp_line).
  fold (F t). destruct q0 as [a b c d]. destruct v as [x y z]. cbn [vx vy vz] in *. clearbody F w.
  destruct k as [|[|[|[|k]]]]; [| | | |lia].
  - apply (deriv_ext _ (fun s => (d * x + b * z - c * y) / 2 * F s + a * cos (s * w))). { intros s. rewrite E. cbn. field. }
    eapply deriv_eq; [apply L; [exact A | exact Hc]|]. cbn. set (Ct := cos (t * w)) in *.
    replace (a * (- w * sin (t * w))) with (- a * (w * sin (t * w))) by ring. rewrite <- S. set (f := F t) in *. clearbody Ct f. 
    replace (- a * (w * w * f)) with (- a * (4 * (w * w)) * f / 4) by field. rewrite <- N. field.
  - apply (deriv_ext _ (fun s => (d * y + c * x - a * z) / 2 * F s + b * cos (s * w))). { intros s. rewrite E. cbn. field. }
    eapply deriv_eq; [apply L; [exact A | exact Hc]|]. cbn. set (Ct := cos (t * w)) in *.
    replace (b * (- w * sin (t * w))) with (- b * (w * sin (t * w))) by ring. rewrite <- S. set (f := F t) in *. clearbody Ct f. 
    replace (- b * (w * w * f)) with (- b * (4 * (w * w)) * f / 4) by field. rewrite <- N. field.
  - apply (deriv_ext _ (fun s => (d * z + a * y - b * x) / 2 * F s + c * cos (s * w))). { intros s. rewrite E. cbn. field. }
    eapply deriv_eq; [apply L; [exact A | exact Hc]|]. cbn. set (Ct := cos (t * w)) in *.
    replace (c * (- w * sin (t * w))) with (- c * (w * sin (t * w))) by ring. rewrite <- S. set (f := F t) in *. clearbody Ct f. 
    replace (- c * (w * w * f)) with (- c * (4 * (w * w)) * f / 4) by field. rewrite <- N. field.
  - apply (deriv_ext _ (fun s => (- a * x - b * y - c * z) / 2 * F s + d * cos (s * w))). { intros s. rewrite E. cbn. field. }
    eapply deriv_eq; [apply L; [exact A | exact Hc]|]. cbn. set (Ct := cos (t * w)) in *.
    replace (d * (- w * sin (t * w))) with (- d * (w * sin (t * w))) by ring. rewrite <- S. set (f := F t) in *. clearbody Ct f. 
    replace (- d * (w * w * f)) with (- d * (4 * (w * w)) * f / 4) by field. rewrite <- N. field.
Qed.
Lemma rotate_mat x y z w u : quatRotate x y z w u = m3vec (qmat (mkQ x y z w)) u.
Proof. rewrite <- qtransform_mat. unfold quatRotate, qtransform, qvec. cbv zeta. destruct u. unfold v3add, v3scale, v3cross. cbn. f_equal; ring. Qed.
Definition so2Flow (q v : vec) (s : R) : vec := v2Out (q 0%nat * cos (s * v 0%nat) - q 1%nat * sin (s * v 0%nat)) (q 0%nat * sin (s * v 0%nat) + q 1%nat * cos (s * v 0%nat)).
Definition so3Flow (q v : vec) (s : R) : vec := quatOut (qmul (quatAt q) (Qexp (v3scale s (v3At v)))).
Definition se3Flow (q v : vec) (s : R) : vec :=
  join 3 (v3Out (v3add (v3At q) (m3vec (qmat (quatAt (shift 3 q))) (Texp (v6scale s (v6At v)))))) (quatOut (qmul (quatAt (shift 3 q)) (Qexp (v3scale s (v3At (shift 3 v)))))).
Lemma vec_motion eps s q v : lieGroup1 s = LVec (nq1 s) -> (forall p k, configRate1 s p v k = v k) ->
  motionFrom s q v (fun x k => q k + x * v k) /\ eqTo (nq1 s) (lg_integrate eps (lieGroup1 s) q v) (fun k => q k + 1 * v k).
Proof.
  intros -> C. split; [split|].
  - intros k _. ring.
  - intros t k Hk. rewrite C. change (deriv (fun x => q k + x * v k) (v k) t). eapply deriv_eq; [apply (deriv_plus (fun _ => q k) (fun x => x * v k)); [apply deriv_const | apply (deriv_mult (fun x => x) (fun _ => v k)); [apply derivable_pt_lim_id | apply deriv_const]]|]. cbv beta. ring.
  - intros k _. cbn. ring.
Qed.
Lemma so2_motion q v t k : (k < 2)%nat -> deriv (fun x => so2Flow q v x k) (match k with 0%nat => - so2Flow q v t 1%nat * v 0%nat | _ => so2Flow q v t 0%nat * v 0%nat end) t.
Proof.
  intros Hk. set (w := v 0%nat).
  assert (Hw : deriv (fun s => s * w) w t). { eapply deriv_eq; [apply (deriv_mult (fun s => s) (fun _ => w)); [apply derivable_pt_lim_id | apply deriv_const]|]. cbv beta. ring. }
  assert (Hs := deriv_sin (fun s => s * w) w t Hw). assert (Hc := deriv_cos (fun s => s * w) w t Hw). cbv beta in Hs, Hc.
  destruct k as [|[|k]]; [| |lia].
  - eapply deriv_eq; [apply (deriv_minus (fun s => q 0%nat * cos (s * w)) (fun s => q 1%nat * sin (s * w))); [apply (deriv_mult (fun _ => q 0%nat) (fun s => cos (s * w))); [apply deriv_const | exact Hc] | apply (deriv_mult (fun _ => q 1%nat) (fun s => sin (s * w))); [apply deriv_const | exact Hs]]|].
    cbv beta. cbn. fold w. ring.
  - eapply deriv_eq; [apply (deriv_plus (fun s => q 0%nat * sin (s * w)) (fun s => q 1%nat * cos (s * w))); [apply (deriv_mult (fun _ => q 0%nat) (fun s => sin (s * w))); [apply deriv_const | exact Hs] | apply (deriv_mult (fun _ => q 1%nat) (fun s => cos (s * w))); [apply deriv_const | exact Hc]]|].
    cbv beta. cbn. fold w. ring.
Qed.
Lemma se3_trans_motion q v t : onGroup LSE3 q ->
  deriv3 (fun x => v3add (v3At q) (m3vec (qmat (quatAt (shift 3 q))) (Texp (v6scale x (v6At v))))) (m3vec (qmat (qmul (quatAt (shift 3 q)) (Qexp (v3scale t (v3At (shift 3 v)))))) (v3At v)) t.
Proof.
  intros G. apply (proj1 (on_se3 q)) in G. destruct (SE3exp_flow (v6At v) t) as [_ D]. cbn [trans rot SE3exp lin ang v6At v6scale] in D.
  rewrite (qmat_mul _ _ G (proj1 (Qexp_spec _))), (proj2 (Qexp_spec _)), m3vec_mul.
  assert (D2 := deriv3_vec _ _ _ _ _ (derivM3_const (qmat (quatAt (shift 3 q))) t) D). cbv beta in D2.
  assert (D3 := deriv3_add _ _ _ _ _ (deriv3_const (v3At q) t) D2). eapply deriv3_eq; [exact D3|].
  destruct (m3vec (qmat (quatAt (shift 3 q))) _). unfold v3add, m3vec. cbn. f_equal; ring.
Qed.
Lemma motion eps s q v : 0 < eps <= 1 / 4 -> onGroup (lieGroup1 s) q ->
  exists F, motionFrom s q v F /\ endsAt (motionErr eps) s v (F 1) (lg_integrate eps (lieGroup1 s) q v).
Proof.
  intros He G. pose proof (eE_pos eps He) as Pe. pose proof e14_pos as P14.
  assert (SO2 : forall s, lieGroup1 s = LSO2 -> nq1 s = 2%nat -> (forall p k, configRate1 s p v k = match k with 0%nat => - p 1%nat * v 0%nat | _ => p 0%nat * v 0%nat end) -> onGroup (lieGroup1 s) q ->
    motionFrom s q v (so2Flow q v) /\ eqTo 2 (lg_integrate eps (lieGroup1 s) q v) (so2Flow q v 1)).
  { intros s0 E N C G0. unfold motionFrom. rewrite N. rewrite E in *. split; [split|].
    - intros k Hk. unfold so2Flow. rewrite Rmult_0_l, cos_0, sin_0. destruct k as [|[|k]]; [cbn; ring | cbn; ring | lia].
    - intros t k Hk. rewrite C. apply (so2_motion q v t k Hk).
    - intros k Hk. rewrite (so2_integrate_exact eps q v G0 k Hk). unfold so2Flow. rewrite Rmult_1_l. reflexivity. }
  destruct s; try (exists (fun x k => q k + x * v k); apply vec_motion; reflexivity);
    try (exists (so2Flow q v); apply SO2; first [reflexivity | exact G]).
  - (* free flyer *) exists (se3Flow q v). cbn [lieGroup1] in *. split; [split|].
    + intros k Hk. unfold se3Flow. rewrite Qexp_0v, qmul_1. unfold join. destruct (Nat.ltb_spec k 3).
      * replace (v6scale 0 (v6At v)) with v6zero by (unfold v6scale, v3scale, v6zero; cbn; f_equal; unfold v3zero; f_equal; ring).
        assert (TZ : Texp v6zero = v3zero). { unfold Texp. cbv zeta. cbn [lin ang v6zero]. unfold v3add, v3scale, v3cross, v3zero, v3dot. cbn. f_equal; ring. }
        rewrite TZ. destruct k as [|[|[|k]]]; [| | |lia]; cbn; ring.
      * cbn [nq1] in Hk. destruct k as [|[|[|[|[|[|[|k]]]]]]]; try lia; reflexivity.
    + intros t k Hk. change (deriv (fun x => se3Flow q v x k) (configRate1 JFreeFlyer (se3Flow q v t) v k) t). cbn [nq1] in Hk.
      destruct (Nat.lt_ge_cases k 3) as [L|L].
      * destruct (se3_trans_motion q v t G) as [D0 [D1 D2]].
        assert (X : quatRotate (se3Flow q v t 3%nat) (se3Flow q v t 4%nat) (se3Flow q v t 5%nat) (se3Flow q v t 6%nat) (mkV3 (v 0%nat) (v 1%nat) (v 2%nat)) = m3vec (qmat (qmul (quatAt (shift 3 q)) (Qexp (v3scale t (v3At (shift 3 v)))))) (v3At v)) by (rewrite rotate_mat; reflexivity).
        cbn [configRate1]. rewrite X. destruct k as [|[|[|k]]]; [exact D0 | exact D1 | exact D2 | lia].
      * pose proof (quat_motion (quatAt (shift 3 q)) (v3At (shift 3 v)) t (k - 3) ltac:(lia)) as D. 
        destruct k as [|[|[|k]]]; try lia. replace (S (S (S k)) - 3)%nat with k in D by lia. destruct k as [|[|[|[|k]]]]; [exact D | exact D | exact D | exact D | lia].
    + cbn [endsAt]. destruct (se3_close eps q v He G) as [A B].
      assert (E1 : quatAt (shift 3 (se3Flow q v 1)) = qmul (quatAt (shift 3 q)) (Qexp (v3At (shift 3 v)))).
      { unfold se3Flow. rewrite quatAt_joinhi, quatAt_Out. f_equal. f_equal. destruct (v3At (shift 3 v)). unfold v3scale. cbn. f_equal; ring. }
      assert (E2 : v3At (se3Flow q v 1) = v3add (v3At q) (m3vec (qmat (quatAt (shift 3 q))) (Texp (v6At v)))).
      { unfold se3Flow. rewrite v3At_joinlo, v3At_Out. f_equal. f_equal. f_equal. unfold v6scale, v6At, v3scale. cbn. f_equal; unfold v3At; f_equal; ring. }
      rewrite E1, E2. split; [apply (sameRotation_mono (4 * eE eps)); [unfold motionErr; lra | exact A]|].
      pose proof (norm_nonneg (v3At v)). assert (M : 28 * eps * v3norm (v3At v) <= motionErr eps * v3norm (v3At v)) by (apply Rmult_le_compat_r; [assumption | unfold motionErr; lra]).
      destruct B as [B0 [B1 B2]]. unfold v3close. repeat split; lra.
  - (* spherical *) exists (so3Flow q v). cbn [lieGroup1] in *. split; [split|].
    + intros k Hk. unfold so3Flow. rewrite Qexp_0v, qmul_1. cbn [nq1] in Hk. destruct k as [|[|[|[|k]]]]; try lia; reflexivity.
    + intros t k Hk. exact (quat_motion (quatAt q) (v3At v) t k Hk).
    + cbn [endsAt]. left. unfold so3Flow. rewrite quatAt_Out. apply (proj1 (on_so3 q)) in G. rewrite so3_integrate_eq.
      replace (v3scale 1 (v3At v)) with (v3At v) by (destruct (v3At v); unfold v3scale; cbn; f_equal; ring).
      eapply qclose_mono; [apply so3_close; assumption | unfold motionErr; lra].
  - (* planar *) exists (fun s => planarFlow q (fun k => s * v k)). cbn [lieGroup1] in *. split; [split|].
    + exact (proj1 (planar_flow q v 0)).
    + intros t k Hk. destruct (planar_flow q v t) as [_ [D0 [D1 [D2 D3]]]]. cbn [nq1] in Hk. destruct k as [|[|[|[|k]]]]; try lia; cbn [configRate1].
      * exact D0.
      * exact D1.
      * replace (- planarFlow q (fun k => t * v k) 3%nat * v 2%nat) with (- v 2%nat * planarFlow q (fun k => t * v k) 3%nat) by ring. exact D2.
      * replace (planarFlow q (fun k => t * v k) 2%nat * v 2%nat) with (v 2%nat * planarFlow q (fun k => t * v k) 2%nat) by ring. exact D3.
    + replace (fun k => 1 * v k) with v by (extensionality k; ring). destruct (se2_integrate_all eps q v G) as [_ [A [_ B]]]. cbn [endsAt]. split.
      * intros k Hk. unfold shift. apply A. lia.
      * intros k Hk. eapply Rle_trans; [apply B, Hk|]. pose proof (Rabs_pos (v 0%nat)). pose proof (Rabs_pos (v 1%nat)). apply Rmult_le_compat_r; [lra | unfold motionErr; lra].
Qed.
Lemma model_motion e m q v out : wellFormed m -> 0 < e <= 1 / 4 -> validConf m q -> forall iq iv s, leafOf m iq iv s ->
  exists F, motionFrom s (shift iq q) (shift iv v) F /\ endsAt (motionErr e) s (shift iv v) (F 1) (shift iq (integrate e m q v out)).
Proof.
  intros W He V iq iv s L. destruct (motion e s (shift iq q) (shift iv v) He (V _ _ _ L)) as [F [A B]]. exists F. split; [exact A|].
  pose proof (integrate_leaf e m W q v out iq iv s L) as E. revert B. generalize dependent (integrate e m q v out). intros r E. 
  destruct s; cbn [endsAt lieGroup1 nq1] in *; try (intros B k Hk; rewrite (E k Hk); apply B, Hk).
  - intros [B1 B2]. replace (quatAt (shift 3 (shift iq r))) with (quatAt (shift 3 (lg_integrate e LSE3 (shift iq q) (shift iv v)))) by (unfold quatAt, shift at 1; unfold shift in E; f_equal; unfold shift; symmetry; apply E; lia).
    replace (v3At (shift iq r)) with (v3At (lg_integrate e LSE3 (shift iq q) (shift iv v))) by (unfold v3At; f_equal; symmetry; apply E; lia). split; assumption.
  - intros B. replace (quatAt (shift iq r)) with (quatAt (lg_integrate e LSO3 (shift iq q) (shift iv v))) by (unfold quatAt; f_equal; symmetry; apply E; lia). exact B.
  - intros [B1 B2]. split.
    + intros k Hk. unfold shift at 1. rewrite (E (2 + k)%nat) by lia. apply B1, Hk.
    + intros k Hk. rewrite (E k) by lia. apply B2, Hk.
Qed.
