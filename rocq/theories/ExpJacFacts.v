(* The derivative of the exponential of SO(3) along any differentiable curve. *)
Require Import Reals Arith Lra Lia Psatz.
From Verif Require Import Vec3 Spatial Rot ExpLog Spec_Exp Deriv JointFacts ExpFacts ExpFacts2 ExpFacts3 Spec_ExpJac ExpJac.
Local Open Scope R_scope.

Lemma deriv_squeeze f h C t : 0 <= C -> (forall s, Rabs (f s - f t) <= C * h s) -> h t = 0 -> deriv h 0 t -> deriv f 0 t.
Proof.
  intros HC HB H0 D e He. assert (He' : 0 < e / (C + 1)) by (apply Rdiv_lt_0_compat; lra).
  destruct (D (e / (C + 1)) He') as [dl Hd]. exists dl. intros x Hx Hl. pose proof (Hd x Hx Hl) as Q. rewrite H0, Rminus_0_r, Rminus_0_r in Q.
  rewrite Rminus_0_r. unfold Rdiv in *. rewrite Rabs_mult in *. pose proof (Rabs_pos_lt (/ x) (Rinv_neq_0_compat x Hx)) as P.
  pose proof (HB (t + x)) as B. pose proof (Rle_abs (h (t + x))) as A.
  assert (B2 : Rabs (f (t + x) - f t) <= C * Rabs (h (t + x))) by (eapply Rle_trans; [exact B | apply Rmult_le_compat_l; lra]).
  apply Rle_lt_trans with (C * (Rabs (h (t + x)) * Rabs (/ x))); [rewrite <- Rmult_assoc; apply Rmult_le_compat_r; lra|].
  apply Rle_lt_trans with (C * (e * / (C + 1))); [apply Rmult_le_compat_l; lra|].
  replace e with (C * (e * / (C + 1)) + e * / (C + 1)) at 2 by (field; lra). fold (e / (C + 1)) in *. lra.
Qed.
Lemma quart x : 0 <= x <= 1 -> 0 <= x * x /\ 0 <= x * x * x * x <= x * x.
Proof. intros H. assert (0 <= x * x <= 1) by nra. assert (0 <= x * x * (x * x) <= x * x) by (split; nra). rewrite !Rmult_assoc in *. lra. Qed.
Lemma sinc_near x : 0 <= x -> Rabs (sinc x - 1) <= 2 * (x * x).
Proof.
  intros Hx. destruct (Rle_dec x 1) as [L|L].
  - pose proof (taylor_sinc x (conj Hx L)) as [[A B] _]. pose proof (quart x (conj Hx L)). apply Rabs_le. split; lra.
  - apply Rnot_le_lt in L. assert (X : 1 < x * x) by nra. pose proof (sinc_mul x) as M. pose proof (SIN_bound x) as S. apply Rabs_le. assert (-1 <= sinc x <= 1) by (split; nra). split; nra.
Qed.
Lemma cosc_near x : 0 <= x -> Rabs (cosc x - 1 / 2) <= 2 * (x * x).
Proof.
  intros Hx. destruct (Rle_dec x 1) as [L|L].
  - pose proof (taylor_cosc x (conj Hx L)) as [A B]. pose proof (quart x (conj Hx L)). apply Rabs_le. split; lra.
  - apply Rnot_le_lt in L. assert (X : 1 < x * x) by nra. pose proof (cosc_mul x) as M. pose proof (COS_bound x) as S. apply Rabs_le. assert (0 <= cosc x <= 2) by (split; nra). split; nra.
Qed.
Lemma cos_near x : 0 <= x -> Rabs (cos x - 1) <= 2 * (x * x).
Proof. intros Hx. pose proof (one_cos x Hx). apply Rabs_le. split; nra. Qed.
Lemma sinc_nz x : x <> 0 -> sinc x = sin x / x. Proof. intros H. unfold sinc. destruct (Req_EM_T x 0); [contradiction | reflexivity]. Qed.
Lemma cosc_nz x : x <> 0 -> cosc x = (1 - cos x) / (x * x). Proof. intros H. unfold cosc. destruct (Req_EM_T x 0); [contradiction | reflexivity]. Qed.
Lemma sinc3_nz x : x <> 0 -> sinc3 x = (x - sin x) / (x * x * x). Proof. intros H. unfold sinc3. destruct (Req_EM_T x 0); [contradiction | reflexivity]. Qed.

Section Curve.
Variable w : R -> V3.
Variable dw : V3.
Variable t : R.
Hypothesis D : deriv3 w dw t.
Let x := v3norm (w t).
Let c := cos x.
Let s := sinc x.
Let k := cosc x.
Let r := sinc3 x.
Let dl := v3dot (w t) dw.
Lemma der_dot : deriv (fun u => v3dot (w u) (w u)) (2 * dl) t.
Proof. eapply deriv_eq; [apply (deriv_dot w w dw dw t D D)|]. unfold dl. destruct (w t), dw. unfold v3dot. cbn. ring. Qed.
Lemma at_zero f f0 C : 0 <= C -> (forall y, 0 <= y -> Rabs (f y - f0) <= C * (y * y)) -> f 0 = f0 -> x = 0 -> deriv (fun u => f (v3norm (w u))) 0 t.
Proof.
  intros HC HB H0 X0. apply (deriv_squeeze _ (fun u => v3dot (w u) (w u)) C t HC).
  - intros u. fold x. rewrite X0, H0, <- norm_sq. apply HB, norm_nonneg.
  - rewrite <- norm_sq. fold x. rewrite X0. ring.
  - eapply deriv_eq; [apply der_dot|]. unfold dl. rewrite (norm_zero (w t) X0). unfold v3dot, v3zero. cbn. ring.
Qed.
Lemma dl_zero : x = 0 -> dl = 0. Proof. intros X0. unfold dl. rewrite (norm_zero (w t) X0). unfold v3dot, v3zero. cbn. ring. Qed.
Lemma x_pos : x <> 0 -> 0 < x. Proof. intros H. pose proof (norm_nonneg (w t)) as N. fold x in N. lra. Qed.
Lemma der_norm : x <> 0 -> deriv (fun u => v3norm (w u)) (dl / x) t.
Proof.
  intros H. pose proof (x_pos H) as P. assert (Q : 0 < v3dot (w t) (w t)) by (rewrite <- norm_sq; fold x; nra).
  eapply deriv_eq; [apply (derivable_pt_lim_comp (fun u => v3dot (w u) (w u)) sqrt t _ _ der_dot (derivable_pt_lim_sqrt _ Q))|].
  change (sqrt (v3dot (w t) (w t))) with x. field. lra.
Qed.
Lemma near_pos : x <> 0 -> exists e, 0 < e /\ forall u, Rabs (u - t) < e -> v3norm (w u) <> 0.
Proof.
  intros H. destruct (deriv_near_pos _ _ t (der_norm H) (x_pos H)) as (e & He & Hu). exists e. split; [exact He|]. intros u Hl. apply Rgt_not_eq, Hu, Hl.
Qed.
Lemma der_cos : deriv (fun u => cos (v3norm (w u))) (- s * dl) t.
Proof.
  destruct (Req_dec x 0) as [X0|N].
  - rewrite (dl_zero X0), Rmult_0_r. apply (at_zero cos 1 2); [lra | apply cos_near | apply cos_0 | exact X0].
  - eapply deriv_eq; [apply (deriv_cos (fun u => v3norm (w u)) _ t (der_norm N))|]. cbv beta. fold x. unfold s. rewrite sinc_nz by exact N. field. exact N.
Qed.
Lemma der_sinc : deriv (fun u => sinc (v3norm (w u))) ((c * r - s * k) * dl) t.
Proof.
  destruct (Req_dec x 0) as [X0|N].
  - rewrite (dl_zero X0), Rmult_0_r. apply (at_zero sinc 1 2); [lra | apply sinc_near | unfold sinc; destruct (Req_EM_T 0 0); [reflexivity|contradiction] | exact X0].
  - destruct (near_pos N) as (e & He & Hn). apply (deriv_ext_loc _ (fun u => sin (v3norm (w u)) / v3norm (w u)) _ t e He); [intros u Hu; apply sinc_nz, Hn, Hu|].
    eapply deriv_eq; [apply (deriv_div (fun u => sin (v3norm (w u))) (fun u => v3norm (w u)) _ _ t N (deriv_sin (fun u => v3norm (w u)) _ t (der_norm N)) (der_norm N))|]. cbv beta. fold x. unfold c, r, s, k. rewrite sinc_nz, cosc_nz, sinc3_nz by exact N. pose proof (sin2_cos2 x) as SC. unfold Rsqr in SC.
    clear SC. field. exact N.
Qed.
Lemma der_cosc : deriv (fun u => cosc (v3norm (w u))) ((s * r - k * k) * dl) t.
Proof.
  destruct (Req_dec x 0) as [X0|N].
  - rewrite (dl_zero X0), Rmult_0_r. apply (at_zero cosc (1 / 2) 2); [lra | apply cosc_near | unfold cosc; destruct (Req_EM_T 0 0); [reflexivity|contradiction] | exact X0].
  - destruct (near_pos N) as (e & He & Hn). apply (deriv_ext_loc _ (fun u => (1 - cos (v3norm (w u))) / (v3norm (w u) * v3norm (w u))) _ t e He); [intros u Hu; apply cosc_nz, Hn, Hu|].
    assert (N2 : v3norm (w t) * v3norm (w t) <> 0) by (fold x; nra).
    eapply deriv_eq; [apply (deriv_div (fun u => 1 - cos (v3norm (w u))) (fun u => v3norm (w u) * v3norm (w u)) (0 - (- sin x * (dl / x))) (dl / x * x + x * (dl / x)) t N2)|].
    + apply deriv_minus; [apply deriv_const | apply (deriv_cos (fun u => v3norm (w u)) _ t (der_norm N))].
    + apply (deriv_mult (fun u => v3norm (w u)) (fun u => v3norm (w u))); apply (der_norm N).
    + cbv beta. fold x. unfold c, r, s, k. rewrite sinc_nz, cosc_nz, sinc3_nz by exact N. pose proof (sin2_cos2 x) as SC. unfold Rsqr in SC.
      apply Rminus_diag_uniq. transitivity (dl * ((sin x * sin x + cos x * cos x) - 1) / (x * x * x * x)); [field; exact N | rewrite SC; field; exact N].
Qed.
(* the relations between the coefficients *)
Lemma rel1 : c = 1 - k * v3dot (w t) (w t). Proof. rewrite <- norm_sq. fold x. unfold c, k. pose proof (cosc_mul x). lra. Qed.
Lemma rel2 : s = 1 - r * v3dot (w t) (w t). Proof. rewrite <- norm_sq. fold x. unfold s, r. pose proof (sinc3_mul x). lra. Qed.
Lemma rel3 : s * s = k * (1 + c).
Proof.
  destruct (Req_dec x 0) as [X0|N].
  - unfold s, k, c. rewrite X0, cos_0. unfold sinc, cosc. destruct (Req_EM_T 0 0); [field | contradiction].
  - unfold s, k, c. rewrite sinc_nz, cosc_nz by exact N. pose proof (sin2_cos2 x) as SC. unfold Rsqr in SC.
    apply Rminus_diag_uniq. transitivity (((sin x * sin x + cos x * cos x) - 1) / (x * x)); [field; exact N | rewrite SC; field; exact N].
Qed.
Theorem exp_turns : turns (fun u => Rexp (w u)) (m3vec (Jr (w t)) dw) t.
Proof.
  unfold turns. destruct D as (D1 & D2 & D3). pose proof der_cos as Ec. pose proof der_sinc as Es. pose proof der_cosc as Ek.
  pose proof rel1 as R1. pose proof rel2 as R2. pose proof rel3 as R3.
  assert (R4 : k * (2 - k * v3dot (w t) (w t)) - s * s = 0) by (rewrite R3, R1; ring).
  unfold Jr, Rexp. fold x. fold c s k r. set (cf := fun u => cos (v3norm (w u))) in *. set (sf := fun u => sinc (v3norm (w u))) in *. set (kf := fun u => cosc (v3norm (w u))) in *.
  apply (derivM3_ext _ (fun u => m3add (m3add (m3scale (cf u) m3id) (m3scale (sf u) (skew (w u)))) (m3scale (kf u) (m3outer (w u) (w u))))); [reflexivity|].
  assert (C0 : cf t = c) by reflexivity. assert (S0 : sf t = s) by reflexivity. assert (K0 : kf t = k) by reflexivity.
  unfold dl in *. clearbody cf sf kf c s k r x.
  destruct (w t) as [a1 a2 a3] eqn:Ew. destruct dw as [d1 d2 d3].
  assert (V1 : vx (w t) = a1) by (now rewrite Ew). assert (V2 : vy (w t) = a2) by (now rewrite Ew). assert (V3 : vz (w t) = a3) by (now rewrite Ew). clear Ew.
  unfold v3dot in *. cbn in D1, D2, D3, Ec, Es, Ek, R1, R2, R3, R4.
  assert (HH : forall a b, a - b = 0 -> a = b) by (intros; lra).
  remember (m3vec (m3add (m3sub (m3scale s m3id) (m3scale k (skew (mkV3 a1 a2 a3)))) (m3scale r (m3outer (mkV3 a1 a2 a3) (mkV3 a1 a2 a3)))) (mkV3 d1 d2 d3)) as U eqn:EU.
  destruct U as [u1 u2 u3]. pose proof (f_equal vx EU) as U1. pose proof (f_equal vy EU) as U2. pose proof (f_equal vz EU) as U3. clear EU.
  cbv [m3add m3scale m3id m3sub m3mul m3outer m3vec skew vx vy vz m00 m01 m02 m10 m11 m12 m20 m21 m22] in U1, U2, U3.
  unfold derivM3. cbv [m3add m3scale m3id m3sub m3mul m3outer m3vec skew m00 m01 m02 m10 m11 m12 m20 m21 m22].
  rewrite ?V1, ?V2, ?V3, ?C0, ?S0, ?K0. cbv [vx vy vz] in *.
  repeat match goal with |- _ /\ _ => split end; (eapply deriv_eq; [dv|]); rewrite ?C0, ?S0, ?K0; clear - R1 R2 R4 HH U1 U2 U3 V1 V2 V3; rewrite ?V1, ?V2, ?V3, ?U1, ?U2, ?U3.
  all: rewrite R1; apply HH.
  - transitivity (d1 * a1 * (k * (2 - k * (a1 * a1 + a2 * a2 + a3 * a3)) - s * s)); [rewrite R2; ring | rewrite R4; ring].
  - transitivity (d1 * a2 * (k * (2 - k * (a1 * a1 + a2 * a2 + a3 * a3)) - s * s)); [rewrite R2; ring | rewrite R4; ring].
  - transitivity (d1 * a3 * (k * (2 - k * (a1 * a1 + a2 * a2 + a3 * a3)) - s * s)); [rewrite R2; ring | rewrite R4; ring].
  - transitivity (d2 * a1 * (k * (2 - k * (a1 * a1 + a2 * a2 + a3 * a3)) - s * s)); [rewrite R2; ring | rewrite R4; ring].
  - transitivity (d2 * a2 * (k * (2 - k * (a1 * a1 + a2 * a2 + a3 * a3)) - s * s)); [rewrite R2; ring | rewrite R4; ring].
  - transitivity (d2 * a3 * (k * (2 - k * (a1 * a1 + a2 * a2 + a3 * a3)) - s * s)); [rewrite R2; ring | rewrite R4; ring].
  - transitivity (d3 * a1 * (k * (2 - k * (a1 * a1 + a2 * a2 + a3 * a3)) - s * s)); [rewrite R2; ring | rewrite R4; ring].
  - transitivity (d3 * a2 * (k * (2 - k * (a1 * a1 + a2 * a2 + a3 * a3)) - s * s)); [rewrite R2; ring | rewrite R4; ring].
  - transitivity (d3 * a3 * (k * (2 - k * (a1 * a1 + a2 * a2 + a3 * a3)) - s * s)); [rewrite R2; ring | rewrite R4; ring].
Qed.
End Curve.
