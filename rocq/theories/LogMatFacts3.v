(* log3 near the identity, and everywhere. *)
Require Import Reals Arith Lra Lia Psatz.
From Verif Require Import Vec3 Spatial Rot RotFacts Joints JointFacts ExpLog LieGroup LieFacts Spec_Exp ExpFacts ExpFacts2 ExpFacts3 ExpFacts5 LogFacts LogFacts2 LieFacts10 ExpJac ExpJacFacts ExpJacFacts2 LogMat LogMatFacts LogMatFacts2.
Local Open Scope R_scope.

Section Near.
Variables (eps : R) (v : V3).
Hypothesis He : 0 < eps <= 1 / 4096.
Let T := ts2 eps.
Let x := v3norm v.
Hypothesis Hpi : x <= PI.
Hypothesis Hx : 2 * (1 - cos x) <= T.
Lemma x_nonneg : 0 <= x. Proof. apply norm_nonneg. Qed.
Lemma T_facts : 0 < T <= 1 / 16 /\ T * T * T = eps /\ eps <= T * T / 16.
Proof. destruct (ts2_bounds eps He) as [A B]. pose proof (ts2_pos eps) as P. fold T in A, B, P. pose proof (ts2_cube eps ltac:(lra)) as C. fold T in C. repeat split; try assumption. rewrite <- C. nra. Qed.
Lemma x_small : x <= 3 / 2.
Proof.
  destruct (Rle_dec x (3 / 2)) as [L|L]; [exact L|]. exfalso. destruct T_facts as ((T0 & T1) & _). pose proof PI_RGT_0 as PP. pose proof PI_4 as P4.
  assert (C : cos x <= cos 1) by (left; apply cos_decreasing_1; pose proof PI2_1; lra). destruct (taylor_cos 1 ltac:(lra)) as [[_ B] _]. lra.
Qed.
Lemma x_sq : x * x <= 11 / 10 * T /\ x <= 3 / 10 /\ 2 * (1 - cos x) <= x * x /\ x * x - x * x * (x * x) / 12 <= 2 * (1 - cos x).
Proof.
  destruct T_facts as ((T0 & T1) & _). pose proof x_nonneg as X0. pose proof x_small as X1. destruct (taylor_cos x ltac:(lra)) as [[A B] _].
  replace (x * x * x * x) with (x * x * (x * x)) in B by ring. assert (Y : x * x <= 9 / 4) by nra. assert (Z : x * x <= 1 / 10) by nra. assert (x <= 3 / 10 + 2 / 100) by nra. assert (Z2 : x * x <= 11 / 10 * T) by nra. repeat split; [exact Z2 | nra | lra | lra].
Qed.
Let th := sqrt (2 * (1 - cos x) + eps * eps).
Lemma th_sq : th * th = 2 * (1 - cos x) + eps * eps. Proof. apply sqrt_sqrt. pose proof (COS_bound x). nra. Qed.
Lemma th_pos : 0 < th. Proof. apply sqrt_lt_R0. pose proof (COS_bound x). nra. Qed.
Lemma th_small : th <= 1 / 2.
Proof. pose proof th_sq. pose proof th_pos. destruct x_sq as (_ & A & B & _). pose proof x_nonneg. assert (x * x <= 9 / 100) by nra. assert (eps * eps <= 1 / 100) by nra. destruct (Rle_dec th (1 / 2)) as [L|L]; [exact L|]. apply Rnot_le_lt in L. assert (1 / 2 * (1 / 2) < th * th) by nra. lra. Qed.
Lemma sinc_diff : Rabs (sinc x - sinc th) <= T * T / 24.
Proof.
  destruct T_facts as ((T0 & T1) & T3 & T4). destruct x_sq as (A & B & C & D). pose proof x_nonneg as X0. pose proof th_sq as S. pose proof th_pos as P. pose proof th_small as L.
  destruct (taylor_sinc x ltac:(lra)) as [[K1 K2] _]. destruct (taylor_sinc th ltac:(lra)) as [[K3 K4] _].
  replace (x * x * x * x) with (x * x * (x * x)) in K2 by ring. replace (th * th * th * th) with (th * th * (th * th)) in K4 by ring.
  set (X := x * x) in *. set (H := th * th) in *. assert (X2 : X * X <= 121 / 100 * (T * T)) by (assert (0 <= X) by (unfold X; nra); nra).
  assert (E2 : eps * eps <= T * T / 1000) by (assert (eps * eps <= eps * (T * T / 16)); [apply Rmult_le_compat_l; lra | nra]).
  assert (HT : 0 <= H <= 102 / 100 * T) by (split; [unfold H; nra | assert (T * T <= T / 16) by nra; lra]). assert (H2 : H * H <= 105 / 100 * (T * T)) by nra.
  assert (E0 : 0 <= eps * eps) by nra. apply Rabs_le. split; lra.
Qed.
(* the scale of the returned vector *)
Definition kNear : R := (if Rle_dec T th then th / sin th else let a2 := sin x * sin x in 1 + a2 / 6 + a2 * a2 * 3 / 40) * sinc x.
Lemma kNear_close : Rabs (kNear - 1) <= T * T / 20.
Proof.
  destruct T_facts as ((T0 & T1) & T3 & T4). destruct x_sq as (A & B & C & D). pose proof x_nonneg as X0. pose proof th_sq as S. pose proof th_pos as P. pose proof th_small as L.
  unfold kNear. destruct (Rle_dec T th) as [G|G].
  - pose proof sinc_diff as SD. destruct (taylor_sinc th ltac:(lra)) as [[K3 K4] _]. assert (Sn : sinc th <> 0) by nra. pose proof (sinc_nz th ltac:(lra)) as E.
    assert (Sth : sin th = th * sinc th) by (rewrite E; field; lra). rewrite Sth. replace (th / (th * sinc th) * sinc x - 1) with ((sinc x - sinc th) / sinc th) by (field; split; lra).
    assert (95 / 100 <= sinc th) by nra. unfold Rdiv. rewrite Rabs_mult, (Rabs_pos_eq (/ sinc th)) by (left; apply Rinv_0_lt_compat; lra).
    apply (Rmult_le_reg_r (sinc th)); [lra|]. rewrite Rmult_assoc, Rinv_l by exact Sn. nra.
  - apply Rnot_le_lt in G. cbv zeta. destruct (taylor_sinc x ltac:(lra)) as [[K1 K2] _]. destruct (taylor_sin x ltac:(lra)) as [[S1 S2] _].
    replace (x * x * x * x) with (x * x * (x * x)) in K2 by ring. set (X := x * x) in *.
    assert (Xb : 0 <= X <= 11 / 10 * (T * T)). { split; [unfold X; nra|]. assert (X <= 1 / 10) by lra. assert (th * th <= T * T) by nra. nra. }
    assert (Sx : x * (1 - X / 6) <= sin x) by (replace (x * (1 - X / 6)) with (x - X * x / 6) by field; lra). assert (Sx2 : sin x <= x) by (destruct (Req_dec x 0) as [Z|Z]; [rewrite Z, sin_0; lra | left; apply sin_lt_x; lra]).
    assert (S0 : 0 <= x * (1 - X / 6)) by nra. set (a := sin x * sin x) in *. assert (A1 : X - X * X / 3 <= a <= X).
    { unfold a. split. - assert (x * (1 - X / 6) * (x * (1 - X / 6)) <= sin x * sin x) by nra. replace (x * (1 - X / 6) * (x * (1 - X / 6))) with (X * ((1 - X / 6) * (1 - X / 6))) in H by (unfold X; ring). nra. - unfold X. nra. }
    assert (TT : 0 <= T * T <= 1 / 256) by (split; nra). assert (X3 : X <= 1 / 200) by lra. assert (XX : X * X <= 1 / 100 * (T * T)) by (apply Rle_trans with (1 / 200 * (11 / 10 * (T * T))); [apply Rmult_le_compat; lra | lra]). assert (a0 : 0 <= a) by (unfold a; apply Rle_0_sqr). assert (a * a <= X * X) by (apply Rmult_le_compat; lra).
    assert (U : Rabs ((1 + a / 6 + a * a * 3 / 40) * sinc x - 1) <= X * X). { apply Rabs_le. assert (0 <= a * a) by nra. assert (K5 : 1 - X / 6 <= sinc x <= 1) by nra. assert (Q : 1 + X / 6 - X * X / 18 <= 1 + a / 6 + a * a * 3 / 40 <= 1 + X / 6 + X * X * 3 / 40) by lra. split; nra. }
    lra.
Qed.
Lemma th_close : Rabs (th - x) <= x * x * x / 20 + eps.
Proof.
  destruct T_facts as ((T0 & T1) & T3 & T4). destruct x_sq as (A & B & C & D). pose proof x_nonneg as X0. pose proof th_sq as S. pose proof th_pos as P.
  apply Rabs_le. split.
  - destruct (Rle_dec x th) as [G|G]; [assert (0 <= x * x * x) by (repeat apply Rmult_le_pos; lra); lra|]. apply Rnot_le_lt in G.
    assert (X : 0 < x) by lra. assert (Q : (x - th) * (x + th) <= x * x * (x * x) / 12) by nra. assert (F : (x - th) * (9 / 5 * x) <= x * x * (x * x) / 12 + (x - th) * (x - th) * 4 / 5) by nra.
    assert (F2 : x - th <= x * x * x / 12) by nra. 
    assert (F3 : (x - th) * (19 / 10 * x) <= x * x * (x * x) / 12). { assert (x - th <= x / 100) by nra. nra. }
    assert (x - th <= x * x * x / 20) by nra. lra.
  - destruct (Rle_dec th x) as [G|G]; [assert (0 <= x * x * x) by (repeat apply Rmult_le_pos; lra); lra|]. apply Rnot_le_lt in G. assert (0 <= x * x * x) by (repeat apply Rmult_le_pos; lra).
    assert ((th - x) * (th - x) <= eps * eps) by nra. nra.
Qed.
End Near.
