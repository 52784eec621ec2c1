(* log3 near half turns. *)
Require Import Reals Arith Lra Lia Psatz.
From Verif Require Import Vec3 Spatial Rot RotFacts Joints JointFacts ExpLog LieGroup LieFacts Spec_Exp ExpFacts ExpFacts2 ExpFacts5 LogFacts ExpJac ExpJacFacts LogMat LogMatFacts.
Local Open Scope R_scope.

Definition qget (q : Quat) (k : nat) : R := match k with O => qx q | S O => qy q | _ => qz q end.
Lemma atan2_half N w r : 0 < N -> 0 <= w -> 0 < r -> N * N + w * w = r * r -> let f := atan2 N w in 0 < f <= PI / 2 /\ sin f = N / r /\ cos f = w / r.
Proof.
  intros HN Hw Hr E f. assert (C : w / r * (w / r) + N / r * (N / r) = 1). { transitivity ((N * N + w * w) / (r * r)); [field; lra|]. rewrite E. field. lra. }
  destruct (atan2_circle _ _ C) as (A & B & _). assert (F : f = atan2 (N / r) (w / r)).
  { unfold f. rewrite !atan2_pos_y; [f_equal; f_equal; field; lra | apply Rdiv_lt_0_compat; lra | exact HN]. }
  rewrite F. repeat split; try assumption; rewrite <- F; unfold f; rewrite atan2_pos_y by exact HN; pose proof (atan_bound (w / N)) as [L U].
  - lra.
  - assert (0 <= atan (w / N)); [|lra]. rewrite <- atan_0. destruct (Req_dec w 0) as [->|Z]; [replace (0 / N) with 0 by (field; lra); lra|]. left. apply atan_increasing. apply Rdiv_lt_0_compat; lra.
Qed.
(* the exponential of the angle times the axis of a quaternion *)
Lemma qexp_axis (a : V3) w r : 0 < v3norm a -> 0 <= w -> 0 < r -> v3norm a * v3norm a + w * w = r * r ->
  let u := v3scale (2 * atan2 (v3norm a) w) (v3scale (/ v3norm a) a) in
  v3norm u = 2 * atan2 (v3norm a) w /\ 0 < v3norm u <= PI /\ Qexp u = mkQ (vx a / r) (vy a / r) (vz a / r) (w / r).
Proof.
  intros HN Hw Hr E u. set (N := v3norm a) in *. destruct (atan2_half N w r HN Hw Hr E) as ([F1 F2] & Fs & Fc). set (f := atan2 N w) in *. cbv zeta in *.
  assert (NU : v3norm u = 2 * f). { unfold u. rewrite !norm_scale. fold N. rewrite !Rabs_pos_eq; [field; lra | left; now apply Rinv_0_lt_compat | lra]. }
  rewrite NU. split; [reflexivity|]. split; [lra|]. unfold Qexp. cbv zeta. rewrite NU. replace (2 * f / 2) with f by field. rewrite sinc_nz, Fs, Fc by lra. unfold u. destruct a. unfold v3scale. cbn. f_equal; field; lra.
Qed.
(* the coefficients of the estimated quaternion *)
Lemma coef mu e x2 r : 0 < mu -> 0 < e <= 1 -> 0 <= x2 <= 1 -> mu * mu * (1 + e) = 1 -> 0 < r -> r * r = mu * mu * (1 - x2) + x2 * (1 + e) -> 
  Rabs (mu / r - 1) <= e /\ Rabs (/ mu / r - 1) <= e.
Proof.
  intros Hm He Hx M Hr E. set (k := mu / r). assert (K0 : 0 < k) by (apply Rdiv_lt_0_compat; lra).
  assert (D : k * k * ((1 - x2) + x2 * ((1 + e) * (1 + e))) = 1).
  { unfold k. assert (E2 : r * r * (1 + e) = (1 - x2) + x2 * ((1 + e) * (1 + e))) by (rewrite E; transitivity (mu * mu * (1 + e) * (1 - x2) + x2 * ((1 + e) * (1 + e))); [ring | rewrite M; ring]).
    rewrite <- E2. transitivity (mu * mu * (1 + e)); [field; lra | exact M]. }
  assert (K1 : k <= 1). { destruct (Rle_dec k 1) as [L|L]; [exact L|]. exfalso. assert (1 < k * k) by nra. assert (1 <= (1 - x2) + x2 * ((1 + e) * (1 + e))) by nra. nra. }
  assert (K2 : 1 <= k * (1 + e)). { destruct (Rle_dec 1 (k * (1 + e))) as [L|L]; [exact L|]. exfalso. assert (k * (1 + e) * (k * (1 + e)) < 1) by nra. assert ((1 - x2) + x2 * ((1 + e) * (1 + e)) <= (1 + e) * (1 + e)) by nra. 
    assert (k * k * ((1 - x2) + x2 * ((1 + e) * (1 + e))) <= k * k * ((1 + e) * (1 + e))) by (apply Rmult_le_compat_l; nra). nra. }
  replace (/ mu / r) with (k * (1 + e)). 2:{ unfold k. replace (/ mu / r) with (mu * mu * (1 + e) / mu / r) by (rewrite M; field; lra). field. lra. }
  split; apply Rabs_le; nra.
Qed.
Definition isSign (s : R) : Prop := s = 1 \/ s = -1.
Lemma sel_sign (c : Prop) (d : {c} + {~ c}) : isSign (if d then 1 else -1). Proof. destruct d; [left | right]; reflexivity. Qed.

Section Axis.
Variables (eps : R) (q : Quat).
Hypothesis He : 0 < eps <= 1 / 4096.
Hypothesis U : qnorm2 q = 1.
Hypothesis W : 0 <= qw q.
(* xi is the largest coordinate, xj and xk the two others, in cyclic order *)
Lemma axis_gen xi xj xk (sg : R) (a : V3) (wc : R) : xi * xi + xj * xj + xk * xk + qw q * qw q = 1 -> 3 / 10 <= xi * xi -> isSign sg -> 0 <= sg * (xi * qw q) ->
  (xi * qw q = 0 -> sg = 1) ->
  let s := sqrt (4 * (xi * xi) + eps + eps * eps) * sg in
  v3norm a * v3norm a = s / 2 * (s / 2) + 1 / (2 * s) * (4 * (xi * xj)) * (1 / (2 * s) * (4 * (xi * xj))) + 1 / (2 * s) * (4 * (xi * xk)) * (1 / (2 * s) * (4 * (xi * xk))) ->
  wc = 1 / (2 * s) * (4 * (xi * qw q)) ->
  let u := v3scale (2 * atan2 (v3norm a) wc) (v3scale (/ v3norm a) a) in
  v3norm u = 2 * atan2 (v3norm a) wc /\ 0 < v3norm u <= PI /\
  exists t r, isSign t /\ Qexp u = mkQ (vx a / r) (vy a / r) (vz a / r) (wc / r) /\
    Rabs (s / 2 / r - t * xi) <= eps /\ Rabs (1 / (2 * s) * (4 * (xi * xj)) / r - t * xj) <= eps /\ Rabs (1 / (2 * s) * (4 * (xi * xk)) / r - t * xk) <= eps /\ Rabs (wc / r - t * qw q) <= eps.
Proof.
  intros Q X Sg Sp S0 s NA WC u. set (rho := sqrt (4 * (xi * xi) + eps + eps * eps)) in *. 
  assert (R2 : rho * rho = 4 * (xi * xi) + eps + eps * eps) by (apply sqrt_sqrt; nra). assert (Rp : 0 < rho) by (apply sqrt_lt_R0; nra).
  set (t := if Rle_dec 0 (sg * xi) then 1 else -1). assert (Ht : isSign t) by apply sel_sign. assert (Xn : xi <> 0) by (intros Z; rewrite Z in X; lra).
  assert (G2 : sg * sg = 1) by (destruct Sg as [-> | ->]; ring). assert (T2 : t * t = 1) by (destruct Ht as [-> | ->]; ring).
  assert (TX : 0 < t * (sg * xi)). { unfold t. assert (sg * xi <> 0) by (destruct Sg as [-> | ->]; nra). destruct (Rle_dec 0 (sg * xi)); lra. }
  set (mu := 2 * (t * (sg * xi)) / rho). assert (Mp : 0 < mu) by (apply Rdiv_lt_0_compat; lra).
  assert (M2 : mu * mu = 4 * (xi * xi) / (rho * rho)). { unfold mu. transitivity (4 * (xi * xi) * ((t * t) * (sg * sg)) / (rho * rho)); [field; lra | rewrite T2, G2; field; lra]. }
  set (e := (eps + eps * eps) / (4 * (xi * xi))). assert (X0 : 0 < xi * xi) by lra.
  assert (E1 : rho * rho = 4 * (xi * xi) * (1 + e)) by (rewrite R2; unfold e; field; exact Xn).
  assert (Ee : 0 < e <= eps). { split; [apply Rdiv_lt_0_compat; nra|]. apply (Rmult_le_reg_r (4 * (xi * xi))); [lra|]. unfold e. replace ((eps + eps * eps) / (4 * (xi * xi)) * (4 * (xi * xi))) with (eps + eps * eps) by (field; exact Xn). nra. }
  assert (MM : mu * mu * (1 + e) = 1) by (rewrite M2, E1; field; split; [lra | exact Xn]).
  assert (Sg0 : sg <> 0) by (destruct Sg as [-> | ->]; lra). assert (Sn : s <> 0) by (unfold s; apply Rmult_integral_contrapositive_currified; lra).
  (* s / 2 = t xi / mu, 2 xi / s = t mu *)
  assert (TM : t * mu = 2 * xi / s). { unfold mu, s. transitivity (2 * (t * t) * (sg * sg) * xi / (rho * sg)); [field; split; lra|]. rewrite T2, G2. field. split; lra. }
  assert (A1 : s / 2 = t * (xi / mu)). { transitivity (xi / (2 * xi / s)); [field; split; assumption|]. rewrite <- TM. destruct Ht as [-> | ->]; field; lra. }
  assert (A2 : forall y, 1 / (2 * s) * (4 * (xi * y)) = t * mu * y) by (intros y; rewrite TM; field; exact Sn).
  rewrite !A2 in *. rewrite A1 in *.
  assert (NN : v3norm a * v3norm a + wc * wc = mu * mu * (1 - xi * xi) + xi * xi * (1 + e)).
  { rewrite NA, WC. transitivity ((t * t) * (xi * xi) / (mu * mu) + (t * t) * (mu * mu) * (xj * xj + xk * xk + qw q * qw q)); [field; lra|]. rewrite T2. replace (xj * xj + xk * xk + qw q * qw q) with (1 - xi * xi) by lra.
    replace (1 * (xi * xi) / (mu * mu)) with (xi * xi * (1 + e)); [ring|]. transitivity (xi * xi * (mu * mu * (1 + e)) / (mu * mu)); [field; lra|]. rewrite MM. field. lra. }
  assert (X1 : xi * xi <= 1) by nra. assert (RP : 0 < mu * mu * (1 - xi * xi) + xi * xi * (1 + e)) by nra.
  set (r := sqrt (mu * mu * (1 - xi * xi) + xi * xi * (1 + e))). assert (Hr : 0 < r) by (apply sqrt_lt_R0; exact RP). assert (RR : r * r = mu * mu * (1 - xi * xi) + xi * xi * (1 + e)) by (apply sqrt_sqrt; lra).
  assert (Wc0 : 0 <= wc). { rewrite WC. replace (t * mu * qw q) with (2 * (sg * (xi * qw q)) / rho) by (rewrite TM; unfold s; transitivity (2 * (sg * sg) * xi * qw q / (rho * sg)); [field; split; lra | rewrite G2; field; split; lra]). apply Rmult_le_pos; [lra | left; now apply Rinv_0_lt_compat]. }
  assert (Na : 0 < v3norm a). { pose proof (norm_nonneg a) as [P|P]; [exact P|]. exfalso. rewrite <- P in NA. assert (0 < t * (xi / mu) * (t * (xi / mu))). { replace (t * (xi / mu) * (t * (xi / mu))) with (t * t * (xi * xi) / (mu * mu)) by (field; lra). rewrite T2. apply Rdiv_lt_0_compat; nra. } assert (0 <= t * mu * xj * (t * mu * xj)) by (apply Rle_0_sqr). assert (0 <= t * mu * xk * (t * mu * xk)) by (apply Rle_0_sqr). lra. }
  destruct (qexp_axis a wc r Na Wc0 Hr) as (B1 & B2 & B3); [rewrite NN; symmetry; exact RR|]. fold u in B1, B2, B3.
  split; [exact B1|]. split; [exact B2|]. exists t, r. split; [exact Ht|]. split; [exact B3|].
  destruct (coef mu e (xi * xi) r Mp ltac:(lra) ltac:(lra) MM Hr RR) as [C1 C2].
  assert (TA : Rabs t = 1) by (destruct Ht as [-> | ->]; [apply Rabs_R1 | rewrite Rabs_left by lra; ring]).
  assert (B : forall k y, Rabs (k - 1) <= e -> y * y <= 1 -> Rabs (t * y * (k - 1)) <= eps).
  { intros k y Hk Hy. rewrite !Rabs_mult, TA. assert (Rabs y <= 1) by (apply Rabs_le; nra). replace (1 * Rabs y * Rabs (k - 1)) with (Rabs y * Rabs (k - 1)) by ring. replace eps with (1 * eps) by ring. apply Rmult_le_compat; try apply Rabs_pos; [assumption | lra]. }
  rewrite WC. repeat split.
  - replace (t * (xi / mu) / r - t * xi) with (t * xi * (/ mu / r - 1)) by (field; lra). apply B; assumption.
  - replace (t * mu * xj / r - t * xj) with (t * xj * (mu / r - 1)) by (field; lra). apply B; [assumption | nra].
  - replace (t * mu * xk / r - t * xk) with (t * xk * (mu / r - 1)) by (field; lra). apply B; [assumption | nra].
  - replace (t * mu * qw q / r - t * qw q) with (t * qw q * (mu / r - 1)) by (field; lra). apply B; [assumption | nra].
Qed.
End Axis.
Lemma sel_pos a b : isSign (if Rle_dec a b then 1 else -1) /\ 0 <= (if Rle_dec a b then 1 else -1) * (b - a) /\ (b - a = 0 -> (if Rle_dec a b then 1 else -1) = 1).
Proof. destruct (Rle_dec a b) as [L|L]; (split; [now (left + right)|]); split; intros; lra. Qed.
Lemma axis0 eps val x y z w : let G := qmat (mkQ x y z w) in let i1 := 1%nat in let i2 := 2%nat in
  let s := sqrt (val + eps + eps * eps) * (if Rle_dec (m3get G i1 i2) (m3get G i2 i1) then 1 else -1) in
  let a := mkV3 (s / 2) (1 / (2 * s) * (4 * (x * y))) (1 / (2 * s) * (4 * (x * z))) in let wc := 1 / (2 * s) * (4 * (x * w)) in
  thetaAxis eps 0 val G = (2 * atan2 (v3norm a) wc, v3scale (/ v3norm a) a) /\ m3get G i2 i1 - m3get G i1 i2 = 4 * (x * w).
Proof.
  intros G i1 i2 s a wc. split; [|unfold G, i1, i2, qmat, quatMatrix, m3get, m3row, m3col, m3tr, v3get; cbn [m00 m01 m02 m10 m11 m12 m20 m21 m22 vx vy vz qx qy qz qw]; ring].
  unfold thetaAxis. cbn [Nat.modulo Nat.divmod Nat.add Nat.sub fst snd Nat.eqb]. cbv zeta. fold i1 i2. fold s. rewrite nrm3_eq.
  match goal with |- (2 * atan2 (v3norm ?b) ?c, _) = _ => assert (Ea : b = a); [|assert (Ew : c = wc); [|rewrite Ea, Ew; reflexivity]] end.
  - unfold a. f_equal; try reflexivity; f_equal; unfold G, i1, i2, qmat, quatMatrix, m3get, m3row, m3col, m3tr, v3get; cbn [m00 m01 m02 m10 m11 m12 m20 m21 m22 vx vy vz qx qy qz qw]; ring.
  - unfold wc. f_equal. unfold G, i1, i2, qmat, quatMatrix, m3get, m3row, m3col, m3tr, v3get; cbn [m00 m01 m02 m10 m11 m12 m20 m21 m22 vx vy vz qx qy qz qw]; ring.
Qed.
Lemma axis1 eps val x y z w : let G := qmat (mkQ x y z w) in let i1 := 2%nat in let i2 := 0%nat in
  let s := sqrt (val + eps + eps * eps) * (if Rle_dec (m3get G i1 i2) (m3get G i2 i1) then 1 else -1) in
  let a := mkV3 (1 / (2 * s) * (4 * (y * x))) (s / 2) (1 / (2 * s) * (4 * (y * z))) in let wc := 1 / (2 * s) * (4 * (y * w)) in
  thetaAxis eps 1 val G = (2 * atan2 (v3norm a) wc, v3scale (/ v3norm a) a) /\ m3get G i2 i1 - m3get G i1 i2 = 4 * (y * w).
Proof.
  intros G i1 i2 s a wc. split; [|unfold G, i1, i2, qmat, quatMatrix, m3get, m3row, m3col, m3tr, v3get; cbn [m00 m01 m02 m10 m11 m12 m20 m21 m22 vx vy vz qx qy qz qw]; ring].
  unfold thetaAxis. cbn [Nat.modulo Nat.divmod Nat.add Nat.sub fst snd Nat.eqb]. cbv zeta. fold i1 i2. fold s. rewrite nrm3_eq.
  match goal with |- (2 * atan2 (v3norm ?b) ?c, _) = _ => assert (Ea : b = a); [|assert (Ew : c = wc); [|rewrite Ea, Ew; reflexivity]] end.
  - unfold a. f_equal; try reflexivity; f_equal; unfold G, i1, i2, qmat, quatMatrix, m3get, m3row, m3col, m3tr, v3get; cbn [m00 m01 m02 m10 m11 m12 m20 m21 m22 vx vy vz qx qy qz qw]; ring.
  - unfold wc. f_equal. unfold G, i1, i2, qmat, quatMatrix, m3get, m3row, m3col, m3tr, v3get; cbn [m00 m01 m02 m10 m11 m12 m20 m21 m22 vx vy vz qx qy qz qw]; ring.
Qed.
Lemma axis2 eps val x y z w : let G := qmat (mkQ x y z w) in let i1 := 0%nat in let i2 := 1%nat in
  let s := sqrt (val + eps + eps * eps) * (if Rle_dec (m3get G i1 i2) (m3get G i2 i1) then 1 else -1) in
  let a := mkV3 (1 / (2 * s) * (4 * (z * x))) (1 / (2 * s) * (4 * (z * y))) (s / 2) in let wc := 1 / (2 * s) * (4 * (z * w)) in
  thetaAxis eps 2 val G = (2 * atan2 (v3norm a) wc, v3scale (/ v3norm a) a) /\ m3get G i2 i1 - m3get G i1 i2 = 4 * (z * w).
Proof.
  intros G i1 i2 s a wc. split; [|unfold G, i1, i2, qmat, quatMatrix, m3get, m3row, m3col, m3tr, v3get; cbn [m00 m01 m02 m10 m11 m12 m20 m21 m22 vx vy vz qx qy qz qw]; ring].
  unfold thetaAxis. cbn [Nat.modulo Nat.divmod Nat.add Nat.sub fst snd Nat.eqb]. cbv zeta. fold i1 i2. fold s. rewrite nrm3_eq.
  match goal with |- (2 * atan2 (v3norm ?b) ?c, _) = _ => assert (Ea : b = a); [|assert (Ew : c = wc); [|rewrite Ea, Ew; reflexivity]] end.
  - unfold a. f_equal; try reflexivity; f_equal; unfold G, i1, i2, qmat, quatMatrix, m3get, m3row, m3col, m3tr, v3get; cbn [m00 m01 m02 m10 m11 m12 m20 m21 m22 vx vy vz qx qy qz qw]; ring.
  - unfold wc. f_equal. unfold G, i1, i2, qmat, quatMatrix, m3get, m3row, m3col, m3tr, v3get; cbn [m00 m01 m02 m10 m11 m12 m20 m21 m22 vx vy vz qx qy qz qw]; ring.
Qed.

Lemma thetaAxis_quat eps q i : 0 < eps <= 1 / 4096 -> qnorm2 q = 1 -> 0 <= qw q -> (i < 3)%nat -> 3 / 10 <= qget q i * qget q i -> let r := thetaAxis eps i (4 * (qget q i * qget q i)) (qmat q) in
  let u := v3scale (fst r) (snd r) in v3norm u = fst r /\ 0 < v3norm u <= PI /\ exists t, isSign t /\ qclose eps (Qexp u) (qscale t q).
Proof.
  intros He U W Hi X r u. pose proof (axis_gen eps q He W) as G0. destruct q as [x y z w]. unfold qnorm2, qdot in U. cbn [qx qy qz qw] in *.
  assert (V : forall a b c, a * a + b * b + c * c = v3norm (mkV3 a b c) * v3norm (mkV3 a b c)) by (intros; rewrite <- norm2_norm; reflexivity).
  destruct i as [|[|[|]]]; [| | |lia]; cbn [qget qx qy qz] in *.
  - destruct (axis0 eps (4 * (x * x)) x y z w) as [E D]. set (G := qmat (mkQ x y z w)) in *. unfold r in u. unfold u, r. clear u r. rewrite E. cbn [fst snd].
    set (sg := if Rle_dec (m3get G 1 2) (m3get G 2 1) then 1 else -1) in *. destruct (sel_pos (m3get G 1 2) (m3get G 2 1)) as (S1 & S2 & S3). fold sg in S1, S2, S3. rewrite D in S2, S3. clear E D. clearbody sg.
    match goal with |- v3norm (v3scale (2 * atan2 (v3norm ?b) ?c) _) = _ /\ _ => set (a := b) in *; set (wc := c) in * end.
    destruct (G0 x y z sg a wc ltac:(lra) X S1 ltac:(lra) ltac:(intros Z; apply S3; rewrite Z; ring)) as (N1 & N2 & t & r & Ht & Q & C1 & C2 & C3 & C4); [unfold a; rewrite <- V; ring | reflexivity|].
    split; [exact N1|]. split; [exact N2|]. exists t. split; [exact Ht|]. rewrite Q. unfold qclose, qscale, a. cbn [qx qy qz qw vx vy vz]. repeat split; assumption.
  - destruct (axis1 eps (4 * (y * y)) x y z w) as [E D]. set (G := qmat (mkQ x y z w)) in *. unfold r in u. unfold u, r. clear u r. rewrite E. cbn [fst snd].
    set (sg := if Rle_dec (m3get G 2 0) (m3get G 0 2) then 1 else -1) in *. destruct (sel_pos (m3get G 2 0) (m3get G 0 2)) as (S1 & S2 & S3). fold sg in S1, S2, S3. rewrite D in S2, S3. clear E D. clearbody sg.
    match goal with |- v3norm (v3scale (2 * atan2 (v3norm ?b) ?c) _) = _ /\ _ => set (a := b) in *; set (wc := c) in * end.
    destruct (G0 y z x sg a wc ltac:(lra) X S1 ltac:(lra) ltac:(intros Z; apply S3; rewrite Z; ring)) as (N1 & N2 & t & r & Ht & Q & C1 & C2 & C3 & C4); [unfold a; rewrite <- V; ring | reflexivity|].
    split; [exact N1|]. split; [exact N2|]. exists t. split; [exact Ht|]. rewrite Q. unfold qclose, qscale, a. cbn [qx qy qz qw vx vy vz]. repeat split; assumption.
  - destruct (axis2 eps (4 * (z * z)) x y z w) as [E D]. set (G := qmat (mkQ x y z w)) in *. unfold r in u. unfold u, r. clear u r. rewrite E. cbn [fst snd].
    set (sg := if Rle_dec (m3get G 0 1) (m3get G 1 0) then 1 else -1) in *. destruct (sel_pos (m3get G 0 1) (m3get G 1 0)) as (S1 & S2 & S3). fold sg in S1, S2, S3. rewrite D in S2, S3. clear E D. clearbody sg.
    match goal with |- v3norm (v3scale (2 * atan2 (v3norm ?b) ?c) _) = _ /\ _ => set (a := b) in *; set (wc := c) in * end.
    destruct (G0 z x y sg a wc ltac:(lra) X S1 ltac:(lra) ltac:(intros Z; apply S3; rewrite Z; ring)) as (N1 & N2 & t & r & Ht & Q & C1 & C2 & C3 & C4); [unfold a; rewrite <- V; ring | reflexivity|].
    split; [exact N1|]. split; [exact N2|]. exists t. split; [exact Ht|]. rewrite Q. unfold qclose, qscale, a. cbn [qx qy qz qw vx vy vz]. repeat split; assumption.
Qed.
Lemma qmat_close p q d : qnorm2 p = 1 -> qnorm2 q = 1 -> qclose d p q -> m3close (8 * d) (qmat p) (qmat q).
Proof.
  intros P Q (A & B & C & D). destruct p as [a b c e], q as [x y z w]. unfold qnorm2, qdot in P, Q. cbn [qx qy qz qw] in *.
  assert (M : forall a b x y, a * a <= 1 -> y * y <= 1 -> Rabs (a - x) <= d -> Rabs (b - y) <= d -> Rabs (a * b - x * y) <= 2 * d).
  { intros a' b' x' y' H1 H2 H3 H4. replace (a' * b' - x' * y') with (a' * (b' - y') + (a' - x') * y') by ring. eapply Rle_trans; [apply Rabs_triang|]. rewrite !Rabs_mult.
    assert (Rabs a' <= 1) by (apply Rabs_le; nra). assert (Rabs y' <= 1) by (apply Rabs_le; nra).
    assert (Rabs a' * Rabs (b' - y') <= 1 * d) by (apply Rmult_le_compat; try apply Rabs_pos; lra). assert (Rabs (a' - x') * Rabs y' <= d * 1) by (apply Rmult_le_compat; try apply Rabs_pos; lra). lra. }
  assert (a * a <= 1) by nra. assert (b * b <= 1) by nra. assert (c * c <= 1) by nra. assert (e * e <= 1) by nra. assert (x * x <= 1) by nra. assert (y * y <= 1) by nra. assert (z * z <= 1) by nra. assert (w * w <= 1) by nra.
  assert (N : forall u v, Rabs u <= 2 * d -> Rabs v <= 2 * d -> Rabs (2 * u + 2 * v) <= 8 * d /\ Rabs (2 * u - 2 * v) <= 8 * d /\ Rabs (- (2 * u) - 2 * v) <= 8 * d).
  { intros u v H7 H8. apply rabs_inv in H7, H8. repeat split; apply Rabs_le; lra. }
  pose proof (M a a x x) as Maa. pose proof (M b b y y) as Mbb. pose proof (M c c z z) as Mcc. pose proof (M a b x y) as Mab. pose proof (M a c x z) as Mac. pose proof (M b c y z) as Mbc. pose proof (M a e x w) as Mae. pose proof (M b e y w) as Mbe. pose proof (M c e z w) as Mce.
  unfold m3close, qmat, quatMatrix. cbn [m00 m01 m02 m10 m11 m12 m20 m21 m22 qx qy qz qw].
  repeat apply conj.
  all: match goal with |- Rabs ?ex <= _ => first
    [ replace ex with (- (2 * (b * b - y * y)) - 2 * (c * c - z * z)) by (clear; ring); apply N; auto
    | replace ex with (- (2 * (a * a - x * x)) - 2 * (c * c - z * z)) by (clear; ring); apply N; auto
    | replace ex with (- (2 * (a * a - x * x)) - 2 * (b * b - y * y)) by (clear; ring); apply N; auto
    | replace ex with (2 * (a * b - x * y) + 2 * (c * e - z * w)) by (clear; ring); apply N; auto
    | replace ex with (2 * (a * b - x * y) - 2 * (c * e - z * w)) by (clear; ring); apply N; auto
    | replace ex with (2 * (a * c - x * z) + 2 * (b * e - y * w)) by (clear; ring); apply N; auto
    | replace ex with (2 * (a * c - x * z) - 2 * (b * e - y * w)) by (clear; ring); apply N; auto
    | replace ex with (2 * (b * c - y * z) + 2 * (a * e - x * w)) by (clear; ring); apply N; auto
    | replace ex with (2 * (b * c - y * z) - 2 * (a * e - x * w)) by (clear; ring); apply N; auto ] end.
Qed.
Theorem log3_pi eps A : 0 < eps <= 1 / 4096 -> isRotation A -> m3trace A < -1 + 2 * ts2 eps ->
  let l := log3 eps A in m3close (8 * eps) (Rexp (fst l)) A /\ snd l = v3norm (fst l) /\ 0 < snd l <= PI.
Proof.
  intros He H T. destruct (rot_quat A H) as (q & U & W & EA). destruct (ts2_bounds eps He) as [_ B2].
  cbv zeta. unfold log3. rewrite renorm_rot by exact H. cbv zeta. destruct (Rle_dec (-1 + ts2 eps) ((m3trace A - 1) / 2)) as [B|_]; [lra|].
  assert (D : forall i, (i < 3)%nat -> 2 * m3get A i i - m3trace A + 1 = 4 * (qget q i * qget q i)).
  { intros i Hi. rewrite EA. unfold qnorm2, qdot in U. destruct q as [x y z w]. cbn [qx qy qz qw] in U. destruct i as [|[|[|]]]; [| | |lia]; unfold qget, qmat, quatMatrix, m3trace, m3get, m3row, m3col, m3tr, v3get; cbn [m00 m01 m02 m10 m11 m12 m20 m21 m22 vx vy vz qx qy qz qw]; lra. }
  pose proof (D 0%nat ltac:(lia)) as D0. pose proof (D 1%nat ltac:(lia)) as D1. pose proof (D 2%nat ltac:(lia)) as D2. clear D.
  change (m3get A 0 0) with (m00 A) in D0. change (m3get A 1 1) with (m11 A) in D1. change (m3get A 2 2) with (m22 A) in D2. rewrite D0, D1, D2.
  assert (TW : m3trace A = 4 * (qw q * qw q) - 1). { unfold m3trace in *. unfold qnorm2, qdot in U. cbn [qget] in *. lra. }
  assert (SUM : 31 / 32 <= qget q 0 * qget q 0 + qget q 1 * qget q 1 + qget q 2 * qget q 2) by (unfold qnorm2, qdot in U; cbn [qget]; lra).
  assert (Main : forall i, (i < 3)%nat -> 3 / 10 <= qget q i * qget q i -> let r := thetaAxis eps i (4 * (qget q i * qget q i)) A in
    m3close (8 * eps) (Rexp (v3scale (fst r) (snd r))) A /\ fst r = v3norm (v3scale (fst r) (snd r)) /\ 0 < fst r <= PI).
  { intros i Hi X. rewrite EA. cbv zeta. destruct (thetaAxis_quat eps q i He U W Hi X) as (N & P & t & Ht & C). rewrite N in P. split; [|split; [symmetry; exact N | exact P]].
    destruct (Qexp_spec (v3scale (fst (thetaAxis eps i (4 * (qget q i * qget q i)) (qmat q))) (snd (thetaAxis eps i (4 * (qget q i * qget q i)) (qmat q))))) as [U1 <-].
    assert (U2 : qnorm2 (qscale t q) = 1). { unfold qnorm2, qdot, qscale in *. cbn [qx qy qz qw]. destruct Ht as [-> | ->]; lra. }
    replace (qmat q) with (qmat (qscale t q)) at 3. 2:{ destruct Ht as [-> | ->]; [unfold qscale; rewrite !Rmult_1_l; reflexivity | apply qmat_opp]. }
    now apply qmat_close. }
  destruct (Rle_dec (4 * (qget q 1 * qget q 1)) (4 * (qget q 0 * qget q 0))) as [L|L]; [destruct (Rle_dec (4 * (qget q 2 * qget q 2)) (4 * (qget q 0 * qget q 0))) as [L2|L2] | destruct (Rle_dec (4 * (qget q 2 * qget q 2)) (4 * (qget q 1 * qget q 1))) as [L2|L2]];
    cbn [fst snd]; apply Main; try lia; lra.
Qed.
