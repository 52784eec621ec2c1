(* The projected Gauss-Seidel solver: its iterates are in the friction cones and its fixed points are the solutions of Coulomb's law. *)
Require Import Reals List Arith Lia Lra FunctionalExtensionality.
From Verif Require Import Vec3 Model Sums Cone Spec_Cone ConeFacts Contact Spec_Contact.
Import ListNotations.
Local Open Scope R_scope.

Lemma put_at x r a : seg3 (putSeg3 x r a) r = a.
Proof.
  unfold seg3, putSeg3. rewrite Nat.eqb_refl. replace (Nat.eqb (r + 1) r) with false by (symmetry; apply Nat.eqb_neq; lia). rewrite Nat.eqb_refl.
  replace (Nat.eqb (r + 2) r) with false by (symmetry; apply Nat.eqb_neq; lia). replace (Nat.eqb (r + 2) (r + 1)) with false by (symmetry; apply Nat.eqb_neq; lia). rewrite Nat.eqb_refl. now destruct a.
Qed.
Lemma put_off x r a k : (k < r \/ r + 3 <= k)%nat -> putSeg3 x r a k = x k.
Proof.
  intros H. unfold putSeg3. destruct (Nat.eqb_spec k r); [lia|]. destruct (Nat.eqb_spec k (r + 1)); [lia|]. destruct (Nat.eqb_spec k (r + 2)); [lia | reflexivity].
Qed.
Lemma put_same x r : putSeg3 x r (seg3 x r) = x.
Proof.
  extensionality k. unfold putSeg3, seg3. cbn [vx vy vz]. destruct (Nat.eqb_spec k r); [now subst|]. destruct (Nat.eqb_spec k (r + 1)); [now subst|]. destruct (Nat.eqb_spec k (r + 2)); [now subst | reflexivity].
Qed.
Lemma seg_off x r a s : (s + 3 <= r \/ r + 3 <= s)%nat -> seg3 (putSeg3 x r a) s = seg3 x s.
Proof. intros H. unfold seg3. now rewrite !put_off by lia. Qed.

(* the normal component *)
Lemma normal_fixed c f v : 0 < c -> (Rmax 0 (f - c * v) = f <-> 0 <= f /\ 0 <= v /\ f * v = 0).
Proof.
  intros Hc. unfold Rmax. destruct (Rle_dec 0 (f - c * v)) as [H|H]; split.
  - intros E. assert (c * v = 0) by lra. assert (v = 0) by (apply Rmult_integral in H0 as [?|?]; lra). subst v. rewrite Rmult_0_r in H. repeat split; lra.
  - intros (H1 & H2 & H3). apply Rmult_integral in H3 as [E|E]; [|subst v; ring]. subst f. assert (0 <= c * v) by (apply Rmult_le_pos; lra). lra.
  - intros <-. assert (0 < c * v) by lra. assert (0 < v) by (apply (Rmult_lt_reg_l c); lra). repeat split; lra.
  - intros (H1 & H2 & H3). apply Rmult_integral in H3 as [E|E]; [now symmetry|]. subst v. lra.
Qed.
(* the tangential component: r is the radius of the disc *)
Definition disc (r tx ty : R) : R * R := if Rlt_dec r (sqrt (tx * tx + ty * ty)) then (r / sqrt (tx * tx + ty * ty) * tx, r / sqrt (tx * tx + ty * ty) * ty) else (tx, ty).
Lemma sqrt_le_sq a r : 0 <= r -> a <= r * r -> sqrt a <= r.
Proof. intros Hr H. rewrite <- (sqrt_Rsqr r Hr). unfold Rsqr. apply sqrt_le_1_alt, H. Qed.
Lemma sqrt_eq_sq a r : 0 <= r -> a = r * r -> sqrt a = r.
Proof. intros Hr ->. exact (sqrt_square r Hr). Qed.
Lemma tangent_fixed r k a b p q : 0 <= r -> 0 < k ->
  (disc r (a - k * p) (b - k * q) = (a, b) <-> sqrt (a ^ 2 + b ^ 2) <= r /\ sqrt (p ^ 2 + q ^ 2) * a = - r * p /\ sqrt (p ^ 2 + q ^ 2) * b = - r * q).
Proof.
  intros Hr Hk. unfold disc. set (tx := a - k * p). set (ty := b - k * q). set (n := sqrt (tx * tx + ty * ty)).
  assert (Hn : 0 <= n) by apply sqrt_pos. assert (Hnn : n * n = tx * tx + ty * ty) by (apply sqrt_sqrt; nra).
  set (s := sqrt (p ^ 2 + q ^ 2)). assert (Hs : 0 <= s) by apply sqrt_pos. assert (Hss : s * s = p * p + q * q) by (unfold s; rewrite sqrt_sqrt by nra; ring).
  destruct (Rlt_dec r n) as [L|L]; split.
  - intros E. injection E as E1 E2. assert (E3 : n * a = r * tx) by (rewrite <- E1 at 1; field; lra). assert (E4 : n * b = r * ty) by (rewrite <- E2 at 1; field; lra).
    assert (N2 : a * a + b * b = r * r).
    { apply (Rmult_eq_reg_l (n * n)); [|nra]. replace (n * n * (a * a + b * b)) with ((n * a) * (n * a) + (n * b) * (n * b)) by ring. rewrite E3, E4, Hnn. ring. }
    assert (E5 : (n - r) * a = - r * k * p) by (unfold tx in E3; lra). assert (E6 : (n - r) * b = - r * k * q) by (unfold ty in E4; lra).
    split; [right; apply sqrt_eq_sq; [exact Hr | lra]|].
    destruct (Req_dec r 0) as [Z|Z].
    + assert (A0 : a = 0) by nra. assert (B0 : b = 0) by nra. rewrite A0, B0, Z. split; ring.
    + assert (Q : (n - r) * (n - r) = (k * s) * (k * s)).
      { apply (Rmult_eq_reg_l (r * r)); [|nra]. rewrite <- N2 at 1. replace ((a * a + b * b) * ((n - r) * (n - r))) with (((n - r) * a) * ((n - r) * a) + ((n - r) * b) * ((n - r) * b)) by ring. rewrite E5, E6.
        replace (r * r * (k * s * (k * s))) with (r * r * (k * k) * (s * s)) by ring. rewrite Hss. ring. }
      assert (N : n - r = k * s). { assert (0 <= k * s) by (apply Rmult_le_pos; lra). assert (E : (n - r - k * s) * (n - r + k * s) = 0) by lra. apply Rmult_integral in E as [E|E]; lra. }
      rewrite N in E5, E6. split; apply (Rmult_eq_reg_l k); lra.
  - intros (N & E1 & E2). assert (N2 : a * a + b * b <= r * r) by (assert (H0 : 0 <= sqrt (a ^ 2 + b ^ 2)) by apply sqrt_pos; assert (H1 : sqrt (a ^ 2 + b ^ 2) * sqrt (a ^ 2 + b ^ 2) = a ^ 2 + b ^ 2) by (apply sqrt_sqrt; nra); nra).
    destruct (Req_dec s 0) as [Z|Z].
    + assert (P0 : p = 0) by nra. assert (Q0 : q = 0) by nra. exfalso. unfold tx, ty in Hnn. rewrite P0, Q0 in Hnn. nra.
    + destruct (Req_dec r 0) as [Zr|Zr]; [rewrite Zr in N2 |- *; assert (a = 0) by nra; assert (b = 0) by nra; f_equal; unfold Rdiv; rewrite Rmult_0_l, Rmult_0_l; lra|].
      assert (E3 : r * tx = (r + k * s) * a) by (unfold tx; nra). assert (E4 : r * ty = (r + k * s) * b) by (unfold ty; nra).
      assert (N3 : a * a + b * b = r * r).
      { apply (Rmult_eq_reg_l (s * s)); [|nra]. replace (s * s * (a * a + b * b)) with ((s * a) * (s * a) + (s * b) * (s * b)) by ring. rewrite E1, E2, Hss. ring. }
      assert (Q : (r * n) * (r * n) = (r * (r + k * s)) * (r * (r + k * s))).
      { replace ((r * n) * (r * n)) with (r * r * (n * n)) by ring. rewrite Hnn. replace (r * r * (tx * tx + ty * ty)) with ((r * tx) * (r * tx) + (r * ty) * (r * ty)) by ring. rewrite E3, E4.
        replace ((r + k * s) * a * ((r + k * s) * a) + (r + k * s) * b * ((r + k * s) * b)) with ((r + k * s) * (r + k * s) * (a * a + b * b)) by ring. rewrite N3. ring. }
      assert (0 <= k * s) by (apply Rmult_le_pos; lra).
      assert (Nn : n = r + k * s). { assert (E : r * (n - (r + k * s)) * (r * (n + (r + k * s))) = 0) by lra. apply Rmult_integral in E as [E|E]; apply Rmult_integral in E as [E|E]; lra. }
      rewrite <- Nn in E3, E4. f_equal; apply (Rmult_eq_reg_l n); try lra; unfold Rdiv; field_simplify; lra.
  - intros E. injection E as E1 E2. assert (Hp : k * p = 0) by (unfold tx in E1; lra). assert (Hq : k * q = 0) by (unfold ty in E2; lra). apply Rmult_integral in Hp as [?|Hp]; [lra|]. apply Rmult_integral in Hq as [?|Hq]; [lra|].
    rewrite Hp, Hq, !Rmult_0_r. split; [|split; [|]].
    + apply sqrt_le_sq; [exact Hr|]. rewrite E1, E2 in Hnn. nra.
    + assert (s * s = 0) by (rewrite Hss, Hp, Hq; ring). assert (s = 0) by nra. rewrite H0. ring.
    + assert (s * s = 0) by (rewrite Hss, Hp, Hq; ring). assert (s = 0) by nra. rewrite H0. ring.
  - intros (N & E1 & E2). destruct (Req_dec s 0) as [Z|Z].
    + assert (P0 : p = 0) by nra. assert (Q0 : q = 0) by nra. unfold tx, ty. rewrite P0, Q0. f_equal; ring.
    + exfalso. assert (N3 : a * a + b * b = r * r).
      { apply (Rmult_eq_reg_l (s * s)); [|nra]. replace (s * s * (a * a + b * b)) with ((s * a) * (s * a) + (s * b) * (s * b)) by ring. rewrite E1, E2, Hss. ring. }
      assert (E3 : s * tx = - (r + k * s) * p) by (unfold tx; nra). assert (E4 : s * ty = - (r + k * s) * q) by (unfold ty; nra).
      assert (Q : (s * s) * (n * n) = (s * s) * ((r + k * s) * (r + k * s))).
      { rewrite Hnn. replace (s * s * (tx * tx + ty * ty)) with ((s * tx) * (s * tx) + (s * ty) * (s * ty)) by ring. rewrite E3, E4, Hss. ring. }
      apply Rmult_eq_reg_l in Q; [|nra]. assert (0 < k * s) by (apply Rmult_lt_0_compat; lra). nra.
Qed.

Section PGS.
Context (n : nat) (G : nat -> nat -> R) (g : rvec) (w : R).
Definition pcx (mu : R) (r : nat) (x : rvec) : rvec := fst (fst (pgsContact n G g w mu r x)).
(* the force of the contact after the step *)
Definition pcFz (r : nat) (x : rvec) : R := Rmax 0 (x (r + 2)%nat - w / G (r + 2)%nat (r + 2)%nat * contactVel n G g x (r + 2)%nat).
Definition pcVel (r : nat) (x : rvec) (i : nat) : R := contactVel n G g x (r + i)%nat + (pcFz r x - x (r + 2)%nat) * G (r + i)%nat (r + 2)%nat.
Definition pcT (r : nat) (x : rvec) (i : nat) : R := x (r + i)%nat - w / Rmin (G r r) (G (r + 1)%nat (r + 1)%nat) * pcVel r x i.
Definition pcF (mu : R) (r : nat) (x : rvec) : V3 := let t := disc (mu * pcFz r x) (pcT r x 0) (pcT r x 1) in mkV3 (fst t) (snd t) (pcFz r x).
Lemma pcx_eq mu r x : pcx mu r x = putSeg3 x r (pcF mu r x).
Proof.
  unfold pcx, pgsContact. cbv zeta. cbn [fst]. f_equal. unfold pcF, disc, pcT, pcVel, pcFz, contactVel, mulv, v3add, v3scale. cbn [vx vy vz]. rewrite !Nat.add_0_r. destruct (Rlt_dec _ _); reflexivity.
Qed.
Lemma disc_in r tx ty : 0 <= r -> sqrt (fst (disc r tx ty) ^ 2 + snd (disc r tx ty) ^ 2) <= r.
Proof.
  intros Hr. unfold disc. set (m := sqrt (tx * tx + ty * ty)). assert (Hm : 0 <= m) by apply sqrt_pos. assert (Hmm : m * m = tx * tx + ty * ty) by (apply sqrt_sqrt; nra).
  destruct (Rlt_dec r m) as [L|L]; cbn [fst snd].
  - right. apply sqrt_eq_sq; [exact Hr|]. transitivity ((r / m) * (r / m) * (m * m)); [rewrite Hmm; ring | field; lra].
  - apply sqrt_le_sq; [exact Hr | nra].
Qed.
Lemma pcF_cone mu r x : 0 <= mu -> inCone mu (pcF mu r x).
Proof.
  intros Hm. assert (H0 : 0 <= pcFz r x) by apply Rmax_l. apply inCone_iff; [exact Hm|]. cbn [vz pcF]. unfold pcF, tnorm. cbn [vx vy vz]. split; [exact H0|].
  pose proof (disc_in (mu * pcFz r x) (pcT r x 0) (pcT r x 1) (Rmult_le_pos _ _ Hm H0)) as D. cbn [pow] in D. rewrite !Rmult_1_r in D. exact D.
Qed.
Lemma pcF_fixed mu r x : 0 <= mu -> 0 < w -> 0 < G r r -> 0 < G (r + 1)%nat (r + 1)%nat -> 0 < G (r + 2)%nat (r + 2)%nat ->
  (pcF mu r x = seg3 x r <-> coulomb mu (seg3 x r) (seg3 (contactVel n G g x) r)).
Proof.
  intros Hm Hw G0 G1 G2. unfold pcF, seg3, coulomb. cbn [vx vy vz].
  assert (C1 : 0 < w / G (r + 2)%nat (r + 2)%nat) by (apply Rdiv_lt_0_compat; lra). assert (C2 : 0 < w / Rmin (G r r) (G (r + 1)%nat (r + 1)%nat)) by (apply Rdiv_lt_0_compat; [lra | now apply Rmin_glb_lt]).
  pose proof (normal_fixed _ (x (r + 2)%nat) (contactVel n G g x (r + 2)%nat) C1) as Nf. fold (pcFz r x) in Nf.
  assert (T : pcFz r x = x (r + 2)%nat -> forall i, pcT r x i = x (r + i)%nat - w / Rmin (G r r) (G (r + 1)%nat (r + 1)%nat) * contactVel n G g x (r + i)%nat).
  { intros E i. unfold pcT, pcVel. rewrite E. ring. }
  split.
  - intros E. injection E as E1 E2 E3. destruct (proj1 Nf E3) as (A & B & D). specialize (T E3). rewrite !T, E3, Nat.add_0_r in E1, E2.
    destruct (proj1 (tangent_fixed (mu * x (r + 2)%nat) _ (x r) (x (r + 1)%nat) (contactVel n G g x r) (contactVel n G g x (r + 1)%nat) (Rmult_le_pos _ _ Hm A) C2)) as (F & H1 & H2).
    { rewrite (surjective_pairing (disc _ _ _)), E1, E2. reflexivity. }
    repeat split; assumption.
  - intros (A & B & D & F & H1 & H2). pose proof (proj2 Nf (conj A (conj B D))) as E3. specialize (T E3).
    rewrite !T, E3, Nat.add_0_r. rewrite (proj2 (tangent_fixed (mu * x (r + 2)%nat) _ (x r) (x (r + 1)%nat) (contactVel n G g x r) (contactVel n G g x (r + 1)%nat) (Rmult_le_pos _ _ Hm A) C2) (conj F (conj H1 H2))). reflexivity.
Qed.

Fixpoint psx (mus : list R) (r : nat) (x : rvec) : rvec := match mus with [] => x | mu :: mus => psx mus (r + 3) (pcx mu r x) end.
Lemma sweep_x mus : forall r x c d, fst (fst (pgsSweep n G g w mus r (x, c, d))) = psx mus r x.
Proof.
  induction mus as [|mu mus IH]; intros r x c d; cbn [pgsSweep psx]; [reflexivity|]. unfold pcx. destruct (pgsContact n G g w mu r x) as [[x' c'] d']. cbn [fst]. apply IH.
Qed.
Lemma psx_off mus : forall r x k, (k < r \/ r + 3 * length mus <= k)%nat -> psx mus r x k = x k.
Proof.
  induction mus as [|mu mus IH]; intros r x k H; cbn [psx]; [reflexivity|]. cbn [length] in H. rewrite IH by lia. rewrite pcx_eq. apply put_off. lia.
Qed.
Lemma seg_psx_off mus r x s : (s + 3 <= r)%nat -> seg3 (psx mus r x) s = seg3 x s.
Proof. intros H. unfold seg3. now rewrite !psx_off by lia. Qed.
Lemma psx_cone mus : forall r x i, (i < length mus)%nat -> 0 <= nth i mus 0 -> inCone (nth i mus 0) (seg3 (psx mus r x) (r + 3 * i)).
Proof.
  induction mus as [|mu mus IH]; intros r x i Hi Hm; cbn [length] in Hi; [lia|]. cbn [psx]. destruct i as [|i]; cbn [nth] in *.
  - rewrite Nat.mul_0_r, Nat.add_0_r. rewrite seg_psx_off by lia. rewrite pcx_eq, put_at. now apply pcF_cone.
  - replace (r + 3 * S i)%nat with (r + 3 + 3 * i)%nat by lia. apply IH; [lia | exact Hm].
Qed.
Lemma psx_fixed mus (Hw : 0 < w) : forall r x,
  (forall i, (i < length mus)%nat -> 0 <= nth i mus 0) -> (forall k, (r <= k < r + 3 * length mus)%nat -> 0 < G k k) ->
  (psx mus r x = x <-> forall i, (i < length mus)%nat -> coulomb (nth i mus 0) (seg3 x (r + 3 * i)) (seg3 (contactVel n G g x) (r + 3 * i))).
Proof.
  induction mus as [|mu mus IH]; intros r x Hm HG; cbn [length psx] in *; [split; [intros _ i Hi; lia | reflexivity]|].
  assert (Hmu : 0 <= mu) by (apply (Hm 0%nat); lia).
  pose proof (pcF_fixed mu r x Hmu Hw (HG r ltac:(lia)) (HG (r + 1)%nat ltac:(lia)) (HG (r + 2)%nat ltac:(lia))) as PF.
  assert (IH' := IH (r + 3)%nat x (fun i Hi => Hm (S i) (proj1 (Nat.succ_lt_mono _ _) Hi)) (fun k Hk => HG k ltac:(lia))).
  split.
  - intros E. assert (E1 : pcF mu r x = seg3 x r).
    { rewrite <- (put_at x r (pcF mu r x)), <- pcx_eq. rewrite <- (seg_psx_off mus (r + 3) (pcx mu r x) r) by lia. now rewrite E. }
    assert (E2 : pcx mu r x = x) by (rewrite pcx_eq, E1; apply put_same). rewrite E2 in E.
    intros [|i] Hi; cbn [nth]; [rewrite Nat.mul_0_r, Nat.add_0_r; now apply PF|]. replace (r + 3 * S i)%nat with (r + 3 + 3 * i)%nat by lia. apply IH'; [exact E | lia].
  - intros H. assert (E2 : pcx mu r x = x).
    { rewrite pcx_eq. rewrite (proj2 PF); [apply put_same|]. specialize (H 0%nat ltac:(lia)). rewrite Nat.mul_0_r, Nat.add_0_r in H. exact H. }
    rewrite E2. apply IH'. intros i Hi. specialize (H (S i) ltac:(lia)). cbn [nth] in H. replace (r + 3 * S i)%nat with (r + 3 + 3 * i)%nat in H by lia. exact H.
Qed.

Lemma normInf_pos k x : 0 <= normInf k x.
Proof. induction k; cbn [normInf]; [lra | eapply Rle_trans; [exact IHk | apply Rmax_l]]. Qed.
Lemma normInf_le k x i : (i < k)%nat -> Rabs (x i) <= normInf k x.
Proof.
  induction k as [|k IH]; intros H; cbn [normInf]; [lia|]. destruct (Nat.eq_dec i k) as [->|]; [apply Rmax_r | eapply Rle_trans; [apply IH; lia | apply Rmax_l]].
Qed.
Lemma normInf_lub k x b : 0 <= b -> (forall i, (i < k)%nat -> Rabs (x i) <= b) -> normInf k x <= b.
Proof. intros Hb. induction k as [|k IH]; intros H; cbn [normInf]; [exact Hb | apply Rmax_lub; [apply IH; intros; apply H; lia | apply H; lia]]. Qed.
Lemma normInf_zero k x : normInf k x = 0 <-> forall i, (i < k)%nat -> x i = 0.
Proof.
  split.
  - intros E i Hi. pose proof (normInf_le k x i Hi). pose proof (Rabs_pos (x i)). destruct (Req_dec (x i) 0) as [|N]; [assumption|]. apply Rabs_pos_lt in N. lra.
  - intros H. apply Rle_antisym; [apply normInf_lub; [lra | intros i Hi; rewrite H, Rabs_R0 by exact Hi; lra] | apply normInf_pos].
Qed.

(* what is known of the result of the loop *)
Definition lastSweep (mus : list R) (x : rvec) (l : R * R) : Prop :=
  exists xp c d, pgsSweep n G g w mus 0 (xp, 0, 0) = (x, c, d) /\ fst l = Rmax c d /\ snd l = normInf n (fun k => x k - xp k).
Lemma loop_last absp relp mus : forall fuel it x xpn l, (fuel <> 0%nat \/ lastSweep mus x l) ->
  let o := pgsLoop n G g w absp relp mus fuel it x xpn l in
  lastSweep mus (so_x o) (so_abs o, so_rel o) /\ (so_it o <= it + fuel)%nat /\ (so_ok o = false -> so_it o = (it + fuel)%nat) /\ (so_ok o = true -> (so_it o < it + fuel)%nat).
Proof.
  induction fuel as [|fuel IH]; intros it x xpn l H o.
  - destruct H as [H|H]; [congruence|]. subst o. cbn [pgsLoop so_x so_abs so_rel so_ok so_it]. rewrite <- surjective_pairing. split; [exact H|]. split; [lia|]. split; [lia | discriminate].
  - subst o. cbn [pgsLoop]. destruct (pgsSweep n G g w mus 0 (x, 0, 0)) as [[x' c] d] eqn:E. cbv zeta.
    assert (L : lastSweep mus x' (Rmax c d, normInf n (fun k => x' k - x k))) by (exists x, c, d; cbn [fst snd]; auto).
    destruct (orb _ _).
    + cbn [so_x so_abs so_rel so_it so_ok]. split; [exact L|]. split; [lia|]. split; [discriminate | lia].
    + destruct (IH (it + 1)%nat x' (normInf n x') (Rmax c d, normInf n (fun k => x' k - x k)) (or_intror L)) as (A & B & D & F). split; [exact A|]. split; [lia|]. split; [intros E'; rewrite D by exact E'; lia | intros E'; specialize (F E'); lia].
Qed.
(* the reason for which the loop answers true *)
Lemma loop_true absp relp mus : forall fuel it x xpn l, xpn = normInf n x ->
  let o := pgsLoop n G g w absp relp mus fuel it x xpn l in so_ok o = true ->
  so_abs o <= absp \/ exists xp, so_x o = psx mus 0 xp /\ so_rel o = normInf n (fun k => so_x o k - xp k) /\ so_rel o <= relp * Rmax (normInf n (so_x o)) (normInf n xp).
Proof.
  induction fuel as [|fuel IH]; intros it x xpn l Hn; cbn [pgsLoop]; [cbn; discriminate|].
  destruct (pgsSweep n G g w mus 0 (x, 0, 0)) as [[x' c] d] eqn:E. cbv zeta.
  assert (Ex : x' = psx mus 0 x) by (rewrite <- (sweep_x mus 0 x 0 0), E; reflexivity).
  destruct (Rle_dec c absp) as [C|C]; [destruct (Rle_dec d absp) as [D|D]|]; cbn [orb].
  - intros _. left. cbn [so_abs]. now apply Rmax_lub.
  - destruct (Rle_dec _ _) as [P|P]; intros Ho.
    + right. exists x. cbn [so_x so_rel so_it] in *. rewrite <- Hn. auto.
    + exact (IH _ _ _ _ eq_refl Ho).
  - destruct (Rle_dec _ _) as [P|P]; intros Ho.
    + right. exists x. cbn [so_x so_rel so_it] in *. rewrite <- Hn. auto.
    + exact (IH _ _ _ _ eq_refl Ho).
Qed.

Lemma loop_cone absp relp mus fuel x xpn l i : fuel <> 0%nat -> (i < length mus)%nat -> 0 <= nth i mus 0 ->
  inCone (nth i mus 0) (seg3 (so_x (pgsLoop n G g w absp relp mus fuel 0 x xpn l)) (3 * i)).
Proof.
  intros Hf Hi Hm. destruct (loop_last absp relp mus fuel 0 x xpn l (or_introl Hf)) as ((xp & c & d & E & _ & _) & _).
  pose proof (psx_cone mus 0 xp i Hi Hm) as H. rewrite <- (sweep_x mus 0 xp 0 0), E in H. exact H.
Qed.
Lemma psx_eq mus x xp : (3 * length mus <= n)%nat -> x = psx mus 0 xp -> normInf n (fun k => x k - xp k) = 0 -> x = xp.
Proof.
  intros Hn E Z. extensionality k. destruct (Nat.lt_ge_cases k n) as [L|L].
  - rewrite normInf_zero in Z. specialize (Z k L). cbn beta in Z. lra.
  - rewrite E. apply psx_off. lia.
Qed.
Lemma loop_solution absp relp mus fuel x xpn l : fuel <> 0%nat -> (3 * length mus <= n)%nat -> 0 < w ->
  (forall i, (i < length mus)%nat -> 0 <= nth i mus 0) -> (forall k, (k < 3 * length mus)%nat -> 0 < G k k) ->
  let o := pgsLoop n G g w absp relp mus fuel 0 x xpn l in
  so_rel o = 0 -> contactSolution n G g mus (so_x o).
Proof.
  intros Hf Hn Hw Hm HG o Z. destruct (loop_last absp relp mus fuel 0 x xpn l (or_introl Hf)) as ((xp & c & d & E & _ & Er) & _). fold o in E, Er. cbn [snd] in Er. rewrite Z in Er. symmetry in Er.
  assert (Ex : so_x o = psx mus 0 xp) by (rewrite <- (sweep_x mus 0 xp 0 0), E; reflexivity).
  pose proof (psx_eq mus _ _ Hn Ex Er) as Exp. rewrite Exp. rewrite Exp in Ex. symmetry in Ex. revert Ex. intros Ex i Hi.
  exact (proj1 (psx_fixed mus Hw 0 xp Hm (fun k Hk => HG k ltac:(lia))) Ex i Hi).
Qed.
Lemma loop_warm absp relp mus fuel x l : fuel <> 0%nat -> 0 < w -> 0 <= relp ->
  (forall i, (i < length mus)%nat -> 0 <= nth i mus 0) -> (forall k, (k < 3 * length mus)%nat -> 0 < G k k) ->
  contactSolution n G g mus x ->
  let o := pgsLoop n G g w absp relp mus fuel 0 x (normInf n x) l in
  so_ok o = true /\ so_x o = x /\ so_it o = 0%nat /\ so_rel o = 0.
Proof.
  intros Hf Hw Hr Hm HG S. destruct fuel as [|fuel]; [congruence|]. cbn [pgsLoop].
  assert (Ex : psx mus 0 x = x) by (apply (psx_fixed mus Hw 0 x Hm (fun k Hk => HG k ltac:(lia))); exact S).
  rewrite <- (sweep_x mus 0 x 0 0) in Ex. destruct (pgsSweep n G g w mus 0 (x, 0, 0)) as [[x' c] d]. cbn [fst] in Ex. subst x'. cbv zeta.
  assert (Z : normInf n (fun k => x k - x k) = 0) by (apply normInf_zero; intros; lra). rewrite Z.
  destruct (Rle_dec 0 (relp * Rmax (normInf n x) (normInf n x))) as [H|H].
  - rewrite Bool.orb_true_r. cbn. auto.
  - exfalso. apply H. apply Rmult_le_pos; [exact Hr | eapply Rle_trans; [apply normInf_pos | apply Rmax_l]].
Qed.
End PGS.

(* the stopping criterion: a contact without tangential force nor velocity *)
Lemma pgs_vertical n G g w mu r x : 0 <= mu ->
  x r = 0 -> x (r + 1)%nat = 0 -> contactVel n G g x r = 0 -> contactVel n G g x (r + 1)%nat = 0 -> G r (r + 2)%nat = 0 -> G (r + 1)%nat (r + 2)%nat = 0 ->
  pgsContact n G g w mu r x = (putSeg3 x r (mkV3 0 0 (pcFz n G g w r x)), 0, 0).
Proof.
  intros Hm X0 X1 V0 V1 G0 G1. unfold pgsContact. unfold contactVel in V0, V1. unfold mulv, v3add, v3scale. cbn [vx vy vz]. rewrite V0, V1, X0, X1, G0, G1.
  fold (contactVel n G g x (r + 2)%nat). fold (pcFz n G g w r x). set (z := pcFz n G g w r x). assert (Hz : 0 <= z) by apply Rmax_l. cbv zeta.
  set (q := w / Rmin _ _). replace (0 - q * (0 + (z - x (r + 2)%nat) * 0)) with 0 by ring. rewrite Rmult_0_r, Rplus_0_r, sqrt_0.
  destruct (Rlt_dec (mu * z) 0) as [L|L]; [exfalso; assert (0 <= mu * z) by (now apply Rmult_le_pos); lra|].
  cbn [vx vy vz]. rewrite !Rminus_0_r, !Rmult_0_r, !Rplus_0_r.
  assert (N : computeNormalCorrection mu (mkV3 0 0 0) = mkV3 0 0 0).
  { unfold computeNormalCorrection, tnorm. cbn [vx vy vz]. rewrite !Rmult_0_r, !Rplus_0_r, sqrt_0. f_equal; ring. }
  assert (P : projectDual mu (mkV3 0 0 0) = mkV3 0 0 0).
  { unfold projectDual, tnorm. cbn [vx vy vz]. rewrite !Rmult_0_r, !Rplus_0_r, sqrt_0. destruct (Rle_dec 0 0) as [_|H]; [reflexivity | exfalso; apply H; lra]. }
  unfold computeContactComplementarity. rewrite N. cbn [v3add vx vy vz]. unfold v3add. cbn [vx vy vz]. rewrite !Rplus_0_r, P.
  assert (Z1 : v3dot (mkV3 0 0 z) (mkV3 0 0 0) = 0) by (unfold v3dot; cbn [vx vy vz]; ring). rewrite Z1, Rabs_R0.
  assert (Z2 : v3norm (v3sub (mkV3 0 0 0) (mkV3 0 0 0)) = 0) by (unfold v3norm, v3norm2, v3sub, v3dot; cbn [vx vy vz]; replace (_ + _) with 0 by ring; exact sqrt_0). rewrite Z2. reflexivity.
Qed.
(* two contact points on one body: pushing one of them moves the other *)
Definition wG (i j : nat) : R := match i, j with 2%nat, 2%nat | 5%nat, 5%nat => 2 | 2%nat, 5%nat | 5%nat, 2%nat => 1 | _, _ => if Nat.eqb i j then 1 else 0 end.
Definition wg (i : nat) : R := match i with 2%nat | 5%nat => -1 | _ => 0 end.
Definition wx1 : rvec := putSeg3 (fun _ => 0) 0 (mkV3 0 0 (1 / 2)).
Definition wx2 : rvec := putSeg3 wx1 3 (mkV3 0 0 (1 / 4)).
Lemma wc1 : pgsContact 6 wG wg 1 1 0 (fun _ => 0) = (wx1, 0, 0).
Proof.
  rewrite pgs_vertical; [| lra | reflexivity | reflexivity | unfold contactVel, sumN, wG, wg; cbn; lra | unfold contactVel, sumN, wG, wg; cbn; lra | reflexivity | reflexivity].
  assert (E1 : pcFz 6 wG wg 1 0 (fun _ => 0) = 1 / 2) by (unfold pcFz, contactVel, sumN, wG, wg; cbn; rewrite Rmax_right; lra). now rewrite E1.
Qed.
Lemma wc2 : pgsContact 6 wG wg 1 1 3 wx1 = (wx2, 0, 0).
Proof.
  rewrite pgs_vertical; [| lra | reflexivity | reflexivity | unfold contactVel, sumN, wG, wg, wx1, putSeg3; cbn; lra | unfold contactVel, sumN, wG, wg, wx1, putSeg3; cbn; lra | reflexivity | reflexivity].
  assert (E1 : pcFz 6 wG wg 1 3 wx1 = 1 / 4) by (unfold pcFz, contactVel, sumN, wG, wg, wx1, putSeg3; cbn; rewrite Rmax_right by lra; lra). now rewrite E1.
Qed.
Lemma wsweep : pgsSweep 6 wG wg 1 [1; 1] 0 ((fun _ => 0) : rvec, 0, 0) = (wx2, 0, 0).
Proof. cbn [pgsSweep Nat.add]. rewrite wc1. change (0 + 3)%nat with 3%nat. rewrite wc2. now rewrite !(Rmax_left 0 0 (Rle_refl 0)). Qed.
Lemma wbad : ~ contactSolution 6 wG wg [1; 1] wx2.
Proof.
  intros C. assert (L : (0 < length [1; 1])%nat) by (cbn; lia). destruct (C 0%nat L) as (_ & _ & D & _). unfold seg3, contactVel, sumN, wG, wg, wx2, wx1, putSeg3 in D. cbn in D. lra.
Qed.
Lemma wloop fuel : exists o, pgsLoop 6 wG wg 1 0 0 [1; 1] (S fuel) 0 (fun _ => 0) (normInf 6 (fun _ => 0)) (0, 0) = o /\ so_ok o = true /\ so_abs o = 0 /\ so_x o = wx2.
Proof.
  eexists. split; [reflexivity|]. unfold pgsLoop at 1 2 3. fold pgsLoop. rewrite wsweep. destruct (Rle_dec 0 0) as [_|N]; [|exfalso; lra]. cbn [orb so_ok so_abs so_x]. rewrite Rmax_left by lra. auto.
Qed.
Lemma pgs_witness max_it : (1 <= max_it)%nat -> exists o, pgsSolve 6 max_it 0 0 wG wg [1; 1] (fun _ => 0) 1 = Ok tt o /\ so_ok o = true /\ so_abs o = 0 /\ ~ contactSolution 6 wG wg [1; 1] (so_x o).
Proof.
  intros H. destruct max_it as [|f]; [lia|]. unfold pgsSolve. destruct (Rlt_dec 1 2) as [_|N]; [|exfalso; lra]. destruct (Rlt_dec 0 1) as [_|N]; [|exfalso; lra].
  change (orb (Nat.ltb 6 (3 * length [1; 1])) (Nat.eqb (S f) 0)) with false. cbn iota. destruct (wloop f) as (o & E & A & B & C). exists o. rewrite E. split; [reflexivity|]. split; [exact A|]. split; [exact B|]. rewrite C. exact wbad.
Qed.
