(* Impulses: the iteration, its fixed points, the loop. *)
Require Import Reals List Arith Lia Lra Bool FunctionalExtensionality.
From Verif Require Import Vec3 Model Sums Cone Spec_Cone ConeFacts Contact Spec_Contact ContactFacts ContactFacts2 ContactInv Spec_ContactInv.
Import ListNotations.
Local Open Scope R_scope.

Lemma cone_add mu a b : 0 <= mu -> inCone mu a -> inCone mu b -> inCone mu (v3add a b).
Proof.
  intros Hm Ha Hb. pose proof (proj1 (inCone_iff mu a Hm) Ha) as [A1 A2]. pose proof (proj1 (inCone_iff mu b Hm) Hb) as [B1 B2]. destruct Ha as [_ A3]. destruct Hb as [_ B3].
  unfold inCone, v3add. cbn [vx vy vz]. split; [lra|]. pose proof (tnorm_cs a b) as C. pose proof (tnorm_pos a) as Pa. pose proof (tnorm_pos b) as Pb.
  assert (D : tnorm a * tnorm b <= (mu * vz a) * (mu * vz b)) by (apply Rmult_le_compat; assumption). replace ((vx a + vx b) ^ 2 + (vy a + vy b) ^ 2) with ((vx a ^ 2 + vy a ^ 2) + (vx b ^ 2 + vy b ^ 2) + 2 * (vx a * vx b + vy a * vy b)) by ring.
  replace ((mu * (vz a + vz b)) ^ 2) with ((mu * vz a) ^ 2 + (mu * vz b) ^ 2 + 2 * ((mu * vz a) * (mu * vz b))) by ring. lra.
Qed.
Lemma cone_scale mu a t : 0 <= t -> inCone mu a -> inCone mu (v3scale t a).
Proof.
  intros Ht [A B]. unfold inCone, v3scale. cbn [vx vy vz]. split; [now apply Rmult_le_pos|]. replace ((t * vx a) ^ 2 + (t * vy a) ^ 2) with (t ^ 2 * (vx a ^ 2 + vy a ^ 2)) by ring. replace ((mu * (t * vz a)) ^ 2) with (t ^ 2 * (mu * vz a) ^ 2) by ring.
  apply Rmult_le_compat_l; [apply pow2_ge_0 | exact B].
Qed.
Definition wdot (r a b : V3) : R := vx r * vx a * vx b + vy r * vy a * vy b + vz r * vz a * vz b.
Lemma wdist_move r x p f t : wdist2 r x (v3add p (v3scale t f)) = wdist2 r x p - 2 * t * wdot r (v3sub x p) f + t ^ 2 * wdot r f f.
Proof. unfold wdist2, wdot, v3sub, v3add, v3scale. cbn [vx vy vz]. ring. Qed.
Lemma wdot_pos r f : 0 < vx r -> 0 < vy r -> 0 < vz r -> 0 <= wdot r f f.
Proof.
  intros. unfold wdot. replace (vx r * vx f * vx f + vy r * vy f * vy f + vz r * vz f * vz f) with (vx r * (vx f) ^ 2 + vy r * vy f ^ 2 + vz r * vz f ^ 2) by ring. pose proof (pow2_ge_0 (vx f)). pose proof (pow2_ge_0 (vy f)). pose proof (pow2_ge_0 (vz f)).
  assert (0 <= vx r * vx f ^ 2) by (apply Rmult_le_pos; lra). assert (0 <= vy r * vy f ^ 2) by (apply Rmult_le_pos; lra). assert (0 <= vz r * vz f ^ 2) by (apply Rmult_le_pos; lra). lra.
Qed.
Lemma quad_le s N : 0 <= N -> (forall t, 0 <= t -> 0 <= - 2 * t * s + t ^ 2 * N) -> s <= 0.
Proof.
  intros HN H. destruct (Rle_lt_dec s 0) as [|L]; [assumption|]. exfalso. assert (P : 0 < N + 1) by lra. specialize (H (s / (N + 1)) ltac:(apply Rlt_le, Rdiv_lt_0_compat; lra)).
  replace (-2 * (s / (N + 1)) * s + (s / (N + 1)) ^ 2 * N) with (- ((s / (N + 1)) ^ 2 * (N + 2))) in H by (field; lra).
  assert (0 < (s / (N + 1)) ^ 2) by (apply pow_lt, Rdiv_lt_0_compat; lra). assert (0 < (s / (N + 1)) ^ 2 * (N + 2)) by (apply Rmult_lt_0_compat; lra). lra.
Qed.
Lemma quad_ge s N : 0 <= N -> (forall t, 0 <= t <= 1 -> 0 <= 2 * t * s + t ^ 2 * N) -> 0 <= s.
Proof.
  intros HN H. destruct (Rle_lt_dec 0 s) as [|L]; [assumption|]. exfalso. set (D := N + 1 - s). assert (P : 0 < D) by (unfold D; lra). assert (Q : 0 < - s / D) by (apply Rdiv_lt_0_compat; lra).
  assert (Q1 : - s / D <= 1). { apply (Rmult_le_reg_r D); [exact P|]. unfold Rdiv. rewrite Rmult_assoc, Rinv_l by lra. unfold D. lra. }
  specialize (H (- s / D) (conj (Rlt_le _ _ Q) Q1)). replace (2 * (- s / D) * s + (- s / D) ^ 2 * N) with (- ((- s / D) * ((- s / D) * (N + 2 - 2 * s)))) in H by (unfold D; field; unfold D in P; lra).
  assert (0 < (- s / D) * ((- s / D) * (N + 2 - 2 * s))) by (apply Rmult_lt_0_compat; [exact Q | apply Rmult_lt_0_compat; lra]). lra.
Qed.
Lemma weighted_vi mu x r : 0 <= mu -> 0 < vx r -> vy r = vx r -> 0 < vz r -> let p := weightedProject mu x r in
  inCone mu p /\ (forall f, inCone mu f -> wdot r (v3sub x p) f <= 0) /\ wdot r (v3sub x p) p = 0.
Proof.
  intros Hm Hr Hy Hz p. destruct (weighted_nearest mu x r Hm Hr Hy Hz) as (K & N & _). fold p in K, N.
  assert (V : forall f, inCone mu f -> wdot r (v3sub x p) f <= 0).
  { intros f Hf. apply (quad_le _ (wdot r f f)); [apply wdot_pos; lra|]. intros t Ht. specialize (N _ (cone_add mu p _ Hm K (cone_scale mu f t Ht Hf))). rewrite wdist_move in N. lra. }
  split; [exact K|]. split; [exact V|]. apply Rle_antisym; [now apply V|]. apply (quad_ge _ (wdot r p p)); [apply wdot_pos; lra|]. intros t Ht.
  assert (Hp : inCone mu (v3add p (v3scale (- t) p))). { replace (v3add p (v3scale (- t) p)) with (v3scale (1 - t) p) by (unfold v3add, v3scale; cbn [vx vy vz]; f_equal; ring). apply cone_scale; [lra | exact K]. }
  specialize (N _ Hp). rewrite wdist_move in N. replace ((- t) ^ 2) with (t ^ 2) in N by ring. lra.
Qed.
Lemma weighted_eq mu x r p : 0 <= mu -> 0 < vx r -> vy r = vx r -> 0 < vz r ->
  inCone mu p -> (forall f, inCone mu f -> wdot r (v3sub x p) f <= 0) -> wdot r (v3sub x p) p = 0 -> weightedProject mu x r = p.
Proof.
  intros Hm Hr Hy Hz K V Z. destruct (weighted_nearest mu x r Hm Hr Hy Hz) as (K' & N & U). symmetry. apply U; [exact K|]. set (o := weightedProject mu x r) in *.
  apply Rle_antisym; [|now apply N]. specialize (V o K'). set (e := v3sub o p). assert (E : o = v3add p (v3scale 1 e)) by (apply v3_ext; unfold e, v3add, v3scale, v3sub; cbn [vx vy vz]; ring).
  rewrite E, wdist_move. pose proof (wdot_pos r e Hr ltac:(lra) Hz). assert (F : wdot r (v3sub x p) e = wdot r (v3sub x p) o - wdot r (v3sub x p) p) by (unfold wdot, e, v3sub; cbn [vx vy vz]; ring). rewrite F. lra.
Qed.

Definition had (a b : V3) : V3 := mkV3 (vx a * vx b) (vy a * vy b) (vz a * vz b).
(* the velocity, with its normal correction and what the proximal term adds *)
Definition ciDual (mu p : R) (c r x xp o : V3) : V3 := v3add (v3add (v3add c (had r o)) (computeNormalCorrection mu (v3add c (had r x)))) (v3scale p (v3sub o xp)).
Section Seg.
Variables (mu p : R) (c r : V3).
Hypothesis Hm : 0 <= mu.
Hypothesis Hy : vy r = vx r.
Hypothesis Hx : 0 < vx r + p.
Hypothesis Hz : 0 < vz r + p.
Let rp := v3add r (mkV3 p p p).
Lemma ci_res x xp o f : let u := v3sub (v3add c (computeNormalCorrection mu (v3add c (had r x)))) (v3scale p xp) in
  wdot rp (v3sub (v3opp (mkV3 (vx u / vx rp) (vy u / vy rp) (vz u / vz rp))) o) f = - v3dot f (ciDual mu p c r x xp o).
Proof.
  intros u. unfold wdot, ciDual, v3sub, v3opp, v3dot, v3add, v3scale, had, rp, computeNormalCorrection in *. unfold u, v3sub, v3add, v3scale, computeNormalCorrection, had. cbn [vx vy vz] in *. field. repeat split; lra.
Qed.
Lemma ci_step x xp : let o := ciSeg mu p c r x xp in inCone mu o /\ inDual mu (ciDual mu p c r x xp o) /\ v3dot o (ciDual mu p c r x xp o) = 0.
Proof.
  intros o. set (u := v3sub (v3add c (computeNormalCorrection mu (v3add c (had r x)))) (v3scale p xp)).
  destruct (weighted_vi mu (v3opp (mkV3 (vx u / vx rp) (vy u / vy rp) (vz u / vz rp))) rp Hm) as (K & V & Z); try (unfold rp, v3add; cbn [vx vy vz]; lra).
  change (weightedProject mu (v3opp (mkV3 (vx u / vx rp) (vy u / vy rp) (vz u / vz rp))) rp) with o in *. split; [exact K|]. split.
  - intros f Hf. specialize (V f Hf). unfold u in V. rewrite ci_res in V. lra.
  - unfold u in Z. rewrite ci_res in Z. lra.
Qed.
Lemma ci_fixed x : ciSeg mu p c r x x = x <-> coulomb mu x (v3add c (had r x)).
Proof.
  assert (E : ciDual mu p c r x x x = v3add (v3add c (had r x)) (computeNormalCorrection mu (v3add c (had r x)))) by (unfold ciDual, v3add, v3scale, v3sub; cbn [vx vy vz]; f_equal; ring).
  rewrite <- (desaxce mu x _ Hm), <- E. split.
  - intros F. pose proof (ci_step x x) as H. cbv zeta in H. rewrite F in H. exact H.
  - intros (K & D & O). unfold ciSeg. cbv zeta. apply weighted_eq; try (unfold v3add; cbn [vx vy vz]; lra); [exact K| |].
    + intros f Hf. pose proof (ci_res x x x f) as Q. cbv zeta in Q. unfold rp, had in Q. rewrite Q. specialize (D f Hf). unfold had in *. lra.
    + pose proof (ci_res x x x x) as Q. cbv zeta in Q. unfold rp, had in Q. rewrite Q. unfold had in O. rewrite O. ring.
Qed.
End Seg.

Section Loop.
Variables (p rel : R) (c Rv : rvec).
Lemma sweep_off xp mus : forall r x k, (k < r \/ r + 3 * length mus <= k)%nat -> ciSweep p c Rv xp mus r x k = x k.
Proof. induction mus as [|mu mus IH]; intros r x k H; cbn [ciSweep length] in *; [reflexivity|]. rewrite IH by lia. apply put_off. lia. Qed.
Lemma sweep_at xp mus : forall r x i, (i < length mus)%nat ->
  seg3 (ciSweep p c Rv xp mus r x) (r + 3 * i) = ciSeg (nth i mus 0) p (seg3 c (r + 3 * i)) (seg3 Rv (r + 3 * i)) (seg3 x (r + 3 * i)) (seg3 xp (r + 3 * i)).
Proof.
  induction mus as [|mu mus IH]; intros r x [|i] H; cbn [ciSweep length nth] in *; try lia.
  - rewrite Nat.mul_0_r, Nat.add_0_r. transitivity (seg3 (putSeg3 x r (ciSeg mu p (seg3 c r) (seg3 Rv r) (seg3 x r) (seg3 xp r))) r); [|apply put_at]. unfold seg3 at 1. rewrite !sweep_off by lia. reflexivity.
  - replace (r + 3 * S i)%nat with (r + 3 + 3 * i)%nat by lia. rewrite IH by lia. f_equal. apply seg_off. lia.
Qed.
Lemma sweep_fixed mus x : (forall i, (i < length mus)%nat -> seg3 (ciSweep p c Rv x mus 0 x) (3 * i) = seg3 x (3 * i)) -> ciSweep p c Rv x mus 0 x = x.
Proof.
  intros H. extensionality k. destruct (Nat.lt_ge_cases k (3 * length mus)) as [L|L]; [|apply sweep_off; lia].
  set (i := (k / 3)%nat). pose proof (Nat.div_mod k 3 ltac:(lia)) as D. pose proof (Nat.mod_upper_bound k 3 ltac:(lia)) as B. fold i in D. specialize (H i ltac:(lia)). unfold seg3 in H. injection H as H0 H1 H2.
  assert (E : (k = 3 * i \/ k = 3 * i + 1 \/ k = 3 * i + 2)%nat) by lia. clearbody i. destruct E as [E | [E | E]]; rewrite E; assumption.
Qed.
Lemma ciLoop_last n mus : forall fuel it x xpn res, fuel <> 0%nat -> xpn = normInf n x ->
  forall x' res' it', ciLoop n p rel c Rv mus fuel it x xpn res = (x', res', it') ->
  exists xp, x' = ciSweep p c Rv xp mus 0 xp /\ res' = normInf n (fun k => x' k - xp k) /\ (it <= it' <= it + fuel)%nat /\
    ((it' < it + fuel)%nat -> res' <= rel * Rmax (normInf n x') (normInf n xp)).
Proof.
  induction fuel as [|fuel IH]; intros it x xpn res Hf Hn x' res' it'; [congruence|]. cbn [ciLoop]. cbv zeta. destruct (Rle_dec _ _) as [C|C].
  - intros E. injection E as <- <- <-. exists x. rewrite <- Hn. repeat split; auto; lia.
  - intros E. destruct fuel as [|fuel].
    + cbn [ciLoop] in E. injection E as <- <- <-. exists x. repeat split; auto; lia.
    + destruct (IH _ _ _ _ ltac:(discriminate) eq_refl _ _ _ E) as (xp & A & B & D & F). exists xp. split; [exact A|]. split; [exact B|]. split; [lia|]. intros L. apply F. lia.
Qed.
Lemma ciLoop_warm n mus fuel it x res : fuel <> 0%nat -> 0 <= rel -> ciSweep p c Rv x mus 0 x = x -> ciLoop n p rel c Rv mus fuel it x (normInf n x) res = (x, 0, it).
Proof.
  intros Hf Hr E. destruct fuel as [|fuel]; [congruence|]. cbn [ciLoop]. cbv zeta. rewrite E. assert (Z : normInf n (fun k => x k - x k) = 0) by (apply normInf_zero; intros; lra). rewrite Z.
  destruct (Rle_dec _ _) as [H|H]; [reflexivity|]. exfalso. apply H. apply Rmult_le_pos; [exact Hr | eapply Rle_trans; [apply normInf_pos | apply Rmax_l]].
Qed.
End Loop.
