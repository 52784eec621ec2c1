(* The ADMM solver: the cones, the residuals, its fixed points and the overload with an initial guess. *)
Require Import Reals List Arith Lia Lra FunctionalExtensionality.
From Verif Require Import Vec3 Model Sums Cone Spec_Cone ConeFacts Contact Spec_Contact ContactFacts.
Import ListNotations.
Local Open Scope R_scope.

Lemma onSegs_off f mus : forall r x out k, (k < r \/ r + 3 * length mus <= k)%nat -> onSegs f mus r x out k = out k.
Proof.
  induction mus as [|mu mus IH]; intros r x out k H; cbn [onSegs]; [reflexivity|]. cbn [length] in H. rewrite IH by lia. apply put_off. lia.
Qed.
Lemma onSegs_at f mus : forall r x out i, (i < length mus)%nat -> seg3 (onSegs f mus r x out) (r + 3 * i) = f (nth i mus 0) (seg3 x (r + 3 * i)).
Proof.
  induction mus as [|mu mus IH]; intros r x out i Hi; cbn [length] in Hi; [lia|]. cbn [onSegs]. destruct i as [|i]; cbn [nth].
  - rewrite Nat.mul_0_r, Nat.add_0_r. unfold seg3 at 1. rewrite !onSegs_off by lia. fold (seg3 (putSeg3 out r (f mu (seg3 x r))) r). apply put_at.
  - replace (r + 3 * S i)%nat with (r + 3 + 3 * i)%nat by lia. apply IH. lia.
Qed.
Lemma conic_max mus : forall r v f c, (forall i, (i < length mus)%nat -> v3dot (seg3 f (r + 3 * i)) (seg3 v (r + 3 * i)) = 0) -> 0 <= c -> conicComplementarity mus r v f c = c.
Proof.
  induction mus as [|mu mus IH]; intros r v f c H Hc; cbn [conicComplementarity]; [reflexivity|]. cbn [length] in H.
  assert (E : computeConicComplementarity (seg3 v r) (seg3 f r) = 0).
  { unfold computeConicComplementarity. specialize (H 0%nat ltac:(lia)). rewrite Nat.mul_0_r, Nat.add_0_r in H. rewrite H. apply Rabs_R0. }
  rewrite E, Rmax_left by exact Hc. apply IH; [|exact Hc]. intros i Hi. specialize (H (S i) ltac:(lia)). replace (r + 3 * S i)%nat with (r + 3 + 3 * i)%nat in H by lia. exact H.
Qed.

(* De Saxce: forces in the cone and corrected velocities in the dual cone, orthogonal, are Coulomb's law *)
Lemma desaxce mu y v : 0 <= mu -> (inCone mu y /\ inDual mu (v3add v (computeNormalCorrection mu v)) /\ v3dot y (v3add v (computeNormalCorrection mu v)) = 0 <-> coulomb mu y v).
Proof.
  intros Hm. rewrite inCone_iff, correction_dual by exact Hm. unfold computeNormalCorrection, coulomb, v3add, v3dot. cbn [vx vy vz].
  replace (vx y ^ 2 + vy y ^ 2) with (vx y * vx y + vy y * vy y) by ring. replace (vx v ^ 2 + vy v ^ 2) with (vx v * vx v + vy v * vy v) by ring. fold (tnorm y) (tnorm v).
  pose proof (tnorm_sq v) as Sv. pose proof (tnorm_pos v) as Pv. pose proof (tnorm_sq y) as Sy. pose proof (tnorm_pos y) as Py.
  set (s := tnorm v) in *. set (t := tnorm y) in *. split.
  - intros ((Y0 & Yt) & V0 & D). pose proof (tnorm_cs (mkV3 (- vx y) (- vy y) 0) v) as CS. cbn [vx vy] in CS. fold s in CS.
    assert (Et : tnorm (mkV3 (- vx y) (- vy y) 0) = t) by (unfold t, tnorm; cbn [vx vy]; f_equal; ring). rewrite Et in CS.
    assert (B : t * s <= mu * vz y * s) by (apply Rmult_le_compat_r; lra). assert (P0 : 0 <= vz y * vz v) by (apply Rmult_le_pos; lra).
    assert (Z : vz y * vz v = 0) by nra. assert (Dt : vx y * vx v + vy y * vy v = - (mu * vz y) * s) by nra.
    assert (Q : (s * vx y + mu * vz y * vx v) * (s * vx y + mu * vz y * vx v) + (s * vy y + mu * vz y * vy v) * (s * vy y + mu * vz y * vy v) <= 0).
    { replace (_ + _) with (s * s * (vx y * vx y + vy y * vy y) + 2 * s * (mu * vz y) * (vx y * vx v + vy y * vy v) + (mu * vz y) * (mu * vz y) * (vx v * vx v + vy v * vy v)) by ring.
      rewrite <- Sy, <- Sv, Dt. assert (t * t <= mu * vz y * (mu * vz y)) by (apply Rmult_le_compat; lra). assert (0 <= s * s) by nra. nra. }
    pose proof (Rle_0_sqr (s * vx y + mu * vz y * vx v)) as Q1. pose proof (Rle_0_sqr (s * vy y + mu * vz y * vy v)) as Q2. unfold Rsqr in Q1, Q2.
    assert (Z1 : s * vx y + mu * vz y * vx v = 0) by (apply Rsqr_0_uniq; unfold Rsqr; lra). assert (Z2 : s * vy y + mu * vz y * vy v = 0) by (apply Rsqr_0_uniq; unfold Rsqr; lra).
    repeat split; lra.
  - intros (Y0 & V0 & Z & Yt & A & B). repeat split; try assumption. destruct (Req_dec s 0) as [E|E].
    + rewrite E in *. assert (vx v = 0) by nra. assert (vy v = 0) by nra. rewrite H, H0. lra.
    + apply (Rmult_eq_reg_l s); [|exact E]. replace (s * (vx y * (vx v + 0) + vy y * (vy v + 0) + vz y * (vz v + mu * s))) with ((s * vx y) * vx v + (s * vy y) * vy v + s * (vz y * vz v) + s * (vz y * (mu * s))) by ring.
      rewrite A, B, Z. transitivity (mu * vz y * (s * s - (vx v * vx v + vy v * vy v))); [ring | rewrite Sv; ring].
Qed.
Lemma scale_dual mu v t : 0 <= t -> inDual mu v -> inDual mu (v3scale t v).
Proof. intros Ht H f Hf. specialize (H f Hf). replace (v3dot f (v3scale t v)) with (t * v3dot f v) by (unfold v3dot, v3scale; cbn; ring). now apply Rmult_le_pos. Qed.
(* the projection of the y-update *)
Lemma y_update mu x z t : 0 < mu -> 0 < t ->
  let y := project mu (v3sub x (v3scale (/ t) z)) in let z' := v3sub z (v3scale t (v3sub x y)) in inCone mu y /\ inDual mu z' /\ v3dot y z' = 0.
Proof.
  intros Hm Ht y z'. set (u := v3sub x (v3scale (/ t) z)). destruct (moreau mu u Hm) as [M1 M2]. fold u in y. fold y in M1, M2.
  assert (E : z' = v3scale t (projectDual mu (v3opp u))).
  { unfold z'. revert M1. generalize (projectDual mu (v3opp u)). intros p M1. unfold v3sub, u, v3scale in M1. cbn in M1. destruct p as [p1 p2 p3]. cbn in M1. injection M1 as A B C.
    unfold v3sub, v3scale. cbn. f_equal.
    - replace p1 with (vx y - (vx x - / t * vx z)) by lra. field. lra.
    - replace p2 with (vy y - (vy x - / t * vy z)) by lra. field. lra.
    - replace p3 with (vz y - (vz x - / t * vz z)) by lra. field. lra. }
  split; [apply project_nearest; lra|]. rewrite E. split; [apply scale_dual; [lra | apply projectDual_nearest; exact Hm]|].
  replace (v3dot y (v3scale t (projectDual mu (v3opp u)))) with (t * v3dot y (projectDual mu (v3opp u))) by (unfold v3dot, v3scale; cbn; ring). rewrite M2. ring.
Qed.
(* an orthogonal pair is its own image *)
Lemma y_fixed mu y z t : 0 < mu -> 0 < t -> inCone mu y -> inDual mu z -> v3dot y z = 0 -> project mu (v3sub y (v3scale (/ t) z)) = y.
Proof.
  intros Hm Ht Hy Hz D. set (x := v3sub y (v3scale (/ t) z)). destruct (project_nearest mu x (Rlt_le _ _ Hm)) as (A & B & C). symmetry. apply C; [exact Hy|]. apply Rle_antisym; [|apply B, Hy].
  assert (G : forall q, inCone mu q -> dist2 x y <= dist2 x q).
  { apply nearest_vi; [exact Hy|]. intros q Hq. specialize (Hz q Hq). replace (v3dot (v3sub x y) (v3sub q y)) with (- (/ t * v3dot q z) + / t * v3dot y z) by (unfold x, v3dot, v3sub, v3scale; cbn; ring). rewrite D.
    assert (0 <= / t * v3dot q z) by (apply Rmult_le_pos; [left; now apply Rinv_0_lt_compat | exact Hz]). lra. }
  apply G, A.
Qed.

Lemma minCoeff_le n x k : (k < n)%nat -> minCoeff n x <= x k.
Proof.
  induction n as [|n IH]; intros H; [lia|]. destruct n as [|n]; [replace k with 0%nat by lia; cbn; lra|]. change (minCoeff (S (S n)) x) with (Rmin (minCoeff (S n) x) (x (S n))).
  destruct (Nat.eq_dec k (S n)) as [->|]; [apply Rmin_r | eapply Rle_trans; [apply Rmin_l | apply IH; lia]].
Qed.

Section ADMMFacts.
Context (app sol : rvec -> rvec -> rvec) (n : nat) (G : nat -> nat -> R) (P : AdmmParam) (mus : list R) (g Rv : rvec) (L m : R).
Notation tau := (ap_tau P). Notation muP := (ap_muProx P).
Context (Hs : exactSolve n G sol) (Ht : 0 < tau) (Hp : 0 <= muP) (HR : 0 <= minCoeff n Rv).
Context (Hmus : forall i, (i < length mus)%nat -> 0 < nth i mus 0) (Hn : (3 * length mus <= n)%nat).

Lemma damp_pos rho k : 0 < rho -> (k < n)%nat -> 0 < damping P Rv rho k.
Proof. intros Hr Hk. unfold damping. pose proof (minCoeff_le n Rv k Hk). assert (0 < tau * rho) by (now apply Rmult_lt_0_compat). lra. Qed.

(* what one iteration establishes *)
Lemma step_facts rho x y z s x' y' z' s' : 0 < rho -> admmStep sol P mus g Rv rho x y z s = (x', y', z', s') ->
  (forall i, (i < length mus)%nat -> inCone (nth i mus 0) (seg3 y' (3 * i)) /\ inDual (nth i mus 0) (seg3 z' (3 * i)) /\ v3dot (seg3 y' (3 * i)) (seg3 z' (3 * i)) = 0) /\
  (forall i, (i < length mus)%nat -> seg3 s' (3 * i) = computeNormalCorrection (nth i mus 0) (seg3 z (3 * i))) /\
  (forall k, (k < n)%nat -> mulv n G x' k + Rv k * x' k + g k + s' k - z' k = - ((tau * rho) * (y' k - y k) + muP * (x' k - x k))) /\
  (forall k, z' k - z k = - (tau * rho) * (x' k - y' k)).
Proof.
  intros Hr E. unfold admmStep in E. cbv zeta in E. injection E as Ex Ey Ez Es.
  assert (Htr : 0 < tau * rho) by (now apply Rmult_lt_0_compat).
  assert (Z : forall k, z' k = z k - (tau * rho) * (x' k - y' k)) by (intros k; rewrite <- Ez; cbn beta; rewrite Ey, Ex; reflexivity).
  rewrite Ex in Ey. rewrite Es in Ex. split; [|split; [|split]].
  - intros i Hi. assert (Y : seg3 y' (3 * i) = project (nth i mus 0) (v3sub (seg3 x' (3 * i)) (v3scale (/ (tau * rho)) (seg3 z (3 * i))))).
    { rewrite <- Ey. unfold computeConeProjection. rewrite (onSegs_at project mus 0 _ _ i Hi). cbn [Nat.add]. f_equal. unfold v3sub, v3scale, seg3, Rdiv. cbn [vx vy vz]. f_equal; ring. }
    assert (Zs : seg3 z' (3 * i) = v3sub (seg3 z (3 * i)) (v3scale (tau * rho) (v3sub (seg3 x' (3 * i)) (seg3 y' (3 * i))))).
    { unfold seg3. rewrite !Z. reflexivity. }
    rewrite Zs, Y. apply y_update; [now apply Hmus | exact Htr].
  - intros i Hi. rewrite <- Es. exact (onSegs_at computeNormalCorrection mus 0 z s i Hi).
  - intros k Hk. pose proof (proj1 (Hs (damping P Rv rho) _ (fun k Hk => damp_pos rho k Hr Hk) x') (fun k _ => f_equal (fun f => f k) Ex) k Hk) as Q. cbn beta in Q. rewrite (Z k). unfold damping in Q. lra.
  - intros k. rewrite Z. ring.
Qed.
Definition lastStep (o : Admm) (rho : R) : Prop :=
  exists x y z s, 0 < rho /\ admmStep sol P mus g Rv rho x y z s = (ad_x o, ad_y o, ad_z o, ad_s o) /\
    ad_abs o = Rmax (admmPrimal n (ad_x o) (ad_y o)) (Rmax (conicComplementarity mus 0 (ad_z o) (ad_y o) 0) (admmDual n P rho x y (ad_x o) (ad_y o))).
Lemma loop_facts inc (Hi : 0 < inc) : forall fuel it chol rho x y z s last b o, 0 < rho ->
  (fuel <> 0%nat \/ exists rho0, lastStep (mkAdmm true x y z s rho (computeRhoPower L m rho) (fst last) (snd last) it chol) rho0) ->
  admmLoop sol n P mus g Rv L m inc fuel it chol rho x y z s last = (b, o) ->
  (exists rho0, lastStep o rho0 /\ (b = true -> rho0 = ad_rho o)) /\ (b = true -> ad_abs o <= ap_absp P) /\ 0 < ad_rho o /\ (ad_it o <= it + fuel)%nat /\ (b = true -> ad_it o < it + fuel)%nat /\ (it <= ad_it o)%nat.
Proof.
  induction fuel as [|fuel IH]; intros it chol rho x y z s last b o Hr H E; cbn [admmLoop] in E.
  - injection E as <- <-. destruct H as [H|[rho0 H]]; [congruence|]. split; [exists rho0; split; [exact H | discriminate]|]. cbn [ad_rho ad_it]. split; [discriminate|]. split; [exact Hr|]. split; [lia|]. split; [discriminate | lia].
  - destruct (admmStep sol P mus g Rv rho x y z s) as [[[x' y'] z'] s'] eqn:Es.
    set (pf := admmPrimal n x' y') in *. set (df := admmDual n P rho x y x' y') in *. set (c := conicComplementarity mus 0 z' y' 0) in *.
    assert (LS : forall rh rp pr i ch, lastStep (mkAdmm true x' y' z' s' rh rp (Rmax pf (Rmax c df)) pr i ch) rho).
    { intros. exists x, y, z, s. cbn [ad_x ad_y ad_z ad_s ad_abs]. split; [exact Hr|]. split; [exact Es | reflexivity]. }
    assert (REC : forall up : R * nat, 0 < fst up -> admmLoop sol n P mus g Rv L m inc fuel (it + 1) (chol + snd up) (fst up) x' y' z' s' (Rmax pf (Rmax c df), normInf n (fun k => y' k - y k)) = (b, o) ->
      (exists rho0, lastStep o rho0 /\ (b = true -> rho0 = ad_rho o)) /\ (b = true -> ad_abs o <= ap_absp P) /\ 0 < ad_rho o /\ (ad_it o <= it + S fuel)%nat /\ (b = true -> ad_it o < it + S fuel)%nat /\ (it <= ad_it o)%nat).
    { intros up Hu E'. destruct (IH (it + 1)%nat (chol + snd up)%nat (fst up) x' y' z' s' (Rmax pf (Rmax c df), normInf n (fun k => y' k - y k)) b o Hu (or_intror (ex_intro _ rho (LS _ _ _ _ _))) E') as (A & B & C & D & F & K).
      split; [exact A|]. split; [exact B|]. split; [exact C|]. split; [lia|]. split; [intros Hb; specialize (F Hb); lia | lia]. }
    assert (UP : 0 < fst (if Rlt_dec (ap_ratio P * df) pf then (rho * inc, 1%nat) else if Rlt_dec (ap_ratio P * pf) df then (rho / inc, 1%nat) else (rho, 0%nat))).
    { destruct (Rlt_dec _ _); [|destruct (Rlt_dec _ _)]; cbn [fst]; [now apply Rmult_lt_0_compat | now apply Rdiv_lt_0_compat | exact Hr]. }
    cbv zeta in E. destruct (Rle_dec c (ap_absp P)) as [C1|C1]; [destruct (Rle_dec df (ap_absp P)) as [C2|C2]; [destruct (Rle_dec pf (ap_absp P)) as [C3|C3]|]|];
      try (apply (REC _ UP); exact E).
    injection E as <- <-. cbn [ad_rho ad_it ad_abs]. split; [exists rho; split; [apply LS | reflexivity]|]. split; [intros _; now repeat apply Rmax_lub|]. split; [exact Hr|]. split; [lia|]. split; lia.
Qed.
(* the result of the solver *)
Lemma solve_facts st primal dual b o : 0 < L -> 0 < m -> admmSolve app sol n P mus g Rv L m st primal dual = Ok o b ->
  (forall i, (i < length mus)%nat -> inCone (nth i mus 0) (seg3 (ad_y o) (3 * i)) /\ inDual (nth i mus 0) (seg3 (ad_z o) (3 * i)) /\ v3dot (seg3 (ad_y o) (3 * i)) (seg3 (ad_z o) (3 * i)) = 0) /\
  (b = true -> ad_abs o <= ap_absp P) /\ 0 < ad_rho o /\ (1 <= ad_it o <= ap_maxIt P + 1)%nat /\ (b = true -> ad_it o <= ap_maxIt P)%nat /\
  exists rho zp, 0 < rho /\ (b = true -> rho = ad_rho o) /\
  (forall k, (k < n)%nat -> Rabs (ad_x o k - ad_y o k) <= ad_abs o) /\
  (forall i, (i < length mus)%nat -> seg3 (ad_s o) (3 * i) = computeNormalCorrection (nth i mus 0) (seg3 zp (3 * i))) /\
  (forall k, (k < n)%nat -> Rabs (mulv n G (ad_x o) k + Rv k * ad_x o k + g k + ad_s o k - ad_z o k) <= ad_abs o) /\
  (forall k, (k < n)%nat -> Rabs (ad_z o k - zp k) <= tau * rho * ad_abs o).
Proof.
  intros HL Hm0 E. unfold admmSolve in E. destruct (Rle_dec tau 1); [|discriminate]. destruct (Rlt_dec 0 tau); [|discriminate]. destruct (Rle_dec 0 muP); [|discriminate]. destruct (Rle_dec 0 (minCoeff n Rv)); [|discriminate].
  destruct (orb _ _) eqn:Eo; [discriminate|]. apply Bool.orb_false_iff in Eo as [_ Eo]. apply Nat.eqb_neq in Eo.
  assert (Hrho : 0 < computeRho L m (ad_rhoPower st)) by (unfold computeRho; apply Rmult_lt_0_compat; [apply sqrt_lt_R0; now apply Rmult_lt_0_compat | apply exp_pos]).
  revert E. cbv zeta. set (x0 := match primal with Some x => x | None => _ end). set (zs := match dual with Some z => _ | None => _ end). destruct zs as [z0 s0].
  destruct (admmLoop _ _ _ _ _ _ _ _ _ _ _ _ _ _ _ _ _ _) as [b' o'] eqn:El. intros E. injection E as -> ->.
  destruct (loop_facts _ (exp_pos _) _ _ _ _ _ _ _ _ _ _ _ Hrho (or_introl Eo) El) as ((rho & (xp & yp & zp & sp & Hr & St & Ab) & Rb) & Bt & Ro & I1 & I2 & I3).
  destruct (step_facts _ _ _ _ _ _ _ _ _ Hr St) as (A & B & C & D).
  split; [exact A|]. split; [exact Bt|]. split; [exact Ro|]. split; [lia|]. split; [intros Hb; specialize (I2 Hb); lia|].
  exists rho, zp. split; [exact Hr|]. split; [exact Rb|].
  assert (M1 : admmPrimal n (ad_x o) (ad_y o) <= ad_abs o) by (rewrite Ab; apply Rmax_l). assert (M2 : admmDual n P rho xp yp (ad_x o) (ad_y o) <= ad_abs o) by (rewrite Ab; eapply Rle_trans; [apply Rmax_r | apply Rmax_r]).
  assert (PF : forall k, (k < n)%nat -> Rabs (ad_x o k - ad_y o k) <= ad_abs o) by (intros k Hk; eapply Rle_trans; [exact (normInf_le n (fun k => ad_x o k - ad_y o k) k Hk) | exact M1]).
  split; [exact PF|]. split; [exact B|]. split.
  - intros k Hk. rewrite (C k Hk), Rabs_Ropp. eapply Rle_trans; [exact (normInf_le n (fun k => (tau * rho) * (ad_y o k - yp k) + muP * (ad_x o k - xp k)) k Hk) | exact M2].
  - intros k Hk. rewrite D, Rabs_mult, Rabs_Ropp. assert (T : 0 < tau * rho) by (now apply Rmult_lt_0_compat). rewrite (Rabs_right (tau * rho)) by lra. apply Rmult_le_compat_l; [lra | exact (PF k Hk)].
Qed.
(* with a zero precision the answer true is given for solutions only *)
Definition regG (i j : nat) : R := G i j + (if Nat.eqb i j then Rv i else 0).
Lemma reg_mulv x k : (k < n)%nat -> mulv n regG x k = mulv n G x k + Rv k * x k.
Proof.
  intros Hk. unfold mulv, regG. rewrite (sumN_ext n _ (fun j => G k j * x j + (if Nat.eqb k j then Rv k * x j else 0))) by (intros j _; destruct (Nat.eqb k j); ring). rewrite sumN_add. f_equal.
  clear - Hk. induction n as [|q IH]; [lia|]. cbn [sumN]. destruct (Nat.eq_dec k q) as [->|N].
  - rewrite Nat.eqb_refl. rewrite (sumN_ext q _ (fun _ => 0)), sumN_0; [ring|]. intros j Hj. replace (Nat.eqb q j) with false by (symmetry; apply Nat.eqb_neq; lia). reflexivity.
  - rewrite IH by lia. replace (Nat.eqb k q) with false by (symmetry; now apply Nat.eqb_neq). ring.
Qed.
Lemma abs_zero a : Rabs a <= 0 -> a = 0.
Proof. intros H. pose proof (Rabs_pos a). destruct (Req_dec a 0) as [|N]; [assumption|]. apply Rabs_pos_lt in N. lra. Qed.
Lemma seg_eq x y r : x r = y r -> x (r + 1)%nat = y (r + 1)%nat -> x (r + 2)%nat = y (r + 2)%nat -> seg3 x r = seg3 y r.
Proof. intros. unfold seg3. congruence. Qed.
Lemma zero_solution st primal dual o : 0 < L -> 0 < m -> ap_absp P = 0 -> admmSolve app sol n P mus g Rv L m st primal dual = Ok o true ->
  contactSolution n regG g mus (ad_y o).
Proof.
  intros HL Hm0 Hz E. destruct (solve_facts _ _ _ _ _ HL Hm0 E) as (A & B & _ & _ & _ & rho & zp & Hr & _ & F1 & F2 & F3 & F4). specialize (B eq_refl). rewrite Hz in B.
  assert (A0 : forall a, Rabs a <= ad_abs o -> a = 0) by (intros a Ha; apply abs_zero; lra).
  assert (X : forall k, (k < n)%nat -> ad_x o k = ad_y o k) by (intros k Hk; specialize (A0 _ (F1 k Hk)); lra).
  assert (Zp : forall k, (k < n)%nat -> ad_z o k = zp k).
  { intros k Hk. assert (T : 0 < tau * rho) by (now apply Rmult_lt_0_compat). assert (Z0 : ad_z o k - zp k = 0) by (apply abs_zero; specialize (F4 k Hk); nra). lra. }
  assert (V : forall k, (k < n)%nat -> contactVel n regG g (ad_y o) k + ad_s o k = ad_z o k).
  { intros k Hk. unfold contactVel. fold (mulv n regG (ad_y o) k). rewrite reg_mulv by exact Hk. specialize (A0 _ (F3 k Hk)). rewrite (X k Hk) in A0.
    assert (Em : mulv n G (ad_x o) k = mulv n G (ad_y o) k) by (unfold mulv; apply sumN_ext; intros j Hj; now rewrite X). rewrite Em in A0. lra. }
  intros i Hi. apply desaxce; [left; now apply Hmus|]. specialize (A i Hi). specialize (F2 i Hi). rewrite <- (seg_eq (ad_z o) zp (3 * i)) in F2 by (apply Zp; lia).
  set (v := seg3 (contactVel n regG g (ad_y o)) (3 * i)).
  assert (Sg : v3add v (seg3 (ad_s o) (3 * i)) = seg3 (ad_z o) (3 * i)) by (unfold v, v3add, seg3; cbn [vx vy vz]; rewrite !V by lia; reflexivity).
  assert (T : computeNormalCorrection (nth i mus 0) v = computeNormalCorrection (nth i mus 0) (seg3 (ad_z o) (3 * i))).
  { rewrite <- Sg, F2. unfold computeNormalCorrection, tnorm, v3add. cbn [vx vy vz]. now rewrite !Rplus_0_r. }
  rewrite T, <- F2, Sg. exact A.
Qed.
Lemma warm st xs zs : 0 < L -> 0 < m -> 0 <= ap_absp P -> tau <= 1 -> (1 <= ap_maxIt P)%nat -> n = (3 * length mus)%nat -> contactSolution n regG g mus xs ->
  (forall i, (i < length mus)%nat -> let v := seg3 (contactVel n regG g xs) (3 * i) in seg3 zs (3 * i) = mkV3 (vx v) (vy v) (vz v + nth i mus 0 * sqrt (vx v * vx v + vy v * vy v))) ->
  exists o, admmSolve app sol n P mus g Rv L m st (Some xs) (Some zs) = Ok o true /\ ad_it o = 1%nat /\ ad_abs o = 0 /\ (forall k, (k < n)%nat -> ad_y o k = xs k /\ ad_z o k = zs k).
Proof.
  intros HL Hm0 Hab Ht1 Hmx En CS HZ. unfold admmSolve. destruct (Rle_dec tau 1); [|exfalso; lra]. destruct (Rlt_dec 0 tau); [|exfalso; lra]. destruct (Rle_dec 0 muP); [|exfalso; lra]. destruct (Rle_dec 0 (minCoeff n Rv)); [|exfalso; lra].
  replace (Nat.ltb n (3 * length mus)) with false by (symmetry; apply Nat.ltb_ge; lia). replace (Nat.eqb (ap_maxIt P) 0) with false by (symmetry; apply Nat.eqb_neq; lia). cbn [orb]. cbv zeta.
  assert (Hrho : 0 < computeRho L m (ad_rhoPower st)) by (unfold computeRho; apply Rmult_lt_0_compat; [apply sqrt_lt_R0; now apply Rmult_lt_0_compat | apply exp_pos]).
  set (rho := computeRho L m (ad_rhoPower st)) in *. set (y0 := computeConeProjection mus xs (ad_y st)). assert (Htr : 0 < tau * rho) by (now apply Rmult_lt_0_compat).
  destruct (ap_maxIt P) as [|fuel]; [lia|]. cbn [admmLoop]. destruct (admmStep sol P mus g Rv rho xs y0 zs (ad_s st)) as [[[x' y'] z'] s'] eqn:Es.
  assert (SEG : forall k, (k < n)%nat -> exists i, (i < length mus)%nat /\ (k = 3 * i \/ k = 3 * i + 1 \/ k = 3 * i + 2)%nat).
  { intros k Hk. exists (k / 3)%nat. pose proof (Nat.div_mod k 3 ltac:(lia)). pose proof (Nat.mod_upper_bound k 3 ltac:(lia)). split; [apply Nat.div_lt_upper_bound; lia | lia]. }
  assert (EXT : forall a b : rvec, (forall i, (i < length mus)%nat -> seg3 a (3 * i) = seg3 b (3 * i)) -> forall k, (k < n)%nat -> a k = b k).
  { intros a b' H k Hk. destruct (SEG k Hk) as (i & Hi & [-> | [-> | ->]]); specialize (H i Hi); unfold seg3 in H; [exact (f_equal vx H) | exact (f_equal vy H) | exact (f_equal vz H)]. }
  assert (DS : forall i, (i < length mus)%nat -> inCone (nth i mus 0) (seg3 xs (3 * i)) /\ inDual (nth i mus 0) (seg3 zs (3 * i)) /\ v3dot (seg3 xs (3 * i)) (seg3 zs (3 * i)) = 0).
  { intros i Hi. rewrite (HZ i Hi). pose proof (proj2 (desaxce (nth i mus 0) _ _ (Rlt_le _ _ (Hmus i Hi))) (CS i Hi)) as D. unfold v3add, computeNormalCorrection in D. cbn [vx vy vz] in D. rewrite !Rplus_0_r in D. exact D. }
  assert (Y0 : forall k, (k < n)%nat -> y0 k = xs k).
  { apply EXT. intros i Hi. unfold y0, computeConeProjection. rewrite (onSegs_at project mus 0 xs _ i Hi). cbn [Nat.add]. apply project_inside; [left; now apply Hmus | now apply DS]. }
  destruct (step_facts _ _ _ _ _ _ _ _ _ Hrho Es) as (A & B & C & D).
  assert (SV : forall k, (k < n)%nat -> contactVel n regG g xs k + s' k = zs k).
  { apply (EXT (fun k => contactVel n regG g xs k + s' k)). intros i Hi. rewrite (HZ i Hi). specialize (B i Hi). rewrite (HZ i Hi) in B. unfold computeNormalCorrection, tnorm in B. cbn [vx vy vz] in B. unfold seg3 in B |- *. cbn [vx vy vz] in B |- *. pose proof (f_equal vx B) as B0. pose proof (f_equal vy B) as B1. pose proof (f_equal vz B) as B2. cbn [vx vy vz] in B0, B1, B2. rewrite B0, B1, B2. f_equal; ring. }
  unfold admmStep in Es. cbv zeta in Es. injection Es as Ex Ey Ez Ess. rewrite Ex in Ey. rewrite Ess in Ex.
  assert (X : forall k, (k < n)%nat -> x' k = xs k).
  { rewrite <- Ex. apply (Hs (damping P Rv rho) _ (fun k Hk => damp_pos rho k Hrho Hk)). intros k Hk. unfold damping. rewrite (Y0 k Hk). specialize (SV k Hk). unfold contactVel in SV. fold (mulv n regG xs k) in SV. rewrite reg_mulv in SV by exact Hk. lra. }
  assert (Y : forall k, (k < n)%nat -> y' k = xs k).
  { apply EXT. intros i Hi. rewrite <- Ey. unfold computeConeProjection. rewrite (onSegs_at project mus 0 _ _ i Hi). cbn [Nat.add]. destruct (DS i Hi) as (D1 & D2 & D3). transitivity (project (nth i mus 0) (v3sub (seg3 xs (3 * i)) (v3scale (/ (tau * rho)) (seg3 zs (3 * i))))); [|exact (y_fixed _ _ _ _ (Hmus i Hi) Htr D1 D2 D3)]. f_equal. unfold v3sub, v3scale, seg3, Rdiv. cbn [vx vy vz]. rewrite !X by lia. f_equal; ring. }
  assert (Z : forall k, (k < n)%nat -> z' k = zs k) by (intros k Hk; specialize (D k); rewrite (X k Hk), (Y k Hk) in D; lra).
  assert (P0 : admmPrimal n x' y' = 0) by (apply normInf_zero; intros k Hk; rewrite X, Y by exact Hk; ring).
  assert (D0 : admmDual n P rho xs y0 x' y' = 0) by (apply normInf_zero; intros k Hk; rewrite X, Y, Y0 by exact Hk; ring).
  assert (C0 : conicComplementarity mus 0 z' y' 0 = 0) by (apply conic_max; [intros i Hi; apply A; exact Hi | lra]).
  rewrite P0, D0, C0. destruct (Rle_dec 0 (ap_absp P)); [|exfalso; lra]. eexists. split; [reflexivity|]. cbn [ad_it ad_abs ad_y ad_z].
  split; [reflexivity|]. split; [now rewrite !(Rmax_left 0 0 (Rle_refl 0)) | intros k Hk; auto].
Qed.
End ADMMFacts.
Lemma admm_throw app sol n P mus g Rv L m st primal dual :
  admmSolve app sol n P mus g Rv L m st primal dual = Throw st <-> ~ (0 < ap_tau P <= 1 /\ 0 <= ap_muProx P /\ 0 <= minCoeff n Rv).
Proof.
  unfold admmSolve. destruct (Rle_dec (ap_tau P) 1) as [A|A]; [|split; [intros _ H; lra | reflexivity]]. destruct (Rlt_dec 0 (ap_tau P)) as [B|B]; [|split; [intros _ H; lra | reflexivity]].
  destruct (Rle_dec 0 (ap_muProx P)) as [C|C]; [|split; [intros _ H; lra | reflexivity]]. destruct (Rle_dec 0 (minCoeff n Rv)) as [D|D]; [|split; [intros _ H; lra | reflexivity]].
  split; [|intros H; exfalso; apply H; lra]. destruct (orb _ _); [discriminate|]. cbv zeta. destruct (match dual with Some z => _ | None => _ end) as [z0 s0]. destruct (admmLoop _ _ _ _ _ _ _ _ _ _ _ _ _ _ _ _ _ _). discriminate.
Qed.
(* the overload: the vector it is given is the regularization, and comes back unchanged *)
Lemma overload_same app sol n P mus g L st x st' b x' : admmSolveX app sol n P mus g L st x = Ok st' (b, x') -> x' = x.
Proof. unfold admmSolveX. destruct (admmSolve _ _ _ _ _ _ _ _ _ _ _ _); intros E; [|discriminate|discriminate]. now injection E. Qed.
Lemma overload_ok app sol n P mus g L st x : 0 < ap_tau P <= 1 -> 0 <= ap_muProx P -> 0 <= minCoeff n x -> (1 <= ap_maxIt P)%nat -> (3 * length mus <= n)%nat ->
  exists st' b, admmSolveX app sol n P mus g L st x = Ok st' (b, x).
Proof.
  intros A B C D E. unfold admmSolveX, admmSolve. destruct (Rle_dec (ap_tau P) 1); [|exfalso; lra]. destruct (Rlt_dec 0 (ap_tau P)); [|exfalso; lra]. destruct (Rle_dec 0 (ap_muProx P)); [|exfalso; lra]. destruct (Rle_dec 0 (minCoeff n x)); [|exfalso; lra].
  replace (Nat.ltb n (3 * length mus)) with false by (symmetry; apply Nat.ltb_ge; lia). replace (Nat.eqb (ap_maxIt P) 0) with false by (symmetry; apply Nat.eqb_neq; lia). cbn [orb]. cbv zeta.
  destruct (if ad_init st then _ else _) as [z0 s0]. destruct (admmLoop _ _ _ _ _ _ _ _ _ _ _ _ _ _ _ _ _ _) as [b o]. eauto.
Qed.
Lemma overload_throw app sol n P mus g L st x : minCoeff n x < 0 -> admmSolveX app sol n P mus g L st x = Throw st.
Proof.
  intros H. unfold admmSolveX. assert (E : admmSolve app sol n P mus g x L (ap_muProx P + minCoeff n x) st (Some (fun _ => 0)) None = Throw st) by (apply admm_throw; lra). now rewrite E.
Qed.
(* the projected Gauss-Seidel solver as it is called *)
Lemma pgs_inv n mx absp relp G g mus x0 w o : pgsSolve n mx absp relp G g mus x0 w = Ok tt o ->
  0 < w < 2 /\ (3 * length mus <= n)%nat /\ mx <> 0%nat /\ o = pgsLoop n G g w absp relp mus mx 0 x0 (normInf n x0) (0, 0).
Proof.
  unfold pgsSolve. destruct (Rlt_dec w 2); [|discriminate]. destruct (Rlt_dec 0 w); [|discriminate]. destruct (orb _ _) eqn:E; [discriminate|]. apply Bool.orb_false_iff in E as [E1 E2]. apply Nat.ltb_ge in E1. apply Nat.eqb_neq in E2.
  intros H. injection H as <-. repeat split; assumption.
Qed.
Lemma pgs_defined n mx absp relp G g mus x0 w : 0 < w < 2 -> (3 * length mus <= n)%nat -> (1 <= mx)%nat ->
  pgsSolve n mx absp relp G g mus x0 w = Ok tt (pgsLoop n G g w absp relp mus mx 0 x0 (normInf n x0) (0, 0)).
Proof.
  intros [A B] C D. unfold pgsSolve. destruct (Rlt_dec w 2); [|contradiction]. destruct (Rlt_dec 0 w); [|contradiction].
  replace (Nat.ltb n (3 * length mus)) with false by (symmetry; apply Nat.ltb_ge; lia). replace (Nat.eqb mx 0) with false by (symmetry; apply Nat.eqb_neq; lia). reflexivity.
Qed.
Lemma pgs_throw n mx absp relp G g mus x0 w : pgsSolve n mx absp relp G g mus x0 w = Throw tt <-> ~ 0 < w < 2.
Proof.
  unfold pgsSolve. destruct (Rlt_dec w 2); [|split; [intros _ H; lra | reflexivity]]. destruct (Rlt_dec 0 w); [|split; [intros _ H; lra | reflexivity]].
  destruct (orb _ _); split; try discriminate; intros H; exfalso; apply H; lra.
Qed.
Lemma pgs_cones n mx absp relp G g mus x0 w o i : pgsSolve n mx absp relp G g mus x0 w = Ok tt o -> (i < length mus)%nat -> 0 <= nth i mus 0 -> inCone (nth i mus 0) (seg3 (so_x o) (3 * i)).
Proof. intros H Hi Hm. destruct (pgs_inv _ _ _ _ _ _ _ _ _ _ H) as (_ & _ & N & ->). now apply loop_cone. Qed.
Lemma pgs_answer n mx absp relp G g mus x0 w o : pgsSolve n mx absp relp G g mus x0 w = Ok tt o ->
  (so_it o <= mx)%nat /\ (so_ok o = true <-> (so_it o < mx)%nat) /\
  (so_ok o = true -> so_abs o <= absp \/ exists xp, so_rel o = normInf n (fun k => so_x o k - xp k) /\ so_rel o <= relp * Rmax (normInf n (so_x o)) (normInf n xp)).
Proof.
  intros H. destruct (pgs_inv _ _ _ _ _ _ _ _ _ _ H) as (_ & _ & N & E). destruct (loop_last n G g w absp relp mus mx 0 x0 (normInf n x0) (0, 0) (or_introl N)) as (_ & A & B & C). rewrite <- E in A, B, C. cbn [Nat.add] in A, B, C.
  split; [exact A|]. split; [split; [exact C|]|].
  - intros L. destruct (so_ok o) eqn:Eo; [reflexivity|]. specialize (B eq_refl). lia.
  - intros Ho. rewrite E in Ho. destruct (loop_true n G g w absp relp mus mx 0 x0 (normInf n x0) (0, 0) eq_refl Ho) as [K|(xp & _ & K1 & K2)]; rewrite <- E in *; [now left | right; exists xp; auto].
Qed.
Lemma pgs_solution n mx absp relp G g mus x0 w o : pgsSolve n mx absp relp G g mus x0 w = Ok tt o ->
  (forall i, (i < length mus)%nat -> 0 <= nth i mus 0) -> (forall k, (k < 3 * length mus)%nat -> 0 < G k k) -> so_rel o = 0 -> contactSolution n G g mus (so_x o).
Proof. intros H Hm HG Z. destruct (pgs_inv _ _ _ _ _ _ _ _ _ _ H) as ([W _] & Hn & N & E). rewrite E in *. now apply loop_solution. Qed.
Lemma pgs_warm n mx absp relp G g mus x w : 0 < w < 2 -> (3 * length mus <= n)%nat -> (1 <= mx)%nat -> 0 <= relp ->
  (forall i, (i < length mus)%nat -> 0 <= nth i mus 0) -> (forall k, (k < 3 * length mus)%nat -> 0 < G k k) -> contactSolution n G g mus x ->
  exists o, pgsSolve n mx absp relp G g mus x w = Ok tt o /\ so_ok o = true /\ so_x o = x /\ so_it o = 0%nat /\ so_rel o = 0.
Proof.
  intros Hw Hn Hx Hr Hm HG S. eexists. split; [now apply pgs_defined|]. apply loop_warm; auto; [lia | lra].
Qed.

(* one contact point on a unit mass that falls *)
Definition eG (i j : nat) : R := if Nat.eqb i j then 1 else 0.
Definition eg (i : nat) : R := match i with 0%nat => 1 | 2%nat => -1 | _ => 0 end.
Definition ex (i : nat) : R := match i with 0%nat => - (1 / 2) | 2%nat => 1 | _ => 0 end.
Lemma e_solution : contactSolution 3 eG eg [1 / 2] ex.
Proof.
  intros i Hi. cbn [length] in Hi. replace i with 0%nat by lia. unfold coulomb, seg3, contactVel, sumN, eG, eg, ex. cbn [Nat.mul Nat.add nth vx vy vz Nat.eqb].
  assert (S1 : sqrt ((- (1 / 2)) ^ 2 + 0 ^ 2) = 1 / 2) by (apply sqrt_eq_sq; lra). rewrite S1.
  assert (S2 : sqrt ((0 + 1 * - (1 / 2) + 0 * 0 + 0 * 1 + 1) ^ 2 + (0 + 0 * - (1 / 2) + 1 * 0 + 0 * 1 + 0) ^ 2) = 1 / 2) by (apply sqrt_eq_sq; lra). rewrite S2. lra.
Qed.
Lemma e_hyps : (forall i, (i < length [1 / 2])%nat -> 0 < nth i [1 / 2] 0) /\ (forall k, (k < 3 * length [1 / 2])%nat -> 0 < eG k k).
Proof. split; [intros i Hi; cbn [length] in Hi; replace i with 0%nat by lia; cbn [nth]; lra | intros k _; unfold eG; rewrite Nat.eqb_refl; lra]. Qed.
Definition eSol (d b : rvec) : rvec := fun k => b k / (1 + d k).
Lemma e_mulv x k : (k < 3)%nat -> mulv 3 eG x k = x k.
Proof. intros H. unfold mulv, sumN, eG. destruct k as [|[|[|k]]]; cbn [Nat.eqb]; try lia; ring. Qed.
Lemma e_exact : exactSolve 3 eG eSol.
Proof.
  intros d b Hd x. unfold eSol. split; intros H k Hk; specialize (H k Hk); specialize (Hd k Hk).
  - rewrite e_mulv by exact Hk. rewrite <- H. field. lra.
  - rewrite e_mulv in H by exact Hk. rewrite <- H. field. lra.
Qed.
Definition eP : AdmmParam := mkAP (1 / 1000) (1 / 2) (1 / 20) 10 0 100.
Definition eSt : Admm := mkAdmm false (fun _ => 0) (fun _ => 0) (fun _ => 0) (fun _ => 0) 0 (1 / 5) 0 0 0 0.
Lemma overload_witness app sol L st : exists st' b x', admmSolveX app sol 3 eP [1 / 2] eg L st (fun _ => 0) = Ok st' (b, x') /\ ~ contactSolution 3 eG eg [1 / 2] x'.
Proof.
  destruct (overload_ok app sol 3 eP [1 / 2] eg L st (fun _ => 0)) as (st' & b & E); [cbn; lra | cbn; lra | cbn [minCoeff]; rewrite !(Rmin_left 0 0 (Rle_refl 0)); lra | cbn; lia | cbn; lia|].
  exists st', b, (fun _ => 0). split; [exact E|]. intros C. assert (L0 : (0 < length [1 / 2])%nat) by (cbn; lia). destruct (C 0%nat L0) as (_ & D & _). unfold seg3, contactVel, sumN, eG, eg in D. cbn in D. lra.
Qed.
