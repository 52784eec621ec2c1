Require Import Reals List Arith Lia Lra Bool.
From Verif Require Import Sums Spec_Lin Tri TriFacts Lanczos LanFacts.
Import ListNotations.
Local Open Scope R_scope.

(* matrices without kernel *)
Definition injective (n : nat) (A : mat) : Prop := forall x, (forall i, (i < n)%nat -> matVec n A x i = 0) -> forall i, (i < n)%nat -> x i = 0.
Lemma norm_zero n x : normv n x = 0 -> forall i, (i < n)%nat -> x i = 0.
Proof.
  intros H i Hi. assert (E : dotv n x x = 0) by (rewrite <- normv_sq, H; ring).
  pose proof (sumN_nonneg_zero n (fun k => x k * x k) (fun k _ => Rle_0_sqr (x k)) E i Hi) as Z. cbv beta in Z. apply Rmult_integral in Z. tauto.
Qed.
Lemma norm_0 n x : (forall i, (i < n)%nat -> x i = 0) -> normv n x = 0.
Proof. intros H. unfold normv. replace (dotv n x x) with 0; [apply sqrt_0|]. unfold dotv. rewrite sumN_zero; [reflexivity|]. intros k Hk. rewrite H by exact Hk. ring. Qed.
Lemma norm_ext n x y : (forall i, (i < n)%nat -> x i = y i) -> normv n x = normv n y.
Proof. intros H. unfold normv. f_equal. apply dotv_ext; exact H. Qed.
Lemma norm_scale n c x : normv n (fun i => c * x i) = Rabs c * normv n x.
Proof.
  unfold normv. rewrite dotv_scale, dotv_comm, dotv_scale, <- Rmult_assoc, sqrt_mult; [|apply Rle_0_sqr|apply dotv_nonneg].
  f_equal. change (c * c) with (Rsqr c). apply sqrt_Rsqr_abs.
Qed.
Lemma norm_div n c x : normv n (fun i => x i / c) = normv n x / Rabs c.
Proof.
  destruct (Req_dec c 0) as [->|Hc].
  - unfold Rdiv. rewrite (norm_ext n _ (fun i => / 0 * x i)) by (intros; ring). rewrite norm_scale, Rabs_R0. destruct (Req_dec (/ 0) 0) as [E|E].
    + rewrite E, Rabs_R0. ring.
    + rewrite Rmult_comm. f_equal. rewrite Rabs_pos_eq; [reflexivity|]. rewrite Rinv_0. lra.
  - rewrite (norm_ext n _ (fun i => / c * x i)) by (intros; unfold Rdiv; ring). rewrite norm_scale, Rabs_inv. unfold Rdiv. ring.
Qed.
Lemma cauchy n x y : dotv n x y * dotv n x y <= dotv n x x * dotv n y y.
Proof.
  destruct (Req_dec (dotv n y y) 0) as [E|E].
  - assert (Z : dotv n x y = 0).
    { unfold dotv. apply sumN_zero. intros k Hk. rewrite (norm_zero n y); [ring| |exact Hk]. unfold normv. rewrite E. apply sqrt_0. }
    rewrite Z, E. lra.
  - pose proof (dotv_nonneg n y) as P. set (t := dotv n x y / dotv n y y).
    pose proof (dotv_nonneg n (fun i => x i - t * y i)) as Q. rewrite dotv_sub, dotv_scale, (dotv_comm n _ x), (dotv_comm n _ y), !dotv_sub, !dotv_scale, (dotv_comm n y x) in Q.
    apply (Rmult_le_reg_r (/ dotv n y y)); [apply Rinv_0_lt_compat; lra|]. replace (dotv n x x * dotv n y y * / dotv n y y) with (dotv n x x) by (field; exact E).
    replace (dotv n x x - t * dotv n x y - t * (dotv n x y - t * dotv n y y)) with (dotv n x x - dotv n x y * dotv n x y * / dotv n y y) in Q by (unfold t; field; exact E). lra.
Qed.
Lemma cauchy_norm n x y : dotv n x y <= normv n x * normv n y.
Proof.
  pose proof (cauchy n x y) as H. pose proof (normv_nonneg n x) as Hx. pose proof (normv_nonneg n y) as Hy.
  destruct (Rle_dec (dotv n x y) 0) as [L|L]; [pose proof (Rmult_le_pos _ _ Hx Hy); lra|].
  apply Rsqr_incr_0_var; [|apply Rmult_le_pos; assumption]. unfold Rsqr. rewrite <- !normv_sq in H. lra.
Qed.
(* the iteration, for the matrix whose product is f *)
Section Iter.
Variables (n : nat) (tol : R) (B : mat).
Hypothesis Inj : injective n B.
Definition unitImage (P : Pow) : Prop := exists x, normv n x = 1 /\ (forall i, (i < n)%nat -> p_vec P i = matVec n B x i).
Definition good (k : nat) (P : Pow) : Prop := p_nan P = false /\ p_est P = normv n (p_vec P) /\ 0 < p_est P /\ ((0 < k)%nat -> unitImage P).
(* one turn, described by its effect on the entries below n *)
Definition turn (P P' : Pow) : Prop := if p_done P then P' = P else
  (forall i, (i < n)%nat -> p_vec P' i = matVec n B (fun i => p_vec P i / p_est P) i) /\ p_est P' = normv n (p_vec P') /\ p_nan P' = p_nan P || isZero (p_est P) /\
  p_done P' = negb (p_nan P || isZero (p_est P)) && leR (Rabs (p_est P - p_est P')) (tol * Rmax (Rabs (p_est P)) (Rabs (p_est P'))).
Lemma isZero_false a : a <> 0 -> isZero a = false. Proof. intros H. unfold isZero. destruct (Req_EM_T a 0); [contradiction|reflexivity]. Qed.
Lemma turn_good k P P' : good k P -> turn P P' -> (p_done P = true -> (0 < k)%nat) -> good (k + 1) P'.
Proof.
  intros (G0 & G1 & G2 & G3) H Hd. unfold turn in H. destruct (p_done P).
  - subst P'. split; [exact G0|]. split; [exact G1|]. split; [exact G2|]. intros _. apply G3. auto.
  - destruct H as (H1 & H2 & H3 & _). rewrite G0, isZero_false in H3 by lra. cbn in H3.
    assert (U : normv n (fun i => p_vec P i / p_est P) = 1). { rewrite norm_div, <- G1, Rabs_pos_eq by lra. field. lra. }
    split; [exact H3|]. split; [exact H2|]. split.
    + rewrite H2. destruct (Rle_lt_or_eq_dec 0 _ (normv_nonneg n (p_vec P'))) as [L|E]; [exact L|]. exfalso. symmetry in E.
      rewrite norm_0 in U; [lra|]. apply Inj. intros i Hi. rewrite <- H1 by exact Hi. apply (norm_zero n _ E i Hi).
    + intros _. exists (fun i => p_vec P i / p_est P). split; [exact U|exact H1].
Qed.
(* estimates of a symmetric matrix do not decrease *)
Lemma turn_grows P P' : symmetric n B -> good 1 P -> turn P P' -> p_est P <= p_est P'.
Proof.
  intros HS (_ & G1 & G2 & G3) H. unfold turn in H. destruct (p_done P); [subst; lra|]. destruct H as (H1 & H2 & _). destruct G3 as (x & U & E); [lia|].
  assert (K : p_est P * p_est P <= p_est P * p_est P').
  { rewrite G1 at 1. rewrite G1 at 1. rewrite normv_sq. rewrite (dotv_ext n _ _ (matVec n B x) (p_vec P)) by auto. rewrite <- sym_dot by exact HS.
    eapply Rle_trans; [apply cauchy_norm|]. rewrite U, Rmult_1_l. rewrite H2. rewrite (norm_ext n (p_vec P') (fun i => matVec n B (p_vec P) i / p_est P)) by (intros i Hi; rewrite (H1 i Hi); apply matVec_div).
    rewrite norm_div, (Rabs_pos_eq (p_est P)) by lra. right. field. lra. }
  apply (Rmult_le_reg_l (p_est P)); [lra|exact K].
Qed.
(* the estimate never exceeds a bound of the matrix *)
Lemma image_bound k P L : good k P -> (0 < k)%nat -> (forall x, normv n (matVec n B x) <= L * normv n x) -> p_est P <= L.
Proof. intros (_ & G1 & _ & G3) Hk H. destruct (G3 Hk) as (x & U & E). rewrite G1, (norm_ext n _ _ E). eapply Rle_trans; [apply H|]. rewrite U. lra. Qed.
(* when the criterion stops the loop *)
Lemma turn_stop P P' : symmetric n B -> 0 < tol -> good 1 P -> turn P P' -> p_done P = false -> p_done P' = true ->
  exists x e, normv n x = 1 /\ 0 < e <= p_est P' /\ (forall i, (i < n)%nat -> p_vec P' i = matVec n B (matVec n B x) i / e) /\
  Rsqr (normv n (fun i => matVec n B (matVec n B x) i - e * e * x i)) <= tol * (e * e) * p_est P' * (e + p_est P').
Proof.
  intros HS Ht G H D D'. pose proof (turn_grows P P' HS G H) as Gr. destruct G as (G0 & G1 & G2 & G3). unfold turn in H. rewrite D in H. destruct H as (H1 & H2 & H3 & H4).
  rewrite G0, isZero_false in H4 by lra. cbn in H4. rewrite D' in H4. symmetry in H4. unfold leR in H4. destruct (Rle_dec _ _) as [C|]; [|discriminate]. clear H4.
  destruct G3 as (x & U & E); [lia|]. exists x, (p_est P). split; [exact U|]. split; [lra|].
  assert (V : forall i, (i < n)%nat -> p_vec P' i = matVec n B (matVec n B x) i / p_est P).
  { intros i Hi. rewrite (H1 i Hi), matVec_div. f_equal. apply matVec_ext. exact E. }
  split; [exact V|]. set (e := p_est P) in *. set (e' := p_est P') in *.
  rewrite (Rabs_left1 (e - e')), Rmax_right, (Rabs_pos_eq e') in C; [|lra|rewrite !Rabs_pos_eq by lra; lra|lra].
  set (z := matVec n B (matVec n B x)) in *. unfold Rsqr. rewrite normv_sq.
  assert (XX : dotv n x x = 1) by (rewrite <- normv_sq, U; ring).
  assert (XZ : dotv n x z = e * e). { unfold z. rewrite sym_dot by exact HS. rewrite G1, normv_sq. apply dotv_ext; intros; symmetry; auto. }
  assert (ZZ : dotv n z z = e * e * (e' * e')).
  { rewrite H2. rewrite (norm_ext n _ _ V), norm_div, Rabs_pos_eq by lra. replace (e * e * (normv n z / e * (normv n z / e))) with (normv n z * normv n z) by (field; lra). symmetry. apply normv_sq. }
  rewrite dotv_sub, dotv_scale, (dotv_comm n _ z), (dotv_comm n _ x), !dotv_sub, !dotv_scale, (dotv_comm n z x), XX, XZ, ZZ.
  replace (e * e * (e' * e') - e * e * (e * e) - e * e * (e * e - e * e * 1)) with (e * e * (e + e') * (e' - e)) by ring.
  replace (tol * (e * e) * e' * (e + e')) with (e * e * (e + e') * (tol * e')) by ring.
  apply Rmult_le_compat_l; [|lra]. apply Rmult_le_pos; [apply Rmult_le_pos; lra|lra].
Qed.
(* an eigenvector stays one *)
Definition eigen (lam : R) (P : Pow) : Prop := forall i, (i < n)%nat -> matVec n B (p_vec P) i = lam * p_vec P i.
Lemma turn_eigen lam k P P' : good k P -> eigen lam P -> ((0 < k)%nat -> p_est P = Rabs lam) -> (p_done P = true -> (0 < k)%nat) -> turn P P' -> eigen lam P' /\ p_est P' = Rabs lam.
Proof.
  intros (_ & G1 & G2 & _) H K Hd T. unfold turn in T. destruct (p_done P); [subst; split; [exact H|auto]|]. destruct T as (H1 & H2 & _).
  assert (E : forall i, (i < n)%nat -> p_vec P' i = lam * (p_vec P i / p_est P)). { intros i Hi. rewrite (H1 i Hi), matVec_div, (H i Hi). unfold Rdiv. ring. }
  split.
  - intros i Hi. rewrite (matVec_ext n B _ _ i E), (matVec_scale n B lam), matVec_div, (H i Hi), (E i Hi). unfold Rdiv. ring.
  - rewrite H2, (norm_ext n _ _ E), norm_scale, norm_div, <- G1, Rabs_pos_eq with (x := p_est P) by lra. field. lra.
Qed.
(* the loops *)
Variable step : Pow -> nat -> Pow.
Hypothesis step_turn : forall P k, turn P (step P k).
Variable x0 : nat -> R.
Hypothesis x0_nz : exists i, (i < n)%nat /\ x0 i <> 0.
Notation run k := (forUp 0 k step (mkPow x0 (normv n x0) false false)).
Lemma run_S k : run (S k) = step (run k) k.
Proof. unfold forUp. rewrite seq_S, fold_left_app. reflexivity. Qed.
Lemma run_good k : good k (run k) /\ (p_done (run k) = true -> (0 < k)%nat).
Proof.
  induction k as [|k (IH & ID)].
  - split; [|discriminate]. cbn. split; [reflexivity|]. split; [reflexivity|]. split; [|intros; lia]. cbn.
    destruct (Rle_lt_or_eq_dec 0 _ (normv_nonneg n x0)) as [L|E]; [exact L|]. exfalso. destruct x0_nz as (i & Hi & N). apply N. apply (norm_zero n); [symmetry; exact E|exact Hi].
  - rewrite run_S. split; [|intros; lia]. rewrite <- Nat.add_1_r. apply (turn_good k (run k)); auto.
Qed.
Lemma good_1 k P : (0 < k)%nat -> good k P -> good 1 P.
Proof. intros Hk (A1 & A2 & A3 & A4). split; [exact A1|]. split; [exact A2|]. split; [exact A3|auto]. Qed.
Lemma run_grows k : symmetric n B -> (0 < k)%nat -> p_est (run k) <= p_est (run (S k)).
Proof. intros HS Hk. rewrite run_S. apply turn_grows; [exact HS| |apply step_turn]. apply (good_1 k); [exact Hk|apply run_good]. Qed.
Lemma run_bound k L : (0 < k)%nat -> (forall x, normv n (matVec n B x) <= L * normv n x) -> p_est (run k) <= L.
Proof. intros Hk H. apply (image_bound k); auto. apply run_good. Qed.
Lemma run_eigen k lam : (forall i, (i < n)%nat -> matVec n B x0 i = lam * x0 i) -> (0 < k)%nat -> eigen lam (run k) /\ p_est (run k) = Rabs lam.
Proof.
  intros H Hk. destruct k as [|k]; [lia|]. clear Hk. induction k as [|k IH]; rewrite run_S.
  - apply (turn_eigen lam 0 (run 0%nat)); [apply run_good|exact H|intros; lia|discriminate|apply step_turn].
  - destruct IH as (I1 & I2). apply (turn_eigen lam (S k) (run (S k))); [apply run_good|exact I1|auto|intros; lia|apply step_turn].
Qed.
Lemma run_stop k : symmetric n B -> 0 < tol -> p_done (run 1%nat) = false -> p_done (run k) = true ->
  exists x e, normv n x = 1 /\ 0 < e <= p_est (run k) /\ (forall i, (i < n)%nat -> p_vec (run k) i = matVec n B (matVec n B x) i / e) /\
  Rsqr (normv n (fun i => matVec n B (matVec n B x) i - e * e * x i)) <= tol * (e * e) * p_est (run k) * (e + p_est (run k)).
Proof.
  intros HS Ht D1. induction k as [|k IH]; intros D; [discriminate|]. rewrite run_S in D |- *. pose proof (step_turn (run k) k) as T. destruct (p_done (run k)) eqn:Dk.
  - unfold turn in T. rewrite Dk in T. rewrite T. apply IH. reflexivity.
  - assert (Hk : (0 < k)%nat). { destruct k; [|lia]. exfalso. rewrite run_S in D1. congruence. }
    apply (turn_stop (run k)); auto. apply (good_1 k); [exact Hk|apply run_good].
Qed.
End Iter.
Lemma power_turn n tol A P k : turn n tol A P (powerStep n tol A P k).
Proof. unfold turn, powerStep. destruct (p_done P); [reflexivity|]. cbn [p_vec p_est p_nan p_done]. repeat split. Qed.
(* the matrix of the second loop *)
Definition shifted (A : mat) (large : R) : mat := fun i j => A i j - large * matId i j.
Lemma shifted_vec n A large x i : (i < n)%nat -> matVec n (shifted A large) x i = matVec n A x i - large * x i.
Proof.
  intros Hi. unfold matVec, shifted. rewrite <- (sumN_delta n i (fun k => large * x k) Hi), <- sumN_sub. apply sumN_ext. intros k Hk.
  unfold matId. destruct (Nat.eqb i k); ring.
Qed.
Lemma low_turn n tol A large P k : turn n tol (shifted A large) P (lowStep n tol A large P k).
Proof.
  unfold turn, lowStep. destruct (p_done P); [reflexivity|]. cbn [p_vec p_est p_nan p_done]. split; [|repeat split].
  intros i Hi. rewrite shifted_vec by exact Hi. reflexivity.
Qed.
Lemma tol_ok tol maxIt : (1 <= maxIt)%nat -> 0 < tol -> Nat.leb 1 maxIt && negb (leR tol 0) = true.
Proof. intros H1 H2. destruct (Nat.leb_spec 1 maxIt); [|lia]. unfold leR. destruct (Rle_dec tol 0); [lra|reflexivity]. Qed.
