(* The facts in the form of the property theorems. *)
Require Import Reals List Arith Lia Lra Bool.
From Verif Require Import Sums Spec_Lin Tri TriFacts Lanczos LanFacts PowFacts MathFacts.
Import ListNotations.
Local Open Scope R_scope.

Lemma left_sym T r B : (0 < t_size T)%nat -> exists X, tri_applyOnTheLeft T r (t_size T) B = Some X /\ matEq r (t_size T) X (matMul (t_size T) B (symTri (t_diag T) (t_sub T))).
Proof.
  intros H. destruct (left_dense T r B H) as (X & E & D). exists X. split; [exact E|]. intros i j Hi Hj. rewrite (D i j Hi Hj). apply sumN_ext. intros k Hk. now rewrite (matrix_spec T k j Hk Hj).
Qed.
Lemma right_sym T B : (0 < t_size T)%nat -> exists X, tri_applyOnTheRight T (t_size T) (t_size T) B = Some X /\ matEq (t_size T) (t_size T) X (matMul (t_size T) (symTri (t_diag T) (t_sub T)) B).
Proof.
  intros H. destruct (right_dense T B H) as (X & E & D). exists X. split; [exact E|]. intros i j Hi Hj. rewrite (D i j Hi Hj). apply sumN_ext. intros k Hk. now rewrite (matrix_spec T i k Hi Hk).
Qed.
Lemma inverse_posdef T B : (0 < t_size T)%nat -> posDef (t_size T) (tri_matrix T) -> forall c,
  matEq (t_size T) c (matMul (t_size T) (tri_matrix T) (inv_apply T B)) B /\ matEq (t_size T) (t_size T) (matMul (t_size T) (tri_matrix T) (inv_matrix T)) matId.
Proof.
  intros Hn P c. assert (Hb : forall i, (i < t_size T)%nat -> fst (inv_eval T) i <> 0) by (intros i Hi; pose proof (posdef_pivots T P i Hi); lra).
  split; intros i j Hi Hj; [apply inv_apply_spec|apply inv_matrix_spec]; assumption.
Qed.
Lemma gs_span n p Q x : orthonormal n p Q -> let y := orthonormalisation n p Q x in (forall k, (k < p)%nat -> dotv n (col Q k) y = 0) /\ exists c, forall i, y i = x i - sumN p (fun k => c k * Q i k).
Proof. intros H. destruct (gs_spec n p Q x H) as (A & B). split; [exact A|]. exists (fun k => dotv n (col Q k) x). exact B. Qed.
Lemma matId_orthonormal n : orthonormal n n matId.
Proof.
  intros a b Ha Hb. unfold dotv, col. rewrite (sumN_ext n _ (fun k => if Nat.eqb a k then matId k b else 0)).
  - apply (sumN_delta n a (fun k => matId k b) Ha).
  - intros k Hk. unfold matId at 1. rewrite Nat.eqb_sym. destruct (Nat.eqb a k); ring.
Qed.
Lemma recur_product n s A L j : (S j < s)%nat -> recur n A (l_Q L) (l_a L) (l_b L) j -> forall i, (i < n)%nat -> matVec n A (col (l_Q L) j) i = matMul s (l_Q L) (symTri (l_a L) (l_b L)) i j.
Proof.
  intros Hj R i Hi. rewrite (R i Hi). unfold matMul. rewrite (sumN_ext s _ (fun k => symTri (l_a L) (l_b L) j k * l_Q L i k)) by (intros; rewrite symTri_sym; ring).
  rewrite (tri_row s (l_a L) (l_b L) (l_Q L i) j) by lia. unfold threeTerms. destruct (Nat.ltb_spec (S j) s); [reflexivity|lia].
Qed.
Lemma lanczos_ok tol n s A Q0 : (1 <= s <= n)%nat -> lanczos tol n n s A Q0 = Some (lanczosLoop tol n s A Q0, Nat.max 1 (match l_stop (lanczosLoop tol n s A Q0) with Some k => k | None => s end)).
Proof. intros H. unfold lanczos. rewrite Nat.eqb_refl. destruct (Nat.leb_spec 1 s); [|lia]. destruct (Nat.leb_spec s n); [|lia]. reflexivity. Qed.
Lemma lanczos_spec tol n s A Q0 : symmetric n A -> 0 <= tol -> (1 <= s <= n)%nat ->
  exists L rank, lanczos tol n n s A Q0 = Some (L, rank) /\ let p := built s L in (1 <= p <= s)%nat /\ orthonormal n p (l_Q L) /\
  (forall j k, (j < p)%nat -> (k < p)%nat -> dotv n (col (l_Q L) j) (matVec n A (col (l_Q L) k)) = symTri (l_a L) (l_b L) j k) /\
  (forall j, (S j < p)%nat -> forall i, (i < n)%nat -> matVec n A (col (l_Q L) j) i = matMul s (l_Q L) (symTri (l_a L) (l_b L)) i j).
Proof.
  intros HA Ht Hs. rewrite lanczos_ok by exact Hs. eexists. eexists. split; [reflexivity|]. destruct (lan_spec n s A tol HA Ht Q0) as (H1 & H2 & H3 & H4); [lia|lia|]. cbv zeta.
  split; [exact H1|]. split; [exact H2|]. split; [exact H3|]. intros j Hj. apply recur_product; [lia|]. apply H4. exact Hj.
Qed.
Lemma ex_proj3 : symmetric 3 proj3 /\ 0 <= 1/8 < 1/4 /\ (1 <= 3 <= 3)%nat.
Proof. split; [exact proj3_sym|]. split; [lra|lia]. Qed.
Lemma lanczos_sizes tol r c s A Q0 : r <> c \/ s = 0%nat \/ (r < s)%nat -> lanczos tol r c s A Q0 = None.
Proof.
  intros H. unfold lanczos. destruct (Nat.eqb_spec r c); [|reflexivity]. destruct (Nat.leb_spec 1 s); [|reflexivity]. destruct (Nat.leb_spec s r); [lia|reflexivity].
Qed.
Lemma lanczos_complete tol n s A Q0 : symmetric n A -> 0 <= tol -> (1 <= s <= n)%nat -> forall L rank,
  lanczos tol n n s A Q0 = Some (L, rank) -> built s L = s -> matEq n s (decompositionResidual n s A L) (fun _ _ => 0) /\ rank = s.
Proof.
  intros HA Ht Hs L rank E Hb. rewrite lanczos_ok in E by exact Hs. injection E as <- <-. 
  pose proof (lan_loop n s A tol HA Ht Q0 ltac:(lia) ltac:(lia)) as St. unfold lanState in St. unfold built in Hb.
  destruct (l_stop (lanczosLoop tol n s A Q0)) as [c|] eqn:Sc; [destruct St; lia|]. split; [|destruct s; [lia|reflexivity]]. apply (lan_residual n s A tol HA Ht); [lia|lia|exact Sc].
Qed.
Lemma lanczos_one tol n A Q0 : (1 <= n)%nat -> exists L, lanczos tol n n 1 A Q0 = Some (L, 1%nat) /\ built 1 L = 1%nat.
Proof. intros H. rewrite lanczos_ok by lia. eexists. split; reflexivity. Qed.
Lemma lanczos_early tol n s A Q0 : symmetric n A -> 0 <= tol -> (1 <= s <= n)%nat -> forall L rank,
  lanczos tol n n s A Q0 = Some (L, rank) -> (built s L < s)%nat ->
  normv n (fun i => matVec n A (col (l_Q L) (built s L - 1)%nat) i - sumN (built s L) (fun k => l_Q L i k * symTri (l_a L) (l_b L) k (built s L - 1)%nat)) <= tol.
Proof.
  intros HA Ht Hs L rank E Hb. rewrite lanczos_ok in E by exact Hs. injection E as <- _. set (L := lanczosLoop tol n s A Q0) in *.
  pose proof (lan_loop n s A tol HA Ht Q0 ltac:(lia) ltac:(lia)) as St. fold L in St. unfold lanState in St. unfold built in *.
  destruct (l_stop L) as [c|]; [|lia]. destruct St as (_ & _ & _ & _ & Hbc & y & Ny & _ & Hy). replace (S c - 1)%nat with c by lia.
  rewrite (norm_ext n _ y); [rewrite Ny; apply Hbc|]. intros i Hi. rewrite (Hy i Hi).
  rewrite (sumN_ext (S c) _ (fun k => symTri (l_a L) (l_b L) c k * l_Q L i k)) by (intros; rewrite symTri_sym; ring).
  rewrite (tri_row (S c) (l_a L) (l_b L) (l_Q L i) c) by lia. unfold threeTerms. rewrite Nat.ltb_irrefl. ring.
Qed.
Lemma power_bound n maxIt tol A x0 : injective n A -> (exists i, (i < n)%nat /\ x0 i <> 0) -> (1 <= maxIt)%nat -> 0 < tol ->
  exists P, powerRun n maxIt tol A x0 = Some P /\ p_nan P = false /\ 0 < p_est P /\ p_est P = normv n (p_vec P) /\ forall L, (forall x, normv n (matVec n A x) <= L * normv n x) -> p_est P <= L.
Proof.
  intros Inj Nz Hk Ht. unfold powerRun. rewrite tol_ok by assumption. eexists. split; [reflexivity|].
  destruct (run_good n tol A Inj (powerStep n tol A) (power_turn n tol A) x0 Nz maxIt) as ((G0 & G1 & G2 & _) & _). split; [exact G0|]. split; [exact G2|]. split; [exact G1|].
  intros L HL. apply (run_bound n tol A Inj (powerStep n tol A) (power_turn n tol A) x0 Nz); [lia|exact HL].
Qed.
Lemma ex_id n : (0 < n)%nat -> injective n matId /\ symmetric n matId /\ (exists i, (i < n)%nat /\ powerStart n i <> 0) /\ forall x i, (i < n)%nat -> matVec n matId x i = 1 * x i.
Proof.
  intros Hn. assert (HA : forall x i, (i < n)%nat -> matVec n matId x i = x i).
  { intros x i Hi. unfold matVec. rewrite (sumN_ext n _ (fun k => if Nat.eqb i k then x k else 0)) by (intros k _; unfold matId; destruct (Nat.eqb i k); ring). apply (sumN_delta n i x Hi). }
  split; [intros x H i Hi; pose proof (H i Hi) as E; rewrite HA in E by exact Hi; lra|]. split; [intros i j _ _; unfold matId; now rewrite Nat.eqb_sym|]. split.
  - exists 0%nat. split; [exact Hn|]. unfold powerStart. assert (P : 0 < INR n) by (apply lt_0_INR; lia). pose proof (sqrt_lt_R0 _ P) as Q. unfold Rdiv. rewrite Rmult_1_l. apply Rinv_neq_0_compat. lra.
  - intros x i Hi. rewrite HA by exact Hi. ring.
Qed.
Lemma power_monotone n maxIt tol A x0 : injective n A -> symmetric n A -> (exists i, (i < n)%nat /\ x0 i <> 0) -> (1 <= maxIt)%nat -> 0 < tol ->
  exists P P', powerRun n maxIt tol A x0 = Some P /\ powerRun n (maxIt + 1) tol A x0 = Some P' /\ p_est P <= p_est P'.
Proof.
  intros Inj HS Nz Hk Ht. unfold powerRun. rewrite !tol_ok by (try assumption; lia). eexists. eexists. split; [reflexivity|]. split; [reflexivity|]. rewrite Nat.add_1_r.
  apply (run_grows n tol A Inj (powerStep n tol A) (power_turn n tol A) x0 Nz); [exact HS|lia].
Qed.
Lemma power_eigen n maxIt tol lam A x0 : injective n A -> (exists i, (i < n)%nat /\ x0 i <> 0) -> (1 <= maxIt)%nat -> 0 < tol ->
  (forall i, (i < n)%nat -> matVec n A x0 i = lam * x0 i) ->
  exists P, powerRun n maxIt tol A x0 = Some P /\ p_est P = Rabs lam /\ forall i, (i < n)%nat -> matVec n A (p_vec P) i = lam * p_vec P i.
Proof.
  intros Inj Nz Hk Ht HE. unfold powerRun. rewrite tol_ok by assumption. eexists. split; [reflexivity|].
  destruct (run_eigen n tol A Inj (powerStep n tol A) (power_turn n tol A) x0 Nz maxIt lam HE) as (H1 & H2); [lia|]. split; [exact H2|exact H1].
Qed.
Lemma power_residual n maxIt tol A x0 : injective n A -> symmetric n A -> (exists i, (i < n)%nat /\ x0 i <> 0) -> (1 <= maxIt)%nat -> 0 < tol ->
  forall P1 P, powerRun n 1 tol A x0 = Some P1 -> p_done P1 = false -> powerRun n maxIt tol A x0 = Some P -> p_done P = true ->
  exists x e, normv n x = 1 /\ 0 < e <= p_est P /\ (forall i, (i < n)%nat -> p_vec P i = matVec n A (matVec n A x) i / e) /\
  Rsqr (normv n (fun i => matVec n A (matVec n A x) i - e * e * x i)) <= tol * (e * e) * p_est P * (e + p_est P).
Proof.
  intros Inj HS Nz Hk Ht P1 P E1 D1 E D. unfold powerRun in E1, E. rewrite tol_ok in E1, E by (try assumption; lia). injection E1 as <-. injection E as <-.
  apply (run_stop n tol A Inj (powerStep n tol A) (power_turn n tol A) x0 Nz); assumption.
Qed.
Lemma ex_two tol : 0 < tol < 1/4 -> exists P1 P, powerRun 1 1 tol (fun _ _ => 2) (powerStart 1) = Some P1 /\ p_done P1 = false /\ powerRun 1 2 tol (fun _ _ => 2) (powerStart 1) = Some P /\ p_done P = true.
Proof.
  intros Ht. unfold powerRun. rewrite !tol_ok by (try lia; lra). eexists. eexists. split; [reflexivity|]. 
  set (A := fun _ _ : nat => 2). set (P0 := mkPow _ _ _ _). change (forUp 0 1 (powerStep 1 tol A) P0) with (powerStep 1 tol A P0 0). change (forUp 0 2 (powerStep 1 tol A) P0) with (powerStep 1 tol A (powerStep 1 tol A P0 0) 1).
  set (P1 := powerStep 1 tol A P0 0). assert (E0 : p_est P0 = 1) by (apply start_norm; lia).
  assert (V0 : p_vec P0 0%nat = 1) by (cbn; unfold powerStart; cbn; rewrite sqrt_1; lra).
  assert (N : forall x : nat -> R, 0 <= x 0%nat -> normv 1 x = x 0%nat). { intros x Hx. unfold normv, dotv. cbn [sumN]. rewrite Rplus_0_l. apply sqrt_square. exact Hx. }
  assert (V1 : p_vec P1 0%nat = 2). { change (p_vec P1 0%nat) with (matVec 1 A (fun i => p_vec P0 i / p_est P0) 0%nat). unfold matVec, A. cbn [sumN]. rewrite V0, E0. lra. }
  assert (E1 : p_est P1 = 2) by (change (p_est P1) with (normv 1 (p_vec P1)); rewrite N, V1; lra).
  assert (F0 : isZero (p_est P0) = false) by (apply isZero_false; lra). assert (F1 : isZero (p_est P1) = false) by (apply isZero_false; lra).
  assert (D1 : p_done P1 = false).
  { change (p_done P1) with (negb (isZero (p_est P0)) && leR (Rabs (p_est P0 - p_est P1)) (tol * Rmax (Rabs (p_est P0)) (Rabs (p_est P1)))). rewrite F0, E0, E1. cbn [negb andb].
    rewrite (Rabs_left (1 - 2)), !Rabs_pos_eq, Rmax_right by lra. unfold leR. destruct (Rle_dec _ _); [lra|reflexivity]. }
  split; [exact D1|]. split; [reflexivity|]. set (P2 := powerStep 1 tol A P1 1).
  assert (X2 : P2 = mkPow (matVec 1 A (fun i => p_vec P1 i / p_est P1)) (normv 1 (matVec 1 A (fun i => p_vec P1 i / p_est P1)))
     (negb (isZero (p_est P0) || isZero (p_est P1)) && leR (Rabs (p_est P1 - normv 1 (matVec 1 A (fun i => p_vec P1 i / p_est P1)))) (tol * Rmax (Rabs (p_est P1)) (Rabs (normv 1 (matVec 1 A (fun i => p_vec P1 i / p_est P1)))))) (isZero (p_est P0) || isZero (p_est P1))).
  { unfold P2, powerStep at 1. rewrite D1. reflexivity. }
  change (p_done P2 = true). rewrite X2. cbn [p_done]. rewrite F0, F1. cbn [orb negb andb].
  assert (V2 : normv 1 (matVec 1 A (fun i => p_vec P1 i / p_est P1)) = 2). { assert (Z : matVec 1 A (fun i => p_vec P1 i / p_est P1) 0%nat = 2) by (unfold matVec, A; cbn [sumN]; rewrite V1, E1; lra). rewrite N; lra. }
  rewrite V2, E1. unfold leR. rewrite Rminus_diag_eq, Rabs_R0 by reflexivity. destruct (Rle_dec _ _) as [|X]; [reflexivity|]. exfalso. apply X. apply Rmult_le_pos; [lra|]. apply Rle_trans with (Rabs 2); [apply Rabs_pos|apply Rmax_l].
Qed.
Lemma low_spec n maxIt tol large A x0 : injective n (fun i j => A i j - large * matId i j) -> (exists i, (i < n)%nat /\ x0 i <> 0) -> (1 <= maxIt)%nat -> 0 < tol ->
  exists P low, lowRun n maxIt tol A large x0 = Some (P, low) /\ p_nan P = false /\
  (forall L, (forall x, normv n (fun i => matVec n A x i - large * x i) <= (large - L) * normv n x) -> L <= low) /\
  (forall mu, (forall i, (i < n)%nat -> matVec n A x0 i = mu * x0 i) -> mu <= large -> low = mu).
Proof.
  intros Inj Nz Hk Ht. fold (shifted A large) in Inj. unfold lowRun. rewrite tol_ok by assumption. eexists. eexists. split; [reflexivity|].
  destruct (run_good n tol _ Inj (lowStep n tol A large) (low_turn n tol A large) x0 Nz maxIt) as ((G0 & _) & _). split; [exact G0|]. split.
  - intros L HL. assert (B : p_est (forUp 0 maxIt (lowStep n tol A large) (mkPow x0 (normv n x0) false false)) <= large - L); [|lra].
    apply (run_bound n tol _ Inj (lowStep n tol A large) (low_turn n tol A large) x0 Nz); [lia|]. intros x. rewrite (norm_ext n _ (fun i => matVec n A x i - large * x i)) by (intros; apply shifted_vec; assumption). apply HL.
  - intros mu HE Hm. destruct (run_eigen n tol _ Inj (lowStep n tol A large) (low_turn n tol A large) x0 Nz maxIt (mu - large)) as (_ & E); [intros i Hi; rewrite shifted_vec, HE by exact Hi; ring|lia|].
    rewrite E, Rabs_left1 by lra. ring.
Qed.
Lemma ex_shift n : (0 < n)%nat -> injective n (fun i j => matId i j - 2 * matId i j).
Proof.
  intros Hn. destruct (ex_id n Hn) as (_ & _ & _ & H). intros x Hx i Hi. pose proof (Hx i Hi) as E. fold (shifted matId 2) in E. rewrite shifted_vec, H in E by exact Hi. lra.
Qed.
