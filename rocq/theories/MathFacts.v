(* Concrete matrices: where the mathematical utilities do not do what their names say, and the examples beside the theorems. *)
Require Import Reals List Arith Lia Lra Bool.
From Verif Require Import Sums Spec_Lin Tri TriFacts Lanczos LanFacts PowFacts.
Import ListNotations.
Local Open Scope R_scope.

Definition swapTri : Tri := mkTri 2 (fun _ => 0) (fun _ => 1).
Definition ones : mat := fun _ _ => 1.
Lemma vector_refuted : exists T B X, (t_size T = 2)%nat /\ tri_applyOnTheRight T 2 1 B = Some X /\ X 0%nat 0%nat <> matMul 2 (tri_matrix T) B 0%nat 0%nat.
Proof.
  destruct (right_vector swapTri ones) as (X & HX & E); [cbn; lia|]. exists swapTri, ones, X. split; [reflexivity|]. split; [exact HX|].
  rewrite E by (cbn; lia). change (matMul 2 (tri_matrix swapTri) ones 0%nat 0%nat) with (matMul (t_size swapTri) (tri_matrix swapTri) ones 0%nat 0%nat). rewrite dense_row by (cbn; lia). unfold threeTerms, col. unfold ones. cbn. intros Q. lra.
Qed.
(* a diagonally dominant matrix: its pivots are at least one *)
Definition domTri (n : nat) : Tri := mkTri n (fun _ => 2) (fun _ => 1).
Lemma dom_pivots n : forall k, (k < n)%nat -> 1 <= fst (inv_eval (domTri n)) k.
Proof.
  destruct (inv_eval_spec (domTri n)) as (P0 & P1). cbn [domTri t_size t_diag t_sub] in P0, P1. induction k as [|k IH]; intros Hk; [rewrite P0; lra|].
  destruct (P1 k) as (Pw & Pb); [lia|]. rewrite Nat.add_1_r in Pb. rewrite Pb, Pw. specialize (IH ltac:(lia)).
  assert (1 / fst (inv_eval (domTri n)) k <= 1). { apply (Rmult_le_reg_r (fst (inv_eval (domTri n)) k)); [lra|]. unfold Rdiv. rewrite Rmult_assoc, Rinv_l by lra. lra. } lra.
Qed.
(* the quadratic form of domTri is the sum of squares x0^2 + (x0+x1)^2 + ... *)
Lemma dom_quad n x : dotv n x (matVec n (tri_matrix (domTri n)) x) = sumN n (fun i => (x i + (if Nat.ltb 0 i then x (i - 1)%nat else 0)) * (x i + (if Nat.ltb 0 i then x (i - 1)%nat else 0))) + (if Nat.ltb 0 n then x (n - 1)%nat * x (n - 1)%nat else 0).
Proof.
  assert (R : forall i, (i < n)%nat -> matVec n (tri_matrix (domTri n)) x i = 2 * x i + (if Nat.ltb (S i) n then x (S i) else 0) + (if Nat.ltb 0 i then x (i - 1)%nat else 0)).
  { intros i Hi. change (matVec n (tri_matrix (domTri n)) x i) with (matMul (t_size (domTri n)) (tri_matrix (domTri n)) (fun i _ => x i) i 0%nat). rewrite dense_row by exact Hi. unfold threeTerms, col. cbn [domTri t_diag t_sub t_size].
    destruct (Nat.ltb (S i) n), (Nat.ltb 0 i); ring. }
  rewrite (dotv_ext n _ _ x (fun i => 2 * x i + (if Nat.ltb (S i) n then x (S i) else 0) + (if Nat.ltb 0 i then x (i - 1)%nat else 0)) (fun _ _ => eq_refl) R). clear R. unfold dotv.
  assert (G : forall k, (k <= n)%nat -> sumN k (fun i => x i * (2 * x i + (if Nat.ltb (S i) n then x (S i) else 0) + (if Nat.ltb 0 i then x (i - 1)%nat else 0))) =
    sumN k (fun i => (x i + (if Nat.ltb 0 i then x (i - 1)%nat else 0)) * (x i + (if Nat.ltb 0 i then x (i - 1)%nat else 0))) + (if Nat.ltb 0 k then x (k - 1)%nat * x (k - 1)%nat + (if Nat.ltb k n then x (k - 1)%nat * x k else 0) else 0)).
  { induction k as [|k IH]; intros Hk; [cbn; ring|]. cbn [sumN]. rewrite IH by lia. change (Nat.ltb 0 (S k)) with true. cbv iota. replace (S k - 1)%nat with k by lia.
    destruct (Nat.ltb_spec k n); [|lia]. destruct (Nat.ltb_spec (S k) n), (Nat.ltb_spec 0 k); ring. }
  rewrite G by lia. f_equal. destruct (Nat.ltb 0 n); [|reflexivity]. rewrite Nat.ltb_irrefl. ring.
Qed.
Lemma dom_posdef n : posDef n (tri_matrix (domTri n)).
Proof.
  intros x (k & Hk & Nz). rewrite dom_quad. destruct (Nat.ltb_spec 0 n); [|lia].
  pose proof (sumN_nonneg n (fun i => (x i + (if Nat.ltb 0 i then x (i - 1)%nat else 0)) * (x i + (if Nat.ltb 0 i then x (i - 1)%nat else 0))) (fun i _ => Rle_0_sqr _)) as P.
  pose proof (Rle_0_sqr (x (n - 1)%nat)) as Q. unfold Rsqr in Q.
  match type of P with 0 <= ?s => destruct (Req_dec (s + x (n - 1)%nat * x (n - 1)%nat) 0) as [E|E]; [exfalso|lra] end.
  match type of P with 0 <= sumN n ?f => pose proof (sumN_nonneg_zero n f (fun i _ => Rle_0_sqr _) ltac:(lra)) as Z end. cbv beta in Z.
  assert (A : forall i, (i < n)%nat -> x i = 0).
  { induction i as [|i IH]; intros Hi; pose proof (Z _ Hi) as Zi.
    - change (Nat.ltb 0 0) with false in Zi. cbv iota in Zi. apply Rmult_integral in Zi. lra.
    - change (Nat.ltb 0 (S i)) with true in Zi. cbv iota in Zi. replace (S i - 1)%nat with i in Zi by lia. rewrite IH in Zi by lia. apply Rmult_integral in Zi. lra. }
  apply Nz, A, Hk.
Qed.
(* the vector is not normalised *)
Lemma gs_refuted : exists Q x, orthonormal 2 1 Q /\ normv 2 (orthonormalisation 2 1 Q x) = 2.
Proof.
  exists matId, (fun i => match i with O => 0 | _ => 2 end). split.
  - intros a b Ha Hb. replace a with 0%nat by lia. replace b with 0%nat by lia. unfold dotv, col, matId. cbn. ring.
  - assert (E : forall i, (i < 2)%nat -> orthonormalisation 2 1 matId (fun i => match i with O => 0 | _ => 2 end) i = match i with O => 0 | _ => 2 end).
    { intros [|[|i]] Hi; [| |lia]; unfold orthonormalisation, forUp, dotv, col, matId; cbn; ring. }
    rewrite (norm_ext 2 _ _ E). unfold normv, dotv. cbn. replace (0 + 0 * 0 + 2 * 2) with (2 * 2) by ring. apply sqrt_square. lra.
Qed.
(* rank() : two columns are built, one is reported *)
Definition proj3 : mat := fun i j => match i, j with 0%nat, 0%nat | 1%nat, 1%nat => 1 | _, _ => 0 end.
Lemma proj3_sym : symmetric 3 proj3.
Proof. intros [|[|[|i]]] [|[|[|j]]] Hi Hj; try lia; reflexivity. Qed.
Lemma rank_stop tol Q0 : 0 <= tol < 1/4 -> l_stop (lanczosLoop tol 3 3 proj3 Q0) = Some 1%nat.
Proof.
  intros Ht. unfold lanczosLoop, forUp. cbn [seq fold_left].
  set (c := 1 / sqrt (INR 3)). assert (P3 : 0 < INR 3) by (apply lt_0_INR; lia).
  assert (Cc : c * c = 1 / 3). { unfold c. replace (1 / sqrt (INR 3) * (1 / sqrt (INR 3))) with (/ (sqrt (INR 3) * sqrt (INR 3))) by (field; pose proof (sqrt_lt_R0 _ P3); lra). rewrite sqrt_sqrt by lra. cbn. lra. }
  set (L0 := mkLan _ _ _ _). set (L1 := lanczosStep tol 3 3 proj3 L0 0).
  set (y := fun i : nat => match i with 0%nat | 1%nat => c / 3 | _ => - 2 * c / 3 end). set (be := sqrt (2/9)).
  assert (Bb : be * be = 2/9) by (apply sqrt_sqrt; lra). assert (Bp : 1/4 < be). { unfold be. rewrite <- (sqrt_square (1/4)) by lra. apply sqrt_lt_1; lra. }
  assert (S1 : l_stop L1 = None /\ l_b L1 0%nat = be /\ forall i, (i < 3)%nat -> l_Q L1 i 0%nat = c /\ l_Q L1 i 1%nat = y i / be).
  { unfold L1, lanczosStep. change (l_stop L0) with (@None nat). cbv iota zeta. change (Nat.ltb 0 (3 - 1)) with true. change (Nat.ltb 0 0) with false. cbv iota. rewrite !setVec_same.
    set (al := dotv 3 _ _).
    assert (Q0c : forall i, l_Q L0 i 0%nat = c) by reflexivity.
    assert (A0 : forall i, matVec 3 proj3 (col (l_Q L0) 0) i = match i with 0%nat | 1%nat => c | _ => 0 end).
    { intros i. unfold matVec, col. cbn [sumN]. rewrite !Q0c. destruct i as [|[|i]]; cbn; ring. }
    assert (Al : al = 2/3). { unfold al, dotv, col. cbn [sumN]. rewrite !A0, !Q0c. lra. }
    assert (Y : forall i, matVec 3 proj3 (col (l_Q L0) 0) i - al * col (l_Q L0) 0 i = y i).
    { intros i. rewrite A0, Al. unfold col. rewrite Q0c. unfold y. destruct i as [|[|i]]; lra. }
    assert (N : normv 3 (fun i => matVec 3 proj3 (col (l_Q L0) 0) i - al * col (l_Q L0) 0 i) = be).
    { rewrite (norm_ext 3 _ y) by auto. unfold normv, be. f_equal. unfold dotv. cbn [sumN]. unfold y. lra. }
    rewrite N. unfold leR. destruct (Rle_dec be tol); [lra|]. cbn [l_stop l_b l_Q]. split; [reflexivity|]. split; [apply setVec_same|]. intros i Hi. split.
    - rewrite setColM_other by lia. apply Q0c.
    - change (0 + 1)%nat with 1%nat. rewrite setColM_same, Y. reflexivity. }
  destruct S1 as (N1 & B1 & Q1). clearbody L1. clear L0.
  assert (S2 : l_stop (lanczosStep tol 3 3 proj3 L1 1) = Some 1%nat).
  { unfold lanczosStep at 1. rewrite N1. cbv zeta. change (Nat.ltb 1 (3 - 1)) with true. change (Nat.ltb 0 1) with true. cbv iota. rewrite !setVec_same. change (1 - 1)%nat with 0%nat.
    set (al := dotv 3 _ _).
    assert (A0 : forall i, matVec 3 proj3 (col (l_Q L1) 1) i = match i with 0%nat => y 0%nat / be | 1%nat => y 1%nat / be | _ => 0 end).
    { intros i. unfold matVec, col. cbn [sumN]. rewrite (proj2 (Q1 0%nat ltac:(lia))), (proj2 (Q1 1%nat ltac:(lia))), (proj2 (Q1 2%nat ltac:(lia))). destruct i as [|[|i]]; cbn [proj3]; ring. }
    assert (Al : al = 1/3).
    { unfold al, dotv. cbn [sumN]. rewrite !A0. unfold col. rewrite (proj2 (Q1 0%nat ltac:(lia))), (proj2 (Q1 1%nat ltac:(lia))). unfold y.
      replace (0 + c / 3 / be * (c / 3 / be) + c / 3 / be * (c / 3 / be) + l_Q L1 2%nat 1%nat * 0) with (2 / 9 * (c * c) / (be * be)) by (field; lra). rewrite Cc, Bb. field. }
    set (y1 := fun i => _ - _ - _).
    assert (Y1 : forall i, (i < 3)%nat -> y1 i = 0).
    { intros i Hi. unfold y1. rewrite A0, Al, B1. unfold col. destruct (Q1 i Hi) as (-> & ->). unfold y.
      assert (E : 2 / 9 * c / be - be * c = 0) by (replace (2/9) with (be * be) by exact Bb; field; lra).
      destruct i as [|[|i]].
      - replace (c / 3 / be - 1 / 3 * (c / 3 / be) - be * c) with (2 / 9 * c / be - be * c) by (field; lra). exact E.
      - replace (c / 3 / be - 1 / 3 * (c / 3 / be) - be * c) with (2 / 9 * c / be - be * c) by (field; lra). exact E.
      - replace (0 - 1 / 3 * (-2 * c / 3 / be) - be * c) with (2 / 9 * c / be - be * c) by (field; lra). exact E. }
    assert (N : normv 3 (orthonormalisation 3 1 (l_Q L1) y1) = 0).
    { apply norm_0. intros i Hi. unfold orthonormalisation, forUp. cbn [seq fold_left]. rewrite (Y1 i Hi).
      assert (D : dotv 3 (col (l_Q L1) 0) y1 = 0) by (unfold dotv; apply sumN_zero; intros k Hk; rewrite (Y1 k Hk); ring). rewrite D. ring. }
    rewrite N. unfold leR. destruct (Rle_dec 0 tol); [reflexivity|lra]. }
  unfold lanczosStep at 1. rewrite S2. exact S2.
Qed.
Lemma rank_refuted tol Q0 : 0 <= tol < 1/4 -> exists A L, symmetric 3 A /\ lanczos tol 3 3 3 A Q0 = Some (L, 1%nat) /\ built 3 L = 2%nat /\ orthonormal 3 2 (l_Q L) /\ tol < l_b L 0%nat.
Proof.
  intros Ht. exists proj3, (lanczosLoop tol 3 3 proj3 Q0). pose proof (rank_stop tol Q0 Ht) as S.
  split; [exact proj3_sym|]. split; [unfold lanczos; cbn [Nat.eqb Nat.leb andb]; rewrite S; reflexivity|].
  destruct (lan_spec 3 3 proj3 tol proj3_sym (proj1 Ht) Q0) as (_ & H & _ & H2); [lia|lia|]. unfold built in *. rewrite S in *. split; [reflexivity|]. split; [exact H|]. apply (H2 0%nat). lia.
Qed.
(* power iteration *)
Lemma start_norm n : (0 < n)%nat -> normv n (powerStart n) = 1.
Proof.
  intros Hn. assert (P : 0 < INR n) by (apply lt_0_INR; lia). unfold normv. replace (dotv n (powerStart n) (powerStart n)) with 1; [apply sqrt_1|].
  unfold dotv, powerStart. rewrite (sumN_ext n _ (fun _ => / INR n)).
  - assert (E : forall k c, sumN k (fun _ => c) = INR k * c). { intros k c. induction k as [|k IH]; [cbn; ring|]. rewrite S_INR. cbn. rewrite IH. ring. } rewrite E. field. lra.
  - intros i _. replace (1 / sqrt (INR n) * (1 / sqrt (INR n))) with (/ (sqrt (INR n) * sqrt (INR n))) by (field; pose proof (sqrt_lt_R0 _ P); lra). rewrite sqrt_sqrt by lra. reflexivity.
Qed.
Lemma done_stays n tol A k P : p_done P = true -> forUp 0 k (powerStep n tol A) P = P.
Proof.
  intros H. unfold forUp. generalize 0%nat. revert P H. induction k as [|k IH]; intros P H a; [reflexivity|]. cbn [seq fold_left].
  assert (E : powerStep n tol A P a = P) by (unfold powerStep; now rewrite H). rewrite E. apply IH; exact H.
Qed.
Lemma forUp_first {S} k f (s : S) : forUp 0 (Datatypes.S k) f s = fold_left f (seq 1 k) (f s 0%nat).
Proof. reflexivity. Qed.
Lemma done_stays1 n tol A k P : p_done P = true -> fold_left (powerStep n tol A) (seq 1 k) P = P.
Proof.
  intros H. generalize 1%nat. induction k as [|k IH]; intros a; [reflexivity|]. cbn [seq fold_left].
  assert (E : powerStep n tol A P a = P) by (unfold powerStep; now rewrite H). rewrite E. apply IH.
Qed.
Definition diag2 : mat := fun i j => match i, j with 0%nat, 0%nat => 7/5 | 1%nat, 1%nat => 1/5 | _, _ => 0 end.
Lemma first_refuted maxIt tol : (1 <= maxIt)%nat -> 0 < tol -> exists A P x, symmetric 2 A /\ injective 2 A /\ powerRun 2 maxIt tol A (powerStart 2) = Some P /\ p_done P = true /\ p_nan P = false /\ p_est P = 1 /\
  (forall i, (i < 2)%nat -> matVec 2 A x i = 7/5 * x i) /\ x 0%nat = 1 /\ forall lam, exists i, (i < 2)%nat /\ matVec 2 A (p_vec P) i <> lam * p_vec P i.
Proof.
  intros Hk Ht. set (c := 1 / sqrt (INR 2)). assert (P2 : 0 < INR 2) by (apply lt_0_INR; lia).
  assert (Cc : c * c = 1/2). { unfold c. replace (1 / sqrt (INR 2) * (1 / sqrt (INR 2))) with (/ (sqrt (INR 2) * sqrt (INR 2))) by (field; pose proof (sqrt_lt_R0 _ P2); lra). rewrite sqrt_sqrt by lra. cbn. lra. }
  assert (Cn : c <> 0) by (intros E; rewrite E in Cc; lra).
  set (P0 := mkPow (powerStart 2) (normv 2 (powerStart 2)) false false). set (P1 := powerStep 2 tol diag2 P0 0).
  assert (V1 : forall i, p_vec P1 i = match i with 0%nat => 7/5 * c | 1%nat => 1/5 * c | _ => 0 end).
  { intros i. unfold P1, powerStep. cbn [P0 p_done p_vec p_est]. rewrite start_norm by lia. unfold matVec. cbn [sumN]. unfold powerStart. fold c. destruct i as [|[|i]]; cbn; field. }
  assert (E1 : p_est P1 = 1).
  { change (p_est P1) with (normv 2 (p_vec P1)). unfold normv, dotv. cbn [sumN]. rewrite !V1. replace (0 + 7 / 5 * c * (7 / 5 * c) + 1 / 5 * c * (1 / 5 * c)) with (2 * (c * c)) by field. rewrite Cc. replace (2 * (1 / 2)) with 1 by lra. apply sqrt_1. }
  assert (N0 : p_est P0 = 1) by (apply start_norm; lia).
  assert (D1 : p_done P1 = true /\ p_nan P1 = false).
  { assert (Z : isZero (p_est P0) = false) by (apply isZero_false; rewrite N0; lra).
    assert (F : p_nan P1 = false) by exact Z. split; [|exact F].
    assert (G : p_done P1 = negb (p_nan P1) && leR (Rabs (p_est P0 - p_est P1)) (tol * Rmax (Rabs (p_est P0)) (Rabs (p_est P1)))) by reflexivity. rewrite F, N0, E1 in G. rewrite G. cbn [negb andb].
    unfold leR. rewrite Rminus_diag_eq, Rabs_R0 by reflexivity. destruct (Rle_dec _ _) as [|X]; [reflexivity|]. exfalso. apply X. apply Rmult_le_pos; [lra|]. apply Rle_trans with (Rabs 1); [apply Rabs_pos|apply Rmax_l]. }
  exists diag2, P1, (fun i => match i with 0%nat => 1 | _ => 0 end). split; [intros [|[|i]] [|[|j]] Hi Hj; try lia; reflexivity|]. split.
  { intros x H i Hi. pose proof (H 0%nat ltac:(lia)) as H0. pose proof (H 1%nat ltac:(lia)) as H1. unfold matVec in H0, H1. cbn in H0, H1. destruct i as [|[|i]]; [lra|lra|lia]. }
  split; [unfold powerRun; rewrite tol_ok by assumption; f_equal; destruct maxIt as [|k]; [lia|]; rewrite forUp_first; apply done_stays1, D1|].
  split; [apply D1|]. split; [apply D1|]. split; [exact E1|]. split; [intros [|[|i]] Hi; try lia; unfold matVec; cbn; ring|]. split; [reflexivity|].
  intros lam. destruct (Req_dec lam (7/5)) as [->|Hne].
  - exists 1%nat. split; [lia|]. unfold matVec. cbn [sumN]. rewrite !V1. cbn. intros E. apply Cn. lra.
  - exists 0%nat. split; [lia|]. unfold matVec. cbn [sumN]. rewrite !V1. cbn. intros E. apply Hne. apply (Rmult_eq_reg_r (7/5 * c)); [lra|]. intros F. apply Cn. lra.
Qed.
(* the largest eigenvalue of minus the identity is given as one *)
Lemma sign_refuted n maxIt tol : (0 < n)%nat -> (1 <= maxIt)%nat -> 0 < tol -> exists A P, (forall x i, (i < n)%nat -> matVec n A x i = - x i) /\ powerRun n maxIt tol A (powerStart n) = Some P /\ p_nan P = false /\ p_est P = 1.
Proof.
  intros Hn Hk Ht. set (A := fun i j => - matId i j).
  assert (HA : forall x i, (i < n)%nat -> matVec n A x i = - x i).
  { intros x i Hi. unfold matVec, A. rewrite (sumN_ext n _ (fun k => if Nat.eqb i k then - x k else 0)) by (intros k _; unfold matId; destruct (Nat.eqb i k); ring). apply (sumN_delta n i (fun k => - x k) Hi). }
  exists A. unfold powerRun. rewrite tol_ok by assumption. eexists. split; [exact HA|]. split; [reflexivity|].
  assert (Inj : injective n A). { intros x H i Hi. pose proof (H i Hi) as E. rewrite HA in E by exact Hi. lra. }
  assert (Nz : exists i, (i < n)%nat /\ powerStart n i <> 0). { exists 0%nat. split; [exact Hn|]. unfold powerStart. assert (P : 0 < INR n) by (apply lt_0_INR; lia). pose proof (sqrt_lt_R0 _ P) as Q. unfold Rdiv. rewrite Rmult_1_l. apply Rinv_neq_0_compat. lra. }
  destruct (run_good n tol A Inj (powerStep n tol A) (power_turn n tol A) (powerStart n) Nz maxIt) as ((G & _) & _). split; [exact G|].
  destruct (run_eigen n tol A Inj (powerStep n tol A) (power_turn n tol A) (powerStart n) Nz maxIt (-1)) as (_ & E); [|lia|rewrite E; unfold Rabs; destruct (Rcase_abs _); lra].
  intros i Hi. rewrite HA by exact Hi. ring.
Qed.
(* lowest on the identity divides zero by zero *)
Lemma nan_stays n tol A large k P a : p_nan P = true -> p_done P = false -> p_nan (fold_left (lowStep n tol A large) (seq a k) P) = true.
Proof.
  revert P a. induction k as [|k IH]; intros P a H D; [exact H|]. cbn [seq fold_left]. apply IH; unfold lowStep; rewrite D; cbn [p_nan p_done]; rewrite H; reflexivity.
Qed.
Lemma lowest_refuted n maxIt tol : (0 < n)%nat -> (2 <= maxIt)%nat -> 0 < tol < 1 -> exists P r, lowest n maxIt tol matId = Some (P, r) /\ p_nan P = true.
Proof.
  intros Hn Hk Ht. assert (HA : forall x i, (i < n)%nat -> matVec n matId x i = x i).
  { intros x i Hi. unfold matVec. rewrite (sumN_ext n _ (fun k => if Nat.eqb i k then x k else 0)) by (intros k _; unfold matId; destruct (Nat.eqb i k); ring). apply (sumN_delta n i x Hi). }
  assert (Inj : injective n matId). { intros x H i Hi. pose proof (H i Hi) as E. rewrite HA in E by exact Hi. lra. }
  assert (Nz : exists i, (i < n)%nat /\ powerStart n i <> 0). { exists 0%nat. split; [exact Hn|]. unfold powerStart. assert (P : 0 < INR n) by (apply lt_0_INR; lia). pose proof (sqrt_lt_R0 _ P) as Q. unfold Rdiv. rewrite Rmult_1_l. apply Rinv_neq_0_compat. lra. }
  unfold lowest, powerRun. rewrite tol_ok by (try lia; lra).
  destruct (run_eigen n tol matId Inj (powerStep n tol matId) (power_turn n tol matId) (powerStart n) Nz maxIt 1) as (_ & E); [intros i Hi; rewrite HA by exact Hi; ring|lia|].
  rewrite E, Rabs_R1. unfold lowRun. rewrite tol_ok by (try lia; lra). eexists. eexists. split; [reflexivity|].
  destruct maxIt as [|[|k]]; [lia|lia|]. unfold forUp. cbn [seq fold_left]. set (P0 := mkPow _ _ _ _). set (P1 := lowStep n tol matId 1 P0 0).
  assert (E0 : p_est P0 = 1) by (apply start_norm; exact Hn).
  assert (E1 : p_est P1 = 0).
  { change (p_est P1) with (normv n (p_vec P1)). apply norm_0. intros i Hi.
    change (p_vec P1 i) with (matVec n matId (fun i => p_vec P0 i / p_est P0) i - 1 * (p_vec P0 i / p_est P0)). rewrite HA by exact Hi. ring. }
  assert (D1 : p_done P1 = false).
  { change (p_done P1) with (negb (p_nan P1) && leR (Rabs (p_est P0 - p_est P1)) (tol * Rmax (Rabs (p_est P0)) (Rabs (p_est P1)))). rewrite E0, E1, Rminus_0_r, Rabs_R1, Rabs_R0, Rmax_left by lra.
    unfold leR. destruct (Rle_dec 1 (tol * 1)); [lra|]. apply andb_false_r. }
  apply nan_stays.
  - unfold lowStep. rewrite D1. cbn [p_nan]. rewrite E1. unfold isZero. destruct (Req_EM_T 0 0); [apply orb_true_r|contradiction].
  - unfold lowStep. rewrite D1. cbn [p_done]. rewrite E1. unfold isZero at 1. destruct (Req_EM_T 0 0); [|contradiction]. rewrite orb_true_r. reflexivity.
Qed.
