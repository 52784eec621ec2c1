Require Import Reals List Arith Lia Lra Bool.
From Verif Require Import Sums Spec_Lin Tri.
Import ListNotations.
Local Open Scope R_scope.

Lemma forUp_inv {S} (P : nat -> S -> Prop) a n f (s : S) : P a s -> (forall i x, (a <= i < a + n)%nat -> P i x -> P (i + 1)%nat (f x i)) -> P (a + n)%nat (forUp a n f s).
Proof.
  intros H0 H. unfold forUp. revert a s H0 H. induction n as [|n IH]; intros a s H0 H; cbn [seq fold_left].
  - now rewrite Nat.add_0_r.
  - replace (a + Datatypes.S n)%nat with (Datatypes.S a + n)%nat by lia. apply IH.
    + replace (Datatypes.S a) with (a + 1)%nat by lia. apply H; [lia|exact H0].
    + intros i x Hi. apply H; lia.
Qed.
Lemma forDown_inv {S} (P : nat -> S -> Prop) n f (s : S) : P n s -> (forall i x, (i < n)%nat -> P (i + 1)%nat x -> P i (f x i)) -> P 0%nat (forDown n f s).
Proof.
  intros H0 H. unfold forDown. revert s H0. induction n as [|n IH]; intros s H0; [exact H0|].
  rewrite seq_S, rev_app_distr. cbn [rev app fold_left plus]. apply IH; [intros; apply H; [lia|assumption]|]. apply H; [lia|]. now rewrite Nat.add_1_r.
Qed.
Lemma setVec_same x i a : setVec x i a i = a. Proof. unfold setVec. now rewrite Nat.eqb_refl. Qed.
Lemma setVec_other x i a k : i <> k -> setVec x i a k = x k. Proof. intros H. unfold setVec. now rewrite (proj2 (Nat.eqb_neq _ _) H). Qed.
Lemma setRowM_same A i x j : setRowM A i x i j = x j. Proof. unfold setRowM. now rewrite Nat.eqb_refl. Qed.
Lemma setRowM_other A i x k j : i <> k -> setRowM A i x k j = A k j. Proof. intros H. unfold setRowM. now rewrite (proj2 (Nat.eqb_neq _ _) H). Qed.

(* three terms per row *)
Definition threeTerms (n : nat) (d s x : nat -> R) (i : nat) : R :=
  d i * x i + (if Nat.ltb (S i) n then s i * x (S i) else 0) + (if Nat.ltb 0 i then s (i - 1)%nat * x (i - 1)%nat else 0).
Lemma tri_row n d s x i : (i < n)%nat -> sumN n (fun k => symTri d s i k * x k) = threeTerms n d s x i.
Proof.
  intros Hi. unfold threeTerms.
  rewrite (sumN_ext n _ (fun k => (if Nat.eqb i k then d k * x k else 0) + (if Nat.eqb (S i) k then s (k - 1)%nat * x k else 0) + (if Nat.eqb (i - 1) k then (if Nat.ltb 0 i then s k * x k else 0) else 0))).
  - rewrite !sumN_add, (sumN_delta n i) by lia. rewrite (sumN_delta n (i - 1)) by lia. f_equal. f_equal.
    destruct (Nat.ltb_spec (S i) n).
    + rewrite (sumN_delta n (S i)) by lia. cbn. now rewrite Nat.sub_0_r.
    + apply sumN_zero. intros k Hk. destruct (Nat.eqb_spec (S i) k); [lia|reflexivity].
  - intros k Hk. unfold symTri. destruct (Nat.eqb_spec i k) as [->|H1].
    + destruct (Nat.eqb_spec (S k) k); [lia|]. destruct (Nat.eqb_spec (k - 1) k); destruct (Nat.ltb_spec 0 k); try lia; ring.
    + destruct (Nat.eqb_spec (S i) k) as [<-|H2].
      * destruct (Nat.eqb_spec (i - 1) (S i)); [lia|]. replace (S i - 1)%nat with i by lia. ring.
      * destruct (Nat.eqb_spec (S k) i) as [<-|H3].
        -- replace (S k - 1)%nat with k by lia. rewrite Nat.eqb_refl. destruct (Nat.ltb_spec 0 (S k)); [ring|lia].
        -- destruct (Nat.eqb_spec (i - 1) k); [destruct (Nat.ltb_spec 0 i); [lia|ring]|ring].
Qed.
Lemma symTri_sym d s i j : symTri d s i j = symTri d s j i.
Proof.
  unfold symTri. destruct (Nat.eqb_spec i j) as [->|H]; [now rewrite Nat.eqb_refl|].
  destruct (Nat.eqb_spec j i); [lia|]. destruct (Nat.eqb_spec (S i) j), (Nat.eqb_spec (S j) i); try lia; reflexivity.
Qed.
Lemma matrix_spec T : matEq (t_size T) (t_size T) (tri_matrix T) (symTri (t_diag T) (t_sub T)).
Proof.
  intros i j Hi Hj. unfold tri_matrix, symTri. destruct (Nat.eqb_spec (S j) i) as [<-|H3].
  - destruct (Nat.ltb_spec (S j) (t_size T)); [|lia]. destruct (Nat.eqb_spec (S j) j); [lia|]. destruct (Nat.eqb_spec (S (S j)) j); [lia|reflexivity].
  - destruct (Nat.eqb_spec i j); [reflexivity|]. destruct (Nat.eqb_spec (S i) j) as [<-|]; [|reflexivity]. destruct (Nat.ltb_spec (S i) (t_size T)); [reflexivity|lia].
Qed.
Lemma matMul_ext n A A' B i j : (forall k, (k < n)%nat -> A i k = A' i k) -> matMul n A B i j = matMul n A' B i j.
Proof. intros H. apply sumN_ext. intros k Hk. now rewrite H. Qed.
Lemma dense_row T B i j : (i < t_size T)%nat -> matMul (t_size T) (tri_matrix T) B i j = threeTerms (t_size T) (t_diag T) (t_sub T) (col B j) i.
Proof.
  intros Hi. rewrite (matMul_ext _ _ (symTri (t_diag T) (t_sub T))) by (intros; apply matrix_spec; assumption).
  apply (tri_row _ _ _ (col B j) i Hi).
Qed.
Lemma dense_col T B i j : (j < t_size T)%nat -> matMul (t_size T) B (tri_matrix T) i j = threeTerms (t_size T) (t_diag T) (t_sub T) (B i) j.
Proof.
  intros Hj. rewrite <- (tri_row _ _ _ (B i) j Hj). unfold matMul. apply sumN_ext. intros k Hk. rewrite (matrix_spec T k j Hk Hj), symTri_sym. ring.
Qed.
Lemma left_dense T r B : (0 < t_size T)%nat -> exists X, tri_applyOnTheLeft T r (t_size T) B = Some X /\ matEq r (t_size T) X (matMul (t_size T) B (tri_matrix T)).
Proof.
  intros Hn. unfold tri_applyOnTheLeft. rewrite Nat.eqb_refl. destruct (Nat.leb_spec 1 (t_size T)); [|lia]. cbn [andb]. eexists; split; [reflexivity|].
  intros i j Hi Hj. rewrite dense_col by exact Hj. unfold threeTerms. cbv beta zeta.
  replace (t_size T - (t_size T - 1))%nat with 1%nat by lia. change (Nat.ltb 0 j) with (Nat.leb 1 j). rewrite (Nat.add_1_l j).
  destruct (Nat.leb_spec 1 j), (Nat.ltb_spec j (t_size T - 1)), (Nat.ltb_spec (S j) (t_size T)); try lia; ring.
Qed.
(* T * rhs for a square right-hand side *)
Lemma right_dense T B : (0 < t_size T)%nat -> exists X, tri_applyOnTheRight T (t_size T) (t_size T) B = Some X /\ matEq (t_size T) (t_size T) X (matMul (t_size T) (tri_matrix T) B).
Proof.
  intros Hn. unfold tri_applyOnTheRight. rewrite Nat.eqb_refl, Nat.leb_refl. destruct (Nat.leb_spec 1 (t_size T)); [|lia]. cbn [andb]. eexists; split; [reflexivity|].
  intros i j Hi Hj. rewrite dense_row by exact Hi. unfold threeTerms, col. cbv beta zeta.
  replace (t_size T - (t_size T - 1))%nat with 1%nat by lia. change (Nat.ltb 0 i) with (Nat.leb 1 i). rewrite (Nat.add_1_l i).
  destruct (Nat.leb_spec 1 i), (Nat.ltb_spec i (t_size T - 1)), (Nat.ltb_spec (S i) (t_size T)); try lia; ring.
Qed.
(* a vector: the off-diagonal terms are dropped *)
Lemma right_vector T B : (0 < t_size T)%nat -> exists X, tri_applyOnTheRight T (t_size T) 1 B = Some X /\ forall i, (i < t_size T)%nat -> X i 0%nat = t_diag T i * B i 0%nat.
Proof.
  intros Hn. unfold tri_applyOnTheRight. rewrite Nat.eqb_refl. destruct (Nat.leb_spec 1 1); [|lia]. destruct (Nat.leb_spec 1 (t_size T)); [|lia]. cbn [andb]. eexists; split; [reflexivity|].
  intros i Hi. cbv beta zeta. replace (t_size T - (1 - 1))%nat with (t_size T) by lia. destruct (Nat.leb_spec (t_size T) i); [lia|]. destruct (Nat.ltb_spec i (1 - 1)); [lia|reflexivity].
Qed.
Lemma right_wide T c B : (t_size T < c)%nat -> tri_applyOnTheRight T (t_size T) c B = None.
Proof. intros H. unfold tri_applyOnTheRight. destruct (Nat.leb_spec c (t_size T)); [lia|]. now rewrite andb_false_r. Qed.

(* the pivots *)
Definition pivots (T : Tri) (b w : nat -> R) : Prop := b 0%nat = t_diag T 0%nat /\
  (forall i, (i + 1 < t_size T)%nat -> w i = t_sub T i / b i /\ b (i + 1)%nat = t_diag T (i + 1)%nat - w i * t_sub T i).
Lemma inv_eval_spec T : pivots T (fst (inv_eval T)) (snd (inv_eval T)).
Proof.
  pose proof (forUp_inv (fun i bw => fst bw 0%nat = t_diag T 0%nat /\
    (forall k, (k + 1 < i)%nat -> snd bw k = t_sub T k / fst bw k /\ fst bw (k + 1)%nat = t_diag T (k + 1)%nat - snd bw k * t_sub T k) /\
    (forall k, (i <= k)%nat -> fst bw k = t_diag T k) /\ (forall k, (i <= k + 1)%nat -> snd bw k = t_sub T k)) 1 (t_size T - 1)
    (fun bw i => let '(b, w) := bw in let w := setVec w (i - 1) (w (i - 1)%nat / b (i - 1)%nat) in
    (setVec b i (b i - w (i - 1)%nat * t_sub T (i - 1)%nat), w)) (t_diag T, t_sub T)) as H. cbv beta in H.
  fold (inv_eval T) in H. destruct H as (H1 & H2 & _).
  - cbn [fst snd]. split; [reflexivity|]. split; [intros; lia|]. split; reflexivity.
  - intros i [b w] Hi (H1 & H2 & H3 & H4). cbn [fst snd] in *. split; [rewrite setVec_other by lia; exact H1|]. split; [|split].
    + intros k Hk. destruct (Nat.eq_dec k (i - 1)) as [->|Hne].
      * replace (i - 1 + 1)%nat with i by lia. rewrite !setVec_same, (setVec_other b) by lia. rewrite (H3 i), (H4 (i - 1)%nat) by lia. split; reflexivity.
      * rewrite !setVec_other by lia. apply H2. lia.
    + intros k Hk. rewrite setVec_other by lia. apply H3. lia.
    + intros k Hk. rewrite setVec_other by lia. apply H4. lia.
  - split; [exact H1|]. intros i Hi. apply H2. lia.
Qed.
Lemma inv_backward_spec T b A : (0 < t_size T)%nat -> (forall i, (i < t_size T)%nat -> b i <> 0) -> let z := inv_backward T b A in
  forall j, (forall i, (i + 1 < t_size T)%nat -> b i * z i j + t_sub T i * z (i + 1)%nat j = A i j) /\ b (t_size T - 1)%nat * z (t_size T - 1)%nat j = A (t_size T - 1)%nat j.
Proof.
  intros Hn Hb. cbv zeta. unfold inv_backward. cbv zeta. set (n := t_size T) in *. set (A0 := setRowM A (n - 1) _).
  pose proof (forDown_inv (fun i (z : mat) => forall j, (forall k, (k < i)%nat -> z k j = A k j) /\ (forall k, (i <= k)%nat -> (k + 1 < n)%nat -> b k * z k j + t_sub T k * z (k + 1)%nat j = A k j) /\
    b (n - 1)%nat * z (n - 1)%nat j = A (n - 1)%nat j) (n - 1) (fun A i =>
    let A := setRowM A i (fun j => A i j - t_sub T i * A (i + 1)%nat j) in
    setRowM A i (fun j => A i j / b i)) A0) as H. cbv beta in H.
  intros j. destruct (fun a c => H a c j) as (_ & H1 & H2); [| |split; [intros i Hi; apply H1; lia|exact H2]].
  - clear j. intros j. split; [|split].
    + intros k Hk. unfold A0. apply setRowM_other. lia.
    + intros k Hk H1. lia.
    + unfold A0. rewrite setRowM_same. field. apply Hb. lia.
  - clear j H. intros i z Hi IH j. destruct (IH j) as (I1 & I2 & I3). split; [|split].
    + intros k Hk. rewrite !setRowM_other by lia. apply I1. lia.
    + intros k Hk Hk2. destruct (Nat.eq_dec k i) as [->|Hne].
      * rewrite !setRowM_same, !setRowM_other by lia. rewrite (I1 i) by lia. field. apply Hb. lia.
      * rewrite !setRowM_other by lia. apply I2; lia.
    + rewrite !setRowM_other by lia. exact I3.
Qed.
(* the forward sweep: full rows, or the first i entries of row i when the others need no change *)
Definition swept (n : nat) (w : nat -> R) (B A : mat) : Prop := (forall j, A 0%nat j = B 0%nat j) /\ forall i j, (i + 1 < n)%nat -> A (i + 1)%nat j = B (i + 1)%nat j - w i * A i j.
Lemma forward_full n w B : swept n w B (forUp 1 (n - 1) (fun A i => setRowM A i (fun j => A i j - w (i - 1)%nat * A (i - 1)%nat j)) B).
Proof.
  pose proof (forUp_inv (fun i (A : mat) => (forall j, A 0%nat j = B 0%nat j) /\ (forall k j, (k + 1 < i)%nat -> A (k + 1)%nat j = B (k + 1)%nat j - w k * A k j) /\ forall k j, (i <= k)%nat -> A k j = B k j) 1 (n - 1)
    (fun A i => setRowM A i (fun j => A i j - w (i - 1)%nat * A (i - 1)%nat j)) B) as H. cbv beta in H.
  destruct H as (H1 & H2 & _); [| |split; [exact H1|intros; apply H2; lia]].
  - split; [reflexivity|]. split; [intros; lia|reflexivity].
  - intros i A Hi (H1 & H2 & H3). split; [|split].
    + intros j. rewrite setRowM_other by lia. apply H1.
    + intros k j Hk. destruct (Nat.eq_dec (k + 1) i) as [<-|Hne].
      * rewrite setRowM_same, setRowM_other by lia. replace (k + 1 - 1)%nat with k by lia. rewrite H3 by lia. reflexivity.
      * rewrite !setRowM_other by lia. apply H2. lia.
    + intros k j Hk. rewrite setRowM_other by lia. apply H3. lia.
Qed.
Lemma forward_id n w : swept n w matId (forUp 1 (n - 1) (fun A i => setRowM A i (fun j => if Nat.ltb j i then A i j - w (i - 1)%nat * A (i - 1)%nat j else A i j)) matId).
Proof.
  pose proof (forUp_inv (fun i (A : mat) => (forall j, A 0%nat j = matId 0%nat j) /\ (forall k j, (k + 1 < i)%nat -> A (k + 1)%nat j = matId (k + 1)%nat j - w k * A k j) /\ (forall k j, (i <= k)%nat -> A k j = matId k j) /\
    forall k j, (k < j)%nat -> A k j = 0) 1 (n - 1)
    (fun A i => setRowM A i (fun j => if Nat.ltb j i then A i j - w (i - 1)%nat * A (i - 1)%nat j else A i j)) matId) as H. cbv beta in H.
  destruct H as (H1 & H2 & _); [| |split; [exact H1|intros; apply H2; lia]].
  - split; [reflexivity|]. split; [intros; lia|]. split; [reflexivity|]. intros k j H. unfold matId. destruct (Nat.eqb_spec k j); [lia|reflexivity].
  - intros i A Hi (H1 & H2 & H3 & H4). split; [|split; [|split]].
    + intros j. rewrite setRowM_other by lia. apply H1.
    + intros k j Hk. destruct (Nat.eq_dec (k + 1) i) as [<-|Hne].
      * rewrite setRowM_same, setRowM_other by lia. replace (k + 1 - 1)%nat with k by lia. rewrite H3 by lia. destruct (Nat.ltb_spec j (k + 1)); [reflexivity|]. rewrite (H4 k j) by lia. ring.
      * rewrite !setRowM_other by lia. apply H2. lia.
    + intros k j Hk. rewrite setRowM_other by lia. apply H3. lia.
    + intros k j Hk. destruct (Nat.eq_dec k i) as [->|Hne]; [|rewrite setRowM_other by lia; apply H4; exact Hk].
      rewrite setRowM_same. destruct (Nat.ltb_spec j i); [lia|]. apply H4. lia.
Qed.
(* solving with the factors *)
Lemma solved T B A z : (0 < t_size T)%nat -> let b := fst (inv_eval T) in let w := snd (inv_eval T) in (forall i, (i < t_size T)%nat -> b i <> 0) ->
  swept (t_size T) w B A -> (forall j, (forall i, (i + 1 < t_size T)%nat -> b i * z i j + t_sub T i * z (i + 1)%nat j = A i j) /\ b (t_size T - 1)%nat * z (t_size T - 1)%nat j = A (t_size T - 1)%nat j) ->
  forall i j, (i < t_size T)%nat -> matMul (t_size T) (tri_matrix T) z i j = B i j.
Proof.
  intros Hn b w Hb (S0 & S1) Hz i j Hi. rewrite dense_row by exact Hi. destruct (inv_eval_spec T) as (P0 & P1). fold b in P0, P1. fold w in P1. destruct (Hz j) as (Z1 & Z2).
  assert (K : b i * z i j + (if Nat.ltb (S i) (t_size T) then t_sub T i * z (S i) j else 0) = A i j).
  { destruct (Nat.ltb_spec (S i) (t_size T)); [rewrite <- (Z1 i) by lia; now rewrite Nat.add_1_r|]. replace i with (t_size T - 1)%nat by lia. rewrite <- Z2. ring. }
  unfold threeTerms, col. destruct i as [|i].
  - change (Nat.ltb 0 0) with false. cbv iota. rewrite <- P0, Rplus_0_r, K. apply S0.
  - replace (Nat.ltb 0 (S i)) with true by reflexivity. replace (S i - 1)%nat with i by lia. destruct (P1 i) as (Pw & Pb); [lia|]. rewrite Nat.add_1_r in Pb.
    pose proof (Z1 i ltac:(lia)) as Z. rewrite Nat.add_1_r in Z. pose proof (S1 i j ltac:(lia)) as S1'. rewrite Nat.add_1_r in S1'.
    assert (Es : t_sub T i = w i * b i) by (rewrite Pw; field; apply Hb; lia).
    replace (t_diag T (S i)) with (b (S i) + w i * t_sub T i) by (rewrite Pb; ring).
    replace ((b (S i) + w i * t_sub T i) * z (S i) j + (if Nat.ltb (S (S i)) (t_size T) then t_sub T (S i) * z (S (S i)) j else 0) + t_sub T i * z i j)
      with ((b (S i) * z (S i) j + (if Nat.ltb (S (S i)) (t_size T) then t_sub T (S i) * z (S (S i)) j else 0)) + w i * (b i * z i j + t_sub T i * z (S i) j)) by (rewrite Es; ring).
    rewrite K, Z, S1'. ring.
Qed.
Lemma inv_apply_spec T B : (0 < t_size T)%nat -> (forall i, (i < t_size T)%nat -> fst (inv_eval T) i <> 0) -> forall i j, (i < t_size T)%nat -> matMul (t_size T) (tri_matrix T) (inv_apply T B) i j = B i j.
Proof.
  intros Hn Hb i j Hi. unfold inv_apply. destruct (inv_eval T) as [b w] eqn:E. cbn [fst] in Hb.
  apply (solved T B (forUp 1 (t_size T - 1) (fun A i => setRowM A i (fun j => A i j - w (i - 1)%nat * A (i - 1)%nat j)) B)); try rewrite !E; cbn [fst snd]; try assumption.
  - apply forward_full.
  - apply inv_backward_spec; assumption.
Qed.
Lemma inv_matrix_spec T : (0 < t_size T)%nat -> (forall i, (i < t_size T)%nat -> fst (inv_eval T) i <> 0) -> forall i j, (i < t_size T)%nat -> matMul (t_size T) (tri_matrix T) (inv_matrix T) i j = matId i j.
Proof.
  intros Hn Hb i j Hi. unfold inv_matrix. destruct (inv_eval T) as [b w] eqn:E. cbn [fst] in Hb.
  apply (solved T matId (forUp 1 (t_size T - 1) (fun A i => setRowM A i (fun j => if Nat.ltb j i then A i j - w (i - 1)%nat * A (i - 1)%nat j else A i j)) matId)); try rewrite !E; cbn [fst snd]; try assumption.
  - apply forward_id.
  - apply inv_backward_spec; assumption.
Qed.
(* a vector whose quadratic form is the pivot k *)
Fixpoint descend (w : nat -> R) (k j : nat) : R := (* value at index k - j *)
  match j with O => 1 | S p => - w (k - S p)%nat * descend w k p end.
Definition probe (w : nat -> R) (k i : nat) : R := if Nat.leb i k then descend w k (k - i) else 0.
Lemma probe_step w k i : (i < k)%nat -> probe w k i = - w i * probe w k (S i).
Proof.
  intros H. unfold probe. destruct (Nat.leb_spec i k); [|lia]. destruct (Nat.leb_spec (S i) k); [|lia].
  replace (k - i)%nat with (S (k - S i))%nat by lia. cbn [descend]. replace (k - S (k - S i))%nat with i by lia. reflexivity.
Qed.
Lemma probe_row T k i : let b := fst (inv_eval T) in let w := snd (inv_eval T) in (k < t_size T)%nat -> (forall i, (i < k)%nat -> b i <> 0) -> (i < t_size T)%nat ->
  probe w k i <> 0 -> matVec (t_size T) (tri_matrix T) (probe w k) i = if Nat.eqb i k then b k else 0.
Proof.
  intros b w Hk Hb Hi Hp. change (matVec (t_size T) (tri_matrix T) (probe w k) i) with (matMul (t_size T) (tri_matrix T) (fun i _ => probe w k i) i 0%nat).
  rewrite dense_row by exact Hi. unfold threeTerms, col. destruct (inv_eval_spec T) as (P0 & P1). fold b in P0, P1. fold w in P1.
  assert (Hik : (i <= k)%nat). { destruct (Nat.le_gt_cases i k); [assumption|]. exfalso. apply Hp. unfold probe. destruct (Nat.leb_spec i k); [lia|reflexivity]. }
  assert (K : b i * probe w k i + (if Nat.ltb (S i) (t_size T) then t_sub T i * probe w k (S i) else 0) = if Nat.eqb i k then b k else 0).
  { destruct (Nat.eqb_spec i k) as [->|Hne].
    - unfold probe. rewrite Nat.leb_refl, Nat.sub_diag. destruct (Nat.leb_spec (S k) k); [lia|]. cbn [descend]. destruct (Nat.ltb _ _); ring.
    - destruct (Nat.ltb_spec (S i) (t_size T)); [|lia]. rewrite probe_step by lia. destruct (P1 i) as (Pw & _); [lia|]. rewrite Pw. field. apply Hb. lia. }
  destruct i as [|i].
  - change (Nat.ltb 0 0) with false. cbv iota. rewrite <- P0, Rplus_0_r. exact K.
  - replace (Nat.ltb 0 (S i)) with true by reflexivity. replace (S i - 1)%nat with i by lia. destruct (P1 i) as (Pw & Pb); [lia|]. rewrite Nat.add_1_r in Pb.
    rewrite (probe_step w k i) by lia. replace (t_diag T (S i)) with (b (S i) + w i * t_sub T i) by (rewrite Pb; ring). rewrite <- K. ring.
Qed.
Lemma posdef_pivots T : posDef (t_size T) (tri_matrix T) -> forall k, (k < t_size T)%nat -> 0 < fst (inv_eval T) k.
Proof.
  intros H k. induction k as [k IH] using lt_wf_ind. intros Hk. set (w := snd (inv_eval T)). set (b := fst (inv_eval T)).
  assert (Hb : forall i, (i < k)%nat -> b i <> 0). { intros i Hi. pose proof (IH i Hi ltac:(lia)) as P. fold b in P. lra. }
  assert (P1 : probe w k k = 1) by (unfold probe; rewrite Nat.leb_refl, Nat.sub_diag; reflexivity).
  pose proof (H (probe w k)) as Q. rewrite <- (Rmult_1_l (b k)). rewrite <- P1 at 1.
  replace (probe w k k * b k) with (dotv (t_size T) (probe w k) (matVec (t_size T) (tri_matrix T) (probe w k))); [apply Q; exists k; split; [exact Hk|rewrite P1; lra]|].
  unfold dotv. rewrite <- (sumN_delta (t_size T) k (fun i => probe w k i * b i) Hk). apply sumN_ext. intros i Hi.
  destruct (Req_dec (probe w k i) 0) as [E|E].
  - rewrite E. destruct (Nat.eqb_spec k i); ring.
  - pose proof (probe_row T k i Hk Hb Hi E) as PR. fold w b in PR. rewrite PR. rewrite Nat.eqb_sym. destruct (Nat.eqb_spec k i) as [->|]; ring.
Qed.
(* Gram-Schmidt *)
Lemma dotv_sub n x y z : dotv n x (fun i => y i - z i) = dotv n x y - dotv n x z.
Proof. unfold dotv. rewrite <- sumN_sub. apply sumN_ext. intros; ring. Qed.
Lemma dotv_scale n x a y : dotv n x (fun i => a * y i) = a * dotv n x y.
Proof. unfold dotv. rewrite <- sumN_scale. apply sumN_ext. intros; ring. Qed.
Lemma gs_spec n p Q x : orthonormal n p Q -> let y := orthonormalisation n p Q x in
  (forall k, (k < p)%nat -> dotv n (col Q k) y = 0) /\ forall i, y i = x i - sumN p (fun k => dotv n (col Q k) x * Q i k).
Proof.
  intros HQ. 
  pose proof (forUp_inv (fun k (y : nat -> R) => (forall a, (a < k)%nat -> (a < p)%nat -> dotv n (col Q a) y = 0) /\ (forall a, (k <= a)%nat -> (a < p)%nat -> dotv n (col Q a) y = dotv n (col Q a) x) /\
    forall i, y i = x i - sumN k (fun k => dotv n (col Q k) x * Q i k)) 0 p
    (fun x k => let alpha := dotv n (col Q k) x in fun i => x i - alpha * Q i k) x) as H. cbv beta in H.
  destruct H as (H1 & _ & H2); [| |split; [intros k Hk; apply H1; lia|exact H2]].
  - split; [intros; lia|]. split; [reflexivity|]. intros i. cbn. ring.
  - intros k y Hk (H1 & H2 & H3). cbv zeta.
    assert (E : forall a, (a < p)%nat -> dotv n (col Q a) (fun i => y i - dotv n (col Q k) y * Q i k) = dotv n (col Q a) y - dotv n (col Q k) y * matId a k).
    { intros a Ha. rewrite dotv_sub, dotv_scale. f_equal. f_equal. apply HQ; lia. }
    split; [|split].
    + intros a Ha Hp. rewrite (E a Hp). unfold matId. destruct (Nat.eqb_spec a k) as [->|]; [ring|]. rewrite H1 by lia. ring.
    + intros a Ha Hp. rewrite (E a Hp), H2 by lia. unfold matId. destruct (Nat.eqb_spec a k); [lia|ring].
    + intros i. rewrite H3, Nat.add_1_r. cbn [sumN]. rewrite (H2 k) by lia. ring.
Qed.
