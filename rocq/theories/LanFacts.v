Require Import Reals List Arith Lia Lra Bool.
From Verif Require Import Sums Spec_Lin Tri TriFacts Lanczos.
Import ListNotations.
Local Open Scope R_scope.

Lemma setColM_same A j x i : setColM A j x i j = x i. Proof. unfold setColM. now rewrite Nat.eqb_refl. Qed.
Lemma setColM_other A j x i k : j <> k -> setColM A j x i k = A i k. Proof. intros H. unfold setColM. now rewrite (proj2 (Nat.eqb_neq _ _) H). Qed.
Lemma dotv_nonneg n x : 0 <= dotv n x x. Proof. apply sumN_nonneg. intros. apply Rle_0_sqr. Qed.
Lemma normv_sq n x : normv n x * normv n x = dotv n x x. Proof. apply sqrt_sqrt, dotv_nonneg. Qed.
Lemma normv_nonneg n x : 0 <= normv n x. Proof. apply sqrt_pos. Qed.
Lemma dotv_div n x y c : dotv n x (fun i => y i / c) = dotv n x y / c.
Proof. unfold Rdiv. rewrite Rmult_comm. rewrite <- dotv_scale. apply dotv_ext; intros; [reflexivity|ring]. Qed.
Lemma matVec_sub n A x y i : matVec n A (fun i => x i - y i) i = matVec n A x i - matVec n A y i.
Proof. unfold matVec. rewrite <- sumN_sub. apply sumN_ext. intros; ring. Qed.
Lemma matVec_scale n A c x i : matVec n A (fun i => c * x i) i = c * matVec n A x i.
Proof. unfold matVec. rewrite <- sumN_scale. apply sumN_ext. intros; ring. Qed.
Lemma matVec_div n A c x i : matVec n A (fun i => x i / c) i = matVec n A x i / c.
Proof. unfold Rdiv. rewrite (Rmult_comm _ (/ c)), <- matVec_scale. apply sumN_ext. intros; ring. Qed.
Lemma matVec_ext n A x y i : (forall k, (k < n)%nat -> x k = y k) -> matVec n A x i = matVec n A y i.
Proof. intros H. apply sumN_ext. intros k Hk. now rewrite H. Qed.
Lemma sym_dot n A x y : symmetric n A -> dotv n x (matVec n A y) = dotv n (matVec n A x) y.
Proof.
  intros H. unfold dotv, matVec.
  rewrite (sumN_ext n _ (fun i => sumN n (fun k => x i * A i k * y k))) by (intros; rewrite <- sumN_scale; apply sumN_ext; intros; ring).
  rewrite (sumN_ext n (fun k => sumN n (fun k0 => A k k0 * x k0) * y k) (fun i => sumN n (fun k => x k * A i k * y i))) by (intros; rewrite <- sumN_scale_r; apply sumN_ext; intros; ring).
  rewrite sumN_swap. apply sumN_ext. intros i Hi. apply sumN_ext. intros k Hk. rewrite (H i k Hi Hk). ring.
Qed.
Lemma gs_fixed n p Q x : orthonormal n p Q -> (forall k, (k < p)%nat -> dotv n (col Q k) x = 0) -> forall i, orthonormalisation n p Q x i = x i.
Proof. intros HQ H i. destruct (gs_spec n p Q x HQ) as (_ & E). rewrite E, sumN_zero; [ring|]. intros k Hk. rewrite H by exact Hk. ring. Qed.

(* the three-term recurrence of column j; q_next: the column after it *)
Definition recur (n : nat) (A Q : mat) (a b : nat -> R) (j : nat) : Prop := forall i, (i < n)%nat ->
  matVec n A (col Q j) i = a j * Q i j + b j * Q i (S j) + (if Nat.ltb 0 j then b (j - 1)%nat * Q i (j - 1)%nat else 0).
(* p columns have been built, the coefficients of the first c columns are final *)
Definition lanInv (n : nat) (tol : R) (A : mat) (p : nat) (L : Lan) : Prop :=
  orthonormal n p (l_Q L) /\ (forall j, (S j < p)%nat -> recur n A (l_Q L) (l_a L) (l_b L) j /\ tol < l_b L j) /\
  (forall j, (S j < p)%nat -> l_a L j = dotv n (col (l_Q L) j) (matVec n A (col (l_Q L) j))).
Section S.
Variables (n s : nat) (A : mat) (tol : R).
Hypothesis HA : symmetric n A.
Hypothesis Htol : 0 <= tol.
Lemma matId_refl k : matId k k = 1. Proof. unfold matId. now rewrite Nat.eqb_refl. Qed.
Lemma matId_ne a b : a <> b -> matId a b = 0. Proof. intros H. unfold matId. now rewrite (proj2 (Nat.eqb_neq _ _) H). Qed.
Lemma dot_recur p L x j : lanInv n tol A p L -> (S j < p)%nat -> dotv n (matVec n A (col (l_Q L) j)) x =
  l_a L j * dotv n (col (l_Q L) j) x + l_b L j * dotv n (col (l_Q L) (S j)) x + (if Nat.ltb 0 j then l_b L (j - 1)%nat * dotv n (col (l_Q L) (j - 1)) x else 0).
Proof.
  intros (_ & H & _) Hj. destruct (H j Hj) as (R & _).
  rewrite (dotv_ext n _ x (fun i => l_a L j * l_Q L i j + l_b L j * l_Q L i (S j) + (if Nat.ltb 0 j then l_b L (j - 1)%nat * l_Q L i (j - 1)%nat else 0)) x (fun k Hk => R k Hk) (fun _ _ => eq_refl)).
  unfold dotv, col. rewrite <- !sumN_scale. destruct (Nat.ltb 0 j).
  - rewrite <- !sumN_add. apply sumN_ext. intros; ring.
  - rewrite Rplus_0_r, <- !sumN_add. apply sumN_ext. intros; ring.
Qed.
(* the entries of A in the basis, above the diagonal *)
Lemma dot_above p L j k : lanInv n tol A p L -> (j < k)%nat -> (k < p)%nat -> dotv n (col (l_Q L) j) (matVec n A (col (l_Q L) k)) = if Nat.eqb (S j) k then l_b L j else 0.
Proof.
  intros I Hj Hk. rewrite sym_dot by exact HA. rewrite (dot_recur p L _ j I) by lia. destruct I as (O & _).
  rewrite (O j k), (O (S j) k) by lia. rewrite (matId_ne j k) by lia. unfold matId at 1. destruct (Nat.ltb_spec 0 j).
  - rewrite (O (j - 1)%nat k), matId_ne by lia. destruct (Nat.eqb (S j) k); ring.
  - destruct (Nat.eqb (S j) k); ring.
Qed.
Lemma dot_tri p L j k : lanInv n tol A p L -> (j < p)%nat -> (k < p)%nat -> j <> k -> dotv n (col (l_Q L) j) (matVec n A (col (l_Q L) k)) = symTri (l_a L) (l_b L) j k.
Proof.
  intros I Hj Hk Hne. unfold symTri. rewrite (proj2 (Nat.eqb_neq _ _) Hne). destruct (Nat.lt_ge_cases j k).
  - rewrite (dot_above p L j k I) by lia. destruct (Nat.eqb_spec (S k) j); [lia|reflexivity].
  - rewrite sym_dot, dotv_comm by exact HA. rewrite (dot_above p L k j I) by lia. destruct (Nat.eqb_spec (S j) k); [lia|reflexivity].
Qed.
(* what the loop keeps *)
Definition lanState (k : nat) (L : Lan) : Prop :=
  match l_stop L with
  | None => lanInv n tol A (Nat.min (S k) s) L /\ (k = s -> l_a L (s - 1)%nat = dotv n (col (l_Q L) (s - 1)) (matVec n A (col (l_Q L) (s - 1))))
  | Some c => (S c < s)%nat /\ (c < k)%nat /\ lanInv n tol A (S c) L /\ l_a L c = dotv n (col (l_Q L) c) (matVec n A (col (l_Q L) c)) /\ 0 <= l_b L c <= tol /\
      exists y, normv n y = l_b L c /\ (forall j, (j <= c)%nat -> dotv n (col (l_Q L) j) y = 0) /\
        forall i, (i < n)%nat -> matVec n A (col (l_Q L) c) i = l_a L c * l_Q L i c + y i + (if Nat.ltb 0 c then l_b L (c - 1)%nat * l_Q L i (c - 1)%nat else 0)
  end.
Lemma lan_step k L : (k < s)%nat -> lanState k L -> lanState (k + 1) (lanczosStep tol n s A L k).
Proof.
  intros Hk H. unfold lanState in H. unfold lanczosStep. destruct (l_stop L) as [c|] eqn:St.
  { unfold lanState. rewrite St. destruct H as (H1 & H2 & H3). split; [exact H1|]. split; [lia|exact H3]. }
  destruct H as (I & _). replace (Nat.min (S k) s) with (S k) in I by lia. pose proof I as (O & RC & AL). cbv zeta.
  set (q := col (l_Q L) k). set (al := dotv n q (matVec n A q)). rewrite setVec_same.
  destruct (Nat.ltb_spec k (s - 1)) as [Hlt|Hge].
  2:{ unfold lanState. cbn [l_stop]. assert (k = (s - 1)%nat) by lia. replace (Nat.min (S (k + 1)) s) with (S k) by lia. split.
    - split; [exact O|]. split; cbn [l_a l_b l_Q].
      + intros j Hj. destruct (RC j Hj) as (R1 & R2). split; [|exact R2]. intros i Hi. rewrite setVec_other by lia. apply R1; exact Hi.
      + intros j Hj. rewrite setVec_other by lia. apply AL; exact Hj.
    - intros _. cbn [l_a l_Q]. rewrite <- H. rewrite setVec_same. reflexivity. }
  set (y := fun i => matVec n A q i - al * q i - (if Nat.ltb 0 k then l_b L (k - 1)%nat * l_Q L i (k - 1)%nat else 0)).
  assert (Y0 : forall j, (j <= k)%nat -> dotv n (col (l_Q L) j) y = 0).
  { intros j Hj. unfold y. rewrite !dotv_sub, dotv_scale.
    assert (E : dotv n (col (l_Q L) j) (fun i => if Nat.ltb 0 k then l_b L (k - 1)%nat * l_Q L i (k - 1)%nat else 0) = if Nat.ltb 0 k then l_b L (k - 1)%nat * matId j (k - 1)%nat else 0).
    { destruct (Nat.ltb_spec 0 k).
      - rewrite dotv_scale. f_equal. apply O; lia.
      - unfold dotv. apply sumN_zero. intros; ring. }
    rewrite E. unfold q at 2. rewrite (O j k) by lia. unfold q. destruct (Nat.eq_dec j k) as [->|Hne].
    - rewrite matId_refl. unfold al. destruct (Nat.ltb_spec 0 k); [rewrite matId_ne by lia|]; unfold q; ring.
    - rewrite (dot_above (S k) L j k I) by lia. rewrite (matId_ne j k) by lia. destruct (Nat.ltb_spec 0 k); [|lia]. destruct (Nat.eqb_spec (S j) k) as [<-|].
      + replace (S j - 1)%nat with j by lia. rewrite matId_refl. ring.
      + rewrite matId_ne by lia. ring. }
  set (y2 := if Nat.ltb 0 k then _ else _).
  assert (Y2 : forall i, y2 i = y i).
  { unfold y2. destruct (Nat.ltb_spec 0 k).
    - set (y3 := fun i => _). assert (E3 : forall i, y3 i = y i).
      { intros i. unfold y3, y. destruct (Nat.ltb_spec 0 k); [|lia]. rewrite setVec_same. unfold al. reflexivity. }
      intros i. rewrite gs_fixed; [apply E3| |].
      + intros a b Ha Hb. apply O; lia.
      + intros j Hj. rewrite (dotv_ext n _ y3 (col (l_Q L) j) y) by (intros; auto). apply Y0. lia.
    - intros i. unfold y. destruct (Nat.ltb_spec 0 k); [lia|]. rewrite setVec_same. unfold al. ring. }
  clearbody y2. assert (N2 : normv n y2 = normv n y). { unfold normv. f_equal. apply dotv_ext; auto. }
  rewrite ?setVec_same, ?N2.
  assert (Hrow : forall i, matVec n A q i = al * q i + y i + (if Nat.ltb 0 k then l_b L (k - 1)%nat * l_Q L i (k - 1)%nat else 0)) by (intros; unfold y; ring).
  unfold leR. destruct (Rle_dec (normv n y) tol) as [Hle|Hgt].
  - unfold lanState. cbn [l_stop]. split; [lia|]. split; [lia|]. split; [|split; [|split]].
    + split; [exact O|]. split; cbn [l_a l_b l_Q].
      * intros j Hj. destruct (RC j Hj) as (R1 & R2). split; [|rewrite setVec_other by lia; exact R2]. intros i Hi. rewrite !(setVec_other _ k _ j) by lia. rewrite (R1 i Hi).
        destruct (Nat.ltb_spec 0 j); [|reflexivity]. rewrite setVec_other by lia. reflexivity.
      * intros j Hj. rewrite setVec_other by lia. apply AL; exact Hj.
    + cbn [l_a l_Q]. rewrite setVec_same. reflexivity.
    + cbn [l_b]. rewrite setVec_same. split; [apply normv_nonneg|exact Hle].
    + exists y. cbn [l_b l_Q l_a]. rewrite !setVec_same. split; [reflexivity|]. split; [exact Y0|]. intros i Hi. fold q. rewrite (Hrow i). destruct (Nat.ltb_spec 0 k); [|reflexivity]. rewrite setVec_other by lia. reflexivity.
  - apply Rnot_le_gt in Hgt. set (be := normv n y) in *. assert (Hbe : be <> 0) by lra.
    set (Q' := setColM (l_Q L) (k + 1) (fun i => y2 i / be)).
    assert (Q1 : forall j, (j <= k)%nat -> forall i, col Q' j i = col (l_Q L) j i). { intros j Hj i. unfold Q', col. apply setColM_other. lia. }
    assert (Q2 : forall i, col Q' (S k) i = y i / be). { intros i. unfold Q', col. replace (S k) with (k + 1)%nat by lia. rewrite setColM_same, Y2. reflexivity. }
    unfold lanState. cbn [l_stop]. replace (Nat.min (S (k + 1)) s) with (S (S k)) by lia. split; [|intros; lia].
    split; [|split]; cbn [l_Q l_a l_b].
    + intros a b Ha Hb. destruct (Nat.eq_dec a (S k)) as [->|Ha']; destruct (Nat.eq_dec b (S k)) as [->|Hb'].
      * rewrite (dotv_ext n _ _ (fun i => y i / be) (fun i => y i / be)) by (intros; apply Q2). rewrite dotv_div, dotv_comm, dotv_div, <- normv_sq. fold be. rewrite matId_refl. field. exact Hbe.
      * rewrite (dotv_ext n _ _ (fun i => y i / be) (col (l_Q L) b)) by (intros; first [apply Q2|apply Q1; lia]). rewrite dotv_comm, dotv_div, Y0, matId_ne by lia. field. exact Hbe.
      * rewrite (dotv_ext n _ _ (col (l_Q L) a) (fun i => y i / be)) by (intros; first [apply Q2|apply Q1; lia]). rewrite dotv_div, Y0, matId_ne by lia. field. exact Hbe.
      * rewrite (dotv_ext n _ _ (col (l_Q L) a) (col (l_Q L) b)) by (intros; apply Q1; lia). apply O; lia.
    + intros j Hj. assert (MV : forall i, matVec n A (col Q' j) i = matVec n A (col (l_Q L) j) i) by (intros; apply matVec_ext; intros; apply Q1; lia).
      destruct (Nat.eq_dec j k) as [->|Hne].
      * rewrite setVec_same. split; [|exact Hgt]. intros i Hi. rewrite MV, setVec_same. fold q. rewrite Hrow, setVec_same. 
        pose proof (Q2 i) as E2. unfold col in E2. rewrite E2. pose proof (Q1 k ltac:(lia) i) as E1. unfold col in E1. rewrite E1.
        destruct (Nat.ltb_spec 0 k); [rewrite setVec_other by lia; pose proof (Q1 (k - 1)%nat ltac:(lia) i) as E3; unfold col in E3; rewrite E3|]; unfold q, col; field; exact Hbe.
      * destruct (RC j ltac:(lia)) as (R1 & R2). rewrite !(setVec_other _ k _ j) by lia. split; [|exact R2]. intros i Hi. rewrite MV, (R1 i Hi), !(setVec_other _ k _ j) by lia.
        pose proof (Q1 j ltac:(lia) i) as E1. pose proof (Q1 (S j) ltac:(lia) i) as E2. unfold col in E1, E2. rewrite E1, E2.
        destruct (Nat.ltb_spec 0 j); [rewrite setVec_other by lia; pose proof (Q1 (j - 1)%nat ltac:(lia) i) as E3; unfold col in E3; rewrite E3|]; reflexivity.
    + intros j Hj. assert (MV : forall i, matVec n A (col Q' j) i = matVec n A (col (l_Q L) j) i) by (intros; apply matVec_ext; intros; apply Q1; lia).
      rewrite (dotv_ext n _ _ (col (l_Q L) j) (matVec n A (col (l_Q L) j))) by (intros; first [apply MV|apply Q1; lia]).
      destruct (Nat.eq_dec j k) as [->|Hne]; [rewrite setVec_same; reflexivity|]. rewrite setVec_other by lia. apply AL. lia.
Qed.
Lemma lan_loop Q0 : (1 <= s)%nat -> (1 <= n)%nat -> lanState s (lanczosLoop tol n s A Q0).
Proof.
  intros Hs Hn. unfold lanczosLoop. apply (forUp_inv lanState 0 s).
  - unfold lanState. cbn [l_stop]. split; [|intros; lia]. replace (Nat.min 1 s) with 1%nat by lia. split; [|split; intros; lia].
    intros a b Ha Hb. replace a with 0%nat by lia. replace b with 0%nat by lia. cbn [l_Q]. rewrite matId_refl.
    assert (P : 0 < INR n) by (apply lt_0_INR; lia). assert (Q : sqrt (INR n) <> 0) by (pose proof (sqrt_lt_R0 _ P); lra).
    unfold dotv. rewrite (sumN_ext n _ (fun _ => / INR n)).
    + clear - P Hn. assert (E : forall k c, sumN k (fun _ => c) = INR k * c). { intros k c. induction k as [|k IH]; [cbn; ring|]. rewrite S_INR. cbn. rewrite IH. ring. } rewrite E. field. lra.
    + intros i Hi. unfold col. rewrite setColM_same. rewrite <- (sqrt_sqrt (INR n)) at 3 by lra. field. exact Q.
  - intros i x Hi. apply lan_step. lia.
Qed.
(* the number of columns built *)
Definition built (L : Lan) : nat := match l_stop L with Some k => S k | None => s end.
Lemma lan_spec Q0 : (1 <= s)%nat -> (1 <= n)%nat -> let L := lanczosLoop tol n s A Q0 in let p := built L in
  (1 <= p <= s)%nat /\ orthonormal n p (l_Q L) /\
  (forall j k, (j < p)%nat -> (k < p)%nat -> dotv n (col (l_Q L) j) (matVec n A (col (l_Q L) k)) = symTri (l_a L) (l_b L) j k) /\
  (forall j, (S j < p)%nat -> recur n A (l_Q L) (l_a L) (l_b L) j /\ tol < l_b L j).
Proof.
  intros Hs Hn. cbv zeta. pose proof (lan_loop Q0 Hs Hn) as H. set (L := lanczosLoop tol n s A Q0) in *. unfold built. unfold lanState in H.
  assert (K : exists p, p = match l_stop L with Some k => S k | None => s end /\ (1 <= p <= s)%nat /\ lanInv n tol A p L /\ l_a L (p - 1)%nat = dotv n (col (l_Q L) (p - 1)) (matVec n A (col (l_Q L) (p - 1)))).
  { destruct (l_stop L) as [c|].
    - destruct H as (H1 & H2 & H3 & H4 & _). exists (S c). split; [reflexivity|]. split; [lia|]. split; [exact H3|]. replace (S c - 1)%nat with c by lia. exact H4.
    - destruct H as (H1 & H2). exists s. replace (Nat.min (S s) s) with s in H1 by lia. split; [reflexivity|]. split; [lia|]. split; [exact H1|auto]. }
  destruct K as (p & <- & Hp & I & AL). split; [exact Hp|]. pose proof I as (O & RC & AD). split; [exact O|]. split; [|exact RC].
  intros j k Hj Hk. destruct (Nat.eq_dec j k) as [->|Hne]; [|apply (dot_tri p); assumption].
  unfold symTri. rewrite Nat.eqb_refl. destruct (Nat.eq_dec k (p - 1)) as [->|]; [symmetry; exact AL|]. symmetry. apply AD. lia.
Qed.
(* the residual of a complete decomposition *)
Lemma lan_residual Q0 : (1 <= s)%nat -> (1 <= n)%nat -> let L := lanczosLoop tol n s A Q0 in l_stop L = None -> matEq n s (decompositionResidual n s A L) (fun _ _ => 0).
Proof.
  intros Hs Hn. cbv zeta. intros E. pose proof (lan_loop Q0 Hs Hn) as H. set (L := lanczosLoop tol n s A Q0) in *. unfold lanState in H. rewrite E in H. destruct H as ((O & RC & AD) & _).
  replace (Nat.min (S s) s) with s in RC by lia. intros i j Hi Hj. unfold decompositionResidual.
  destruct (left_dense (mkTri s (l_a L) (l_b L)) n (l_Q L)) as (X & HX & EX); [cbn; lia|]. cbn [t_size] in HX, EX. rewrite HX.
  assert (XE : forall j, (j < s)%nat -> X i j = l_a L j * l_Q L i j + (if Nat.ltb (S j) s then l_b L j * l_Q L i (S j) else 0) + (if Nat.ltb 0 j then l_b L (j - 1)%nat * l_Q L i (j - 1)%nat else 0)).
  { intros c Hc. rewrite (EX i c Hi Hc). exact (dense_col (mkTri s (l_a L) (l_b L)) (l_Q L) i c Hc). }
  destruct (Nat.eq_dec j (s - 1)) as [->|Hne].
  - rewrite setColM_same. rewrite XE by lia. destruct (Nat.ltb_spec (S (s - 1)) s); [lia|].
    change (matMul n A (l_Q L) i (s - 1)%nat) with (matVec n A (col (l_Q L) (s - 1)) i). destruct (Nat.ltb_spec 0 (s - 1)); ring.
  - rewrite setColM_other by lia. rewrite XE by lia. destruct (Nat.ltb_spec (S j) s); [|lia]. destruct (RC j) as (R & _); [lia|].
    change (matMul n A (l_Q L) i j) with (matVec n A (col (l_Q L) j) i). rewrite (R i Hi). ring.
Qed.
End S.
