Require Import Reals List Arith Lia Lra.
From Verif Require Import Vec3 Sums Spec_Aba AbaInv Spec_Chol Cone Contact Spec_Contact Delassus Spec_Delassus DelassusFacts.
Import ListNotations.
Local Open Scope R_scope.

Lemma last_fold h : lastDamping h = fold_left nextDamping h (fun _ => 0).
Proof. reflexivity. Qed.

Section Dense.
Variables (inv : nat -> (nat -> nat -> R) -> nat -> nat -> R).
Variables (n : nat) (D tmp0 : nat -> nat -> R) (o0 : Dense) (h : list Call).
Hypothesis New : denseNew n n D tmp0 = Some o0.
Let o := denseRun o0 h.
Let d := lastDamping h.
Lemma dense_inv : denseInv n D o d.
Proof.
  unfold o, d. rewrite last_fold. apply dense_run. unfold denseNew in New. rewrite Nat.eqb_refl in New. injection New as <-.
  refine (conj eq_refl (conj eq_refl (conj eq_refl _))). apply zero_damped.
Qed.
Lemma dense_apply x k : (k < n)%nat -> denseApply o x k = sumN n (fun j => D k j * x j) + d k * x k.
Proof. intros _. destruct dense_inv as (En & ED & Ed & _). unfold denseApply. rewrite En, ED, Ed. reflexivity. Qed.
Lemma dense_matrix : isDamped n D d (snd (denseMatrix o)).
Proof. destruct dense_inv as (En & ED & Ed & _). unfold denseMatrix. cbn. rewrite ED, Ed. apply plusDiag_damped. Qed.
Lemma dense_solve : invertsPD inv -> symmetricM n D -> dampedPositive n D d ->
  forall b x, (forall k, (k < n)%nat -> denseSolve inv o b k = x k) <-> dampedSystem n D d x b.
Proof.
  intros HI S P b x. destruct dense_inv as (En & ED & Ed & L). unfold denseSolve. rewrite En.
  rewrite (core n (de_llt o) _ b x (damped_pos _ _ _ _ L P) (HI n _ (damped_sym _ _ _ _ L S) (damped_pos _ _ _ _ L P))).
  unfold dampedSystem. split; intros E k Hk; [rewrite <- (damped_mul n D d _ x L k Hk)|rewrite (damped_mul n D d _ x L k Hk)]; now apply E.
Qed.
Lemma dense_inverse : invertsPD inv -> symmetricM n D -> dampedPositive n D d -> forall j, dampedSystem n D d (fun i => denseInverse inv o i j) (basis j).
Proof. intros HI S P j. apply (dense_solve HI S P). intros k Hk. reflexivity. Qed.
Lemma dense_mult r x : denseMult o r x = if Nat.eqb r n then Some (denseApply o x) else None.
Proof. unfold denseMult. now rewrite (proj1 dense_inv). Qed.
End Dense.

Section Sparse.
Variables (inv : nat -> (nat -> nat -> R) -> nat -> nat -> R) (ok : nat -> (nat -> nat -> R) -> bool) (P : Ordering).
Variables (n : nat) (D : nat -> nat -> R) (tmp0 : rvec) (o0 : Sparse) (h : list Call).
Hypothesis New : sparseNew n n D tmp0 = Some o0.
Let o := sparseRun inv ok P o0 h.
Let d := lastDamping h.
Lemma sparse_inv : sparseInv n D o d.
Proof.
  unfold o, d. rewrite last_fold. apply sparse_run. unfold sparseNew in New. rewrite Nat.eqb_refl in New. injection New as <-.
  refine (conj eq_refl (conj eq_refl (conj eq_refl (conj _ _)))); apply zero_damped.
Qed.
Lemma sparse_apply x k : (k < n)%nat -> sparseApply o x k = sumN n (fun j => D k j * x j) + d k * x k.
Proof. intros _. destruct sparse_inv as (En & ED & Ed & _). unfold sparseApply. rewrite En, ED, Ed. reflexivity. Qed.
Lemma sparse_matrix : isDamped n D d (snd (sparseMatrix o)).
Proof. destruct sparse_inv as (En & ED & Ed & _). unfold sparseMatrix. cbn. rewrite ED, Ed. apply plusDiag_damped. Qed.
Lemma sparse_mult r x : sparseMult o r x = if Nat.eqb r n then Some (sparseApply o x) else None.
Proof. unfold sparseMult. now rewrite (proj1 sparse_inv). Qed.
Hypothesis HF : factorises inv ok.
Hypothesis S : symmetricM n D.
Definition goodOrdering : Prop := match P with Some (p, q) => permutes n p q | None => True end.
Hypothesis HP : goodOrdering.
Lemma permuted_sym A : symmetricM n A -> symmetricM n (permuted P A).
Proof. unfold goodOrdering in HP. destruct P as [(p, q)|]; [|now intros]. exact (perm_sym n p q A HP). Qed.
Lemma permuted_pos A : positiveM n A -> positiveM n (permuted P A).
Proof. unfold goodOrdering in HP. destruct P as [(p, q)|]; [|now intros]. exact (perm_pos n p q A HP). Qed.
Lemma eigen_solve b dest x : dampedPositive n D d -> (forall k, (k < n)%nat -> eigenSolve inv ok n P (sp_llt o) b dest k = x k) <-> dampedSystem n D d x b.
Proof.
  intros Pd. destruct sparse_inv as (En & ED & Ed & L & _).
  pose proof (damped_sym _ _ _ _ L S) as SA. pose proof (damped_pos _ _ _ _ L Pd) as PA.
  destruct (HF n (permuted P (sp_llt o)) (permuted_sym _ SA)) as (O & I). specialize (O (permuted_pos _ PA)). specialize (I O).
  assert (G : forall k, (k < n)%nat -> mulMV n (sp_llt o) (eigenSolve inv ok n P (sp_llt o) b dest) k = b k).
  { unfold eigenSolve. rewrite O. unfold solveTmp, goodOrdering in *. destruct P as [(p, q)|].
    - intros k Hk. destruct (HP k Hk) as (Pk & _ & _ & Ek). rewrite <- Ek at 1. rewrite <- (perm_mul n p q _ _ (p k) HP).
      cbn [permuted] in *. transitivity (mulMV n (fun k l => sp_llt o (q k) (q l)) (mulMV n (inv n (fun k l => sp_llt o (q k) (q l))) (fun k => b (q k))) (p k)).
      + unfold mulMV at 1 3. apply sumN_ext. intros l Hl. now rewrite (proj1 (proj2 (proj2 (HP l Hl)))).
      + rewrite (core_right n _ _ (fun k => b (q k)) I (p k) Pk). now rewrite Ek.
    - intros k Hk. cbn [permuted] in *. exact (core_right n _ _ b I k Hk). }
  unfold dampedSystem. split; intros E.
  - intros k Hk. rewrite <- (damped_mul n D d _ x L k Hk), <- (G k Hk). unfold mulMV. apply sumN_ext. intros l Hl. now rewrite (E l Hl).
  - apply (positive_inj n (sp_llt o)); [exact PA|]. intros k Hk. rewrite (G k Hk), (damped_mul n D d _ x L k Hk). symmetry. now apply E.
Qed.
Lemma sparse_solveTo b x : dampedPositive n D d -> (forall k, (k < n)%nat -> sparseSolveTo inv ok P o b k = x k) <-> dampedSystem n D d x b.
Proof. intros Pd. unfold sparseSolveTo. rewrite (proj1 sparse_inv). now apply eigen_solve. Qed.
Lemma sparse_inverse j : dampedPositive n D d -> dampedSystem n D d (fun i => sparseInverse inv ok P o i j) (basis j).
Proof. intros Pd. apply (eigen_solve (basis j) (basis j)); [exact Pd|]. intros k Hk. unfold sparseInverse. now rewrite (proj1 sparse_inv). Qed.
Lemma sparse_solve_eigen b : P <> None -> snd (sparseSolve inv ok P o b) = sparseSolveTo inv ok P o b.
Proof. intros N. unfold sparseSolve, sparseSolveTo, wrapperSolve, eigenSolve. destruct (ok _ _); [|reflexivity]. destruct P as [(p, q)|]; [reflexivity|congruence]. Qed.
Lemma sparse_natural b : P = None -> snd (sparseSolve inv ok P o b) = b.
Proof. intros ->. unfold sparseSolve, wrapperSolve. destruct (ok _ _); reflexivity. Qed.
Lemma sparse_singular y b : (exists k, (k < n)%nat /\ y k <> 0) -> dampedSystem n D d y (fun _ => 0) ->
  snd (sparseSolve inv ok P o b) = b /\ sparseSolveTo inv ok P o b = b.
Proof.
  intros (k & Hk & Ny) Z. destruct sparse_inv as (En & ED & Ed & L & _).
  assert (O : ok n (permuted P (sp_llt o)) = false).
  { destruct (ok n (permuted P (sp_llt o))) eqn:O; [exfalso|reflexivity].
    pose proof (permuted_sym _ (damped_sym _ _ _ _ L S)) as SA. pose proof (proj2 (HF n _ SA) O) as I.
    assert (K : forall i, (i < n)%nat -> mulMV n (sp_llt o) y i = 0) by (intros i Hi; rewrite (damped_mul n D d _ y L i Hi); now apply Z).
    unfold goodOrdering in HP. destruct P as [(p, q)|]; cbn [permuted] in *.
    - destruct (HP k Hk) as (Pk & _ & _ & Ek). apply Ny. rewrite <- Ek.
      apply (core_kernel n _ _ (fun l => y (q l)) SA I); [|exact Pk]. intros i Hi. rewrite (perm_mul n p q _ y i HP). apply K. apply (HP i Hi).
    - apply Ny. exact (core_kernel n _ _ y SA I K k Hk). }
  unfold sparseSolve, sparseSolveTo, wrapperSolve, eigenSolve. rewrite En, O. split; reflexivity.
Qed.
End Sparse.

(* a factorisation that meets the contract *)
Definition checkedOk (n : nat) (A : nat -> nat -> R) : bool :=
  forallb (fun k => forallb (fun l => if Req_EM_T (matMul n A (elimInv n A) k l) (if Nat.eqb k l then 1 else 0) then true else false) (seq 0 n)) (seq 0 n).
Lemma checked_factorises : factorises elimInv checkedOk.
Proof.
  intros n A SA.
  assert (E : checkedOk n A = true <-> identityM n (matMul n A (elimInv n A))).
  { unfold checkedOk, identityM. rewrite forallb_forall. split.
    - intros H k l Hk Hl. assert (I : In k (seq 0 n)) by (apply in_seq; lia). specialize (H k I). rewrite forallb_forall in H.
      assert (J : In l (seq 0 n)) by (apply in_seq; lia). specialize (H l J). destruct (Req_EM_T _ _) as [e|]; [exact e|discriminate].
    - intros H k I. apply in_seq in I. apply forallb_forall. intros l J. apply in_seq in J. destruct (Req_EM_T _ _) as [|e]; [reflexivity|]. exfalso. apply e, H; lia. }
  split; intros H; [|now apply E]. apply E. now apply elimInv_inverts.
Qed.
(* two coupled contacts rows: D = [1 1; 1 1], singular; damped by any positive number it is definite *)
Definition exDel : nat -> nat -> R := fun _ _ => 1.
Lemma exDel_semi n : semiPositive n exDel.
Proof.
  intros x. unfold exDel. rewrite (sumN_ext n _ (fun k => x k * sumN n x)) by (intros; f_equal; apply sumN_ext; intros; ring).
  rewrite sumN_scale_r. apply Rle_0_sqr.
Qed.
Lemma exDel_sym n : symmetricM n exDel. Proof. intros k l _ _. reflexivity. Qed.
Lemma flip_permutes : permutes 2 (fun k => 1 - k)%nat (fun k => 1 - k)%nat.
Proof. intros k Hk. destruct k as [|[|]]; cbn; lia. Qed.
Lemma exDel_damped h mu : 0 < mu -> dampedPositive 2 exDel (lastDamping (h ++ [UpdateScalar mu])).
Proof. intros Hm. apply semi_damped; [apply exDel_semi|]. intros k _. unfold lastDamping. rewrite fold_left_app. exact Hm. Qed.
Lemma natural_wrong inv ok : exists (o0 : Sparse) (h : list Call) (b : rvec), sparseNew 1 1 exDel (fun _ => 0) = Some o0 /\ dampedPositive 1 exDel (lastDamping h) /\
  ~ dampedSystem 1 exDel (lastDamping h) (snd (sparseSolve inv ok None (sparseRun inv ok None o0 h) b)) b.
Proof.
  eexists. exists [UpdateScalar 1], (fun _ => 1). split; [reflexivity|]. split.
  - apply semi_damped; [apply exDel_semi|]. intros k _. cbn. lra.
  - rewrite (sparse_natural inv ok None _ _ _ eq_refl). intros H. specialize (H 0%nat Nat.lt_0_1). unfold exDel, lastDamping in H. cbn in H. lra.
Qed.
(* ---- the contact solver ---- *)
Lemma last_app h v : lastDamping (h ++ [UpdateVec v]) = v.
Proof. unfold lastDamping. now rewrite fold_left_app. Qed.
Lemma dense_exact inv n D tmp0 o0 h : denseNew n n D tmp0 = Some o0 -> invertsPD inv -> symmetricM n D -> semiPositive n D ->
  exactSolve n D (fun d b => denseSolve inv (denseUpdate (denseRun o0 h) d) b).
Proof.
  intros New HI S P d b Hd x. pose proof (dense_solve inv n D tmp0 o0 (h ++ [UpdateVec d]) New HI S) as H. rewrite last_app in H.
  unfold denseRun in H. rewrite fold_left_app in H. exact (H (semi_damped n D d P Hd) b x).
Qed.
Lemma sparse_exact inv ok p q n D tmp0 o0 h : sparseNew n n D tmp0 = Some o0 -> factorises inv ok -> permutes n p q -> symmetricM n D -> semiPositive n D ->
  exactSolve n D (fun d b => snd (sparseSolve inv ok (Some (p, q)) (sparseUpdate (sparseRun inv ok (Some (p, q)) o0 h) d) b)).
Proof.
  intros New HF HP S P d b Hd x. pose proof (sparse_solveTo inv ok (Some (p, q)) n D tmp0 o0 (h ++ [UpdateVec d]) New HF S HP b x) as H.
  rewrite <- (sparse_solve_eigen inv ok (Some (p, q)) o0 (h ++ [UpdateVec d]) b) in H by congruence.
  rewrite last_app in H. unfold sparseRun in H. rewrite fold_left_app in H. exact (H (semi_damped n D d P Hd)).
Qed.
