(* C86: Delassus operators. *)
Require Import Reals List Arith.
From Verif Require Import Vec3 Sums Spec_Aba AbaInv Cone Contact Spec_Contact Delassus Spec_Delassus DelassusFacts DelassusFacts2.
Import ListNotations.
Local Open Scope R_scope.

(** after any history of calls the dense operator applies, returns, solves and inverts D + diag d, where d is the damping given last *)
Theorem C86_dense (inv : nat -> (nat -> nat -> R) -> nat -> nat -> R) (n : nat) (D tmp0 : nat -> nat -> R) (o0 : Dense) (h : list Call) :
  denseNew n n D tmp0 = Some o0 -> let o := denseRun o0 h in let d := lastDamping h in
  (forall x k, (k < n)%nat -> denseApply o x k = sumN n (fun j => D k j * x j) + d k * x k) /\
  isDamped n D d (snd (denseMatrix o)) /\
  (invertsPD inv -> symmetricM n D -> dampedPositive n D d ->
    (forall b x, (forall k, (k < n)%nat -> denseSolve inv o b k = x k) <-> dampedSystem n D d x b) /\
    (forall j, dampedSystem n D d (fun i => denseInverse inv o i j) (basis j))).
Proof.
  intros New o d. exact (conj (dense_apply n D tmp0 o0 h New) (conj (dense_matrix n D tmp0 o0 h New) (fun HI S P => conj (dense_solve inv n D tmp0 o0 h New HI S P) (dense_inverse inv n D tmp0 o0 h New HI S P)))).
Qed.
Print Assumptions C86_dense.
(* a singular matrix, damped after any history *)
Example C86_ex (h : list Call) (mu : R) : 0 < mu -> invertsPD elimInv /\ factorises elimInv checkedOk /\ permutes 2 (fun k => 1 - k)%nat (fun k => 1 - k)%nat /\
  symmetricM 2 exDel /\ semiPositive 2 exDel /\ dampedPositive 2 exDel (lastDamping (h ++ [UpdateScalar mu])) /\ exists o s, denseNew 2 2 exDel exDel = Some o /\ sparseNew 2 2 exDel (fun _ => 0) = Some s.
Proof.
  intros Hm. exact (conj elimInv_inverts (conj checked_factorises (conj flip_permutes (conj (exDel_sym 2) (conj (exDel_semi 2) (conj (exDel_damped h mu Hm) (ex_intro _ _ (ex_intro _ _ (conj eq_refl eq_refl))))))))).
Qed.

(** the same for the sparse operator with a fill-reducing ordering *)
Theorem C86_sparse (inv : nat -> (nat -> nat -> R) -> nat -> nat -> R) (ok : nat -> (nat -> nat -> R) -> bool) (p q : nat -> nat) (n : nat) (D : nat -> nat -> R) (tmp0 : nat -> R) (o0 : Sparse) (h : list Call) :
  sparseNew n n D tmp0 = Some o0 -> let o := sparseRun inv ok (Some (p, q)) o0 h in let d := lastDamping h in
  (forall x k, (k < n)%nat -> sparseApply o x k = sumN n (fun j => D k j * x j) + d k * x k) /\
  isDamped n D d (snd (sparseMatrix o)) /\
  (factorises inv ok -> permutes n p q -> symmetricM n D -> dampedPositive n D d ->
    (forall b x, (forall k, (k < n)%nat -> snd (sparseSolve inv ok (Some (p, q)) o b) k = x k) <-> dampedSystem n D d x b) /\
    (forall b x, (forall k, (k < n)%nat -> sparseSolveTo inv ok (Some (p, q)) o b k = x k) <-> dampedSystem n D d x b) /\
    (forall j, dampedSystem n D d (fun i => sparseInverse inv ok (Some (p, q)) o i j) (basis j))).
Proof.
  intros New o d. refine (conj (sparse_apply inv ok _ n D tmp0 o0 h New) (conj (sparse_matrix inv ok _ n D tmp0 o0 h New) (fun HF HP S P => conj _ (conj (fun b x => sparse_solveTo inv ok (Some (p, q)) n D tmp0 o0 h New HF S HP b x P) (fun j => sparse_inverse inv ok (Some (p, q)) n D tmp0 o0 h New HF S HP j P))))).
  intros b x. unfold o. rewrite (sparse_solve_eigen inv ok (Some (p, q)) o0 h b) by discriminate. exact (sparse_solveTo inv ok (Some (p, q)) n D tmp0 o0 h New HF S HP b x P).
Qed.
Print Assumptions C86_sparse.
(* hypotheses met: C86_ex *)

(** without an ordering the overload with a separate result and the inverse are still right ... *)
Theorem C86_sparse_natural (inv : nat -> (nat -> nat -> R) -> nat -> nat -> R) (ok : nat -> (nat -> nat -> R) -> bool) (n : nat) (D : nat -> nat -> R) (tmp0 : nat -> R) (o0 : Sparse) (h : list Call) :
  sparseNew n n D tmp0 = Some o0 -> let o := sparseRun inv ok None o0 h in let d := lastDamping h in
  factorises inv ok -> symmetricM n D -> dampedPositive n D d ->
  (forall b x, (forall k, (k < n)%nat -> sparseSolveTo inv ok None o b k = x k) <-> dampedSystem n D d x b) /\
  (forall j, dampedSystem n D d (fun i => sparseInverse inv ok None o i j) (basis j)).
Proof.
  intros New o d HF S P. exact (conj (fun b x => sparse_solveTo inv ok None n D tmp0 o0 h New HF S I b x P) (fun j => sparse_inverse inv ok None n D tmp0 o0 h New HF S I j P)).
Qed.
Print Assumptions C86_sparse_natural.
(* hypotheses met: C86_ex *)
(** ... but the solve in place returns the right-hand side: it does not solve *)
Theorem C86_sparse_natural_refuted : ~ (forall (inv : nat -> (nat -> nat -> R) -> nat -> nat -> R) (ok : nat -> (nat -> nat -> R) -> bool) (n : nat) (D : nat -> nat -> R) (tmp0 : nat -> R) (o0 : Sparse) (h : list Call) (b : nat -> R),
  sparseNew n n D tmp0 = Some o0 -> factorises inv ok -> symmetricM n D -> dampedPositive n D (lastDamping h) ->
  dampedSystem n D (lastDamping h) (snd (sparseSolve inv ok None (sparseRun inv ok None o0 h) b)) b).
Proof.
  intros H. destruct (natural_wrong elimInv checkedOk) as (o0 & h & b & New & P & N). exact (N (H _ _ _ _ _ o0 h b New checked_factorises (exDel_sym 1) P)).
Qed.
Print Assumptions C86_sparse_natural_refuted.

(** a damped matrix that is singular is not reported: the sparse solves return the right-hand side *)
Theorem C86_sparse_singular (inv : nat -> (nat -> nat -> R) -> nat -> nat -> R) (ok : nat -> (nat -> nat -> R) -> bool) (p q : nat -> nat) (n : nat) (D : nat -> nat -> R) (tmp0 : nat -> R) (o0 : Sparse) (h : list Call) (y b : nat -> R) :
  sparseNew n n D tmp0 = Some o0 -> factorises inv ok -> permutes n p q -> symmetricM n D ->
  (exists k, (k < n)%nat /\ y k <> 0) -> dampedSystem n D (lastDamping h) y (fun _ => 0) ->
  let o := sparseRun inv ok (Some (p, q)) o0 h in snd (sparseSolve inv ok (Some (p, q)) o b) = b /\ sparseSolveTo inv ok (Some (p, q)) o b = b.
Proof. intros New HF HP S N Z. exact (sparse_singular inv ok (Some (p, q)) n D tmp0 o0 h New HF S HP y b N Z). Qed.
Print Assumptions C86_sparse_singular.
Example C86_sparse_singular_ex : dampedSystem 2 exDel (lastDamping [GetMatrix]) (fun k => if Nat.eqb k 0 then 1 else -1) (fun _ => 0).
Proof. intros k _. unfold exDel, lastDamping. cbn. ring. Qed.

(** the products check the size of their argument and the constructors that the matrix is square *)
Theorem C86_sizes (inv : nat -> (nat -> nat -> R) -> nat -> nat -> R) (ok : nat -> (nat -> nat -> R) -> bool) (P : Ordering) (rows cols : nat) (D tmp0 : nat -> nat -> R) (tmp1 : nat -> R) :
  (denseNew rows cols D tmp0 = None <-> rows <> cols) /\ (sparseNew rows cols D tmp1 = None <-> rows <> cols) /\
  (forall o0 h r x, rows = cols -> denseNew rows cols D tmp0 = Some o0 -> denseMult (denseRun o0 h) r x = if Nat.eqb r rows then Some (denseApply (denseRun o0 h) x) else None) /\
  (forall o0 h r x, rows = cols -> sparseNew rows cols D tmp1 = Some o0 -> sparseMult (sparseRun inv ok P o0 h) r x = if Nat.eqb r rows then Some (sparseApply (sparseRun inv ok P o0 h) x) else None).
Proof.
  refine (conj _ (conj _ (conj _ _))).
  - unfold denseNew. destruct (Nat.eqb_spec rows cols); split; congruence.
  - unfold sparseNew. destruct (Nat.eqb_spec rows cols); split; congruence.
  - intros o0 h r x <- New. exact (dense_mult rows D tmp0 o0 h New r x).
  - intros o0 h r x <- New. exact (sparse_mult inv ok P rows D tmp1 o0 h New r x).
Qed.
Print Assumptions C86_sizes.
(* hypotheses met: C86_ex *)

(** both operators are the exact solvers that the theorems C73 about the ADMM contact solver ask for, whatever was called on them before *)
Theorem C86_contact_solver (inv : nat -> (nat -> nat -> R) -> nat -> nat -> R) (ok : nat -> (nat -> nat -> R) -> bool) (p q : nat -> nat) (n : nat) (D tmp0 : nat -> nat -> R) (tmp1 : nat -> R) (o : Dense) (s : Sparse) (h : list Call) :
  denseNew n n D tmp0 = Some o -> sparseNew n n D tmp1 = Some s -> invertsPD inv -> factorises inv ok -> permutes n p q -> symmetricM n D -> semiPositive n D ->
  exactSolve n D (fun d b => denseSolve inv (denseUpdate (denseRun o h) d) b) /\
  exactSolve n D (fun d b => snd (sparseSolve inv ok (Some (p, q)) (sparseUpdate (sparseRun inv ok (Some (p, q)) s h) d) b)).
Proof. intros N1 N2 HI HF HP S P. exact (conj (dense_exact inv n D tmp0 o h N1 HI S P) (sparse_exact inv ok p q n D tmp1 s h N2 HF HP S P)). Qed.
Print Assumptions C86_contact_solver.
(* hypotheses met: C86_ex *)
