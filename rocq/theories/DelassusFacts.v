Require Import Reals List Arith Lia Lra Permutation.
From Verif Require Import Vec3 Sums Spec_Aba AbaInv Spec_Chol Cone Contact Spec_Contact Delassus Spec_Delassus.
Import ListNotations.
Local Open Scope R_scope.

(* ---- linear algebra ---- *)
Lemma core_right n A B b : identityM n (matMul n A B) -> forall k, (k < n)%nat -> mulMV n A (mulMV n B b) k = b k.
Proof.
  intros H k Hk. unfold mulMV.
  rewrite (sumN_ext n _ (fun l => sumN n (fun j => A k l * B l j * b j))) by (intros; rewrite <- sumN_scale; apply sumN_ext; intros; ring).
  rewrite sumN_swap. rewrite (sumN_ext n _ (fun j => if Nat.eqb k j then b j else 0)); [now apply sumN_delta|].
  intros j Hj. rewrite sumN_scale_r. change (sumN n (fun l => A k l * B l j)) with (matMul n A B k j). rewrite (H k j Hk Hj). destruct (Nat.eqb k j); ring.
Qed.
Lemma positive_inj n A x y : positiveM n A -> (forall k, (k < n)%nat -> mulMV n A x k = mulMV n A y k) -> forall k, (k < n)%nat -> x k = y k.
Proof.
  intros P H k Hk. destruct (Req_dec (x k) (y k)) as [E|E]; [exact E|exfalso].
  assert (Q := P (fun k => x k - y k) (ex_intro _ k (conj Hk (fun e => E (Rminus_diag_uniq _ _ e))))). cbn beta in Q.
  rewrite sumN_zero in Q; [lra|]. intros i Hi.
  rewrite (sumN_ext n _ (fun l => A i l * x l - A i l * y l)) by (intros; ring). rewrite sumN_sub. pose proof (H i Hi) as Hi'. unfold mulMV in Hi'. rewrite Hi'. ring.
Qed.
Lemma core n A B b x : positiveM n A -> identityM n (matMul n A B) ->
  (forall k, (k < n)%nat -> mulMV n B b k = x k) <-> (forall k, (k < n)%nat -> mulMV n A x k = b k).
Proof.
  intros P H. split; intros E.
  - intros k Hk. rewrite <- (core_right n A B b H k Hk). unfold mulMV at 1 2. apply sumN_ext. intros l Hl. now rewrite (E l Hl).
  - apply (positive_inj n A); [exact P|]. intros k Hk. rewrite (core_right n A B b H k Hk). symmetry. now apply E.
Qed.
Lemma core_kernel n A B y : symmetricM n A -> identityM n (matMul n A B) -> (forall k, (k < n)%nat -> mulMV n A y k = 0) -> forall k, (k < n)%nat -> y k = 0.
Proof.
  intros S H E l Hl.
  assert (Q : sumN n (fun k => y k * matMul n A B k l) = y l).
  { rewrite (sumN_ext n _ (fun k => if Nat.eqb l k then y k else 0)); [now apply sumN_delta|]. intros k Hk. rewrite (H k l Hk Hl), (Nat.eqb_sym l k). destruct (Nat.eqb k l); ring. }
  rewrite <- Q. unfold matMul.
  rewrite (sumN_ext n _ (fun k => sumN n (fun j => y k * (A k j * B j l)))) by (intros; now rewrite sumN_scale).
  rewrite sumN_swap. apply sumN_zero. intros j Hj.
  rewrite (sumN_ext n _ (fun k => A j k * y k * B j l)) by (intros k Hk; rewrite (S k j Hk Hj); ring).
  rewrite sumN_scale_r. pose proof (E j Hj) as Ej. unfold mulMV in Ej. rewrite Ej. ring.
Qed.

(* ---- permutations ---- *)
Lemma sumN_list n f : sumN n f = fold_right Rplus 0 (map f (seq 0 n)).
Proof.
  induction n as [|n IH]; [reflexivity|]. rewrite List.seq_S, map_app, fold_right_app. cbn [sumN map fold_right plus]. rewrite IH.
  generalize (map f (seq 0 n)). intros l. induction l as [|a l IHl]; cbn [fold_right]; [ring|]. rewrite <- IHl. ring.
Qed.
Lemma rsum_perm' l l' : Permutation l l' -> fold_right Rplus 0 l = fold_right Rplus 0 l'.
Proof. induction 1; cbn [fold_right]; [reflexivity|now rewrite IHPermutation|ring|congruence]. Qed.
Lemma NoDup_map_on (q : nat -> nat) l : (forall a b, In a l -> In b l -> q a = q b -> a = b) -> NoDup l -> NoDup (map q l).
Proof.
  induction l as [|a l IH]; intros H N; [constructor|]. inversion N; subst. cbn [map]. constructor.
  - intros I. apply in_map_iff in I. destruct I as (b & E & I). assert (b = a) by (apply H; [now right|now left|exact E]). now subst.
  - apply IH; [|assumption]. intros c d Hc Hd. apply H; now right.
Qed.
Lemma sumN_perm n p q f : permutes n p q -> sumN n (fun k => f (q k)) = sumN n f.
Proof.
  intros P. rewrite !sumN_list. rewrite <- map_map. apply rsum_perm', Permutation_map. apply NoDup_Permutation.
  - apply NoDup_map_on; [|apply seq_NoDup]. intros a b Ha Hb E. apply in_seq in Ha, Hb. destruct (P a) as (_ & _ & Ea & _); [lia|]. destruct (P b) as (_ & _ & Eb & _); [lia|]. congruence.
  - apply seq_NoDup.
  - intros x. rewrite in_map_iff, in_seq. split.
    + intros (y & E & I). apply in_seq in I. destruct (P y) as (_ & Q & _); [lia|]. lia.
    + intros I. destruct (P x) as (Q & _ & _ & E); [lia|]. exists (p x). split; [exact E|]. apply in_seq. lia.
Qed.
Lemma perm_mul n p q A (x : rvec) k : permutes n p q -> mulMV n (fun k l => A (q k) (q l)) (fun l => x (q l)) k = mulMV n A x (q k).
Proof. intros P. unfold mulMV. exact (sumN_perm n p q (fun j => A (q k) j * x j) P). Qed.
Lemma perm_sym n p q A : permutes n p q -> symmetricM n A -> symmetricM n (fun k l => A (q k) (q l)).
Proof. intros P S k l Hk Hl. apply S; [apply (P k Hk)|apply (P l Hl)]. Qed.
Lemma perm_pos n p q A : permutes n p q -> positiveM n A -> positiveM n (fun k l => A (q k) (q l)).
Proof.
  intros P S x (k & Hk & Nx).
  assert (E : forall l, (l < n)%nat -> x l = x (p (q l))) by (intros l Hl; now rewrite (proj1 (proj2 (proj2 (P l Hl))))).
  rewrite (sumN_ext n _ (fun k => (fun i => x (p i) * sumN n (fun j => A i j * x (p j))) (q k))).
  - rewrite (sumN_perm n p q (fun i => x (p i) * sumN n (fun j => A i j * x (p j))) P). apply (S (fun i => x (p i))). exists (q k). split; [apply (P k Hk)|]. now rewrite <- E.
  - intros i Hi. rewrite (E i Hi) at 1. f_equal. rewrite <- (sumN_perm n p q (fun j => A (q i) j * x (p j)) P). apply sumN_ext. intros l Hl. now rewrite <- E.
Qed.

(* ---- D + diag d ---- *)
Lemma damped_mul n D d A x : isDamped n D d A -> forall k, (k < n)%nat -> mulMV n A x k = sumN n (fun j => D k j * x j) + d k * x k.
Proof.
  intros H k Hk. unfold mulMV. rewrite (sumN_ext n _ (fun j => D k j * x j + (if Nat.eqb k j then d j * x j else 0))).
  - rewrite sumN_add. f_equal. now apply (sumN_delta n k (fun j => d j * x j)).
  - intros j Hj. destruct (H k j Hk Hj) as (E & N). destruct (Nat.eqb_spec k j) as [->|K]; [rewrite (E eq_refl)|rewrite (N K)]; ring.
Qed.
Lemma damped_sym n D d A : isDamped n D d A -> symmetricM n D -> symmetricM n A.
Proof.
  intros H S k l Hk Hl. destruct (Nat.eq_dec k l) as [->|K]; [reflexivity|]. rewrite (proj2 (H k l Hk Hl) K), (proj2 (H l k Hl Hk) (not_eq_sym K)). now apply S.
Qed.
Lemma damped_pos n D d A : isDamped n D d A -> dampedPositive n D d -> positiveM n A.
Proof.
  intros H P x N. rewrite (sumN_ext n _ (fun k => x k * (sumN n (fun j => D k j * x j) + d k * x k))); [now apply P|].
  intros k Hk. f_equal. exact (damped_mul n D d A x H k Hk).
Qed.
Lemma plusDiag_damped n D d : isDamped n D d (plusDiag D d).
Proof. intros i j _ _. unfold plusDiag. split; intros E; [subst; rewrite Nat.eqb_refl; ring|]. apply Nat.eqb_neq in E. rewrite E. ring. Qed.
Lemma zero_damped n D : isDamped n D (fun _ => 0) D.
Proof. intros i j _ _. split; intros; ring. Qed.
Lemma semi_damped n D d : semiPositive n D -> (forall k, (k < n)%nat -> 0 < d k) -> dampedPositive n D d.
Proof.
  intros S P x (k & Hk & N). rewrite (sumN_ext n _ (fun k => x k * sumN n (fun j => D k j * x j) + d k * (x k * x k))) by (intros; ring).
  rewrite sumN_add. specialize (S x).
  assert (G : forall i, (i < n)%nat -> 0 <= d i * (x i * x i)) by (intros i Hi; apply Rmult_le_pos; [left; now apply P|apply Rle_0_sqr]).
  pose proof (sumN_nonneg n _ G) as Q. destruct Q as [Q|Q]; [lra|exfalso].
  pose proof (sumN_nonneg_zero n _ G (eq_sym Q) k Hk) as Z. cbn beta in Z. specialize (P k Hk).
  apply Rmult_integral in Z. destruct Z as [Z|Z]; [lra|]. apply Rmult_integral in Z. tauto.
Qed.
Lemma bump_fold A c m i j : fold_left (fun A k => bump A k (c k)) (seq 0 m) A i j = if andb (Nat.eqb i j) (Nat.ltb i m) then A i j + c i else A i j.
Proof.
  revert i j. induction m as [|m IH]; intros i j; [now destruct (Nat.eqb i j)|].
  rewrite List.seq_S, fold_left_app. cbn [fold_left plus]. unfold bump at 1. rewrite !IH.
  destruct (Nat.eqb_spec i m) as [->|Nm], (Nat.eqb_spec j m) as [->|Nj]; cbn [andb].
  - rewrite Nat.eqb_refl. cbn [andb]. replace (Nat.ltb m m) with false by (symmetry; apply Nat.ltb_ge; lia). replace (Nat.ltb m (S m)) with true by (symmetry; apply Nat.ltb_lt; lia). reflexivity.
  - destruct (Nat.eqb_spec m j); [lia|]. reflexivity.
  - destruct (Nat.eqb_spec i m); [lia|]. reflexivity.
  - destruct (Nat.eqb_spec i j) as [->|]; cbn [andb]; [|reflexivity].
    destruct (Nat.ltb_spec j m), (Nat.ltb_spec j (S m)); try lia; reflexivity.
Qed.

(* ---- histories ---- *)
Definition nextDamping (d : rvec) (c : Call) : rvec := match c with UpdateVec v => v | UpdateScalar mu => fun _ => mu | _ => d end.
Definition denseInv (n : nat) (D : nat -> nat -> R) (o : Dense) (d : rvec) : Prop :=
  de_n o = n /\ de_D o = D /\ de_damping o = d /\ isDamped n D d (de_llt o).
Lemma dense_run n D h : forall o d, denseInv n D o d -> denseInv n D (denseRun o h) (fold_left nextDamping h d).
Proof.
  induction h as [|c h IH]; intros o d H; [exact H|]. cbn [denseRun fold_left]. apply (IH (denseCall o c)). destruct H as (En & ED & Ed & L).
  unfold denseInv. destruct c; cbn.
  - rewrite ED. refine (conj En (conj eq_refl (conj eq_refl _))). apply plusDiag_damped.
  - rewrite ED. refine (conj En (conj eq_refl (conj eq_refl _))). apply (plusDiag_damped n D (fun _ => mu)).
  - exact (conj En (conj ED (conj Ed L))).
  - exact (conj En (conj ED (conj Ed L))).
Qed.
Definition sparseInv (n : nat) (D : nat -> nat -> R) (o : Sparse) (d : rvec) : Prop :=
  sp_n o = n /\ sp_D o = D /\ sp_damping o = d /\ isDamped n D d (sp_llt o) /\ isDamped n D d (sp_plus o).
Lemma bump_damped n D d v A : isDamped n D d A -> isDamped n D v (fold_left (fun A k => bump A k (- d k + v k)) (seq 0 n) A).
Proof.
  intros H i j Hi Hj. rewrite (bump_fold A (fun k => - d k + v k)). destruct (H i j Hi Hj) as (E & N). split; intros K.
  - subst j. rewrite Nat.eqb_refl. cbn [andb]. apply Nat.ltb_lt in Hi. rewrite Hi, (E eq_refl). ring.
  - pose proof K as K'. apply Nat.eqb_neq in K. rewrite K. cbn [andb]. now apply N.
Qed.
Lemma sparse_run inv ok P n D h : forall o d, sparseInv n D o d -> sparseInv n D (sparseRun inv ok P o h) (fold_left nextDamping h d).
Proof.
  induction h as [|c h IH]; intros o d H; [exact H|]. cbn [sparseRun fold_left]. apply (IH (sparseCall inv ok P o c)). destruct H as (En & ED & Ed & L & L').
  unfold sparseInv. destruct c; cbn [sparseCall sparseUpdateScalar nextDamping].
  - unfold sparseUpdate. cbn. rewrite En, Ed. refine (conj eq_refl (conj ED (conj eq_refl (conj _ _)))); now apply bump_damped.
  - unfold sparseUpdateScalar, sparseUpdate. cbn. rewrite En, Ed. refine (conj eq_refl (conj ED (conj eq_refl (conj _ _)))); now apply (bump_damped n D d (fun _ => mu)).
  - cbn. refine (conj En (conj ED (conj Ed (conj L _)))). rewrite ED, Ed. apply plusDiag_damped.
  - unfold sparseSolve. destruct (wrapperSolve _ _ _ _ _ _ _ _) as (x, t). cbn. exact (conj En (conj ED (conj Ed (conj L L')))).
Qed.
