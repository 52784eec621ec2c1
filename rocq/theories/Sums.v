(* Finite sums of reals over an initial segment of the naturals, and vectors as functions. *)
Require Import Reals List Arith Lia Lra FunctionalExtensionality.
Import ListNotations.
Local Open Scope R_scope.
Local Open Scope bool_scope.

Fixpoint sumN (n : nat) (f : nat -> R) : R := match n with O => 0 | S k => sumN k f + f k end.
Definition dotv (n : nat) (x y : nat -> R) : R := sumN n (fun k => x k * y k).
(* the k-th unit vector *)
Definition unitv (k : nat) : nat -> R := fun i => if Nat.eqb k i then 1 else 0.

Lemma sumN_ext n f g : (forall k, (k < n)%nat -> f k = g k) -> sumN n f = sumN n g.
Proof. induction n as [|n IH]; intros H; [reflexivity|]. cbn. rewrite IH, H; auto. Qed.
Lemma sumN_0 n : sumN n (fun _ => 0) = 0.
Proof. induction n as [|n IH]; [reflexivity|]. cbn. rewrite IH. ring. Qed.
Lemma sumN_add n f g : sumN n (fun k => f k + g k) = sumN n f + sumN n g.
Proof. induction n as [|n IH]; cbn; [ring|]. rewrite IH. ring. Qed.
Lemma sumN_sub n f g : sumN n (fun k => f k - g k) = sumN n f - sumN n g.
Proof. induction n as [|n IH]; cbn; [ring|]. rewrite IH. ring. Qed.
Lemma sumN_scale n c f : sumN n (fun k => c * f k) = c * sumN n f.
Proof. induction n as [|n IH]; cbn; [ring|]. rewrite IH. ring. Qed.
Lemma sumN_scale_r n c f : sumN n (fun k => f k * c) = sumN n f * c.
Proof. induction n as [|n IH]; cbn; [ring|]. rewrite IH. ring. Qed.
Lemma sumN_zero n f : (forall k, (k < n)%nat -> f k = 0) -> sumN n f = 0.
Proof. intros H. rewrite (sumN_ext n f (fun _ => 0) H). apply sumN_0. Qed.
Lemma sumN_swap n p f : sumN n (fun i => sumN p (fun j => f i j)) = sumN p (fun j => sumN n (fun i => f i j)).
Proof.
  induction n as [|n IH]; cbn; [symmetry; apply sumN_0|]. rewrite IH, <- sumN_add. reflexivity.
Qed.
Lemma sumN_split n p f : sumN (n + p) f = sumN n f + sumN p (fun k => f (n + k)%nat).
Proof.
  induction p as [|p IH]; [rewrite Nat.add_0_r; cbn; ring|]. rewrite Nat.add_succ_r. cbn. rewrite IH. ring.
Qed.
Lemma sumN_delta n p f : (p < n)%nat -> sumN n (fun k => if Nat.eqb p k then f k else 0) = f p.
Proof.
  induction n as [|n IH]; intros H; [lia|]. cbn.
  destruct (Nat.eqb_spec p n) as [->|Hn].
  - rewrite sumN_zero; [ring|]. intros k Hk. destruct (Nat.eqb_spec n k); [lia|reflexivity].
  - rewrite IH by lia. ring.
Qed.
Lemma sumN_one n p f g : (p < n)%nat -> (forall k, (k < n)%nat -> k <> p -> f k = g k) -> sumN n f = sumN n g + (f p - g p).
Proof.
  intros Hp H. rewrite <- (sumN_delta n p (fun k => f k - g k) Hp), <- sumN_add. apply sumN_ext. intros k Hk.
  destruct (Nat.eqb_spec p k) as [->|Hn]; [ring|]. rewrite H by auto. ring.
Qed.
Lemma sumN_seg n b l f : (b + l <= n)%nat ->
  sumN n (fun k => if (b <=? k)%nat && (k <? b + l)%nat then f k else 0) = sumN l (fun k => f (b + k)%nat).
Proof.
  intros H. replace n with (b + (l + (n - b - l)))%nat by lia. rewrite !sumN_split.
  rewrite (sumN_zero b), (sumN_zero (n - b - l)).
  - rewrite (sumN_ext l _ (fun k => f (b + k)%nat)); [ring|]. intros k Hk.
    destruct (Nat.leb_spec b (b + k)); [|lia]. destruct (Nat.ltb_spec (b + k) (b + l)); [reflexivity|lia].
  - intros k Hk. destruct (Nat.ltb_spec (b + (l + k)) (b + l)); [lia|]. now rewrite Bool.andb_false_r.
  - intros k Hk. destruct (Nat.leb_spec b k); [lia|reflexivity].
Qed.
Lemma sumN_nonneg n f : (forall k, (k < n)%nat -> 0 <= f k) -> 0 <= sumN n f.
Proof. induction n as [|n IH]; intros H; cbn; [lra|]. pose proof (IH (fun k Hk => H k ltac:(lia))). pose proof (H n ltac:(lia)). lra. Qed.
Lemma sumN_nonneg_zero n f : (forall k, (k < n)%nat -> 0 <= f k) -> sumN n f = 0 -> forall k, (k < n)%nat -> f k = 0.
Proof.
  induction n as [|n IH]; intros H E k Hk; [lia|]. cbn in E.
  pose proof (sumN_nonneg n f (fun k Hk => H k ltac:(lia))). pose proof (H n ltac:(lia)).
  destruct (Nat.eq_dec k n) as [->|]; [lra|]. apply IH; [intros; apply H; lia | lra | lia].
Qed.

Lemma dotv_unit n k x : (k < n)%nat -> dotv n x (unitv k) = x k.
Proof.
  intros H. unfold dotv, unitv. rewrite <- (sumN_delta n k x H). apply sumN_ext. intros i _. destruct (Nat.eqb k i); ring.
Qed.
Lemma dotv_comm n x y : dotv n x y = dotv n y x.
Proof. apply sumN_ext. intros; ring. Qed.
Lemma dotv_ext n x y x' y' : (forall k, (k < n)%nat -> x k = x' k) -> (forall k, (k < n)%nat -> y k = y' k) -> dotv n x y = dotv n x' y'.
Proof. intros H H'. apply sumN_ext. intros k Hk. now rewrite H, H'. Qed.
(* a vector is determined by its products with all vectors *)
Lemma dotv_inj n x y : (forall w, dotv n x w = dotv n y w) -> forall k, (k < n)%nat -> x k = y k.
Proof. intros H k Hk. rewrite <- (dotv_unit n k x Hk), <- (dotv_unit n k y Hk). apply H. Qed.
