(* A function that inverts every symmetric positive definite matrix exists: elimination of the first row and column. *)
Require Import Reals List Arith Lia Lra Bool.
From Verif Require Import Sums DynFacts Spec_Aba.
Local Open Scope R_scope.

Definition schur (A : nat -> nat -> R) (k l : nat) : R := A (S k) (S l) - A 0%nat (S k) * A 0%nat (S l) / A 0%nat 0%nat.
Fixpoint elimInv (n : nat) (A : nat -> nat -> R) : nat -> nat -> R :=
  match n with
  | O => fun _ _ => 0
  | S n =>
      let a := A 0%nat 0%nat in
      let C := elimInv n (schur A) in
      let t := fun l => sumN n (fun j => A 0%nat (S j) * C j l) in
      let u := fun k => sumN n (fun j => C k j * A 0%nat (S j)) in
      fun k l => match k, l with
        | O, O => 1 / a + sumN n (fun j => A 0%nat (S j) * u j) / (a * a)
        | O, S l => - t l / a
        | S k, O => - u k / a
        | S k, S l => C k l
        end
  end.

Lemma sumN_shift n f : sumN (S n) f = f 0%nat + sumN n (fun k => f (S k)).
Proof. apply sumN_shift1. Qed.
Lemma lead_pos n A : positiveM (S n) A -> 0 < A 0%nat 0%nat.
Proof.
  intros P. specialize (P (fun k => if Nat.eqb k 0 then 1 else 0)).
  assert (H : exists k, (k < S n)%nat /\ (if Nat.eqb k 0 then 1 else 0) <> 0) by (exists 0%nat; split; [lia | cbn; lra]). specialize (P H).
  rewrite sumN_shift in P. cbn [Nat.eqb] in P. rewrite sumN_shift in P. cbn [Nat.eqb] in P.
  rewrite !sumN_zero in P by (intros; ring). lra.
Qed.
Lemma schur_sym n A : symmetricM (S n) A -> symmetricM n (schur A).
Proof. intros S k l Hk Hl. unfold schur. rewrite (S (Datatypes.S k) (Datatypes.S l)) by lia. unfold Rdiv. ring. Qed.
Lemma schur_pos n A : symmetricM (S n) A -> positiveM (S n) A -> positiveM n (schur A).
Proof.
  intros Sy P x (k & Hk & Hx). pose proof (lead_pos n A P) as Ha. set (a := A 0%nat 0%nat) in *.
  set (s := sumN n (fun j => A 0%nat (S j) * x j)).
  specialize (P (fun k => match k with O => - s / a | S k => x k end)).
  assert (H : exists k, (k < S n)%nat /\ (match k with O => - s / a | S k => x k end) <> 0) by (exists (S k); split; [lia | exact Hx]). specialize (P H).
  rewrite sumN_shift in P. rewrite (sumN_shift n (fun l => A 0%nat l * _)) in P. fold a in P. fold s in P.
  replace (a * (- s / a) + s) with 0 in P by (field; lra). rewrite Rmult_0_r, Rplus_0_l in P.
  eapply Rlt_le_trans; [exact P|]. apply Req_le. apply sumN_ext. intros j Hj. f_equal. rewrite sumN_shift.
  unfold schur. rewrite (sumN_ext n (fun l => (A (S j) (S l) - A 0%nat (S j) * A 0%nat (S l) / A 0%nat 0%nat) * x l) (fun l => A (S j) (S l) * x l - A 0%nat (S j) / a * (A 0%nat (S l) * x l)))
    by (intros; unfold a, Rdiv; ring).
  rewrite sumN_sub, sumN_scale. fold s. rewrite (Sy (S j) 0%nat) by lia. field. lra.
Qed.

Theorem elimInv_inverts : invertsPD elimInv.
Proof.
  intros n. induction n as [|n IH]; intros A Sy P; [intros k l Hk; lia|].
  pose proof (lead_pos n A P) as Ha. specialize (IH (schur A) (schur_sym n A Sy) (schur_pos n A Sy P)).
  cbn [elimInv]. set (C := elimInv n (schur A)) in *. set (a := A 0%nat 0%nat) in *.
  set (u := fun k => sumN n (fun j => C k j * A 0%nat (S j))). set (t := fun l => sumN n (fun j => A 0%nat (S j) * C j l)).
  set (s := sumN n (fun j => A 0%nat (S j) * u j)).
  assert (EB : forall k j, A (S k) (S j) = schur A k j + A 0%nat (S k) * A 0%nat (S j) / a) by (intros; unfold schur; fold a; unfold Rdiv; ring).
  assert (Eu : forall k, (k < n)%nat -> sumN n (fun j => A (S k) (S j) * u j) = A 0%nat (S k) + A 0%nat (S k) / a * s).
  { intros k Hk. rewrite (sumN_ext n _ (fun j => sumN n (fun l => schur A k j * C j l * A 0%nat (S l)) + A 0%nat (S k) / a * (A 0%nat (S j) * u j))).
    2:{ intros j Hj. rewrite EB. unfold u at 1. replace (sumN n (fun l => schur A k j * C j l * A 0%nat (S l))) with (schur A k j * u j).
        - unfold u. unfold Rdiv. ring.
        - unfold u. rewrite <- sumN_scale. apply sumN_ext. intros l Hl. ring. }
    rewrite sumN_add, sumN_scale. fold s. f_equal. rewrite sumN_swap.
    rewrite (sumN_ext n _ (fun l => if Nat.eqb k l then A 0%nat (S l) else 0)); [exact (sumN_delta n k (fun l => A 0%nat (S l)) Hk)|].
    intros l Hl. rewrite sumN_scale_r. fold (matMul n (schur A) C k l). rewrite (IH k l Hk Hl). destruct (Nat.eqb k l); ring. }
  assert (Et : forall k l, (k < n)%nat -> (l < n)%nat -> sumN n (fun j => A (S k) (S j) * C j l) = (if Nat.eqb k l then 1 else 0) + A 0%nat (S k) / a * t l).
  { intros k l Hk Hl. rewrite <- (IH k l Hk Hl). unfold matMul, t. rewrite <- sumN_scale, <- sumN_add. apply sumN_ext. intros j Hj. rewrite EB. unfold Rdiv. ring. }
  intros k l Hk Hl. unfold matMul. rewrite sumN_shift. destruct k as [|k], l as [|l]; cbn [Nat.eqb].
  - change (a * (1 / a + s / (a * a)) + sumN n (fun k => A 0%nat (S k) * (- u k / a)) = 1).
    rewrite (sumN_ext n _ (fun j => - / a * (A 0%nat (S j) * u j))) by (intros; unfold Rdiv; ring). rewrite sumN_scale. fold s. field. lra.
  - fold a. fold (t l). field. lra.
  - change (A (S k) 0%nat * (1 / a + s / (a * a)) + sumN n (fun j => A (S k) (S j) * (- u j / a)) = 0).
    rewrite (sumN_ext n _ (fun j => - / a * (A (S k) (S j) * u j))) by (intros; unfold Rdiv; ring). rewrite sumN_scale, Eu by lia.
    rewrite (Sy (S k) 0%nat) by lia. fold s. field. lra.
  - rewrite Et by lia. rewrite (Sy (S k) 0%nat) by lia. fold (t l). field. lra.
Qed.
