(* computeContactImpulses: what it returns. *)
Require Import Reals List Arith Lia Lra Bool FunctionalExtensionality.
From Verif Require Import Vec3 Model Sums Cone Spec_Cone ConeFacts Contact Spec_Contact ContactFacts ContactFacts2 ContactInv Spec_ContactInv ContactInvFacts.
Import ListNotations.
Local Open Scope R_scope.

Lemma diag_vel n Rv c x k : (k < n)%nat -> contactVel n (diagM Rv) c x k = c k + Rv k * x k.
Proof.
  intros H. unfold contactVel, diagM. rewrite Rplus_comm. f_equal. induction n as [|n IH]; [lia|]. cbn [sumN]. destruct (Nat.eq_dec k n) as [->|D].
  - rewrite Nat.eqb_refl. rewrite (sumN_ext n _ (fun _ => 0)); [rewrite sumN_0; ring|]. intros j Hj. destruct (Nat.eqb_spec n j); [lia | ring].
  - rewrite IH by lia. destruct (Nat.eqb_spec k n); [lia | ring].
Qed.
Lemma diag_seg n Rv c x i : (3 * i + 2 < n)%nat -> seg3 (contactVel n (diagM Rv) c x) (3 * i) = v3add (seg3 c (3 * i)) (had (seg3 Rv (3 * i)) (seg3 x (3 * i))).
Proof. intros H. unfold seg3. rewrite !diag_vel by lia. reflexivity. Qed.

Section Call.
Variables (imp : SVec) (c : rvec) (ncm ncd : nat) (mus : list R) (Rv corr : SVec) (P : Prox) (guess : option SVec) (s : SVec) (P' : Prox).
Let n := sv_n Rv.
Hypothesis E : computeContactImpulses imp c ncm ncd mus Rv corr P guess = Ok s P'.
Hypothesis Hit : (1 <= px_max P)%nat.
Lemma ci_inv : 0 < px_mu P /\ (3 * length mus <= n)%nat /\ (3 * length mus <= sv_n s)%nat /\ ncm = (n / 3)%nat /\
  exists x0, ciLoop (sv_n s) (px_mu P) (px_rel P) c (sv_x Rv) mus (px_max P) 1 x0 (normInf (sv_n s) x0) (px_res P) = (sv_x s, px_res P', px_it P') /\
  (forall g, guess = Some g -> x0 = sv_x g /\ sv_n s = sv_n g /\ sv_n g = n) /\ (guess = None -> sv_n s = sv_n imp /\ x0 = fun _ => 0).
Proof.
  unfold computeContactImpulses in E. cbv zeta in E. fold n in E. destruct (negb (sv_n corr =? n)%nat || negb (ncm =? n / 3)%nat || negb (ncd =? n / 3)%nat) eqn:S; [discriminate|].
  apply orb_false_elim in S as [S S3]. apply orb_false_elim in S as [S1 S2]. apply negb_false_iff, Nat.eqb_eq in S2. destruct (Rlt_dec 0 (px_mu P)) as [M|M]; [|discriminate].
  set (start := match guess with Some g => g | None => mkSV (sv_n imp) (fun _ => 0) end) in *. destruct (match guess with Some g => negb (sv_n g =? n)%nat | None => false end) eqn:G; [discriminate|].
  destruct ((n <? 3 * length mus)%nat || (sv_n start <? 3 * length mus)%nat) eqn:B; [destruct (px_max P); [lia | discriminate]|]. apply orb_false_elim in B as [B1 B2]. apply Nat.ltb_ge in B1, B2.
  destruct (ciLoop _ _ _ _ _ _ _ _ _ _ _) as [[x res] it] eqn:L. injection E as <- <-. cbn [sv_n sv_x px_res px_it]. split; [exact M|]. split; [exact B1|]. split; [exact B2|]. split; [exact S2|]. exists (sv_x start). split; [exact L|].
  split; [intros g Hg | intros Hg]; unfold start in *; rewrite Hg in *; [|now split]. apply negb_false_iff, Nat.eqb_eq in G. auto.
Qed.
Theorem impulse_answer : frictions mus -> goodCompliance mus (sv_x Rv) (px_mu P) ->
  exists xp, px_res P' = normInf (sv_n s) (fun k => sv_x s k - xp k) /\ (1 <= px_it P' <= px_max P + 1)%nat /\
    ((px_it P' <= px_max P)%nat -> px_res P' <= px_rel P * Rmax (normInf (sv_n s) (sv_x s)) (normInf (sv_n s) xp)) /\
    forall i, (i < length mus)%nat -> let mu := nth i mus 0 in let f := seg3 (sv_x s) (3 * i) in
      let y := v3add (v3add (seg3 (contactVel n (diagM (sv_x Rv)) c (sv_x s)) (3 * i)) (computeNormalCorrection mu (seg3 (contactVel n (diagM (sv_x Rv)) c xp) (3 * i)))) (v3scale (px_mu P) (v3sub f (seg3 xp (3 * i)))) in
      inCone mu f /\ inDual mu y /\ v3dot f y = 0.
Proof.
  intros HF HC. destruct ci_inv as (M & Hn & Hs & _ & x0 & L & _). assert (Hf : px_max P <> 0%nat) by lia. destruct (ciLoop_last _ _ _ _ _ mus _ _ _ _ _ Hf eq_refl _ _ _ L) as (xp & A & B & D & F). exists xp. split; [exact B|]. split; [lia|]. split; [intros; apply F; lia|].
  intros i Hi mu f y. destruct (HC i Hi) as (C1 & C2 & C3). pose proof (sweep_at (px_mu P) c (sv_x Rv) xp mus 0 xp i Hi) as Q. rewrite <- A in Q. cbn [Nat.add] in Q. fold f mu in Q.
  pose proof (ci_step mu (px_mu P) (seg3 c (3 * i)) (seg3 (sv_x Rv) (3 * i)) (HF i Hi) C1 C2 C3 (seg3 xp (3 * i)) (seg3 xp (3 * i))) as K. cbv zeta in K. rewrite <- Q in K.
  unfold y. rewrite !diag_seg by lia. fold f. exact K.
Qed.
Theorem impulse_solution : frictions mus -> goodCompliance mus (sv_x Rv) (px_mu P) -> px_res P' = 0 -> contactSolution n (diagM (sv_x Rv)) c mus (sv_x s).
Proof.
  intros HF HC Z. destruct ci_inv as (M & Hn & Hs & _ & x0 & L & _). assert (Hf : px_max P <> 0%nat) by lia. destruct (ciLoop_last _ _ _ _ _ mus _ _ _ _ _ Hf eq_refl _ _ _ L) as (xp & A & B & _). rewrite Z in B. symmetry in B.
  assert (X : sv_x s = xp). { extensionality k. destruct (Nat.lt_ge_cases k (sv_n s)) as [Lk|Lk]; [rewrite normInf_zero in B; specialize (B k Lk); cbn beta in B; lra | rewrite A; apply sweep_off; lia]. }
  rewrite X in *. intros i Hi. destruct (HC i Hi) as (C1 & C2 & C3). rewrite diag_seg by lia. apply (ci_fixed (nth i mus 0) (px_mu P) (seg3 c (3 * i)) (seg3 (sv_x Rv) (3 * i)) (HF i Hi) C1 C2 C3).
  pose proof (sweep_at (px_mu P) c (sv_x Rv) xp mus 0 xp i Hi) as Q. rewrite <- A in Q. cbn [Nat.add] in Q. now rewrite <- Q.
Qed.
End Call.
Theorem impulse_warm imp c ncd mus Rv corr P g : sv_n corr = sv_n Rv -> ncd = (sv_n Rv / 3)%nat -> sv_n g = sv_n Rv -> (3 * length mus <= sv_n Rv)%nat -> 0 < px_mu P -> 0 <= px_rel P -> (1 <= px_max P)%nat ->
  frictions mus -> goodCompliance mus (sv_x Rv) (px_mu P) -> contactSolution (sv_n Rv) (diagM (sv_x Rv)) c mus (sv_x g) ->
  computeContactImpulses imp c (sv_n Rv / 3) ncd mus Rv corr P (Some g) = Ok g (mkProx (px_mu P) (px_rel P) (px_max P) 0 1).
Proof.
  intros S1 S2 S3 Hn Hm Hr Hi HF HC HS. unfold computeContactImpulses. cbv zeta. rewrite S1, S2, S3, !Nat.eqb_refl. cbn [negb orb]. destruct (Rlt_dec 0 (px_mu P)); [|contradiction].
  replace (sv_n Rv <? 3 * length mus)%nat with false by (symmetry; now apply Nat.ltb_ge). cbn [orb]. rewrite ciLoop_warm; [rewrite <- S3; now destruct g | lia | exact Hr|].
  apply sweep_fixed. intros i Hk. destruct (HC i Hk) as (C1 & C2 & C3). pose proof (sweep_at (px_mu P) c (sv_x Rv) (sv_x g) mus 0 (sv_x g) i Hk) as Q. cbn [Nat.add] in Q. rewrite Q.
  apply (ci_fixed (nth i mus 0) (px_mu P) (seg3 c (3 * i)) (seg3 (sv_x Rv) (3 * i)) (HF i Hk) C1 C2 C3). specialize (HS i Hk). rewrite diag_seg in HS by lia. exact HS.
Qed.
Theorem impulse_throw imp c ncm ncd mus Rv corr P guess : (forall g, guess = Some g -> sv_n g = sv_n Rv) ->
  (exists s, computeContactImpulses imp c ncm ncd mus Rv corr P guess = Throw s) <-> sv_n corr <> sv_n Rv \/ ncm <> (sv_n Rv / 3)%nat \/ ncd <> (sv_n Rv / 3)%nat \/ px_mu P <= 0.
Proof.
  intros HG. unfold computeContactImpulses. cbv zeta. destruct (Nat.eqb_spec (sv_n corr) (sv_n Rv)) as [A|A]; cbn [negb orb]; [|split; [auto | eauto]].
  destruct (Nat.eqb_spec ncm (sv_n Rv / 3)) as [B|B]; cbn [negb orb]; [|split; [auto | eauto]]. destruct (Nat.eqb_spec ncd (sv_n Rv / 3)) as [D|D]; cbn [negb orb]; [|split; [auto | eauto]].
  destruct (Rlt_dec 0 (px_mu P)) as [M|M]; [|split; [intros _; right; right; right; lra | eauto]].
  split; [|intros [H|[H|[H|H]]]; [congruence | congruence | congruence | lra]]. intros [s H].
  replace (match guess with Some g => negb (sv_n g =? sv_n Rv)%nat | None => false end) with false in H by (destruct guess as [g|]; [rewrite (HG g eq_refl), Nat.eqb_refl|]; reflexivity).
  destruct (_ || _) in H; [destruct (px_max P); discriminate|]. destruct (ciLoop _ _ _ _ _ _ _ _ _ _ _) as [[x r] i] in H. discriminate.
Qed.
(* the correction has no effect *)
Theorem correction_ignored imp c ncm ncd mus Rv corr corr' P guess : sv_n corr = sv_n corr' ->
  computeContactImpulses imp c ncm ncd mus Rv corr P guess = computeContactImpulses imp c ncm ncd mus Rv corr' P guess.
Proof. intros E. unfold computeContactImpulses. now rewrite E. Qed.
(* without a guess, on a Data that has not been used *)
Theorem no_guess imp c ncd mus Rv corr P : sv_n corr = sv_n Rv -> ncd = (sv_n Rv / 3)%nat -> 0 < px_mu P -> (1 <= px_max P)%nat -> (sv_n imp < 3 * length mus)%nat ->
  computeContactImpulses imp c (sv_n Rv / 3) ncd mus Rv corr P None = Undef.
Proof.
  intros S1 S2 Hm Hi Hn. unfold computeContactImpulses. cbv zeta. rewrite S1, S2, !Nat.eqb_refl. cbn [negb orb]. destruct (Rlt_dec 0 (px_mu P)); [|contradiction]. cbn [sv_n].
  replace (sv_n imp <? 3 * length mus)%nat with true by (symmetry; now apply Nat.ltb_lt). rewrite orb_true_r. destruct (px_max P); [lia | reflexivity].
Qed.
(* a case *)
Definition ciR : SVec := mkSV 3 (fun _ => 1).
Definition ciP : Prox := mkProx 1 (1 / 1000) 10 0 0.
Definition ciC : rvec := fun k => match k with 0%nat => 1 | 2%nat => -2 | _ => 0 end.
Definition ciF : SVec := mkSV 3 (fun k => match k with 0%nat => -1 | 2%nat => 2 | _ => 0 end).
Lemma ci_ex : frictions [1 / 2] /\ goodCompliance [1 / 2] (sv_x ciR) (px_mu ciP) /\ contactSolution 3 (diagM (sv_x ciR)) ciC [1 / 2] (sv_x ciF) /\
  computeContactImpulses (mkSV 0 (fun _ => 0)) ciC 1 1 [1 / 2] ciR (mkSV 3 (fun _ => 0)) ciP (Some ciF) = Ok ciF (mkProx 1 (1 / 1000) 10 0 1).
Proof.
  assert (F : frictions [1 / 2]) by (intros [|i] Hi; cbn in *; [lra | lia]).
  assert (C : goodCompliance [1 / 2] (sv_x ciR) (px_mu ciP)) by (intros i Hi; cbn; lra).
  assert (S : contactSolution 3 (diagM (sv_x ciR)) ciC [1 / 2] (sv_x ciF)).
  { intros [|i] Hi; [|cbn in Hi; lia]. rewrite diag_seg by lia. unfold coulomb, had, seg3, v3add, ciR, ciC, ciF. cbn [vx vy vz nth sv_x Nat.mul Nat.add].
    replace (1 + 1 * -1) with 0 by ring. replace (0 + 1 * 0) with 0 by ring. replace (-2 + 1 * 2) with 0 by ring. replace ((-1) ^ 2 + 0 ^ 2) with (1 * 1) by ring. replace (0 ^ 2 + 0 ^ 2) with (0 * 0) by ring. rewrite !sqrt_square by lra. repeat split; lra. }
  split; [exact F|]. split; [exact C|]. split; [exact S|]. apply (impulse_warm (mkSV 0 (fun _ => 0)) ciC 1 [1 / 2] ciR (mkSV 3 (fun _ => 0)) ciP ciF); cbn; auto; try lra; try lia.
Qed.
(* the correction has to be added to c_ref: an answer that is not a solution *)
Theorem correction_witness : exists imp c mus Rv corr P g s P', computeContactImpulses imp c 1 1 mus Rv corr P (Some g) = Ok s P' /\ px_res P' = 0 /\ (1 <= px_max P)%nat /\ frictions mus /\ goodCompliance mus (sv_x Rv) (px_mu P) /\
  ~ contactSolution (sv_n Rv) (diagM (sv_x Rv)) (fun k => c k + sv_x corr k) mus (sv_x s).
Proof.
  exists (mkSV 0 (fun _ => 0)), ciC, [1 / 2], ciR, (mkSV 3 (fun k => match k with 2%nat => -1 | _ => 0 end)), ciP, ciF, ciF, (mkProx 1 (1 / 1000) 10 0 1). destruct ci_ex as (F & C & S & E).
  split; [rewrite <- E; now apply correction_ignored|]. split; [reflexivity|]. split; [cbn; lia|]. split; [exact F|]. split; [exact C|].
  intros H. specialize (H 0%nat ltac:(cbn; lia)). cbn [sv_n ciR] in H. rewrite diag_seg in H by lia. destruct H as (_ & H & _). revert H. unfold had, seg3, v3add, ciR, ciC, ciF. cbn [vx vy vz nth sv_x Nat.mul Nat.add]. lra.
Qed.
