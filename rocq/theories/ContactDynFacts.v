(* Linear algebra behind contact-dynamics.hxx. *)
Require Import Reals List Arith Lia Lra.
From Verif Require Import Sums Spec_Aba Spec_Chol Spec_ContactDyn Model Kinematics Cholesky ContactDyn.
Local Open Scope R_scope.

Lemma sumN_opp n f : sumN n (fun k => - f k) = - sumN n f.
Proof. rewrite (sumN_ext n _ (fun k => -1 * f k)) by (intros; ring). rewrite sumN_scale. ring. Qed.
Lemma mulMV_dot n A x k : mulMV n A x k = dotv n (A k) x. Proof. reflexivity. Qed.
Lemma mulMV_ext n A x y k : sameV n x y -> mulMV n A x k = mulMV n A y k.
Proof. intros H. apply sumN_ext. intros l Hl. now rewrite H. Qed.
Lemma mulMV_add n A x y k : mulMV n A (fun l => x l + y l) k = mulMV n A x k + mulMV n A y k.
Proof. unfold mulMV. rewrite <- sumN_add. apply sumN_ext. intros; ring. Qed.
Lemma mulMV_sub n A x y k : mulMV n A (fun l => x l - y l) k = mulMV n A x k - mulMV n A y k.
Proof. unfold mulMV. rewrite <- sumN_sub. apply sumN_ext. intros; ring. Qed.
Lemma mulMV_scale n A c x k : mulMV n A (fun l => c * x l) k = c * mulMV n A x k.
Proof. unfold mulMV. rewrite <- sumN_scale. apply sumN_ext. intros; ring. Qed.
Lemma mulMV_sum n A p (f : nat -> nat -> R) c k : mulMV n A (fun l => sumN p (fun i => f i l * c i)) k = sumN p (fun i => mulMV n A (f i) k * c i).
Proof.
  unfold mulMV. rewrite (sumN_ext n _ (fun l => sumN p (fun i => A k l * f i l * c i))) by (intros l _; rewrite <- sumN_scale; apply sumN_ext; intros; ring).
  rewrite sumN_swap. apply sumN_ext. intros i _. now rewrite sumN_scale_r.
Qed.
Lemma dotv_ext n x x' y y' : sameV n x x' -> sameV n y y' -> dotv n x y = dotv n x' y'.
Proof. intros H H'. apply sumN_ext. intros k Hk. now rewrite H, H'. Qed.
Lemma dotv_comm' n x y : dotv n x y = dotv n y x. Proof. apply sumN_ext. intros; ring. Qed.
Lemma dotv_sub_l n x y z : dotv n (fun k => x k - y k) z = dotv n x z - dotv n y z.
Proof. unfold dotv. rewrite <- sumN_sub. apply sumN_ext. intros; ring. Qed.
Lemma dotv_add_l n x y z : dotv n (fun k => x k + y k) z = dotv n x z + dotv n y z.
Proof. unfold dotv. rewrite <- sumN_add. apply sumN_ext. intros; ring. Qed.
Lemma dotv_scale_l n c x z : dotv n (fun k => c * x k) z = c * dotv n x z.
Proof. unfold dotv. rewrite <- sumN_scale. apply sumN_ext. intros; ring. Qed.
Lemma dotv_self n x : 0 <= dotv n x x. Proof. apply sumN_nonneg. intros k _. apply Rle_0_sqr. Qed.
Lemma dotv_self_0 n x : dotv n x x = 0 -> forall k, (k < n)%nat -> x k = 0.
Proof. intros H k Hk. pose proof (sumN_nonneg_zero n (fun k => x k * x k) (fun k _ => Rle_0_sqr (x k)) H k Hk) as E. cbv beta in E. apply Rsqr_0_uniq. exact E. Qed.
Lemma dotv_transp n p J x y : dotv n (mulMV p (transp J) x) y = dotv p x (mulMV n J y).
Proof.
  unfold dotv, mulMV, transp. rewrite (sumN_ext n _ (fun k => sumN p (fun i => J i k * x i * y k))) by (intros; now rewrite <- sumN_scale_r).
  rewrite sumN_swap. apply sumN_ext. intros i _. rewrite <- sumN_scale. apply sumN_ext. intros; ring.
Qed.
(* a positive definite matrix is injective *)
Lemma pd_inj n A x : positiveM n A -> dotv n x (mulMV n A x) = 0 -> forall k, (k < n)%nat -> x k = 0.
Proof.
  intros P H k Hk. destruct (Req_dec (x k) 0) as [E|E]; [exact E|]. exfalso. pose proof (P x (ex_intro _ k (conj Hk E))) as Q. change (0 < dotv n x (mulMV n A x)) in Q. lra.
Qed.
Lemma pd_nonneg n A x : positiveM n A -> 0 <= dotv n x (mulMV n A x).
Proof.
  intros P. destruct (Req_dec (dotv n x x) 0) as [E|E].
  - right. symmetry. apply sumN_zero. intros k Hk. rewrite (dotv_self_0 n x E k Hk). ring.
  - left. apply P. destruct (Classical_Prop.classic (exists k, (k < n)%nat /\ x k <> 0)) as [Hk|Hk]; [exact Hk|]. exfalso. apply E. apply sumN_zero. intros k Hl.
    destruct (Req_dec (x k) 0) as [->|N]; [ring|]. exfalso. apply Hk. now exists k.
Qed.

Section Lin.
Variables n nc : nat.
Variable A : nat -> nat -> R.
Hypothesis Sy : symmetricM n A.
Hypothesis Po : positiveM n A.
Variable sol : vec -> vec.
Hypothesis Hsol : forall v, sameV n (mulMV n A (sol v)) v.
Variable J : nat -> nat -> R.
Variable mu : R.
Hypothesis WP : wellPosed nc n J mu.
Variable G : nat -> nat -> R.
Hypothesis HG : forall i j, (i < nc)%nat -> (j < nc)%nat -> G i j = dotv n (J i) (sol (J j)) + (if Nat.eqb i j then mu else 0).
Variable Z : vec -> vec.
Hypothesis HZ : symmetricM nc G -> positiveM nc G -> forall b, sameV nc (mulMV nc G (Z b)) b.

Lemma mu_nonneg : 0 <= mu. Proof. destruct WP as [H|[-> _]]; lra. Qed.
Lemma adj x y : dotv n (mulMV n A x) y = dotv n x (mulMV n A y).
Proof.
  unfold dotv, mulMV. rewrite (sumN_ext n _ (fun k => sumN n (fun l => A k l * x l * y k))) by (intros; now rewrite <- sumN_scale_r).
  rewrite sumN_swap. apply sumN_ext. intros l Hl. rewrite <- sumN_scale. apply sumN_ext. intros k Hk. rewrite (Sy k l Hk Hl). ring.
Qed.
Lemma form_add x u v : sameV n x (fun k => u k + v k) -> dotv n x (mulMV n A x) = dotv n u (mulMV n A u) + 2 * dotv n u (mulMV n A v) + dotv n v (mulMV n A v).
Proof.
  intros X. rewrite (dotv_ext n x _ _ (fun k => mulMV n A u k + mulMV n A v k) X) by (intros k Hk; rewrite (mulMV_ext n A _ _ k X); apply mulMV_add).
  rewrite dotv_add_l, (dotv_comm' n u), (dotv_comm' n v), !dotv_add_l.
  rewrite (dotv_comm' n (mulMV n A u) u), (dotv_comm' n (mulMV n A v) u), (dotv_comm' n (mulMV n A v) v), (adj u v). ring.
Qed.
Lemma sol_dot x y : dotv n x (sol y) = dotv n (sol x) y.
Proof.
  transitivity (dotv n (mulMV n A (sol x)) (sol y)); [apply dotv_ext; [intros k Hk; symmetry; now apply Hsol | intros k Hk; reflexivity]|].
  rewrite adj. apply dotv_ext; [intros k Hk; reflexivity | apply Hsol].
Qed.
Lemma G_mul x i : (i < nc)%nat -> mulMV nc G x i = mulMV n J (sol (mulMV nc (transp J) x)) i + mu * x i.
Proof.
  intros Hi. rewrite (mulMV_dot n J), sol_dot, dotv_comm', dotv_transp. unfold mulMV at 1. unfold dotv.
  rewrite (sumN_ext nc _ (fun j => x j * mulMV n J (sol (J i)) j + (if Nat.eqb i j then mu * x j else 0))).
  - rewrite sumN_add, sumN_delta by exact Hi. reflexivity.
  - intros j Hj. rewrite HG by assumption. rewrite mulMV_dot, sol_dot, (dotv_comm' n (sol (J i)) (J j)). destruct (Nat.eqb i j); ring.
Qed.
Lemma G_sym : symmetricM nc G.
Proof. intros i j Hi Hj. rewrite !HG by assumption. rewrite sol_dot, dotv_comm', Nat.eqb_sym. reflexivity. Qed.
Lemma G_form x : dotv nc x (mulMV nc G x) = dotv n (sol (mulMV nc (transp J) x)) (mulMV n A (sol (mulMV nc (transp J) x))) + mu * dotv nc x x.
Proof.
  set (w := sol (mulMV nc (transp J) x)). rewrite (dotv_ext nc x x (mulMV nc G x) (fun i => mulMV n J w i + mu * x i)).
  - rewrite dotv_comm', dotv_add_l, dotv_scale_l. rewrite (dotv_comm' nc (mulMV n J w) x), <- dotv_transp. f_equal. rewrite dotv_comm'. apply dotv_ext; [intros k Hk; reflexivity|]. intros k Hk. symmetry. now apply Hsol.
  - intros k Hk; reflexivity.
  - intros i Hi. now apply G_mul.
Qed.
Lemma zero_case x : mu * dotv nc x x = 0 -> (forall k, (k < n)%nat -> mulMV nc (transp J) x k = 0) -> forall i, (i < nc)%nat -> x i = 0.
Proof.
  intros H0 H1. destruct WP as [Hm|[_ FR]]; [|now apply FR]. apply dotv_self_0. apply Rmult_integral in H0. destruct H0 as [H0|H0]; [lra|exact H0].
Qed.
Lemma G_pos : positiveM nc G.
Proof.
  intros x Hx. change (0 < dotv nc x (mulMV nc G x)). rewrite G_form. set (w := sol (mulMV nc (transp J) x)).
  pose proof (pd_nonneg n A w Po) as P1. pose proof (dotv_self nc x) as P2. pose proof mu_nonneg as P3. pose proof (Rmult_le_pos _ _ P3 P2) as P4.
  destruct (Req_dec (dotv n w (mulMV n A w) + mu * dotv nc x x) 0) as [E|E]; [|lra]. exfalso. destruct Hx as (i & Hi & Hx). apply Hx.
  apply zero_case; [lra | | exact Hi]. intros k Hk. rewrite <- (Hsol (mulMV nc (transp J) x) k Hk). fold w.
  assert (W0 : forall l, (l < n)%nat -> w l = 0) by (apply (pd_inj n A w Po); lra). apply sumN_zero. intros l Hl. rewrite W0 by exact Hl. ring.
Qed.
Lemma Z_ok b : sameV nc (mulMV nc G (Z b)) b. Proof. apply HZ; [apply G_sym | apply G_pos]. Qed.

(* ---- the solution of the equations under constraint ---- *)
Lemma kkt_solution nle tau gamma : let res := sol (fun k => tau k - nle k) in let y := Z (fun i => - mulMV n J res i - gamma i) in
  contactMotion n nc A J mu nle tau gamma (fun k => sol (mulMV nc (transp J) y) k + res k) y.
Proof.
  cbv zeta. set (res := sol (fun k => tau k - nle k)). set (y := Z _). split.
  - intros k Hk. rewrite mulMV_add, (Hsol _ k Hk). unfold res. rewrite (Hsol (fun k => tau k - nle k) k Hk). ring.
  - intros i Hi. rewrite mulMV_add. pose proof (Z_ok (fun i => - mulMV n J res i - gamma i) i Hi) as E. fold y in E. rewrite (G_mul y i Hi) in E. lra.
Qed.
Lemma kkt_unique nle tau gamma x y x' y' : contactMotion n nc A J mu nle tau gamma x y -> contactMotion n nc A J mu nle tau gamma x' y' -> sameV n x x' /\ sameV nc y y'.
Proof.
  intros [A1 A2] [B1 B2]. set (dx := fun k => x k - x' k). set (dy := fun i => y i - y' i).
  assert (D1 : sameV n (mulMV n A dx) (mulMV nc (transp J) dy)) by (intros k Hk; unfold dx, dy; rewrite !mulMV_sub; pose proof (A1 k Hk); pose proof (B1 k Hk); lra).
  assert (D2 : forall i, (i < nc)%nat -> mulMV n J dx i = - mu * dy i) by (intros i Hi; unfold dx, dy; rewrite mulMV_sub; pose proof (A2 i Hi); pose proof (B2 i Hi); lra).
  assert (E : dotv n dx (mulMV n A dx) = - mu * dotv nc dy dy).
  { rewrite (dotv_ext n dx dx _ (mulMV nc (transp J) dy) (fun k _ => eq_refl) D1), dotv_comm', dotv_transp.
    rewrite (dotv_ext nc dy dy _ (fun i => - mu * dy i) (fun k _ => eq_refl) D2), dotv_comm'. apply dotv_scale_l. }
  pose proof (pd_nonneg n A dx Po) as P1. pose proof (dotv_self nc dy) as P2. pose proof mu_nonneg as P3. pose proof (Rmult_le_pos _ _ P3 P2) as P4.
  assert (X0 : forall k, (k < n)%nat -> dx k = 0) by (apply (pd_inj n A dx Po); lra).
  assert (Y0 : forall i, (i < nc)%nat -> dy i = 0).
  { apply zero_case; [lra|]. intros k Hk. rewrite <- D1 by exact Hk. apply sumN_zero. intros l Hl. rewrite X0 by exact Hl. ring. }
  split; intros k Hk; [pose proof (X0 k Hk) as Q; unfold dx in Q | pose proof (Y0 k Hk) as Q; unfold dy in Q]; lra.
Qed.
(* Gauss: among the x that satisfy the constraints the solution is the nearest to the free one *)
Lemma gauss nle tau gamma x y z f : mu = 0 -> contactMotion n nc A J mu nle tau gamma x y -> sameV n (mulMV n A f) (fun k => tau k - nle k) -> (forall i, (i < nc)%nat -> mulMV n J z i + gamma i = 0) ->
  energy n A (fun k => x k - f k) <= energy n A (fun k => z k - f k).
Proof.
  intros M0 [A1 A2] Hf HC. set (e := fun k => x k - f k). set (dl := fun k => z k - x k).
  assert (E1 : sameV n (mulMV n A e) (mulMV nc (transp J) y)) by (intros k Hk; unfold e; rewrite mulMV_sub; pose proof (A1 k Hk); pose proof (Hf k Hk) as Q; cbv beta in Q; lra).
  assert (E2 : forall i, (i < nc)%nat -> mulMV n J dl i = 0) by (intros i Hi; unfold dl; rewrite mulMV_sub; pose proof (HC i Hi); pose proof (A2 i Hi) as Q; rewrite M0 in Q; lra).
  assert (E3 : dotv n dl (mulMV n A e) = 0).
  { rewrite (dotv_ext n dl dl _ _ (fun k _ => eq_refl) E1), dotv_comm', dotv_transp. apply sumN_zero. intros i Hi. rewrite E2 by exact Hi. ring. }
  unfold energy. apply Rmult_le_compat_l; [lra|]. change (dotv n e (mulMV n A e) <= dotv n (fun k => z k - f k) (mulMV n A (fun k => z k - f k))).
  rewrite (form_add (fun k => z k - f k) dl e) by (intros k Hk; unfold dl, e; ring). rewrite E3. pose proof (pd_nonneg n A dl Po). lra.
Qed.
(* ---- impulses ---- *)
Lemma imp_solution v0 r : let y := Z (fun i => (- r - 1) * mulMV n J v0 i) in impact n nc A J mu r v0 (fun k => sol (mulMV nc (transp J) y) k + v0 k) y.
Proof.
  cbv zeta. set (y := Z _). split.
  - intros k Hk. rewrite (mulMV_ext n A _ (sol (mulMV nc (transp J) y))) by (intros l Hl; ring). now apply Hsol.
  - intros i Hi. rewrite mulMV_add. pose proof (Z_ok (fun i => (- r - 1) * mulMV n J v0 i) i Hi) as E. fold y in E. rewrite (G_mul y i Hi) in E. lra.
Qed.
Lemma imp_energy v0 r x y : impact n nc A J mu r v0 x y -> -1 < r ->
  energy n A x = energy n A v0 - ((1 - r) * dotv n (fun l => x l - v0 l) (mulMV n A (fun l => x l - v0 l)) + 2 * mu * dotv nc y y) / (2 * (1 + r)).
Proof.
  intros [A1 A2] Hr. set (w := fun l => x l - v0 l) in *.
  assert (E1 : dotv n w (mulMV n A w) = dotv nc y (mulMV n J w)) by (rewrite (dotv_ext n w w _ _ (fun k _ => eq_refl) A1), dotv_comm'; apply dotv_transp).
  assert (E2 : dotv n w (mulMV n A v0) = dotv nc y (mulMV n J v0)) by (rewrite <- adj, (dotv_ext n _ _ v0 v0 A1 (fun k _ => eq_refl)); apply dotv_transp).
  assert (E3 : dotv nc y (mulMV n J w) = - (1 + r) * dotv nc y (mulMV n J v0) - mu * dotv nc y y).
  { rewrite (dotv_ext nc y y _ (fun i => - (1 + r) * mulMV n J v0 i - mu * y i) (fun k _ => eq_refl)).
    - rewrite dotv_comm', dotv_sub_l, !dotv_scale_l, (dotv_comm' nc _ y). reflexivity.
    - intros i Hi. unfold w. rewrite mulMV_sub. pose proof (A2 i Hi). lra. }
  assert (E4 : dotv n x (mulMV n A x) = dotv n v0 (mulMV n A v0) + 2 * dotv n w (mulMV n A v0) + dotv n w (mulMV n A w)).
  { rewrite (form_add x w v0) by (intros k Hk; unfold w; ring). ring. }
  unfold energy. change (/ 2 * dotv n x (mulMV n A x) = / 2 * dotv n v0 (mulMV n A v0) - ((1 - r) * dotv n w (mulMV n A w) + 2 * mu * dotv nc y y) / (2 * (1 + r))).
  rewrite E4, E2. rewrite E1 in *. set (p := dotv nc y (mulMV n J w)) in *. set (u := dotv nc y (mulMV n J v0)) in *. set (z := dotv nc y y) in *.
  assert (U : u = - (p + mu * z) / (1 + r)) by (rewrite E3; field; lra). rewrite U. field. lra.
Qed.
(* ---- the inverse of the KKT matrix ---- *)
Lemma dotv_delta p x l : (l < p)%nat -> dotv p x (fun k => delta k l) = x l.
Proof.
  intros Hl. unfold dotv. rewrite <- (sumN_delta p l x Hl). apply sumN_ext. intros k _. unfold delta. rewrite Nat.eqb_sym. destruct (Nat.eqb l k); ring.
Qed.
Let br := fun i j => Z (fun l => - delta l j) i.
Let tl0 := fun k l => sol (fun x => delta x l) k.
Let bl0 := fun i l => sumN n (fun k => J i k * tl0 k l).
Let tr := fun k j => sumN nc (fun i => bl0 i k * - br i j).
Lemma bl0_sol i l : (l < n)%nat -> bl0 i l = sol (J i) l.
Proof. intros Hl. change (dotv n (J i) (sol (fun x => delta x l)) = sol (J i) l). rewrite sol_dot. now apply dotv_delta. Qed.
Lemma br_G i j : (i < nc)%nat -> mulMV nc G (fun l => br l j) i = - delta i j.
Proof. intros Hi. unfold br. exact (Z_ok (fun l => - delta l j) i Hi). Qed.
Lemma br_sym i j : (i < nc)%nat -> (j < nc)%nat -> br i j = br j i.
Proof.
  intros Hi Hj. assert (E : forall a b, (a < nc)%nat -> (b < nc)%nat -> br a b = - dotv nc (mulMV nc G (fun l => br l a)) (fun l => br l b)).
  { intros a b Ha Hb. rewrite (dotv_ext nc _ (fun l => - delta l a) _ (fun l => br l b)) by (try (intros k Hk; now rewrite br_G by exact Hk); intros k Hk; reflexivity).
    rewrite dotv_comm'. rewrite <- (dotv_delta nc (fun l => br l b) a Ha) at 1. unfold dotv. rewrite <- sumN_opp. apply sumN_ext. intros k _. ring. }
  rewrite (E i j Hi Hj), (E j i Hj Hi). f_equal. clear E.
  unfold dotv, mulMV. rewrite (sumN_ext nc _ (fun k => sumN nc (fun l => G k l * br l i * br k j))) by (intros; now rewrite <- sumN_scale_r).
  rewrite sumN_swap. apply sumN_ext. intros l Hl. rewrite <- sumN_scale_r. apply sumN_ext. intros k Hk. rewrite (G_sym k l Hk Hl). ring.
Qed.
Lemma tr_sol k j : (k < n)%nat -> tr k j = sumN nc (fun i => sol (J i) k * - br i j).
Proof. intros Hk. apply sumN_ext. intros i Hi. now rewrite bl0_sol. Qed.
Lemma A_tr k j : (k < n)%nat -> mulMV n A (fun x => tr x j) k = - sumN nc (fun i => J i k * br i j).
Proof.
  intros Hk. rewrite (mulMV_ext n A _ (fun x => sumN nc (fun i => sol (J i) x * - br i j))) by (intros l Hl; now apply tr_sol).
  rewrite (mulMV_sum n A nc (fun i => sol (J i)) (fun i => - br i j) k), <- sumN_opp. apply sumN_ext. intros i Hi. rewrite (Hsol (J i) k Hk). ring.
Qed.
Lemma J_tr i j : (i < nc)%nat -> mulMV n J (fun x => tr x j) i = delta i j + mu * br i j.
Proof.
  intros Hi. rewrite (mulMV_ext n J _ (fun x => sumN nc (fun i => sol (J i) x * - br i j))) by (intros l Hl; now apply tr_sol).
  rewrite (mulMV_sum n J nc (fun i => sol (J i)) (fun i => - br i j) i). pose proof (br_G i j Hi) as E. unfold mulMV in E.
  rewrite (sumN_ext nc _ (fun x => mulMV n J (sol (J x)) i * br x j + (if Nat.eqb i x then mu * br x j else 0))) in E.
  - rewrite sumN_add, sumN_delta in E by exact Hi. rewrite (sumN_ext nc _ (fun x => - (mulMV n J (sol (J x)) i * br x j))) by (intros; ring). rewrite sumN_opp. lra.
  - intros x Hx. rewrite HG by assumption. rewrite mulMV_dot. destruct (Nat.eqb i x); ring.
Qed.
(* the product of a column of Minv J^T S^-1 by a row *)
Lemma bl_br i l : (i < nc)%nat -> (l < n)%nat -> sumN nc (fun j => br i j * bl0 j l) = - tr l i.
Proof.
  intros Hi Hl. unfold tr. rewrite <- sumN_opp. apply sumN_ext. intros j Hj. rewrite (br_sym i j Hi Hj). ring.
Qed.
Lemma kkt_inverse : kktInverse n nc A J mu (fun k l => tl0 k l - sumN nc (fun i => tr k i * bl0 i l)) tr (fun i l => tr l i) br.
Proof.
  split; [|split; [|split]].
  - intros k l Hk Hl. change (sumN n (fun x => A k x * (tl0 x l - sumN nc (fun i => tr x i * bl0 i l)))) with (mulMV n A (fun x => tl0 x l - sumN nc (fun i => tr x i * bl0 i l)) k).
    rewrite mulMV_sub. change (mulMV n A (fun x => tl0 x l) k) with (mulMV n A (sol (fun x => delta x l)) k). rewrite (Hsol _ k Hk).
    rewrite (mulMV_sum n A nc (fun i x => tr x i) (fun i => bl0 i l) k).
    rewrite (sumN_ext nc (fun i => mulMV n A (fun x => tr x i) k * bl0 i l) (fun i => - sumN nc (fun j => J j k * br j i * bl0 i l))) by (intros i Hi; rewrite A_tr by exact Hk; rewrite sumN_scale_r; ring).
    rewrite sumN_opp, sumN_swap. rewrite (sumN_ext nc (fun j => sumN nc (fun i => J j k * br j i * bl0 i l)) (fun j => - (J j k * tr l j))).
    + rewrite sumN_opp. ring.
    + intros j Hj. rewrite <- Ropp_mult_distr_r_reverse, <- (bl_br j l Hj Hl), <- sumN_scale. apply sumN_ext. intros; ring.
  - intros k j Hk Hj. change (sumN n (fun x => A k x * tr x j)) with (mulMV n A (fun x => tr x j) k). rewrite A_tr by exact Hk. ring.
  - intros i l Hi Hl. change (sumN n (fun x => J i x * (tl0 x l - sumN nc (fun i => tr x i * bl0 i l)))) with (mulMV n J (fun x => tl0 x l - sumN nc (fun i => tr x i * bl0 i l)) i).
    rewrite mulMV_sub. change (mulMV n J (fun x => tl0 x l) i) with (bl0 i l).
    rewrite (mulMV_sum n J nc (fun i x => tr x i) (fun i => bl0 i l) i).
    rewrite (sumN_ext nc _ (fun j => (if Nat.eqb i j then bl0 j l else 0) + mu * (br i j * bl0 j l))) by (intros j Hj; rewrite J_tr by exact Hi; unfold delta; destruct (Nat.eqb i j); ring).
    rewrite sumN_add, sumN_delta by exact Hi. rewrite sumN_scale, bl_br by assumption. ring.
  - intros i j Hi Hj. change (sumN n (fun x => J i x * tr x j)) with (mulMV n J (fun x => tr x j) i). rewrite J_tr by exact Hi. ring.
Qed.
End Lin.
