(* The factorisation over abstract row tables: intervals of rows that nest. *)
Require Import Reals List Arith ZArith Lia Lra Bool.
From Verif Require Import Vec3 Spatial Inertia Joints Model Spec_Model Data Kinematics Crba Jacobian Sums Spec_Aba Spec_Chol Cholesky.
Import ListNotations.
Local Open Scope nat_scope.

Lemma within_iff b n k : within b n k = true <-> b <= k < b + n.
Proof. unfold within. rewrite andb_true_iff, Nat.leb_le, Nat.ltb_lt. tauto. Qed.
Lemma within_no b n k : within b n k = false <-> ~ (b <= k < b + n).
Proof. rewrite <- within_iff. destruct (within b n k); split; intros; congruence || (exfalso; auto). Qed.
Lemma putn_eq {V} (f : nat -> V) i x k : putn f i x k = if i =? k then x else f k.
Proof. reflexivity. Qed.
Lemma segDot_ext n x b y b' x' y' : (forall c, c < n -> x (b + c) = x' (b + c)) -> (forall c, c < n -> y (b' + c) = y' (b' + c)) -> segDot n x b y b' = segDot n x' b y' b'.
Proof. intros H1 H2. apply sumN_ext. intros c Hc. now rewrite H1, H2. Qed.

Section Tables.
Variable m : Model.
Let n := m_nv m.
Let sub := nvt1 m.
Definition br (k l : nat) : bool := within (k + 1) (nvt1 m k) l.
Definition tableOK : Prop :=
  (forall k, k < n -> k + sub k < n) /\
  (forall k l, k < n -> br k l = true -> l + sub l <= k + sub k) /\
  (forall k, k < n -> t_nvs (rowTables m) k = Z.of_nat (S (sub k))) /\
  (forall i j, j < n -> In i (walk (t_par (rowTables m)) (S (m_nvE m)) (t_par (rowTables m) j)) <-> br i j = true).
Hypothesis OK : tableOK.
Lemma sub_lt k : k < n -> k + sub k < n. Proof. apply OK. Qed.
Lemma br_nest k l : k < n -> br k l = true -> l + sub l <= k + sub k. Proof. apply OK. Qed.
Lemma walk_br i j : j < n -> In i (walk (t_par (rowTables m)) (S (m_nvE m)) (t_par (rowTables m) j)) <-> br i j = true. Proof. apply OK. Qed.
Lemma br_iff k l : br k l = true <-> k + 1 <= l < k + 1 + sub k. Proof. apply within_iff. Qed.
Lemma br_lt k l : br k l = true -> k < l. Proof. rewrite br_iff. lia. Qed.
Lemma br_n k l : k < n -> br k l = true -> l < n. Proof. intros Hk H. apply br_iff in H. pose proof (sub_lt k Hk). lia. Qed.
Lemma br_below k j l : br k l = true -> k < j -> j < l -> br k j = true. Proof. rewrite !br_iff. lia. Qed.
Lemma br_trans k j l : k < n -> br k j = true -> br j l = true -> br k l = true.
Proof. intros Hk H1 H2. pose proof (br_nest k j Hk H1). rewrite br_iff in *. unfold sub in *. lia. Qed.
Lemma seg_sum j f : j < n -> sumN n (fun k => if br j k then f k else 0%R) = sumN (sub j) (fun c => f (j + 1 + c)).
Proof. intros Hj. pose proof (sub_lt j Hj). unfold br, within. apply (sumN_seg n (j + 1) (sub j) f). lia. Qed.

(* ---- decompose ---- *)
Section Dec.
Variable M : nat -> nat -> R.
Lemma decCol_fold j nvt tmp di l : forall U i k, fold_left (decCol M j nvt tmp di) l U i k =
  if (k =? j) && existsb (Nat.eqb i) l then ((M i j - segDot nvt (U i) (j + 1) tmp 0) * di)%R else U i k.
Proof.
  induction l as [|a l IH]; intros U i k; cbn [fold_left existsb]; [now rewrite andb_false_r|]. rewrite IH.
  assert (S : segDot nvt (decCol M j nvt tmp di U a i) (j + 1) tmp 0 = segDot nvt (U i) (j + 1) tmp 0).
  { apply segDot_ext; [|reflexivity]. intros c Hc. unfold decCol, putM. rewrite putn_eq. destruct (Nat.eqb_spec a i) as [<-|]; [|reflexivity].
    rewrite putn_eq. destruct (Nat.eqb_spec j (j + 1 + c)); [lia|reflexivity]. }
  rewrite S. unfold decCol, putM. rewrite putn_eq. destruct (Nat.eqb_spec k j) as [->|Hk]; cbn [andb].
  - destruct (Nat.eqb_spec a i) as [<-|Hai].
    + rewrite Nat.eqb_refl. cbn [orb]. destruct (existsb (Nat.eqb a) l); [reflexivity|]. now rewrite putn_eq, Nat.eqb_refl.
    + destruct (Nat.eqb_spec i a); [congruence|]. reflexivity.
  - destruct (Nat.eqb_spec a i) as [<-|Hai]; [|reflexivity]. rewrite putn_eq. destruct (Nat.eqb_spec j k); [congruence|reflexivity].
Qed.
Definition tail (s : Chol) (i l : nat) : R := sumN (sub l) (fun c => (cU s i (l + 1 + c)%nat * (cU s l (l + 1 + c)%nat * cD s (l + 1 + c)%nat))%R).
Definition eqs (s : Chol) (l : nat) : Prop := cD s l = (M l l - tail s l l)%R /\ cDinv s l = (/ cD s l)%R /\
  forall i, br i l = true -> cU s i l = ((M i l - tail s i l) * cDinv s l)%R.
Lemma decStep_U s j i k : j < n -> cU (decStep m M s j) i k = if (k =? j) && br i j then ((M i j - tail s i j) * cDinv (decStep m M s j) j)%R else cU s i k.
Proof.
  intros Hj. unfold decStep. cbn [cU cDinv]. rewrite decCol_fold. rewrite putn_eq, Nat.eqb_refl.
  assert (E : existsb (Nat.eqb i) (walk (t_par (rowTables m)) (S (m_nvE m)) (t_par (rowTables m) j)) = br i j).
  { apply eq_true_iff_eq. rewrite <- (walk_br i j Hj), existsb_exists. split; [intros (x & Hx & Ex); apply Nat.eqb_eq in Ex; now subst | intros H; exists i; rewrite Nat.eqb_refl; auto]. }
  rewrite E. destruct ((k =? j) && br i j); [|reflexivity]. do 2 f_equal. unfold segDot, tail. apply sumN_ext. intros c Hc. cbn [plus].
  unfold setCols. rewrite (proj2 (within_iff 0 _ c)) by (unfold sub in Hc; lia). now rewrite Nat.sub_0_r.
Qed.
Lemma decStep_D s j k : cD (decStep m M s j) k = if j =? k then (M j j - tail s j j)%R else cD s k.
Proof.
  unfold decStep. cbn [cD]. rewrite putn_eq. destruct (j =? k); [|reflexivity]. f_equal. unfold segDot, tail. apply sumN_ext. intros c Hc. cbn [plus].
  unfold setCols. rewrite (proj2 (within_iff 0 _ c)) by (unfold sub in Hc; lia). now rewrite Nat.sub_0_r.
Qed.
Lemma decStep_Dinv s j k : cDinv (decStep m M s j) k = if j =? k then (/ cD (decStep m M s j) j)%R else cDinv s k.
Proof. unfold decStep. cbn [cD cDinv]. rewrite !putn_eq, Nat.eqb_refl. destruct (j =? k); reflexivity. Qed.
Lemma tail_step s j i l : j <= l -> j < n -> tail (decStep m M s j) i l = tail s i l.
Proof.
  intros Hl Hj. apply sumN_ext. intros c Hc. rewrite !decStep_U, decStep_D by exact Hj. destruct (Nat.eqb_spec (l + 1 + c) j); [lia|]. destruct (Nat.eqb_spec j (l + 1 + c)); [lia|]. reflexivity.
Qed.
Lemma dec_inv s0 : let s := decompose m M s0 in
  (forall l, l < n -> eqs s l) /\ (forall i k, (br i k = false \/ n <= k) -> cU s i k = cU s0 i k).
Proof.
  assert (H : forall p s, p <= n -> (forall l, p <= l < n -> eqs s l) -> (forall i k, (br i k = false \/ n <= k) -> cU s i k = cU s0 i k) ->
     let s' := fold_left (decStep m M) (rev (seq 0 p)) s in (forall l, l < n -> eqs s' l) /\ (forall i k, (br i k = false \/ n <= k) -> cU s' i k = cU s0 i k)).
  { induction p as [|p IH]; intros s Hp H1 H2; [cbn; split; [intros l Hl; apply H1; lia | exact H2]|].
    rewrite List.seq_S, rev_app_distr. cbn [rev app fold_left]. replace (0 + p) with p by lia. apply IH; [lia| |].
    - intros l Hl. destruct (Nat.eq_dec l p) as [->|Hn].
      + split; [|split].
        * rewrite tail_step, decStep_D, Nat.eqb_refl by lia. reflexivity.
        * rewrite decStep_Dinv, Nat.eqb_refl. reflexivity.
        * intros i Hi. rewrite tail_step by lia. rewrite decStep_U by lia. rewrite Nat.eqb_refl, Hi. reflexivity.
      + destruct (H1 l ltac:(lia)) as (E1 & E2 & E3). split; [|split].
        * rewrite tail_step, decStep_D by lia. destruct (Nat.eqb_spec p l); [lia|]. exact E1.
        * rewrite decStep_Dinv. destruct (Nat.eqb_spec p l); [lia|]. rewrite decStep_D. destruct (Nat.eqb_spec p l); [lia|]. exact E2.
        * intros i Hi. rewrite tail_step by lia. rewrite decStep_U by lia. destruct (Nat.eqb_spec l p); [lia|]. cbn [andb]. rewrite decStep_Dinv. destruct (Nat.eqb_spec p l); [lia|]. now apply E3.
    - intros i k Hk. rewrite decStep_U by lia. destruct (Nat.eqb_spec k p) as [->|]; cbn [andb]; [|now apply H2].
      destruct Hk as [Hk|Hk]; [rewrite Hk; apply H2; now left | lia]. }
  intros s. apply (H n s0); [lia | intros l Hl; lia | reflexivity].
Qed.
End Dec.

(* U is unit upper triangular and vanishes outside of the branches *)
Definition shaped (U : nat -> nat -> R) : Prop := forall k l, k < n -> l < n -> U k l = if k =? l then 1%R else if br k l then U k l else 0%R.
Lemma shaped_row U k f : shaped U -> k < n -> sumN n (fun l => (U k l * f l)%R) = (f k + sumN (sub k) (fun c => U k (k + 1 + c)%nat * f (k + 1 + c)%nat))%R.
Proof.
  intros HU Hk. rewrite <- (seg_sum k (fun l => (U k l * f l)%R) Hk). rewrite <- (sumN_delta n k f Hk), <- sumN_add. apply sumN_ext. intros l Hl.
  rewrite (HU k l Hk Hl) at 1. destruct (Nat.eqb_spec k l) as [<-|].
  - destruct (br k k) eqn:E; [apply br_lt in E; lia|]. ring.
  - destruct (br k l); ring.
Qed.
Lemma shaped_col U l f : shaped U -> l < n -> sumN n (fun k => (U k l * f k)%R) = (f l + sumN n (fun k => if br k l then U k l * f k else 0))%R.
Proof.
  intros HU Hl. rewrite <- (sumN_delta n l f Hl), <- sumN_add. apply sumN_ext. intros k Hk.
  rewrite (HU k l Hk Hl) at 1. destruct (Nat.eqb_spec k l) as [<-|].
  - rewrite Nat.eqb_refl. destruct (br k k) eqn:E; [apply br_lt in E; lia|]. ring.
  - destruct (Nat.eqb_spec l k); [congruence|]. destruct (br k l); ring.
Qed.

(* ---- the factorisation ---- *)
Section Factor.
Variables M A : nat -> nat -> R.
Hypothesis Sym : symmetricM n A.
Hypothesis HM : forall k l, k < n -> l < n -> (k = l \/ br k l = true) -> M k l = A k l.
Hypothesis HA : forall k l, k < n -> l < n -> k < l -> br k l = false -> A k l = 0%R.
Variable s : Chol.
Hypothesis E : forall l, l < n -> eqs M s l.
Hypothesis HU : shaped (cU s).
Lemma fact_upper i j : i < n -> j < n -> i <= j -> (i = j \/ cD s j <> 0%R) -> udut n (cU s) (cD s) i j = A i j.
Proof.
  intros Hi Hj Hij HD. unfold udut.
  assert (R1 : sumN n (fun k => (cU s i k * cD s k * cU s j k)%R) = (cU s i j * cD s j + tail s i j)%R).
  { rewrite (sumN_ext n _ (fun k => (cU s j k * (cU s i k * cD s k))%R)) by (intros; ring). rewrite (shaped_row _ j _ HU Hj). f_equal.
    apply sumN_ext. intros c _. ring. }
  rewrite R1. destruct (E j Hj) as (E1 & E2 & E3). destruct (Nat.eq_dec i j) as [->|Hn].
  - rewrite (HU j j Hj Hj), Nat.eqb_refl. rewrite E1, (HM j j) by auto. ring.
  - destruct HD as [?|HD]; [congruence|]. destruct (br i j) eqn:B.
    + rewrite (E3 i B), E2, (HM i j) by auto. field. exact HD.
    + rewrite (HU i j Hi Hj), B, (HA i j) by (lia || assumption). destruct (Nat.eqb_spec i j); [congruence|].
      unfold tail. rewrite sumN_zero; [ring|]. intros c Hc. pose proof (sub_lt j Hj). rewrite (HU i (j + 1 + c) Hi ltac:(lia)).
      destruct (Nat.eqb_spec i (j + 1 + c)); [lia|]. destruct (br i (j + 1 + c)) eqn:B'; [|ring].
      rewrite (br_below i j (j + 1 + c) B' ltac:(lia) ltac:(lia)) in B. discriminate.
Qed.
Lemma udut_sym U D i j : udut n U D i j = udut n U D j i.
Proof. apply sumN_ext. intros; ring. Qed.
Lemma fact i j : (forall k, k < n -> cD s k <> 0%R) -> i < n -> j < n -> udut n (cU s) (cD s) i j = A i j.
Proof.
  intros HD Hi Hj. destruct (Nat.le_gt_cases i j); [apply fact_upper; auto|]. rewrite udut_sym, Sym by assumption. apply fact_upper; auto. lia.
Qed.
End Factor.
End Tables.
