(* The products and the solutions with the triangular factor, over abstract row tables. *)
Require Import Reals List Arith ZArith Lia Lra Bool.
From Verif Require Import Vec3 Spatial Inertia Joints Model Spec_Model Data Kinematics Crba Jacobian Sums Spec_Aba Spec_Chol Cholesky CholFacts.
Import ListNotations.
Local Open Scope nat_scope.

Section Vectors.
Variable m : Model.
Local Notation nN := (m_nv m).
Local Notation sub := (nvt1 m).
Hypothesis OK : tableOK m.
Variable s : Chol.
Local Notation U := (cU s).
Notation br := (br m).
Lemma seq0_S p : seq 0 (S p) = seq 0 p ++ [p]. Proof. now rewrite List.seq_S. Qed.
Lemma last_sub k : nN - 1 <= k < nN -> sub k = 0. Proof. intros H. pose proof (sub_lt m OK k ltac:(lia)). lia. Qed.
(* the steps of the loops, and the loops run over all the rows: the last row does nothing *)
Definition upSeg (v : vec) (k : nat) : R := sumN (sub k) (fun c => (U k (k + 1 + c)%nat * v (k + 1 + c)%nat)%R).
Definition stepP (sg : R) (v : vec) (k : nat) : vec := putn v k (v k + sg * upSeg v k)%R.
Definition stepA (sg : R) (v : vec) (k : nat) : vec := fun l => if br k l then (v l + sg * (U k l * v k))%R else v l.
Lemma addSeg_at b p f v l : addSeg b p f v l = if within b p l then (v l + f (l - b)%nat)%R else v l.
Proof. unfold addSeg, setCols. destruct (within b p l) eqn:E; [|reflexivity]. apply within_iff in E. replace (b + (l - b)) with l by lia. reflexivity. Qed.
Lemma fold_ext {X Y} (f g : X -> Y -> X) l : (forall x y, In y l -> f x y = g x y) -> forall x, fold_left f l x = fold_left g l x.
Proof. induction l as [|y l IH]; intros H x; [reflexivity|]. cbn. rewrite H by (now left). apply IH. intros; apply H. now right. Qed.
(* equality of vectors as functions is replaced by a pointwise relation *)
Definition eqv (x y : vec) : Prop := forall k, x k = y k.
Lemma fold_eqv (f g : vec -> nat -> vec) l : (forall x y k, In k l -> eqv x y -> eqv (f x k) (g y k)) -> forall x y, eqv x y -> eqv (fold_left f l x) (fold_left g l y).
Proof. induction l as [|a l IH]; intros H x y E; [exact E|]. cbn. apply IH; [intros; apply H; auto; now right|]. apply H; auto. now left. Qed.
Lemma upSeg_eqv x y k : eqv x y -> upSeg x k = upSeg y k.
Proof. intros E. apply sumN_ext. intros c _. now rewrite E. Qed.

(* a descending loop that writes entry k from the entries above it *)
Lemma desc_put sg p v : p <= nN -> let w := fold_left (stepP sg) (rev (seq 0 p)) v in
  (forall k, p <= k -> w k = v k) /\ (forall k, k < p -> w k = (v k + sg * upSeg w k)%R).
Proof.
  revert v. induction p as [|p IH]; intros v Hp w; [split; [reflexivity|intros; lia]|].
  subst w. rewrite seq0_S, rev_app_distr. cbn [rev app fold_left]. destruct (IH (stepP sg v p) ltac:(lia)) as (H1 & H2). split.
  - intros k Hk. rewrite H1 by lia. unfold stepP. rewrite putn_eq. destruct (Nat.eqb_spec p k); [lia|reflexivity].
  - intros k Hk. destruct (Nat.eq_dec k p) as [->|Hn].
    + rewrite H1 by lia. unfold stepP at 1. rewrite putn_eq, Nat.eqb_refl. do 2 f_equal. apply sumN_ext. intros c _. rewrite H1 by lia.
      unfold stepP. rewrite putn_eq. destruct (Nat.eqb_spec p (p + 1 + c)); [lia|reflexivity].
    + rewrite H2 by lia. unfold stepP at 1. rewrite putn_eq. destruct (Nat.eqb_spec p k); [lia|reflexivity].
Qed.
(* the same loop ascending *)
Lemma asc_put sg p v : let w := fold_left (stepP sg) (seq 0 p) v in
  forall k, w k = if k <? p then (v k + sg * upSeg v k)%R else v k.
Proof.
  induction p as [|p IH]; intros w k; [reflexivity|]. subst w. rewrite seq0_S, fold_left_app. cbn [fold_left]. cbv zeta in IH.
  set (w := fold_left (stepP sg) (seq 0 p) v) in *. unfold stepP. rewrite putn_eq. destruct (Nat.eqb_spec p k) as [<-|Hn].
  - destruct (Nat.ltb_spec p (S p)); [|lia]. rewrite IH. destruct (Nat.ltb_spec p p); [lia|]. do 2 f_equal. apply sumN_ext. intros c _. rewrite IH. destruct (Nat.ltb_spec (p + 1 + c) p); [lia|reflexivity].
  - rewrite IH. destruct (Nat.ltb_spec k p), (Nat.ltb_spec k (S p)); (reflexivity || lia).
Qed.
(* loops that add to the entries above k *)
Lemma asc_add sg p v : let w := fold_left (stepA sg) (seq 0 p) v in
  forall l, w l = (v l + sg * sumN p (fun k => if br k l then U k l * w k else 0))%R.
Proof.
  induction p as [|p IH]; intros w l; [subst w; cbn; ring|]. subst w. rewrite seq0_S, fold_left_app. cbn [fold_left]. cbv zeta in IH.
  set (w := fold_left (stepA sg) (seq 0 p) v) in *. cbn [sumN].
  assert (Hp : stepA sg w p p = w p) by (unfold stepA; destruct (br p p) eqn:B; [apply br_lt in B; lia|reflexivity]).
  rewrite Hp.
  rewrite (sumN_ext p (fun k => if br k l then (U k l * stepA sg w p k)%R else 0%R) (fun k => if br k l then (U k l * w k)%R else 0%R)).
  2: { intros k Hk. destruct (br k l); [|reflexivity]. f_equal. unfold stepA. destruct (br p k) eqn:B; [apply br_lt in B; lia|reflexivity]. }
  unfold stepA. destruct (br p l); rewrite (IH l) at 1; ring.
Qed.
Lemma desc_add sg p : forall v, let w := fold_left (stepA sg) (rev (seq 0 p)) v in
  forall l, w l = (v l + sg * sumN p (fun k => if br k l then U k l * v k else 0))%R.
Proof.
  induction p as [|p IH]; intros v w l; [subst w; cbn; ring|]. subst w. rewrite seq0_S, rev_app_distr. cbn [rev app fold_left]. rewrite IH. cbn [sumN].
  rewrite (sumN_ext p (fun k => if br k l then (U k l * stepA sg v p k)%R else 0%R) (fun k => if br k l then (U k l * v k)%R else 0%R)).
  2: { intros k Hk. destruct (br k l); [|reflexivity]. f_equal. unfold stepA. destruct (br p k) eqn:B; [apply br_lt in B; lia|reflexivity]. }
  unfold stepA. destruct (br p l); ring.
Qed.
(* the loops of the code *)
Lemma addSeg_step sg v k : k < nN -> eqv (addSeg (k + 1) (nvt1 m k) (fun c => (sg * (U k (k + 1 + c)%nat * v k))%R) v) (stepA sg v k).
Proof.
  intros Hk l. rewrite addSeg_at. unfold stepA, CholFacts.br. destruct (within (k + 1) (nvt1 m k) l) eqn:E; [|reflexivity]. apply within_iff in E. replace (k + 1 + (l - (k + 1))) with l by lia. reflexivity.
Qed.
Lemma stepA_eqv sg x y k : eqv x y -> eqv (stepA sg x k) (stepA sg y k).
Proof. intros E l. unfold stepA. now rewrite !E. Qed.
Lemma stepP_eqv sg x y k : eqv x y -> eqv (stepP sg x k) (stepP sg y k).
Proof. intros E l. unfold stepP. rewrite !putn_eq, E, (upSeg_eqv x y k E). destruct (k =? l); [reflexivity|apply E]. Qed.
Lemma Uv_at v k : k < nN -> Uv m s v k = (v k + upSeg v k)%R.
Proof.
  intros Hk. unfold Uv.
  assert (E : eqv (fold_left (fun v k => putn v k (v k + segDot (nvt1 m k) (cU s k) (k + 1) v (k + 1))%R) (seq 0 (nN - 1)) v) (fold_left (stepP 1) (seq 0 (nN - 1)) v)).
  { apply fold_eqv; [|intros l; reflexivity]. intros x y j _ E l. rewrite <- (stepP_eqv 1 x y j E l). unfold stepP. rewrite !putn_eq. destruct (j =? l); [|reflexivity]. change (segDot (nvt1 m j) (cU s j) (j + 1) x (j + 1)) with (upSeg x j). ring. }
  rewrite (E k).
  rewrite asc_put. destruct (Nat.ltb_spec k (nN - 1)); [ring|]. unfold upSeg. rewrite last_sub by lia. cbn. ring.
Qed.
Lemma Uiv_at v k : k < nN -> (Uiv m s v k + upSeg (Uiv m s v) k)%R = v k.
Proof.
  intros Hk. unfold Uiv.
  assert (E : eqv (fold_left (fun v k => putn v k (v k - segDot (nvt1 m k) (cU s k) (k + 1) v (k + 1))%R) (rev (seq 0 (nN - 1))) v) (fold_left (stepP (-1)) (rev (seq 0 (nN - 1))) v)).
  { apply fold_eqv; [|intros l; reflexivity]. intros x y j _ E l. rewrite <- (stepP_eqv (-1) x y j E l). unfold stepP. rewrite !putn_eq. destruct (j =? l); [|reflexivity]. change (segDot (nvt1 m j) (cU s j) (j + 1) x (j + 1)) with (upSeg x j). ring. }
  rewrite (E k), (upSeg_eqv _ _ k E). destruct (desc_put (-1) (nN - 1) v ltac:(lia)) as (H1 & H2).
  destruct (Nat.lt_ge_cases k (nN - 1)); [rewrite (H2 k) at 1 by lia; ring|]. rewrite H1 by lia. unfold upSeg. rewrite last_sub by lia. cbn. ring.
Qed.
Lemma last_no k l : nN - 1 <= k < nN -> br k l = false.
Proof. intros H. destruct (br k l) eqn:B; [|reflexivity]. apply br_iff in B. pose proof (last_sub k H). lia. Qed.
Lemma sum_last f : sumN nN (fun k => if br k f then 0%R else 0%R) = 0%R. Proof. apply sumN_zero. intros; destruct (br k f); reflexivity. Qed.
Lemma sum_pred (g : nat -> R) l : sumN nN (fun k => if br k l then g k else 0%R) = sumN (nN - 1) (fun k => if br k l then g k else 0%R).
Proof.
  destruct (Nat.eq_dec nN 0) as [E|]; [now rewrite E|]. replace (sumN nN (fun k => if br k l then g k else 0%R)) with (sumN (S (nN - 1)) (fun k => if br k l then g k else 0%R)) by (f_equal; lia).
  cbn [sumN]. rewrite (last_no (nN - 1)) by lia. ring.
Qed.
Lemma Utv_at v l : Utv m s v l = (v l + sumN nN (fun k => if br k l then U k l * v k else 0))%R.
Proof.
  unfold Utv.
  assert (E : eqv (fold_left (fun v k => addSeg (k + 1) (nvt1 m k) (fun c => (cU s k (k + 1 + c)%nat * v k)%R) v) (rev (seq 0 (nN - 1))) v) (fold_left (stepA 1) (rev (seq 0 (nN - 1))) v)).
  { apply fold_eqv; [|intros k; reflexivity]. intros x y j Hj E k. apply in_rev, in_seq in Hj. rewrite <- (stepA_eqv 1 x y j E k), <- (addSeg_step 1 x j ltac:(lia) k). rewrite !addSeg_at. destruct (within _ _ _); [|reflexivity]. ring. }
  rewrite (E l), desc_add, sum_pred. ring.
Qed.
Lemma Utiv_at v l : (Utiv m s v l + sumN nN (fun k => if br k l then U k l * Utiv m s v k else 0))%R = v l.
Proof.
  unfold Utiv.
  assert (E : eqv (fold_left (fun v k => addSeg (k + 1) (nvt1 m k) (fun c => (- (cU s k (k + 1 + c)%nat * v k))%R) v) (seq 0 (nN - 1)) v) (fold_left (stepA (-1)) (seq 0 (nN - 1)) v)).
  { apply fold_eqv; [|intros k; reflexivity]. intros x y j Hj E k. apply in_seq in Hj. rewrite <- (stepA_eqv (-1) x y j E k), <- (addSeg_step (-1) x j ltac:(lia) k). rewrite !addSeg_at. destruct (within _ _ _); [|reflexivity]. ring. }
  rewrite sum_pred. rewrite (E l), (asc_add (-1) (nN - 1) v l).
  rewrite (sumN_ext (nN - 1) (fun k => if br k l then (U k l * fold_left (fun v k => addSeg (k + 1) (nvt1 m k) (fun c => (- (cU s k (k + 1 + c)%nat * v k))%R) v) (seq 0 (nN - 1)) v k)%R else 0%R) (fun k => if br k l then (U k l * fold_left (stepA (-1)) (seq 0 (nN - 1)) v k)%R else 0%R)); [ring|].
  intros k _. now rewrite E.
Qed.
(* dense forms *)
Hypothesis HU : shaped m U.
Lemma Uv_mul v : sameV nN (Uv m s v) (mulMV nN U v).
Proof. intros k Hk. rewrite Uv_at by exact Hk. unfold mulMV. symmetry. apply (shaped_row m OK U k v HU Hk). Qed.
Lemma Uiv_mul v : sameV nN (mulMV nN U (Uiv m s v)) v.
Proof. intros k Hk. rewrite <- (Uiv_at v k Hk). apply (shaped_row m OK U k _ HU Hk). Qed.
Lemma Utv_mul v : sameV nN (Utv m s v) (mulMV nN (transp U) v).
Proof. intros k Hk. rewrite Utv_at. unfold mulMV, transp. symmetry. apply (shaped_col m U k v HU Hk). Qed.
Lemma Utiv_mul v : sameV nN (mulMV nN (transp U) (Utiv m s v)) v.
Proof. intros k Hk. rewrite <- (Utiv_at v k). apply (shaped_col m U k _ HU Hk). Qed.
(* the triangular products are injective *)
Lemma U_inj x y : sameV nN (mulMV nN U x) (mulMV nN U y) -> sameV nN x y.
Proof.
  intros H. assert (G : forall p k, p <= nN -> nN - p <= k < nN -> x k = y k); [|intros k Hk; apply (G nN k); lia].
  induction p as [|p IH]; intros k Hp Hk; [lia|]. destruct (Nat.eq_dec k (nN - S p)) as [->|]; [|apply IH; lia].
  pose proof (H (nN - S p) ltac:(lia)) as E. unfold mulMV in E. rewrite !(shaped_row m OK U (nN - S p) _ HU) in E by lia.
  rewrite (sumN_ext (nvt1 m (nN - S p)) (fun c => (U (nN - S p) (nN - S p + 1 + c)%nat * x (nN - S p + 1 + c)%nat)%R) (fun c => (U (nN - S p) (nN - S p + 1 + c)%nat * y (nN - S p + 1 + c)%nat)%R)) in E.
  - lra.
  - intros c Hc. pose proof (sub_lt m OK (nN - S p) ltac:(lia)). rewrite IH by lia. reflexivity.
Qed.
Lemma Ut_inj x y : sameV nN (mulMV nN (transp U) x) (mulMV nN (transp U) y) -> sameV nN x y.
Proof.
  intros H. assert (G : forall p k, k < p -> k < nN -> x k = y k); [|intros k Hk; apply (G nN k); lia].
  induction p as [|p IH]; intros k Hp Hk; [lia|]. destruct (Nat.eq_dec k p) as [->|]; [|apply IH; lia].
  pose proof (H p Hk) as E. unfold mulMV, transp in E. rewrite !(shaped_col m U p _ HU) in E by exact Hk.
  rewrite (sumN_ext (m_nv m) (fun k => if br k p then (U k p * x k)%R else 0%R) (fun k => if br k p then (U k p * y k)%R else 0%R)) in E; [lra|].
  intros k Hk'. destruct (br k p) eqn:B; [|reflexivity]. apply br_lt in B. rewrite IH by (lia || exact Hk'). reflexivity.
Qed.
Lemma mulMV_ext A x y : sameV nN x y -> forall k, mulMV nN A x k = mulMV nN A y k.
Proof. intros H k. apply sumN_ext. intros l Hl. now rewrite H. Qed.
Lemma Uiv_inv v : sameV nN (Uiv m s (mulMV nN U v)) v.
Proof. apply U_inj. intros k Hk. now rewrite Uiv_mul. Qed.
Lemma Utiv_inv v : sameV nN (Utiv m s (mulMV nN (transp U) v)) v.
Proof. apply Ut_inj. intros k Hk. now rewrite Utiv_mul. Qed.
Lemma udut_mul D v k : mulMV nN (udut nN U D) v k = mulMV nN U (fun j => (mulMV nN (transp U) v j * D j)%R) k.
Proof.
  unfold mulMV, udut, transp. rewrite (sumN_ext nN _ (fun l => sumN nN (fun j => (U k j * D j * U l j * v l)%R))) by (intros; now rewrite sumN_scale_r).
  rewrite sumN_swap. apply sumN_ext. intros j _. rewrite <- sumN_scale_r, <- sumN_scale. apply sumN_ext. intros; ring.
Qed.
Lemma UDUtv_mul v : sameV nN (UDUtv m s v) (mulMV nN (udut nN U (cD s)) v).
Proof.
  intros k Hk. unfold UDUtv. rewrite Uv_mul by exact Hk. rewrite udut_mul. apply mulMV_ext. intros j Hj. unfold scaleBy. now rewrite Utv_mul.
Qed.
Hypothesis HD : forall k, k < nN -> (cDinv s k * cD s k = 1)%R.
Lemma solve_mul v : sameV nN (mulMV nN (udut nN U (cD s)) (cholSolve m s v)) v.
Proof.
  intros k Hk. rewrite udut_mul. rewrite <- (Uiv_mul v k Hk). apply mulMV_ext. intros j Hj. unfold cholSolve. rewrite Utiv_mul by exact Hj.
  unfold scaleBy. rewrite Rmult_assoc, HD by exact Hj. ring.
Qed.
Lemma solve_inv v : sameV nN (cholSolve m s (mulMV nN (udut nN U (cD s)) v)) v.
Proof.
  apply Ut_inj. intros k Hk. unfold cholSolve. rewrite Utiv_mul by exact Hk. unfold scaleBy.
  assert (E : sameV nN (Uiv m s (mulMV nN (udut nN U (cD s)) v)) (fun j => (mulMV nN (transp U) v j * cD s j)%R)).
  { apply U_inj. intros j Hj. rewrite Uiv_mul by exact Hj. apply udut_mul. }
  rewrite E by exact Hk. pose proof (HD k Hk). rewrite Rmult_assoc, (Rmult_comm (cD s k)), H. ring.
Qed.
End Vectors.
