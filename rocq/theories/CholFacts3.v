(* Product by M, positive pivots, inverse of the matrix; over abstract row tables. *)
Require Import Reals List Arith ZArith Lia Lra Bool.
From Verif Require Import Vec3 Spatial Inertia Joints Model Spec_Model Data Kinematics Crba Jacobian Sums Spec_Aba Spec_Chol Cholesky CholFacts CholFacts2.
Import ListNotations.
Local Open Scope nat_scope.

Section Mat.
Variable m : Model.
Local Notation nN := (m_nv m).
Local Notation sub := (nvt1 m).
Hypothesis OK : tableOK m.
Notation br := (br m).
Variables M A : nat -> nat -> R.
Hypothesis Sym : symmetricM nN A.
Hypothesis HM : forall k l, k < nN -> l < nN -> (k = l \/ br k l = true) -> M k l = A k l.
Hypothesis HA : forall k l, k < nN -> l < nN -> k < l -> br k l = false -> A k l = 0%R.

(* ---- Mv ---- *)
Definition rowM (vin : vec) (k : nat) : R := (M k k * vin k + sumN (sub k) (fun c => M k (k + 1 + c)%nat * vin (k + 1 + c)%nat))%R.
Lemma rowM_seg vin k : k < nN -> segDot (Z.to_nat (t_nvs (rowTables m) k)) (M k) k vin k = rowM vin k.
Proof.
  intros Hk. destruct OK as (_ & _ & H & _). rewrite H by exact Hk. rewrite Nat2Z.id. unfold segDot, rowM. change (S (sub k)) with (1 + sub k). rewrite sumN_split. cbn [sumN].
  rewrite Nat.add_0_r. rewrite (sumN_ext (sub k) (fun c => (M k (k + (1 + c))%nat * vin (k + (1 + c))%nat)%R) (fun c => (M k (k + 1 + c)%nat * vin (k + 1 + c)%nat)%R)) by (intros c _; now rewrite Nat.add_assoc). ring.
Qed.
Lemma Mv_fold vin p : p <= nN -> forall v l, fold_left (fun vout k =>
    let vout := putn vout k (segDot (Z.to_nat (t_nvs (rowTables m) k)) (M k) k vin k) in
    addSeg (k + 1) (nvt1 m k) (fun c => (M k (k + 1 + c)%nat * vin k)%R) vout) (rev (seq 0 p)) v l =
  ((if l <? p then rowM vin l else v l) + sumN p (fun k => if br k l then M k l * vin k else 0))%R.
Proof.
  induction p as [|p IH]; intros Hp v l; [cbn; ring|]. rewrite seq0_S, rev_app_distr. cbn [rev app fold_left]. rewrite IH by lia. cbn [sumN].
  rewrite rowM_seg by lia. rewrite addSeg_at, putn_eq. change (within (p + 1) (nvt1 m p) l) with (br p l). destruct (br p l) eqn:B.
  - pose proof (br_lt m _ _ B). destruct (Nat.ltb_spec l p); [lia|]. destruct (Nat.ltb_spec l (S p)); [lia|]. destruct (Nat.eqb_spec p l); [lia|].
    replace (p + 1 + (l - (p + 1))) with l by lia. ring.
  - destruct (Nat.ltb_spec l p), (Nat.ltb_spec l (S p)), (Nat.eqb_spec p l); subst; try lia; ring.
Qed.
Lemma Mv_mul vin vout : sameV nN (Mv m M vin vout) (mulMV nN A vin).
Proof.
  intros l Hl. unfold Mv. rewrite Mv_fold by lia. destruct (Nat.ltb_spec l nN); [|lia]. unfold rowM, mulMV.
  rewrite <- (seg_sum m OK l (fun p => (M l p * vin p)%R) Hl). rewrite <- (sumN_delta nN l (fun p => (M l p * vin p)%R) Hl), <- !sumN_add.
  apply sumN_ext. intros p Hp. destruct (Nat.eqb_spec l p) as [<-|Hn].
  - destruct (br l l) eqn:B; [apply br_lt in B; lia|]. rewrite (HM l l) by auto. ring.
  - destruct (br l p) eqn:B.
    + destruct (br p l) eqn:B'; [apply br_lt in B; apply br_lt in B'; lia|]. rewrite (HM l p) by auto. ring.
    + destruct (br p l) eqn:B'.
      * rewrite (HM p l), (Sym p l) by auto. ring.
      * assert (A l p = 0%R) as ->; [|ring]. destruct (Nat.lt_trichotomy l p) as [H'|[H'|H']]; [now apply HA | lia | rewrite Sym by assumption; now apply HA].
Qed.

(* ---- pivots ---- *)
Variable s : Chol.
Local Notation U := (cU s).
Hypothesis E : forall l, l < nN -> eqs m M s l.
Hypothesis HU : shaped m U.
Lemma quad x : sumN nN (fun k => (x k * sumN nN (fun l => udut nN U (cD s) k l * x l))%R) = sumN nN (fun j => (cD s j * (mulMV nN (transp U) x j * mulMV nN (transp U) x j))%R).
Proof.
  rewrite (sumN_ext nN _ (fun k => sumN nN (fun j => (cD s j * (U k j * x k) * mulMV nN (transp U) x j)%R))).
  - rewrite sumN_swap. apply sumN_ext. intros j _. unfold mulMV, transp. rewrite <- (sumN_ext nN (fun i => (cD s j * sumN nN (fun l => U l j * x l) * (U i j * x i))%R)) by (intros; ring).
    rewrite sumN_scale. ring.
  - intros k _. change (sumN nN (fun l => (udut nN U (cD s) k l * x l)%R)) with (mulMV nN (udut nN U (cD s)) x k). rewrite (udut_mul m s). unfold mulMV at 1. rewrite <- sumN_scale. apply sumN_ext. intros j _. ring.
Qed.
Lemma pivots_pos : positiveM nN A -> forall j, j < nN -> (0 < cD s j)%R.
Proof.
  intros HP. assert (G : forall p j, p <= nN -> nN - p <= j < nN -> (0 < cD s j)%R); [|intros j Hj; apply (G nN j); lia].
  induction p as [|p IH]; intros j Hp Hj; [lia|]. destruct (Nat.eq_dec j (nN - S p)) as [Ej|]; [|apply IH; lia].
  set (x := Utiv m s (unitv j)). pose proof (Utiv_mul m OK s HU (unitv j)) as Hx. fold x in Hx.
  assert (Z : forall k, k < j -> x k = 0%R).
  { intros k. induction k as [k IHk] using lt_wf_ind. intros Hk. pose proof (Hx k ltac:(lia)) as Ek. unfold mulMV, transp in Ek. rewrite (shaped_col m U k _ HU) in Ek by lia.
    rewrite sumN_zero in Ek; [|intros i Hi; destruct (br i k) eqn:B; [|reflexivity]; apply br_lt in B; rewrite IHk by lia; ring].
    unfold unitv in Ek. destruct (Nat.eqb_spec j k); [lia|]. lra. }
  assert (X : x j = 1%R).
  { pose proof (Hx j ltac:(lia)) as Ek. unfold mulMV, transp in Ek. rewrite (shaped_col m U j _ HU) in Ek by lia.
    rewrite sumN_zero in Ek; [|intros i Hi; destruct (br i j) eqn:B; [|reflexivity]; apply br_lt in B; rewrite Z by lia; ring].
    unfold unitv in Ek. rewrite Nat.eqb_refl in Ek. lra. }
  assert (Hjn : j < nN) by lia.
  pose proof (HP x (ex_intro _ j (conj Hjn (eq_ind_r (fun r => r <> 0%R) R1_neq_R0 X)))) as Q.
  rewrite (sumN_ext nN _ (fun k => (x k * sumN nN (fun l => udut nN U (cD s) k l * x l))%R)) in Q.
  - rewrite quad in Q. rewrite (sumN_ext nN _ (fun k => if j =? k then cD s k else 0%R)) in Q.
    + rewrite sumN_delta in Q by lia. exact Q.
    + intros k Hk. rewrite Hx by exact Hk. unfold unitv. destruct (j =? k); ring.
  - intros k Hk. destruct (Nat.lt_ge_cases k j); [rewrite Z by lia; ring|]. f_equal. apply sumN_ext. intros l Hl. destruct (Nat.lt_ge_cases l j); [rewrite (Z l) by lia; ring|]. f_equal. symmetry.
    assert (D : forall i, j < i < nN -> cD s i <> 0%R) by (intros i Hi; apply Rgt_not_eq, IH; lia).
    destruct (Nat.le_gt_cases k l).
    + apply (fact_upper m OK M A HM HA s E HU); auto. destruct (Nat.eq_dec k l); [now left | right; apply D; lia].
    + rewrite udut_sym, Sym by assumption. apply (fact_upper m OK M A HM HA s E HU); auto; [lia|]. right; apply D; lia.
Qed.

(* ---- the inverse ---- *)
Hypothesis HD : forall k, k < nN -> (cDinv s k * cD s k = 1)%R.
Lemma minv_w col v1 : col < nN -> v1 col = 1%R -> (forall l, col < l < nN -> v1 l = 0%R) ->
  let w := fold_left (fun v k => let n := Nat.min col (nvt1 m k) in putn v k (- segDot n (cU s k) (k + 1) v (k + 1))%R) (rev (seq 0 (Nat.min col (nN - 1)))) v1 in
  sameV nN w (Uiv m s (unitv col)).
Proof.
  intros Hc H1 H0 w.
  assert (G : forall p v, let w := fold_left (fun v k => let n := Nat.min col (nvt1 m k) in putn v k (- segDot n (cU s k) (k + 1) v (k + 1))%R) (rev (seq 0 p)) v in
    (forall k, p <= k -> w k = v k) /\ (forall k, k < p -> w k = (- segDot (Nat.min col (sub k)) (U k) (k + 1) w (k + 1))%R)).
  { induction p as [|p IH]; intros v; [split; [reflexivity|intros; lia]|]. rewrite seq0_S, rev_app_distr. cbn [rev app fold_left]. cbv zeta.
    set (v' := putn v p _). destruct (IH v') as (I1 & I2). split.
    - intros k Hk. rewrite I1 by lia. unfold v'. rewrite putn_eq. destruct (Nat.eqb_spec p k); [lia|reflexivity].
    - intros k Hk. destruct (Nat.eq_dec k p) as [->|]; [|apply I2; lia]. rewrite I1 by lia. unfold v' at 1. rewrite putn_eq, Nat.eqb_refl. f_equal. apply segDot_ext; [reflexivity|].
      intros c _. rewrite I1 by lia. unfold v'. rewrite putn_eq. destruct (Nat.eqb_spec p (p + 1 + c)); [lia|reflexivity]. }
  destruct (G (Nat.min col (nN - 1)) v1) as (G1 & G2). fold w in G1, G2. rewrite Nat.min_l in G1, G2 by lia.
  assert (Z : forall l, col < l < nN -> w l = 0%R) by (intros l Hl; rewrite G1 by lia; now apply H0).
  apply (U_inj m OK s HU). intros k Hk. rewrite (Uiv_mul m OK s HU) by exact Hk. unfold mulMV. rewrite (shaped_row m OK U k w HU Hk). pose proof (sub_lt m OK k Hk).
  unfold unitv. destruct (Nat.lt_trichotomy k col) as [Hlt|[->|Hgt]].
  - destruct (Nat.eqb_spec col k); [lia|]. rewrite (G2 k Hlt). unfold segDot.
    replace (sub k) with (Nat.min col (sub k) + (sub k - Nat.min col (sub k))) at 2 by lia. rewrite sumN_split.
    rewrite (sumN_zero (sub k - Nat.min col (sub k))); [ring|]. intros c Hcc. rewrite Z by lia. ring.
  - rewrite Nat.eqb_refl, G1, H1 by lia. rewrite sumN_zero; [ring|]. intros c Hcc. rewrite Z by lia. ring.
  - destruct (Nat.eqb_spec col k); [lia|]. rewrite Z by lia. rewrite sumN_zero; [ring|]. intros c Hcc. rewrite Z by lia. ring.
Qed.
Lemma Miunit_at col v i : col < nN -> i <= col -> Miunit m s col v i = cholSolve m s (unitv col) i.
Proof.
  intros Hc Hi. unfold Miunit, cholSolve. cbv zeta.
  set (v1 := setCols (col + 1) (nN - col - 1) (fun _ => 0%R) (putn v col 1%R)).
  assert (V1 : v1 col = 1%R) by (unfold v1, setCols; rewrite (proj2 (within_no _ _ _)) by lia; now rewrite putn_eq, Nat.eqb_refl).
  assert (V0 : forall l, col < l < nN -> v1 l = 0%R) by (intros l Hl; unfold v1, setCols; rewrite (proj2 (within_iff _ _ _)) by lia; reflexivity).
  pose proof (minv_w col v1 Hc V1 V0) as HW. cbv zeta in HW. set (w := fold_left _ (rev (seq 0 (Nat.min col (nN - 1)))) v1) in *. clearbody w. clear v1 V1 V0.
  set (y := Uiv m s (unitv col)) in *.
  assert (Y0 : forall l, col < l < nN -> y l = 0%R).
  { assert (P : forall p l, p <= nN -> nN - p <= l < nN -> col < l -> y l = 0%R); [|intros l Hl; apply (P nN l); lia].
    induction p as [|p IH]; intros l Hp Hl Hcl; [lia|]. pose proof (Uiv_at m OK s (unitv col) l ltac:(lia)) as El. fold y in El. unfold upSeg in El.
    rewrite sumN_zero in El; [|intros c Hcc; pose proof (sub_lt m OK l ltac:(lia)); rewrite IH by lia; ring]. unfold unitv in El. destruct (Nat.eqb_spec col l); [lia|]. lra. }
  set (z := setCols 0 (col + 1) (fun k => (w k * cDinv s k)%R) w).
  assert (Hz : sameV nN z (scaleBy (cDinv s) y)).
  { intros k Hk. unfold z, setCols, scaleBy. destruct (within 0 (col + 1) k) eqn:Ew.
    - rewrite Nat.sub_0_r. now rewrite HW.
    - apply within_no in Ew. rewrite HW, Y0 by lia. ring. }
  clearbody z. set (t := Utiv m s (scaleBy (cDinv s) y)).
  pose proof (asc_add m s (-1) (col + 1) z) as R. cbv zeta in R.
  assert (Eq : eqv (fold_left (fun v k => addSeg (k + 1) (nvt1 m k) (fun c => (- (cU s k (k + 1 + c)%nat * v k))%R) v) (seq 0 (col + 1)) z) (fold_left (stepA m s (-1)) (seq 0 (col + 1)) z)).
  { apply fold_eqv; [|intros k; reflexivity]. intros x x' j Hj Ex k. apply in_seq in Hj. rewrite <- (stepA_eqv m s (-1) x x' j Ex k), <- (addSeg_step m s (-1) x j ltac:(lia) k). rewrite !addSeg_at. destruct (within _ _ _); [|reflexivity]. ring. }
  rewrite (Eq i). set (r := fold_left (stepA m s (-1)) (seq 0 (col + 1)) z) in *. clearbody r. clear Eq.
  revert Hi. induction i as [i IH] using lt_wf_ind. intros Hi. rewrite R, (Hz i ltac:(lia)). pose proof (Utiv_at m OK s (scaleBy (cDinv s) y) i) as Et. fold t in Et.
  replace nN with ((col + 1) + (nN - (col + 1))) in Et by lia. rewrite sumN_split in Et. rewrite (sumN_zero (nN - (col + 1))) in Et.
  - rewrite (sumN_ext (col + 1) (fun k => if br k i then (U k i * r k)%R else 0%R) (fun k => if br k i then (U k i * t k)%R else 0%R)); [lra|].
    intros k Hk. destruct (br k i) eqn:B; [|reflexivity]. apply br_lt in B. rewrite IH by lia. reflexivity.
  - intros k Hk. destruct (br (col + 1 + k) i) eqn:B; [apply br_lt in B; lia|reflexivity].
Qed.
Lemma computeMinv_at B i j : i < nN -> j < nN -> computeMinv m s B i j = if j <? i then cholSolve m s (unitv i) j else cholSolve m s (unitv j) i.
Proof.
  intros Hi Hj. unfold computeMinv.
  assert (G : forall p C i j, fold_left (fun A col => fun i j => if col =? j then Miunit m s col (fun k => A k col) i else A i j) (seq 0 p) C i j = if j <? p then Miunit m s j (fun k => C k j) i else C i j).
  { intros p C. induction p as [|p IH]; intros a b; [reflexivity|]. rewrite seq0_S, fold_left_app. cbn [fold_left]. destruct (Nat.eqb_spec p b) as [<-|Hn].
    - destruct (Nat.ltb_spec p (S p)); [|lia].
      assert (Hext : forall v v', (forall k, v k = v' k) -> Miunit m s p v = Miunit m s p v') by (intros v v' Hv; f_equal; apply FunctionalExtensionality.functional_extensionality; exact Hv).
      rewrite (Hext _ (fun k => C k p)); [reflexivity|]. intros k. rewrite IH. destruct (Nat.ltb_spec p p); [lia|reflexivity].
    - rewrite IH. destruct (Nat.ltb_spec b p), (Nat.ltb_spec b (S p)); (reflexivity || lia). }
  rewrite !G. destruct (Nat.ltb_spec j i), (Nat.ltb_spec i nN), (Nat.ltb_spec j nN); try lia; apply Miunit_at; lia.
Qed.
Lemma unit_mul X i j : i < nN -> (forall k, k < nN -> mulMV nN A (X j) k = unitv j k) -> sumN nN (fun k => (A i k * X j k)%R) = unitv j i.
Proof. intros Hi H. now rewrite <- H. Qed.
Hypothesis HF : forall i j, i < nN -> j < nN -> udut nN U (cD s) i j = A i j.
Lemma solve_A v : sameV nN (mulMV nN A (cholSolve m s v)) v.
Proof. intros k Hk. rewrite <- (solve_mul m OK s HU HD v k Hk). apply sumN_ext. intros l Hl. now rewrite HF. Qed.
Lemma solve_A_inv v : sameV nN (cholSolve m s (mulMV nN A v)) v.
Proof.
  apply (Ut_inj m s HU). intros k Hk.
  assert (G : sameV nN (cholSolve m s (mulMV nN A v)) v).
  { intros j Hj. rewrite <- (solve_inv m OK s HU HD v j Hj).
    (* both are solutions of the same system *)
    assert (S : forall x y, sameV nN (mulMV nN (udut nN U (cD s)) x) (mulMV nN (udut nN U (cD s)) y) -> sameV nN x y).
    { intros x y Hxy i Hi. rewrite <- (solve_inv m OK s HU HD x i Hi), <- (solve_inv m OK s HU HD y i Hi).
      assert (Q : forall u v, sameV nN u v -> sameV nN (cholSolve m s u) (cholSolve m s v)); [|now apply Q].
      intros u u' Hu. unfold cholSolve. apply (Ut_inj m s HU). intros a Ha. rewrite !(Utiv_mul m OK s HU) by exact Ha. unfold scaleBy. f_equal.
      apply (U_inj m OK s HU); [|exact Ha]. intros b Hb. rewrite !(Uiv_mul m OK s HU) by exact Hb. now apply Hu. }
    apply S; [|exact Hj]. intros i Hi. rewrite !(solve_mul m OK s HU HD) by exact Hi. apply sumN_ext. intros l Hl. now rewrite HF. }
  apply mulMV_ext, G.
Qed.
Lemma inv_sym i j : i < nN -> j < nN -> cholSolve m s (unitv j) i = cholSolve m s (unitv i) j.
Proof.
  intros Hi Hj. set (X := fun j => cholSolve m s (unitv j)). change (X j i = X i j).
  assert (HX : forall j k, k < nN -> mulMV nN A (X j) k = unitv j k) by (intros j' k Hk; apply (solve_A (unitv j') k Hk)).
  assert (Q1 : sumN nN (fun k => (X i k * mulMV nN A (X j) k)%R) = X i j).
  { rewrite (sumN_ext nN _ (fun k => if j =? k then X i k else 0%R)) by (intros k Hk; rewrite HX by exact Hk; unfold unitv; destruct (j =? k); ring). apply sumN_delta; exact Hj. }
  assert (Q2 : sumN nN (fun k => (X j k * mulMV nN A (X i) k)%R) = X j i).
  { rewrite (sumN_ext nN _ (fun k => if i =? k then X j k else 0%R)) by (intros k Hk; rewrite HX by exact Hk; unfold unitv; destruct (i =? k); ring). apply sumN_delta; exact Hi. }
  rewrite <- Q1, <- Q2. unfold mulMV. rewrite (sumN_ext nN (fun k => (X i k * sumN nN (fun l => A k l * X j l))%R) (fun k => sumN nN (fun l => (X i k * A k l * X j l)%R))) by (intros k _; rewrite <- sumN_scale; apply sumN_ext; intros; ring).
  rewrite sumN_swap. apply sumN_ext. intros k Hk. rewrite <- sumN_scale. apply sumN_ext. intros l Hl. rewrite (Sym l k) by assumption. ring.
Qed.
Lemma computeMinv_inv B : identityM nN (matMul nN A (computeMinv m s B)).
Proof.
  intros i j Hi Hj. unfold matMul. rewrite (sumN_ext nN _ (fun k => (A i k * cholSolve m s (unitv j) k)%R)).
  - change (mulMV nN A (cholSolve m s (unitv j)) i = if i =? j then 1%R else 0%R). rewrite (solve_A (unitv j) i Hi). unfold unitv. now rewrite Nat.eqb_sym.
  - intros k Hk. rewrite computeMinv_at by assumption. destruct (j <? k); [|reflexivity]. now rewrite inv_sym.
Qed.
Lemma computeMinv_sym B i j : i < nN -> j < nN -> computeMinv m s B i j = computeMinv m s B j i.
Proof. intros Hi Hj. rewrite !computeMinv_at by assumption. destruct (Nat.ltb_spec j i), (Nat.ltb_spec i j); try lia; try reflexivity. replace i with j by lia. reflexivity. Qed.
End Mat.
