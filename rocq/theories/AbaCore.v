(* The articulated-body recursion on a kinematic tree, independently of the frames it is written in. *)
Require Import Reals List Arith Lia Lra Bool.
From Verif Require Import Vec3 Spatial Inertia Joints JointFacts Model Spec_Model ModelFacts ModelTree ModelFacts2 Sums Data KinFacts TreeSums DynFacts Spec_Aba MassFacts Aba.
Import ListNotations.
Local Open Scope nat_scope.

Definition sym6 (A : M6) : Prop := forall x y, v6dot x (m6vec A y) = v6dot y (m6vec A x).

Lemma Smul_dot S x f : v6dot f (Smul S x) = sumN (length S) (fun k => x k * v6dot f (nth k S v6zero))%R.
Proof. rewrite v6dot_comm, <- StMul_dot. apply sumN_ext. intros k _. unfold StMul. rewrite v6dot_comm. ring. Qed.
Lemma subOuter_dot a : forall b A x y, length a = length b ->
  v6dot x (m6vec (subOuter A a b) y) = (v6dot x (m6vec A y) - sumN (length a) (fun k => v6dot x (nth k a v6zero) * v6dot (nth k b v6zero) y))%R.
Proof.
  induction a as [|a0 a IH]; intros [|b0 b] A x y L; cbn in L; try lia; [cbn; ring|].
  unfold subOuter in *. cbn [combine fold_left fst snd]. rewrite IH by lia. cbn [length]. rewrite sumN_shift1. cbn [nth].
  rewrite m6vec_sub_l, m6outer_vec, v6dot_sub_r, v6dot_scale_r. ring.
Qed.
Lemma m6_Smul A S x : m6vec A (Smul S x) = Smul (map (m6vec A) S) x.
Proof.
  revert x. induction S as [|c S IH]; intros x; cbn [Smul map]; [apply m6vec_0_r|].
  now rewrite m6vec_add_r, m6vec_scale_r, IH.
Qed.
Lemma nth_m6 A S k : nth k (map (m6vec A) S) v6zero = m6vec A (nth k S v6zero).
Proof. rewrite <- (map_nth (m6vec A)). now rewrite m6vec_0_r. Qed.

Section Matrices.
Local Open Scope R_scope.
Lemma sumN_pick n k f : (k < n)%nat -> sumN n (fun l => (if Nat.eqb k l then 1 else 0) * f l) = f k.
Proof. intros H. rewrite <- (sumN_delta n k f H). apply sumN_ext. intros l _. destruct (Nat.eqb k l); ring. Qed.
(* a right inverse of a symmetric matrix is symmetric, hence also a left inverse *)
Lemma inverse_sym n A B : symmetricM n A -> identityM n (matMul n A B) -> symmetricM n B.
Proof.
  intros SA I.
  assert (E : forall k l, (k < n)%nat -> (l < n)%nat -> B l k = sumN n (fun a => B a k * sumN n (fun b => A a b * B b l))).
  { intros k l Hk Hl. rewrite (sumN_ext n (fun a => B a k * sumN n (fun b => A a b * B b l)) (fun a => (if Nat.eqb l a then 1 else 0) * B a k)).
    - now rewrite (sumN_pick n l (fun a => B a k)).
    - intros a Ha. pose proof (I a l Ha Hl) as E. unfold matMul in E. rewrite E, (Nat.eqb_sym l a). ring. }
  intros k l Hk Hl. rewrite (E l k Hl Hk), (E k l Hk Hl).
  rewrite (sumN_ext n (fun a => B a k * sumN n (fun b => A a b * B b l)) (fun a => sumN n (fun b => B a k * A a b * B b l))).
  - rewrite sumN_swap. apply sumN_ext. intros b Hb. rewrite <- sumN_scale. apply sumN_ext. intros a Ha. rewrite (SA a b Ha Hb). ring.
  - intros a Ha. rewrite <- sumN_scale. apply sumN_ext. intros b Hb. ring.
Qed.
Lemma finite_choice {X : Type} (x0 : X) n (Q : nat -> X -> Prop) : (forall i, (i < n)%nat -> exists x, Q i x) -> exists f, forall i, (i < n)%nat -> Q i (f i).
Proof.
  induction n as [|n IH]; intros H; [exists (fun _ => x0); intros; lia|].
  destruct (IH (fun i Hi => H i ltac:(lia))) as [f Hf]. destruct (H n ltac:(lia)) as [x Hx].
  exists (putn f n x). intros i Hi. destruct (Nat.eq_dec n i) as [->|Hn]; [now rewrite putn_same|]. rewrite putn_other by exact Hn. apply Hf. lia.
Qed.
End Matrices.

Section Core.
Variable m : Model.
Hypothesis W : wellFormed m.
Variables (up : nat -> V6 -> V6) (SS : nat -> list V6) (I0 : nat -> M6) (arm : nat -> nat -> R).
Variables (A : nat -> M6) (Dinv : nat -> nat -> nat -> R).
Let nvj i := length (SS i).
Let U i := map (m6vec (A i)) (SS i).
Let UD i := colsMul (U i) (Dinv i).
Let D i := StU (SS i) (U i) (arm i).
Let Ia i := subOuter (A i) (UD i) (U i).

Lemma colsMul_length Ul Di : length (colsMul Ul Di) = length Ul.
Proof. unfold colsMul. now rewrite map_length, seq_length. Qed.
Lemma colsMul_nth Ul Di k : k < length Ul -> nth k (colsMul Ul Di) v6zero = Smul Ul (fun l => Di l k).
Proof.
  intros H. unfold colsMul. rewrite (nth_indep _ _ (Smul Ul (fun l => Di l 0))) by now rewrite map_length, seq_length.
  rewrite (map_nth (fun k => Smul Ul (fun l => Di l k)) (seq 0 (length Ul)) 0 k). now rewrite seq_nth by exact H.
Qed.
Lemma U_length i : length (U i) = nvj i. Proof. unfold U, nvj. now rewrite map_length. Qed.

Hypothesis up0 : forall i, up i v6zero = v6zero.
Hypothesis I0sym : forall i, 0 < i < m_njoints m -> sym6 (I0 i).
(* articulated inertias *)
Hypothesis HA : forall i x y, 0 < i < m_njoints m -> (forall c, c < m_njoints m -> childb m i c = true -> sym6 (Ia c)) ->
  v6dot x (m6vec (A i) y) = (v6dot x (m6vec (I0 i) y) + sumN (m_njoints m) (fun c => if childb m i c then v6dot (up c x) (m6vec (Ia c) (up c y)) else 0))%R.
(* the inversion succeeds on symmetric positive definite matrices *)
Hypothesis HD : forall i, 0 < i < m_njoints m -> symmetricM (nvj i) (D i) -> positiveM (nvj i) (D i) -> identityM (nvj i) (matMul (nvj i) (D i) (Dinv i)).

(* one joint *)
Section One.
Variable i : nat.
Hypothesis Hi : 0 < i < m_njoints m.
Hypothesis As : sym6 (A i).
Hypothesis Di : identityM (nvj i) (matMul (nvj i) (D i) (Dinv i)).
Lemma D_sym : symmetricM (nvj i) (D i).
Proof.
  intros k l Hk Hl. unfold D, StU, U. rewrite !nth_m6, (As (nth k (SS i) v6zero)), (Nat.eqb_sym k l).
  destruct (Nat.eqb_spec l k) as [->|]; reflexivity.
Qed.
Lemma Dinv_sym : symmetricM (nvj i) (Dinv i).
Proof. exact (inverse_sym _ _ _ D_sym Di). Qed.
Lemma UD_dot x k : k < nvj i -> v6dot x (nth k (UD i) v6zero) = sumN (nvj i) (fun l => Dinv i l k * v6dot x (nth l (U i) v6zero))%R.
Proof. intros Hk. unfold UD. rewrite colsMul_nth by now rewrite U_length. now rewrite Smul_dot, U_length. Qed.
Lemma Ia_dot x y : v6dot x (m6vec (Ia i) y) =
  (v6dot x (m6vec (A i) y) - sumN (nvj i) (fun k => sumN (nvj i) (fun l => Dinv i l k * v6dot x (nth l (U i) v6zero)) * v6dot (nth k (U i) v6zero) y))%R.
Proof.
  unfold Ia. rewrite subOuter_dot by apply colsMul_length. f_equal. unfold UD at 1. rewrite colsMul_length, U_length.
  apply sumN_ext. intros k Hk. now rewrite UD_dot.
Qed.
Lemma Ia_sym : sym6 (Ia i).
Proof.
  intros x y. rewrite !Ia_dot, (As x y). f_equal.
  rewrite (sumN_ext _ _ (fun k => sumN (nvj i) (fun l => Dinv i l k * v6dot x (nth l (U i) v6zero) * v6dot (nth k (U i) v6zero) y)%R))
    by (intros k Hk; now rewrite sumN_scale_r).
  rewrite sumN_swap. apply sumN_ext. intros l Hl. rewrite <- sumN_scale_r. apply sumN_ext. intros k Hk.
  rewrite (Dinv_sym k l Hk Hl), (v6dot_comm x), (v6dot_comm y). ring.
Qed.
(* the solved joint acceleration and what it makes of the force *)
Variables (u w : nat -> R) (a' a : V6).
Hypothesis Hw : forall k, k < nvj i -> w k = (sumN (nvj i) (fun l => Dinv i k l * u l) - v6dot (nth k (UD i) v6zero) a')%R.
Hypothesis Ha : a = v6add a' (Smul (SS i) w).
Lemma solved_w k : k < nvj i -> w k = sumN (nvj i) (fun l => Dinv i k l * (u l - v6dot (nth l (U i) v6zero) a'))%R.
Proof.
  intros Hk. rewrite (Hw k Hk), (v6dot_comm _ a'), UD_dot by exact Hk. rewrite <- sumN_sub. apply sumN_ext. intros l Hl.
  rewrite (Dinv_sym l k Hl Hk), (v6dot_comm a'). ring.
Qed.
Lemma solved_force x : v6dot x (m6vec (A i) a) = (v6dot x (m6vec (Ia i) a') + v6dot x (Smul (UD i) u))%R.
Proof.
  rewrite Ha, m6vec_add_r, v6dot_add_r, Ia_dot, m6_Smul, !Smul_dot. fold (U i). unfold UD at 1. rewrite colsMul_length, U_length.
  assert (E : forall f g h, (g = h + f)%R -> (v6dot x (m6vec (A i) a') + g = v6dot x (m6vec (A i) a') - (- h) + f)%R) by (intros; lra).
  rewrite (sumN_ext (nvj i) (fun k => w k * v6dot x (nth k (U i) v6zero))%R
    (fun k => sumN (nvj i) (fun l => Dinv i k l * u l * v6dot x (nth k (U i) v6zero)) - sumN (nvj i) (fun l => Dinv i k l * v6dot (nth l (U i) v6zero) a' * v6dot x (nth k (U i) v6zero)))%R).
  2:{ intros k Hk. rewrite (solved_w k Hk), <- sumN_sub, <- sumN_scale_r. apply sumN_ext. intros l Hl. ring. }
  rewrite sumN_sub. rewrite (sumN_swap (nvj i) (nvj i) (fun k l => Dinv i k l * u l * v6dot x (nth k (U i) v6zero))%R).
  rewrite (sumN_swap (nvj i) (nvj i) (fun k l => Dinv i k l * v6dot (nth l (U i) v6zero) a' * v6dot x (nth k (U i) v6zero))%R).
  rewrite (sumN_ext (nvj i) (fun k => u k * v6dot x (nth k (UD i) v6zero))%R (fun l => sumN (nvj i) (fun k => Dinv i k l * u l * v6dot x (nth k (U i) v6zero)))%R).
  2:{ intros k Hk. rewrite UD_dot by exact Hk. rewrite <- sumN_scale. apply sumN_ext. intros l Hl. ring. }
  rewrite (sumN_ext (nvj i) (fun k => sumN (nvj i) (fun l => Dinv i l k * v6dot x (nth l (U i) v6zero)) * v6dot (nth k (U i) v6zero) a')%R
     (fun l => sumN (nvj i) (fun k => Dinv i k l * v6dot (nth l (U i) v6zero) a' * v6dot x (nth k (U i) v6zero)))%R).
  2:{ intros k Hk. rewrite <- sumN_scale_r. apply sumN_ext. intros l Hl. ring. }
  lra.
Qed.
Lemma solved_torque k : k < nvj i -> (v6dot (nth k (SS i) v6zero) (m6vec (A i) a) + arm i k * w k = u k)%R.
Proof.
  intros Hk. rewrite Ha, m6vec_add_r, v6dot_add_r, m6_Smul, Smul_dot. fold (U i). rewrite U_length.
  assert (E : (sumN (nvj i) (fun l => w l * v6dot (nth k (SS i) v6zero) (nth l (U i) v6zero)) + arm i k * w k = sumN (nvj i) (fun l => D i k l * w l))%R).
  { rewrite <- (sumN_pick (nvj i) k (fun l => arm i k * w l)%R Hk), <- sumN_add. apply sumN_ext. intros l Hl. unfold D, StU.
    destruct (k =? l); ring. }
  rewrite Rplus_assoc, E.
  rewrite (sumN_ext (nvj i) (fun l => D i k l * w l)%R (fun l => sumN (nvj i) (fun j => D i k l * Dinv i l j * (u j - v6dot (nth j (U i) v6zero) a')))%R).
  2:{ intros l Hl. rewrite (solved_w l Hl), <- sumN_scale. apply sumN_ext. intros j Hj. ring. }
  rewrite sumN_swap.
  rewrite (sumN_ext (nvj i) _ (fun j => (if k =? j then 1 else 0) * (u j - v6dot (nth j (U i) v6zero) a'))%R).
  2:{ intros j Hj. rewrite sumN_scale_r. f_equal. exact (Di k j Hk Hj). }
  rewrite sumN_pick by exact Hk. unfold U. rewrite nth_m6, (As (nth k (SS i) v6zero) a'), (v6dot_comm _ a'). lra.
Qed.
End One.

(* total power of the body forces is the power of the joint forces *)
Lemma telescope V s g f : V 0 = v6zero -> (forall i, 0 < i < m_njoints m -> V i = v6add (s i) (up i (V (parent m i)))) ->
  (forall i, 0 < i < m_njoints m -> v6dot (V i) (g i) = (v6dot (V i) (f i) - sumN (m_njoints m) (fun c => if childb m i c then v6dot (up c (V i)) (f c) else 0))%R) ->
  sumN (m_njoints m) (fun i => if 0 <? i then v6dot (V i) (g i) else 0%R) = sumN (m_njoints m) (fun i => if 0 <? i then v6dot (s i) (f i) else 0%R).
Proof.
  intros V0 HV Hg. pose proof (wf_n m W) as Hn.
  rewrite (sumN_ext _ (fun i => if 0 <? i then v6dot (V i) (g i) else 0%R)
     (fun i => (if 0 <? i then v6dot (V i) (f i) else 0) - sumN (m_njoints m) (fun c => if (0 <? i) && childb m i c then v6dot (up c (V i)) (f c) else 0))%R).
  2:{ intros i Hi. destruct (Nat.ltb_spec 0 i); cbn [andb]; [now apply Hg; lia | rewrite sumN_0; ring]. }
  rewrite sumN_sub, (sumN_swap (m_njoints m) (m_njoints m) (fun i c => if (0 <? i) && childb m i c then v6dot (up c (V i)) (f c) else 0%R)), <- sumN_sub.
  apply sumN_ext. intros c Hc. destruct (Nat.ltb_spec 0 c) as [Hc0|Hc0].
  - pose proof (wf_parent m W c ltac:(lia)) as Hp.
    rewrite (sumN_ext _ _ (fun i => if parent m c =? i then v6dot (up c (V i)) (f c) else 0%R)).
    + rewrite sumN_delta by lia. rewrite (HV c) by lia. rewrite v6dot_add_l. ring.
    + intros i Hi. unfold childb. destruct (Nat.ltb_spec 0 c); [|lia]. cbn [andb]. destruct (Nat.ltb_spec 0 i); cbn [andb]; [reflexivity|].
      replace i with 0 by lia. destruct (parent m c =? 0); [|reflexivity]. now rewrite V0, up0, v6dot_0_l.
  - rewrite sumN_zero; [ring|]. intros i Hi. unfold childb. destruct (Nat.ltb_spec 0 c); [lia|]. now rewrite !andb_false_r.
Qed.

(* the kinetic energy of the tree is positive for every non-zero joint velocity *)
Hypothesis PD : forall V w, V 0 = v6zero -> (forall i, 0 < i < m_njoints m -> V i = v6add (Smul (SS i) (w i)) (up i (V (parent m i)))) ->
  (exists i k, 0 < i < m_njoints m /\ k < nvj i /\ w i k <> 0%R) ->
  (0 < sumN (m_njoints m) (fun i => if 0 <? i then v6dot (V i) (m6vec (I0 i) (V i)) else 0) + sumN (m_njoints m) (fun i => if 0 <? i then sumN (nvj i) (fun k => arm i k * w i k * w i k) else 0))%R.

Lemma pivots i : 0 < i < m_njoints m -> sym6 (A i) /\ identityM (nvj i) (matMul (nvj i) (D i) (Dinv i)).
Proof.
  remember (m_njoints m - i) as r eqn:Er. revert i Er. induction r as [r IH] using (well_founded_induction lt_wf). intros i Er Hi.
  assert (IHc : forall c, i < c < m_njoints m -> sym6 (A c) /\ identityM (nvj c) (matMul (nvj c) (D c) (Dinv c)))
    by (intros c Hc; apply (IH (m_njoints m - c)); lia). clear IH.
  assert (As : sym6 (A i)).
  { intros x y.
    assert (Sc : forall c, c < m_njoints m -> childb m i c = true -> sym6 (Ia c)).
    { intros c Hc E. unfold childb in E. destruct (Nat.ltb_spec 0 c), (Nat.eqb_spec (parent m c) i); try discriminate.
      pose proof (wf_parent m W c ltac:(lia)). destruct (IHc c ltac:(lia)) as [S1 S2]. apply (Ia_sym c S1 S2). }
    rewrite !HA by (exact Hi || exact Sc). rewrite (I0sym i Hi x y). f_equal. apply sumN_ext. intros c Hc. unfold childb.
    destruct (Nat.ltb_spec 0 c), (Nat.eqb_spec (parent m c) i); cbn [andb]; try reflexivity.
    pose proof (wf_parent m W c ltac:(lia)). destruct (IHc c ltac:(lia)) as [S1 S2]. apply (Ia_sym c S1 S2). }
  split; [exact As|]. apply HD; [exact Hi | exact (D_sym i As)|].
  intros x Hx.
  pose (wOf := fun j (vp : V6) => if j =? i then x else fun k => (- v6dot (nth k (UD j) v6zero) (up j vp))%R).
  pose (step := fun (s : nat -> V6) j => putn s j (if j <? i then v6zero else v6add (Smul (SS j) (wOf j (s (parent m j)))) (up j (s (parent m j))))).
  assert (HV : exists V, V 0 = v6zero /\ (forall j, 0 < j < m_njoints m -> V j = if j <? i then v6zero else v6add (Smul (SS j) (wOf j (V (parent m j)))) (up j (V (parent m j))))).
  { exists (upward m step (fun _ => v6zero)).
    pose (Inv := fun k (s : nat -> V6) => s 0 = v6zero /\ (forall j, 0 < j < k -> s j = if j <? i then v6zero else v6add (Smul (SS j) (wOf j (s (parent m j)))) (up j (s (parent m j))))).
    assert (H : Inv (m_njoints m) (upward m step (fun _ => v6zero))).
    { apply upward_inv.
      - apply (wf_n m W).
      - split; [reflexivity | intros; lia].
      - intros k s Hk [s0 Hs]. pose proof (wf_parent m W k Hk) as Hp. unfold step. split; [now rewrite putn_other by lia|].
        intros j Hj. assert (Hpj : parent m j < j) by (apply (wf_parent m W); lia). destruct (Nat.eq_dec k j) as [->|Hn].
        + rewrite putn_same. now rewrite putn_other by lia.
        + rewrite !putn_other by lia. apply Hs. lia. }
    exact H. }
  destruct HV as (V & V0 & HV).
  assert (Vlow : forall j, j < i -> V j = v6zero).
  { intros j Hj. destruct (Nat.eq_dec j 0) as [->|]; [exact V0|]. rewrite HV by lia. destruct (Nat.ltb_spec j i); [reflexivity|lia]. }
  pose (w := fun j => if j <? i then (fun _ => 0%R) else wOf j (V (parent m j))).
  assert (HVw : forall j, 0 < j < m_njoints m -> V j = v6add (Smul (SS j) (w j)) (up j (V (parent m j)))).
  { intros j Hj. rewrite (HV j Hj) at 1. unfold w. destruct (Nat.ltb_spec j i); [|reflexivity].
    pose proof (wf_parent m W j Hj). rewrite (Vlow (parent m j)) by lia. rewrite up0, Smul_0. symmetry; apply v6add_0_l. }
  assert (wi : w i = x).
  { unfold w, wOf. rewrite Nat.ltb_irrefl, Nat.eqb_refl. reflexivity. }
  assert (wgt : forall j, i < j < m_njoints m -> forall k, k < nvj j -> w j k = (sumN (nvj j) (fun l => Dinv j k l * 0) - v6dot (nth k (UD j) v6zero) (up j (V (parent m j))))%R).
  { intros j Hj k Hk. unfold w, wOf. destruct (Nat.ltb_spec j i); [lia|]. destruct (Nat.eqb_spec j i); [lia|].
    rewrite (sumN_zero _ (fun l => Dinv j k l * 0)%R) by (intros; ring). ring. }
  assert (Hpos := PD V w V0 HVw ltac:(destruct Hx as (k & Hk & Hxk); exists i, k; rewrite wi; auto)).
  rewrite (telescope V (fun j => Smul (SS j) (w j)) (fun j => m6vec (I0 j) (V j)) (fun j => m6vec (A j) (V j)) V0 HVw) in Hpos.
  2:{ intros j Hj. destruct (Nat.lt_ge_cases j i) as [Hji|Hji].
      { rewrite (Vlow j Hji), !v6dot_0_l. rewrite sumN_zero; [ring|]. intros c Hc. rewrite up0, v6dot_0_l. now destruct (childb m j c). }
      assert (Sc : forall c, c < m_njoints m -> childb m j c = true -> sym6 (Ia c)).
      { intros c Hc E. unfold childb in E. destruct (Nat.ltb_spec 0 c), (Nat.eqb_spec (parent m c) j); try discriminate.
        pose proof (wf_parent m W c ltac:(lia)). destruct (IHc c ltac:(lia)) as [S1 S2]. apply (Ia_sym c S1 S2). }
      rewrite HA by (exact Hj || exact Sc). rewrite Rplus_comm. unfold Rminus. rewrite Rplus_assoc.
      rewrite (sumN_ext _ (fun c => if childb m j c then v6dot (up c (V j)) (m6vec (Ia c) (up c (V j))) else 0%R)
         (fun c => if childb m j c then v6dot (up c (V j)) (m6vec (A c) (V c)) else 0%R)); [ring|].
      intros c Hc. unfold childb. destruct (Nat.ltb_spec 0 c), (Nat.eqb_spec (parent m c) j) as [Ep|]; cbn [andb]; try reflexivity.
      pose proof (wf_parent m W c ltac:(lia)) as Hpc. destruct (IHc c ltac:(lia)) as [S1 S2].
      rewrite (solved_force c S1 S2 (fun _ => 0%R) (w c) (up c (V j)) (V c)).
      - rewrite Smul_0, v6dot_0_r. ring.
      - intros k Hk. rewrite <- Ep. apply (wgt c ltac:(lia) k Hk).
      - rewrite (HVw c) by lia. rewrite Ep. apply v6add_comm. }
  rewrite <- sumN_add in Hpos.
  rewrite (sumN_ext _ _ (fun j => if i =? j then sumN (nvj i) (fun k => x k * sumN (nvj i) (fun l => D i k l * x l)) else 0)%R) in Hpos.
  { rewrite sumN_delta in Hpos by lia. exact Hpos. }
  intros j Hj. destruct (Nat.ltb_spec 0 j); [|destruct (Nat.eqb_spec i j); [lia|ring]].
  assert (E : (v6dot (Smul (SS j) (w j)) (m6vec (A j) (V j)) + sumN (nvj j) (fun k => arm j k * w j k * w j k) = sumN (nvj j) (fun k => w j k * (v6dot (nth k (SS j) v6zero) (m6vec (A j) (V j)) + arm j k * w j k)))%R).
  { rewrite v6dot_comm, Smul_dot, <- sumN_add. fold (nvj j). apply sumN_ext. intros k Hk. rewrite (v6dot_comm _ (nth k _ _)). ring. }
  rewrite E. destruct (Nat.eqb_spec i j) as [<-|Hne].
  - apply sumN_ext. intros k Hk. rewrite wi. f_equal. rewrite (HVw i) by exact Hi. pose proof (wf_parent m W i Hi).
    rewrite (Vlow (parent m i)) by lia. rewrite up0, v6add_0_r, wi, m6_Smul, Smul_dot. fold (U i). rewrite U_length.
    rewrite <- (sumN_pick (nvj i) k (fun l => arm i k * x l)%R Hk), <- sumN_add. apply sumN_ext. intros l Hl. unfold D, StU. destruct (k =? l); ring.
  - apply sumN_zero. intros k Hk. destruct (Nat.lt_ge_cases j i) as [Hji|Hji].
    + unfold w. destruct (Nat.ltb_spec j i); [ring|lia].
    + destruct (IHc j ltac:(lia)) as [S1 S2].
      rewrite (solved_torque j S1 S2 (fun _ => 0%R) (w j) (up j (V (parent m j))) (V j)); [ring | | | exact Hk].
      * intros k' Hk'. apply (wgt j ltac:(lia) k' Hk').
      * rewrite (HVw j) at 1 by lia. apply v6add_comm.
Qed.

(* the recursion solves the equations of motion *)
Variables (P b ab a : nat -> V6) (u tau w : nat -> nat -> R).
Hypothesis HP : forall i x, 0 < i < m_njoints m -> v6dot x (P i) =
  (v6dot x (b i) + sumN (m_njoints m) (fun c => if childb m i c then v6dot (up c x) (v6add (P c) (v6add (m6vec (Ia c) (ab c)) (Smul (UD c) (u c)))) else 0))%R.
Hypothesis Hu : forall i k, 0 < i < m_njoints m -> k < nvj i -> u i k = (tau i k - v6dot (nth k (SS i) v6zero) (P i))%R.
Hypothesis Hw : forall i k, 0 < i < m_njoints m -> k < nvj i ->
  w i k = (sumN (nvj i) (fun l => Dinv i k l * u i l) - v6dot (nth k (UD i) v6zero) (v6add (ab i) (up i (a (parent m i)))))%R.
Hypothesis Hacc : forall i, 0 < i < m_njoints m -> a i = v6add (v6add (ab i) (up i (a (parent m i)))) (Smul (SS i) (w i)).

Lemma aba_core V z : V 0 = v6zero -> (forall i, 0 < i < m_njoints m -> V i = v6add (Smul (SS i) (z i)) (up i (V (parent m i)))) ->
  (sumN (m_njoints m) (fun i => if 0 <? i then v6dot (V i) (v6add (m6vec (I0 i) (a i)) (b i)) else 0) +
   sumN (m_njoints m) (fun i => if 0 <? i then sumN (nvj i) (fun k => arm i k * w i k * z i k) else 0) =
   sumN (m_njoints m) (fun i => if 0 <? i then sumN (nvj i) (fun k => tau i k * z i k) else 0))%R.
Proof.
  intros V0 HV.
  rewrite (telescope V (fun i => Smul (SS i) (z i)) (fun i => v6add (m6vec (I0 i) (a i)) (b i)) (fun i => v6add (m6vec (A i) (a i)) (P i)) V0 HV).
  - rewrite <- sumN_add. apply sumN_ext. intros i Hi. destruct (Nat.ltb_spec 0 i); [|ring]. destruct (pivots i ltac:(lia)) as [S1 S2].
    rewrite v6dot_comm, Smul_dot. fold (nvj i). rewrite <- sumN_add. apply sumN_ext. intros k Hk. rewrite (v6dot_comm _ (nth k _ _)), v6dot_add_r.
    pose proof (solved_torque i S1 S2 (u i) (w i) _ (a i) (fun k Hk => Hw i k ltac:(lia) Hk) (Hacc i ltac:(lia)) k Hk) as E.
    rewrite (Hu i k) in E by (try lia; exact Hk).
    replace (tau i k) with (v6dot (nth k (SS i) v6zero) (m6vec (A i) (a i)) + arm i k * w i k + v6dot (nth k (SS i) v6zero) (P i))%R by lra. ring.
  - intros i Hi.
    assert (Sc : forall c, c < m_njoints m -> childb m i c = true -> sym6 (Ia c)).
    { intros c Hc E. unfold childb in E. destruct (Nat.ltb_spec 0 c), (Nat.eqb_spec (parent m c) i); try discriminate.
      destruct (pivots c ltac:(lia)) as [S1 S2]. apply (Ia_sym c S1 S2). }
    rewrite !v6dot_add_r, (HA i _ _ Hi Sc), (HP i _ Hi).
    assert (E : forall p q r s t : R, (s + t = r -> p + q = p + s + (q + t) - r)%R) by (intros; lra). apply E.
    rewrite <- sumN_add. apply sumN_ext. intros c Hc. unfold childb.
    destruct (Nat.ltb_spec 0 c), (Nat.eqb_spec (parent m c) i) as [Ep|]; cbn [andb]; try ring.
    destruct (pivots c ltac:(lia)) as [S1 S2].
    rewrite !v6dot_add_r. rewrite (solved_force c S1 S2 (u c) (w c) _ (a c) (fun k Hk => Hw c k ltac:(lia) Hk) (Hacc c ltac:(lia))).
    rewrite Ep, m6vec_add_r, v6dot_add_r. ring.
Qed.
End Core.
