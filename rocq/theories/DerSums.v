(* Matrices whose entries are sums over the bodies carried by two joints. *)
Require Import Reals List Arith ZArith Lia Lra Bool.
From Verif Require Import Vec3 Spatial Inertia InertiaFacts SpatialFacts Joints Model Spec_Model ModelFacts ModelTree ModelFacts2 Sums Data Kinematics Spec_Kin Spec_Mass KinFacts KinFacts2 Spec_Dyn DynFacts DynFacts2 TreeSums MassFacts Crba CrbaFacts CrbaFacts2 AbaFacts Spec_Jac JacFacts JacFacts2 JacFacts3 Centroidal CentFacts CentFacts2 Dccrba DccrbaFacts DataX.
Import ListNotations.
Local Open Scope nat_scope.

Lemma addForceCross_vec f B x : m6vec (addForceCross f B) x = v6add (m6vec B x) (force_cross x f).
Proof. unfold addForceCross. sring. Qed.
Lemma cross_dot_swap a b f : v6dot a (force_cross b f) = v6dot (motion_cross a b) f.
Proof. ssimp. ring. Qed.

(* sum over the bodies carried by both joints *)
Definition common (m : Model) (i j : nat) (g : nat -> R) : R := sumN (m_njoints m) (fun b => if anc m i b && anc m j b then g b else 0%R).

Section Sums.
Variable m : Model.
Hypothesis W : wellFormed m.
Hypothesis T : treeInv m.

Lemma common_below i j g : anc m i j = true -> common m i j g = subSum m j g.
Proof. intros A. apply sumN_ext. intros b Hb. destruct (anc m j b) eqn:E; [now rewrite (anc_trans m W T i j b Hb A E) | now rewrite andb_false_r]. Qed.
Lemma common_above i j g : anc m j i = true -> common m i j g = subSum m i g.
Proof. intros A. apply sumN_ext. intros b Hb. destruct (anc m i b) eqn:E; [now rewrite (anc_trans m W T j i b Hb A E) | reflexivity]. Qed.
Lemma common_off i j g : anc m i j = false -> anc m j i = false -> common m i j g = 0%R.
Proof.
  intros A B. apply sumN_zero. intros b Hb. destruct (anc m i b) eqn:E, (anc m j b) eqn:E2; try reflexivity.
  destruct (anc_comparable m W T i j b Hb E E2); congruence.
Qed.
Lemma common_sub i j g : common m i j g = subSum m j (fun b => if anc m i b then g b else 0%R).
Proof. apply sumN_ext. intros b Hb. destruct (anc m i b), (anc m j b); reflexivity. Qed.
Lemma common_ext i j f g : 0 < i -> (forall b, 0 < b < m_njoints m -> f b = g b) -> common m i j f = common m i j g.
Proof.
  intros Hi H. apply sumN_ext. intros b Hb. destruct (anc m i b) eqn:E; [|reflexivity]. destruct (anc m j b); [|reflexivity]. cbn [andb].
  apply H. apply (anc_le m W T) in E; lia.
Qed.
Lemma common_add i j f g : common m i j (fun b => f b + g b)%R = (common m i j f + common m i j g)%R.
Proof. unfold common. rewrite <- sumN_add. apply sumN_ext. intros b Hb. destruct (anc m i b && anc m j b); ring. Qed.
Lemma subSum_add i f g : subSum m i (fun b => f b + g b)%R = (subSum m i f + subSum m i g)%R.
Proof. unfold subSum. rewrite <- sumN_add. apply sumN_ext. intros b Hb. destruct (anc m i b); ring. Qed.
Lemma subSum_bodies i g : 0 < i -> subSum m i g = bodies m (fun b => if anc m i b then g b else 0%R).
Proof. intros Hi. rewrite (bodies_all m W); [reflexivity|]. rewrite (anc_0 m W T). destruct (Nat.eqb_spec i 0); [lia | reflexivity]. Qed.

Hypothesis Vm : validModel m.
Hypothesis NM : noMimic m.
(* what the columns X of joint j give for the velocity w *)
Definition colsOf (X : nat -> nat -> V6) (w : vec) (j : nat) : V6 := colsMul (nvOf m j) (X j) (shift (idx_v m j) w).

Lemma dof_anc (G : nat -> V6 -> R) (A : nat -> nat -> V6) (f u : nat -> R) :
  (forall b, G b v6zero = 0%R) -> (forall b x y, G b (v6add x y) = G b x + G b y)%R -> (forall b c x, G b (v6scale c x) = c * G b x)%R ->
  (forall i a, 0 < i < m_njoints m -> a < nvOf m i -> f (idx_v m i + a) = subSum m i (fun b => G b (A i a))) ->
  sumN (m_nv m) (fun k => f k * u k)%R = bodies m (fun b => G b (sumF (colsOf A u) (tl (support m b)))).
Proof.
  intros G0 GA GS H. rewrite (dof_sum m W NM). rewrite <- (share_sum m W T G (colsOf A u) G0 GA). apply sumN_ext. intros i Hi.
  destruct (Nat.ltb_spec 0 i); [|reflexivity].
  rewrite (sumN_ext (nvOf m i) _ (fun a => sumN (m_njoints m) (fun b => if anc m i b then u (idx_v m i + a)%nat * G b (A i a) else 0))%R).
  - rewrite sumN_swap. apply sumN_ext. intros b Hb. destruct (anc m i b); [|apply sumN_0]. unfold colsOf, shift.
    assert (E : forall n x, sumN n (fun a => x a * G b (A i a))%R = G b (colsMul n (A i) x)).
    { intros n x. induction n as [|n IH]; cbn [colsMul sumN]; [now rewrite G0|]. now rewrite GA, GS, IH. }
    apply E.
  - intros a Ha. rewrite (H i a ltac:(lia) Ha), Rmult_comm. unfold subSum. rewrite <- sumN_scale. apply sumN_ext. intros b Hb. destruct (anc m i b); ring.
Qed.
Lemma common_form (B : nat -> V6 -> V6 -> R) (A X : nat -> nat -> V6) (E : nat -> nat -> R) (u w : nat -> R) :
  (forall b x, B b v6zero x = 0%R) -> (forall b x y z, B b (v6add x y) z = B b x z + B b y z)%R -> (forall b c x y, B b (v6scale c x) y = c * B b x y)%R ->
  (forall b x, B b x v6zero = 0%R) -> (forall b x y z, B b x (v6add y z) = B b x y + B b x z)%R -> (forall b c x y, B b x (v6scale c y) = c * B b x y)%R ->
  (forall i a j c, 0 < i < m_njoints m -> a < nvOf m i -> 0 < j < m_njoints m -> c < nvOf m j ->
     E (idx_v m i + a) (idx_v m j + c) = common m i j (fun b => B b (A i a) (X j c))) ->
  sumN (m_nv m) (fun k => sumN (m_nv m) (fun l => E k l * w l) * u k)%R =
  bodies m (fun b => B b (sumF (colsOf A u) (tl (support m b))) (sumF (colsOf X w) (tl (support m b)))).
Proof.
  intros B0 BA BS C0 CA CS H.
  apply (dof_anc (fun b x => B b x (sumF (colsOf X w) (tl (support m b)))) A (fun k => sumN (m_nv m) (fun l => E k l * w l))%R u); auto.
  intros i a Hi Ha. cbv beta.
  rewrite (dof_anc (fun b x => if anc m i b then B b (A i a) x else 0%R) X (fun l => E (idx_v m i + a) l) w).
  - symmetry. apply subSum_bodies. lia.
  - intros b. destruct (anc m i b); auto.
  - intros b x y. destruct (anc m i b); [auto | ring].
  - intros b c x. destruct (anc m i b); [auto | ring].
  - intros j c Hj Hc. rewrite (H i a j c Hi Ha Hj Hc). apply common_sub.
Qed.
(* only the joints strictly above count on the left *)
Lemma above_form (B : nat -> V6 -> V6 -> R) (A X : nat -> nat -> V6) (E : nat -> nat -> R) (u w : nat -> R) :
  (forall b x, B b v6zero x = 0%R) -> (forall b x y z, B b (v6add x y) z = B b x z + B b y z)%R -> (forall b c x y, B b (v6scale c x) y = c * B b x y)%R ->
  (forall b x, B b x v6zero = 0%R) -> (forall b x y z, B b x (v6add y z) = B b x y + B b x z)%R -> (forall b c x y, B b x (v6scale c y) = c * B b x y)%R ->
  (forall i a j c, 0 < i < m_njoints m -> a < nvOf m i -> 0 < j < m_njoints m -> c < nvOf m j ->
     E (idx_v m i + a) (idx_v m j + c) = if anc m i (parent m j) then subSum m j (fun b => B b (A i a) (X j c)) else 0%R) ->
  sumN (m_nv m) (fun k => sumN (m_nv m) (fun l => E k l * w l) * u k)%R =
  sumN (m_njoints m) (fun j => if 0 <? j then subSum m j (fun b => B b (sumF (colsOf A u) (tl (support m (parent m j)))) (colsOf X w j)) else 0%R).
Proof.
  intros B0 BA BS C0 CA CS H.
  rewrite (sumN_ext (m_nv m) _ (fun k => sumN (m_nv m) (fun l => E k l * w l * u k)%R)) by (intros k Hk; rewrite (Rmult_comm _ (u k)), <- sumN_scale; apply sumN_ext; intros; ring).
  rewrite sumN_swap.
  rewrite (sumN_ext (m_nv m) _ (fun l => sumN (m_nv m) (fun k => E k l * u k) * w l)%R) by (intros l Hl; rewrite (Rmult_comm _ (w l)), <- sumN_scale; apply sumN_ext; intros; ring).
  rewrite (dof_sum m W NM). apply sumN_ext. intros j Hj. destruct (Nat.ltb_spec 0 j) as [H0|]; [|reflexivity].
  pose proof (wf_parent _ W j ltac:(lia)) as Hp.
  rewrite (sumN_ext (nvOf m j) _ (fun c => sumN (m_njoints m) (fun b => if anc m j b then w (idx_v m j + c)%nat * B b (sumF (colsOf A u) (tl (support m (parent m j)))) (X j c) else 0))%R).
  - rewrite sumN_swap. apply sumN_ext. intros b Hb. destruct (anc m j b); [|apply sumN_0]. unfold colsOf, shift.
    assert (E1 : forall n x y, sumN n (fun a => x a * B b y (X j a))%R = B b y (colsMul n (X j) x)).
    { intros n x y. induction n as [|n IH]; cbn [colsMul sumN]; [now rewrite C0|]. now rewrite CA, CS, IH. }
    apply E1.
  - intros c Hc.
    assert (EK : sumN (m_nv m) (fun k => E k (idx_v m j + c)%nat * u k)%R = subSum m j (fun b => B b (sumF (colsOf A u) (tl (support m (parent m j)))) (X j c))).
    { rewrite (dof_anc (fun b' x => if b' =? parent m j then subSum m j (fun b => B b x (X j c)) else 0%R) A (fun k => E k (idx_v m j + c)) u).
      - rewrite (bodies_all m W).
        + rewrite (sumN_ext _ _ (fun b' => if parent m j =? b' then subSum m j (fun b => B b (sumF (colsOf A u) (tl (support m b'))) (X j c)) else 0%R)) by (intros b' _; rewrite Nat.eqb_sym; reflexivity).
          now rewrite (sumN_delta (m_njoints m) (parent m j) (fun b' => subSum m j (fun b => B b (sumF (colsOf A u) (tl (support m b'))) (X j c)))) by lia.
        + destruct (0 =? parent m j); [|reflexivity]. rewrite (support_0 m W T). cbn. apply sumN_zero. intros b Hb. destruct (anc m j b); auto.
      - intros b'. destruct (b' =? parent m j); [|reflexivity]. apply sumN_zero. intros b Hb. destruct (anc m j b); auto.
      - intros b' x y. destruct (b' =? parent m j); [|ring]. unfold subSum. rewrite <- sumN_add. apply sumN_ext. intros b Hb. destruct (anc m j b); [auto|ring].
      - intros b' e x. destruct (b' =? parent m j); [|ring]. unfold subSum. rewrite <- sumN_scale. apply sumN_ext. intros b Hb. destruct (anc m j b); [auto|ring].
      - intros i a Hi Ha. rewrite (H i a j c Hi Ha ltac:(lia) Hc). unfold subSum at 2.
        rewrite (sumN_ext _ _ (fun b' => if parent m j =? b' then (if anc m i b' then subSum m j (fun b => B b (A i a) (X j c)) else 0%R) else 0%R)).
        + now rewrite (sumN_delta (m_njoints m) (parent m j) (fun b' => if anc m i b' then subSum m j (fun b => B b (A i a) (X j c)) else 0%R)) by lia.
        + intros b' _. rewrite (Nat.eqb_sym b'). destruct (parent m j =? b'), (anc m i b'); reflexivity. }
    rewrite EK, Rmult_comm. unfold subSum. rewrite <- sumN_scale. apply sumN_ext. intros b Hb. destruct (anc m j b); ring.
Qed.

Lemma colsOf_world q w i : 0 < i < m_njoints m -> colsOf (worldCol m q) w i = share m q w i.
Proof.
  intros Hi. unfold colsOf, share, jointTwist. rewrite <- colsMul_Smul, (jS_len m W Vm NM q noVel i Hi).
  rewrite <- (colsMul_map (motion_act (worldPl m q i))) by (intros; apply motion_act_0 || apply motion_act_add || apply motion_act_scale). reflexivity.
Qed.
Lemma sum_world q w b : validState m q -> b < m_njoints m -> sumF (colsOf (worldCol m q) w) (tl (support m b)) = worldVel m q w b.
Proof.
  intros Hq Hb. rewrite (worldVel_share m W T Vm q w b Hq Hb). apply sumF_ext. intros i Hi. apply colsOf_world. exact (tl_range m W T b Hb i Hi).
Qed.
(* columns that are a linear function of the columns of the Jacobian *)
Lemma colsOf_lin q w i (L : nat -> V6 -> V6) X : 0 < i < m_njoints m ->
  (forall j, L j v6zero = v6zero) -> (forall j x y, L j (v6add x y) = v6add (L j x) (L j y)) -> (forall j c x, L j (v6scale c x) = v6scale c (L j x)) ->
  (forall c, c < nvOf m i -> X i c = L i (worldCol m q i c)) -> colsOf X w i = L i (share m q w i).
Proof.
  intros Hi L0 LA LS H. rewrite <- (colsOf_world q w i Hi). unfold colsOf. rewrite <- (colsMul_map (L i)) by auto. now apply colsMul_ext.
Qed.
End Sums.
