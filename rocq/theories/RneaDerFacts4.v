(* The matrices of computeRNEADerivatives against the derivatives. *)
Require Import Reals List Arith ZArith Lia Lra Bool.
From Verif Require Import Vec3 Spatial Inertia InertiaFacts SpatialFacts Joints Spec_Joints Deriv JointFacts JointFacts2 Model Spec_Model ModelFacts ModelTree ModelFacts2 Sums Data Kinematics Spec_Kin Spec_Mass KinFacts KinFacts2 KinFacts3 Spec_Dyn Rnea DynFacts DynFacts2 TreeSums MassFacts Crba CrbaFacts CrbaFacts2 CrbaFacts3 Jacobian Spec_Jac JacFacts JacFacts2 JacFacts3 JacFacts5 Spec_Chol CholFacts4 Com ComFacts2 Dccrba DccrbaFacts DccrbaFacts2 DataX Coriolis DerSums CoriolisFacts CoriolisFacts2 CoriolisFacts3 CoriolisFacts4 RneaDer DerPass RneaDerFacts RneaDerFacts2 RneaDerFacts3.
Import ListNotations.
Local Open Scope nat_scope.
Local Open Scope bool_scope.

Section Mat.
Variable eps : R.
Variable m : Model.
Hypothesis Bt : Built eps m.
Let W : wellFormed m := Built_wf eps m Bt.
Let T : treeInv m := Built_tree eps m Bt.
Hypothesis Vm : validModel m.
Hypothesis NM : noMimic m.
Hypothesis DF : depthFirst m.
Hypothesis RM : regularMasses eps m.

(* a matrix given by entries e on the pairs of joints of one branch *)
Definition fills (e : nat -> nat -> nat -> nat -> R) (E E0 : nat -> nat -> R) : Prop :=
  forall i c j l, 0 < i < m_njoints m -> c < nvOf m i -> 0 < j < m_njoints m -> l < nvOf m j ->
  E (idx_v m i + c) (idx_v m j + l) = if anc m i j || anc m j i then e i c j l else E0 (idx_v m i + c) (idx_v m j + l).
Lemma fills_all e E E0 : treeSparse m E0 -> (forall i c j l, 0 < i -> 0 < j < m_njoints m -> anc m i j || anc m j i = false -> e i c j l = 0%R) -> fills e E E0 ->
  forall i c j l, 0 < i < m_njoints m -> c < nvOf m i -> 0 < j < m_njoints m -> l < nvOf m j -> E (idx_v m i + c) (idx_v m j + l) = e i c j l.
Proof.
  intros S Z H i c j l Hi Hc Hj Hl. rewrite H by assumption. destruct (anc m i j || anc m j i) eqn:A; [reflexivity|]. rewrite (Z i c j l ltac:(lia) Hj A).
  pose proof (idx_v_bound m W NM i Hi). pose proof (idx_v_bound m W NM j Hj). apply S; [lia | lia |]. now apply (sameBranch_or eps m Bt NM).
Qed.
Lemma fills_sparse e E E0 : treeSparse m E0 -> fills e E E0 -> treeSparse m E.
Proof.
  intros S H k l Hk Hl NB. destruct (dof_owner m W k Hk) as (i & a & Hi & Ha & ->). destruct (dof_owner m W l Hl) as (j & c & Hj & Hc & ->).
  rewrite H by assumption. rewrite (branch_or eps m Bt NM i a j c) by assumption. now apply S.
Qed.
Lemma qEntry_off q v a fx i c j l : 0 < i -> 0 < j < m_njoints m -> anc m i j || anc m j i = false -> qEntry m q v a fx i c j l = 0%R.
Proof.
  intros Hi Hj A. apply orb_false_iff in A as [A1 A2]. unfold qEntry. rewrite (common_off m W T i j _ A1 A2), (anc_strict eps m Bt i j Hi Hj), A1. cbn [andb]. ring.
Qed.
Lemma vEntry_off q v i c j l : anc m i j || anc m j i = false -> vEntry m q v i c j l = 0%R.
Proof. intros A. apply orb_false_iff in A as [A1 A2]. unfold vEntry. now apply (common_off m W T). Qed.

Lemma colsOf_sum q w b X (L : nat -> V6 -> V6) : b < m_njoints m ->
  (forall j, L j v6zero = v6zero) -> (forall j x y, L j (v6add x y) = v6add (L j x) (L j y)) -> (forall j c x, L j (v6scale c x) = v6scale c (L j x)) ->
  (forall i c, 0 < i < m_njoints m -> c < nvOf m i -> X i c = L i (worldCol m q i c)) ->
  sumF (colsOf m X w) (tl (support m b)) = sumF (fun i => L i (share m q w i)) (tl (support m b)).
Proof.
  intros Hb L0 LA LS H. apply sumF_ext. intros i Hi. pose proof (tl_range m W T b Hb i Hi) as Hir. apply (colsOf_lin m W Vm NM q w i L X Hir); auto.
Qed.
Lemma bodies_ext' f g : (forall b, 0 < b < m_njoints m -> f b = g b) -> bodies m f = bodies m g.
Proof. intros H. apply sumN_ext. intros k Hk. apply H. lia. Qed.

(* the joint that owns a dof *)
Definition own1 (k : nat) : nat := match find (fun i => within (idx_v m i) (nvOf m i) k) (seq 1 (m_njoints m - 1)) with Some i => i | None => 0 end.
Lemma own1_eq i c : 0 < i < m_njoints m -> c < nvOf m i -> own1 (idx_v m i + c) = i.
Proof.
  intros Hi Hc. unfold own1. destruct (find _ _) as [i'|] eqn:Ef.
  - apply find_some in Ef as [Hin Hw]. apply in_seq in Hin. rewrite (within_own m W NM i' i c) in Hw by (assumption || lia). now apply Nat.eqb_eq in Hw.
  - exfalso. apply (find_none _ _) with (x := i) in Ef; [|apply in_seq; lia]. rewrite (within_own m W NM i i c Hi Hi Hc), Nat.eqb_refl in Ef. discriminate.
Qed.
(* a matrix from the entries of the pairs of joints *)
Definition ofPairs (e : nat -> nat -> nat -> nat -> R) (k l : nat) : R := e (own1 k) (k - idx_v m (own1 k)) (own1 l) (l - idx_v m (own1 l)).
Lemma ofPairs_eq e i c j l : 0 < i < m_njoints m -> c < nvOf m i -> 0 < j < m_njoints m -> l < nvOf m j -> ofPairs e (idx_v m i + c) (idx_v m j + l) = e i c j l.
Proof.
  intros Hi Hc Hj Hl. unfold ofPairs. rewrite (own1_eq i c Hi Hc), (own1_eq j l Hj Hl). replace (idx_v m i + c - idx_v m i) with c by lia. replace (idx_v m j + l - idx_v m j) with l by lia. reflexivity.
Qed.
Lemma matForm_split E e f u w :
  (forall i c j l, 0 < i < m_njoints m -> c < nvOf m i -> 0 < j < m_njoints m -> l < nvOf m j -> E (idx_v m i + c) (idx_v m j + l) = (e i c j l + f i c j l)%R) ->
  matForm m E u w = (matForm m (ofPairs e) u w + matForm m (ofPairs f) u w)%R.
Proof.
  intros HE. unfold matForm, dotv. rewrite <- sumN_add. apply sumN_ext. intros k Hk. rewrite <- Rmult_plus_distr_r, <- sumN_add. f_equal. apply sumN_ext. intros l Hl.
  destruct (dof_owner m W k Hk) as (i & c & Hi & Hc & ->). destruct (dof_owner m W l Hl) as (j & x & Hj & He & ->). rewrite HE, !ofPairs_eq by assumption. ring.
Qed.
Lemma pair_form E q v X Z LX LZ u w : validState m q ->
  (forall b, b < m_njoints m -> sumF (colsOf m X w) (tl (support m b)) = LX b) -> (forall b, b < m_njoints m -> sumF (colsOf m Z w) (tl (support m b)) = LZ b) ->
  (forall i c j l, 0 < i < m_njoints m -> c < nvOf m i -> 0 < j < m_njoints m -> l < nvOf m j ->
     E (idx_v m i + c) (idx_v m j + l) = common m i j (fun b => v6dot (worldCol m q i c) (v6add (m6vec (dYb m q v b) (X j l)) (inertia_mul (worldInertia m q b) (Z j l))))) ->
  matForm m E u w = bodies m (fun b => v6dot (worldVel m q u b) (v6add (m6vec (dYb m q v b) (LX b)) (inertia_mul (worldInertia m q b) (LZ b)))).
Proof.
  intros Hq HX HZ HE.
  rewrite (matForm_split E (fun i c j l => common m i j (fun b => v6dot (worldCol m q i c) (m6vec (dYb m q v b) (X j l)))) (fun i c j l => common m i j (fun b => v6dot (worldCol m q i c) (inertia_mul (worldInertia m q b) (Z j l))))).
  2:{ intros i c j l Hi Hc Hj Hl. rewrite HE by assumption. rewrite <- common_add. apply sumN_ext. intros b Hb. destruct (_ && _); [apply v6dot_add_r | reflexivity]. }
  unfold matForm at 1 2. unfold dotv.
  rewrite (common_form m W T NM (fun b x y => v6dot x (m6vec (dYb m q v b) y)) (worldCol m q) X _ u w).
  - rewrite (common_form m W T NM (fun b x y => v6dot x (inertia_mul (worldInertia m q b) y)) (worldCol m q) Z _ u w).
    + rewrite (bodies_add m). apply bodies_ext'. intros b Hb. rewrite (sum_world m W T Vm NM q u b Hq ltac:(lia)), HX, HZ, v6dot_add_r by lia. reflexivity.
    + intros; apply v6dot_0_l.
    + intros; apply v6dot_add_l.
    + intros; apply v6dot_scale_l.
    + intros b x. rewrite inertia_mul_0. apply v6dot_0_r.
    + intros b x y z. rewrite inertia_mul_add. apply v6dot_add_r.
    + intros b c x y. rewrite inertia_mul_scale. apply v6dot_scale_r.
    + intros i c j l Hi Hc Hj Hl. now rewrite ofPairs_eq.
  - intros; apply v6dot_0_l.
  - intros; apply v6dot_add_l.
  - intros; apply v6dot_scale_l.
  - intros b x. rewrite m6vec_0_r. apply v6dot_0_r.
  - intros b x y z. rewrite m6vec_add_r. apply v6dot_add_r.
  - intros b c x y. rewrite m6vec_scale_r. apply v6dot_scale_r.
  - intros i c j l Hi Hc Hj Hl. now rewrite ofPairs_eq.
Qed.
Lemma q_form E q v a fx u w : validState m q ->
  (forall i c j l, 0 < i < m_njoints m -> c < nvOf m i -> 0 < j < m_njoints m -> l < nvOf m j -> E (idx_v m i + c) (idx_v m j + l) = qEntry m q v a fx i c j l) ->
  matForm m E u w = dqForm m q w v a fx u.
Proof.
  intros Hq HE. rewrite (matForm_split E _ _ u w HE). unfold dqForm. rewrite <- (bodies_add m), Rplus_comm. f_equal.
  - unfold matForm, dotv.
    rewrite (above_form m W T NM (fun b x y => v6dot x (force_cross y (wF m q v a fx b))) (worldCol m q) (worldCol m q) _ u w).
    + unfold DVw. rewrite <- (share_sum m W T (fun b x => v6dot x (wF m q v a fx b)) (fun i => motion_cross (worldVel m q u (parent m i)) (share m q w i))).
      * apply sumN_ext. intros j Hj. destruct (Nat.ltb_spec 0 j); [|reflexivity]. pose proof (wf_parent _ W j ltac:(lia)) as Hp.
        apply (subSum_ext m). intros b _ _. rewrite (sum_world m W T Vm NM q u (parent m j) Hq ltac:(lia)), (colsOf_world m W Vm NM q w j ltac:(lia)). apply cross_dot_swap.
      * intros b. apply v6dot_0_l.
      * intros b x y. apply v6dot_add_l.
    + intros; apply v6dot_0_l.
    + intros; apply v6dot_add_l.
    + intros; apply v6dot_scale_l.
    + intros b x. rewrite cross_dot_swap. replace (motion_cross x v6zero) with v6zero by sring. apply v6dot_0_l.
    + intros b x y z. rewrite !cross_dot_swap. replace (motion_cross x (v6add y z)) with (v6add (motion_cross x y) (motion_cross x z)) by sring. apply v6dot_add_l.
    + intros b c x y. rewrite !cross_dot_swap. replace (motion_cross x (v6scale c y)) with (v6scale c (motion_cross x y)) by sring. apply v6dot_scale_l.
    + intros i c j l Hi Hc Hj Hl. now rewrite ofPairs_eq.
  - apply (pair_form _ q v (cVq m q v) (cAq m q v a) _ _ u w Hq).
    + intros b Hb. unfold DVw. apply (colsOf_sum q w b (cVq m q v) (fun i x => motion_cross (worldVel m q v (parent m i)) x)); [lia | intros; sring | intros; sring | intros; sring | reflexivity].
    + intros b Hb. unfold DAw. apply (colsOf_sum q w b (cAq m q v a) (fun i x => v6add (motion_cross (wAgf m q v a (parent m i)) x) (motion_cross (worldVel m q v (parent m i)) (motion_cross (worldVel m q v (parent m i)) x)))); [lia | intros; sring | intros; sring | intros; sring | reflexivity].
    + intros i c j l Hi Hc Hj Hl. now rewrite ofPairs_eq.
Qed.
Lemma v_form E q v u w : validState m q ->
  (forall i c j l, 0 < i < m_njoints m -> c < nvOf m i -> 0 < j < m_njoints m -> l < nvOf m j -> E (idx_v m i + c) (idx_v m j + l) = vEntry m q v i c j l) ->
  matForm m E u w = dvForm m q v w u.
Proof.
  intros Hq HE. unfold dvForm. apply (pair_form _ q v (worldCol m q) (cAv m q v) _ _ u w Hq).
  - intros b Hb. apply (sum_world m W T Vm NM q w b Hq Hb).
  - intros b Hb. unfold DVv. apply (colsOf_sum q w b (cAv m q v) (fun i x => v6add (motion_cross (worldVel m q v i) x) (motion_cross (worldVel m q v (parent m i)) x))); [lia | intros; sring | intros; sring | intros; sring | reflexivity].
  - intros i c j l Hi Hc Hj Hl. now rewrite HE.
Qed.
Lemma a_form q u w : validState m q -> daForm m q w u = kineticForm m q u w.
Proof. intros Hq. symmetry. apply (kineticForm_world m W T Vm q u w Hq). Qed.
End Mat.
