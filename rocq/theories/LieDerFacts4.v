(* dDifference on the groups *)
Require Import Reals Lra Lia Arith List.
From Verif Require Import Vec3 Spatial Rot Deriv Joints JointFacts InertiaFacts ExpLog Spec_Exp ExpFacts ExpFacts2 ExpFacts3 ExpFacts4 ExpJac Spec_ExpJac ExpJacFacts ExpJacFacts2 Kinematics LieGroup Spec_Lie
  LieFacts LieFacts2 LieFacts3 LieFacts4 LieFacts7 RotFacts LogMat Spec_LogMat LogMatFacts LogMatFacts2 LogMatFacts3 LogMatFacts4 LogMatFacts5 LogMatFacts6 LieDer Spec_LieDer LieDerFacts LieDerFacts2 LieDerFacts3.
Local Open Scope R_scope.

Lemma mul_opp A B : m3mul A (m3opp B) = m3opp (m3mul A B). Proof. sring. Qed.
Lemma skew_inv A a : isRotation A -> m3mul (m3tr A) (skew (v3opp (m3vec A a))) = m3tr (m3mul A (skew a)).
Proof.
  intros H. assert (E : skew (v3opp (m3vec A a)) = m3opp (skew (m3vec A a))) by sring. rewrite E, <- (skew_rotate A a H).
  assert (O : m3mul (m3tr A) A = m3id) by apply H.
  transitivity (m3opp (m3mul (m3mul (m3mul (m3tr A) A) (skew a)) (m3tr A))).
  - rewrite mul_opp, !m3mul_assoc. reflexivity.
  - rewrite O. destruct A as [a0 a1 a2 a3 a4 a5 a6 a7 a8], a as [x y z]. apply m3_ext; cbv [m3mul m3opp m3tr m3id skew vx vy vz m00 m01 m02 m10 m11 m12 m20 m21 m22]; ring.
Qed.

Lemma hasTwist_inv M V t : isRotation (rot (M t)) -> hasTwist M V t -> hasTwist (fun u => se3_inverse (M u)) (v6opp (motion_act (M t) V)) t.
Proof.
  intros H [A B]. unfold se3_inverse. eapply hasTwist_intro.
  - exact (derivM3_tr _ _ _ A).
  - eapply (deriv3_ext _ (fun u => v3scale (-1) (m3vec (m3tr (rot (M u))) (trans (M u))))); [intros u; sring|].
    apply deriv3_scale; [apply deriv_const|]. apply deriv3_vec; [exact (derivM3_tr _ _ _ A)|exact B].
  - cbn [v6opp motion_act ang]. symmetry. apply skew_inv, H.
  - cbv beta. cbn [v6opp motion_act lin ang]. rewrite <- (skew_inv _ _ H). set (A0 := rot (M t)) in *. set (p := trans (M t)). set (a := ang V). set (l := lin V).
    rewrite !m3vec_mul, skew_vec. rewrite orthogonal_tr_vec by apply H.
    replace (m3vec (m3tr A0) (v3opp (v3add (m3vec A0 l) (v3cross p (m3vec A0 a))))) with (v3opp (v3add (m3vec (m3tr A0) (m3vec A0 l)) (m3vec (m3tr A0) (v3cross p (m3vec A0 a))))) by (clearbody A0; sring).
    rewrite orthogonal_tr_vec by apply H. generalize (m3vec (m3tr A0) p). intros x. clearbody A0.
    assert (E : m3vec (m3tr A0) (v3cross (v3opp (m3vec A0 a)) p) = m3vec (m3tr A0) (v3cross p (m3vec A0 a))) by sring. rewrite E. generalize (m3vec (m3tr A0) (v3cross p (m3vec A0 a))). intros y. sring.
Qed.
Lemma hasTwist_rel M0 M1 V0 V1 t : isRotation (rot (M0 t)) -> isRotation (rot (M1 t)) -> hasTwist M0 V0 t -> hasTwist M1 V1 t ->
  hasTwist (fun u => se3_actInv_se3 (M0 u) (M1 u)) (v6sub V1 (motion_actInv (se3_actInv_se3 (M0 t) (M1 t)) V0)) t.
Proof.
  intros H0 H1 A B. assert (E : forall P Q, se3_actInv_se3 P Q = se3_mul (se3_inverse P) Q).
  { intros P Q. unfold se3_actInv_se3, se3_mul, se3_inverse. cbn [rot trans]. f_equal. sring. }
  eapply (hasTwist_ext _ (fun u => se3_mul (se3_inverse (M0 u)) (M1 u))); [intros u; apply E|]. rewrite E.
  assert (H0' : isRotation (rot (se3_inverse (M0 t)))) by (apply isRotation_tr, H0). rewrite (motion_actInv_mul _ _ _ H0' H1).
  eapply hasTwist_eq; [apply (hasTwist_mul (fun u => se3_inverse (M0 u)) M1); [exact H1|apply hasTwist_inv; [exact H0|exact A]|exact B]|].
  rewrite motion_actInv_opp. replace (motion_actInv (se3_inverse (M0 t)) V0) with (motion_act (M0 t) V0).
  - generalize (motion_actInv (M1 t) (motion_act (M0 t) V0)). intros x. sring.
  - rewrite (motion_actInv_inverse _ _ H0'). f_equal. destruct (M0 t) as [A0 p]. cbn in H0. unfold se3_inverse. cbn [rot trans]. assert (T : m3tr (m3tr A0) = A0) by sring. rewrite T. f_equal.
    replace (m3vec (m3opp A0) (m3vec (m3opp (m3tr A0)) p)) with (m3vec A0 (m3vec (m3tr A0) p)); [symmetry; apply orthogonal_vec_tr, H0|].
    clear. assert (X : m3vec (m3opp (m3tr A0)) p = v3opp (m3vec (m3tr A0) p)) by sring. rewrite X. generalize (m3vec (m3tr A0) p). intros y. sring.
Qed.
Lemma se3_actInv_mul A B : isRotation (rot A) -> se3_actInv_se3 A (se3_mul A B) = B.
Proof.
  intros H. destruct A as [A p], B as [B q]. unfold se3_actInv_se3, se3_mul. cbn [rot trans] in *. f_equal.
  - rewrite m3mul_assoc. assert (O : m3mul (m3tr A) A = m3id) by apply H. rewrite O. apply m3mul_1_l.
  - replace (v3sub (v3add p (m3vec A q)) p) with (m3vec A q); [apply orthogonal_tr_vec, H|]. generalize (m3vec A q). intros x. sring.
Qed.
Lemma qnorm_conj a : qnorm2 (qconj a) = qnorm2 a. Proof. destruct a as [x y z w]. cbv [qnorm2 qdot qconj qx qy qz qw]. ring. Qed.
Lemma between_middle eps v : between eps (v3norm v) -> middle eps (Rexp v).
Proof. intros [A B]. unfold middle. rewrite rexp_trace. lra. Qed.
Lemma middle_between eps v : middle eps (Rexp v) -> between eps (v3norm v).
Proof. unfold middle. rewrite rexp_trace. intros [A B]. unfold between. lra. Qed.
Lemma dd_so3 eps q0 q1 w0 w1 d t : 0 < eps <= 1 / 4096 -> (forall u, onGroup LSO3 (q0 u)) -> (forall u, onGroup LSO3 (q1 u)) -> movesAt LSO3 q0 w0 t -> movesAt LSO3 q1 w1 t ->
  (forall u, leadsTo LSO3 (q0 u) (d u) (q1 u)) -> (forall u, shortest LSO3 (d u)) -> apart eps LSO3 (d t) ->
  derivTo 3 d (fun k => jacMul 3 (lg_dDifference eps LSO3 ARG0 (q0 t) (q1 t)) w0 k + jacMul 3 (lg_dDifference eps LSO3 ARG1 (q0 t) (q1 t)) w1 k) t.
Proof.
  intros He G0 G1 M0 M1 L S P. cbn [movesAt leadsTo shortest apart] in *.
  assert (U0 : forall u, qnorm2 (quatAt (q0 u)) = 1) by (intros u; apply on_so3, G0). assert (U1 : forall u, qnorm2 (quatAt (q1 u)) = 1) by (intros u; apply on_so3, G1).
  set (A := fun u => m3mul (m3tr (qmat (quatAt (q0 u)))) (qmat (quatAt (q1 u)))).
  assert (EA : forall u, A u = Rexp (v3At (d u))).
  { intros u. unfold A. rewrite L, m3mul_assoc. assert (O : m3mul (m3tr (qmat (quatAt (q0 u)))) (qmat (quatAt (q0 u))) = m3id) by apply (qmat_rot _ (U0 u)). rewrite O. apply m3mul_1_l. }
  assert (HA : forall u, isRotation (A u)) by (intros u; rewrite EA; apply rodrigues_rot).
  assert (T : turns A (v3sub (v3At w1) (m3vec (m3tr (A t)) (v3At w0))) t).
  { destruct (hasTwist_rel (fun u => mkSE3 (qmat (quatAt (q0 u))) v3zero) (fun u => mkSE3 (qmat (quatAt (q1 u))) v3zero) _ _ t (qmat_rot _ (U0 t)) (qmat_rot _ (U1 t)) (hasTwist_pure_rot _ _ _ M0) (hasTwist_pure_rot _ _ _ M1)) as [X _]. exact X. }
  assert (Mt : middle eps (A t)) by (rewrite EA; apply between_middle, P).
  pose proof (log3_rate eps A _ t He HA T Mt) as D. destruct (middle_near eps A _ t T Mt) as (e & Pe & Near).
  assert (D' : deriv3 (fun u => v3At (d u)) (m3vec (Jlog3M eps (A t)) (v3sub (v3At w1) (m3vec (m3tr (A t)) (v3At w0)))) t).
  { eapply (deriv3_ext_loc _ _ _ t e Pe); [|exact D]. intros u Hu. cbv beta. rewrite EA. pose proof (Near u Hu) as Mu. rewrite EA in Mu. destruct (middle_between _ _ Mu) as [B1 B2].
    rewrite log3_middle; [reflexivity|exact He|apply S|lra|lra]. }
  assert (ER : qmat (qmul (qconj (quatAt (q0 t))) (quatAt (q1 t))) = A t).
  { rewrite qmat_mul, qmat_conj; [reflexivity| |apply U1]. rewrite qnorm_conj. apply U0. }
  assert (EJ : v3At (fun k => jacMul 3 (lg_dDifference eps LSO3 ARG0 (q0 t) (q1 t)) w0 k + jacMul 3 (lg_dDifference eps LSO3 ARG1 (q0 t) (q1 t)) w1 k) = m3vec (Jlog3M eps (A t)) (v3sub (v3At w1) (m3vec (m3tr (A t)) (v3At w0)))).
  { rewrite v3At_add. cbn [lg_dDifference]. rewrite ER, !jac3_at. rewrite m3vec_mul. generalize (m3vec (m3tr (A t)) (v3At w0)) (v3At w1) (Jlog3M eps (A t)). intros x y B. sring. }
  rewrite <- EJ in D'. destruct D' as (X & Y & Z). cbn in X, Y, Z. intros k Hk. destruct k as [|[|[|k]]]; [exact X|exact Y|exact Z|lia].
Qed.
Lemma dd_se3 eps q0 q1 w0 w1 d t : 0 < eps <= 1 / 4096 -> (forall u, onGroup LSE3 (q0 u)) -> (forall u, onGroup LSE3 (q1 u)) -> movesAt LSE3 q0 w0 t -> movesAt LSE3 q1 w1 t ->
  (forall u, leadsTo LSE3 (q0 u) (d u) (q1 u)) -> (forall u, shortest LSE3 (d u)) -> apart eps LSE3 (d t) ->
  derivTo 6 d (fun k => jacMul 6 (lg_dDifference eps LSE3 ARG0 (q0 t) (q1 t)) w0 k + jacMul 6 (lg_dDifference eps LSE3 ARG1 (q0 t) (q1 t)) w1 k) t.
Proof.
  intros He G0 G1 M0 M1 L S P. cbn [movesAt leadsTo shortest apart] in *.
  assert (U0 : forall u, qnorm2 (quatAt (shift 3 (q0 u))) = 1) by (intros u; apply on_se3, G0). assert (U1 : forall u, qnorm2 (quatAt (shift 3 (q1 u))) = 1) by (intros u; apply on_se3, G1).
  set (A := fun u => se3_actInv_se3 (poseOf (q0 u)) (poseOf (q1 u))).
  assert (EA : forall u, A u = SE3exp (v6At (d u))).
  { intros u. unfold A. rewrite L. apply se3_actInv_mul. apply (qmat_rot _ (U0 u)). }
  assert (HA : forall u, isRotation (rot (A u))) by (intros u; rewrite EA; apply rodrigues_rot).
  pose proof (hasTwist_rel (fun u => poseOf (q0 u)) (fun u => poseOf (q1 u)) _ _ t (qmat_rot _ (U0 t)) (qmat_rot _ (U1 t)) M0 M1) as T. cbv beta in T. fold A in T. fold (A t) in T.
  assert (Mt : middle eps (rot (A t))) by (rewrite EA; apply between_middle, P).
  pose proof (log6_rate eps A _ t He HA T Mt) as D. destruct (middle_near eps (fun u => rot (A u)) _ t (proj1 T) Mt) as (e & Pe & Near).
  set (V := v6sub (v6At w1) (motion_actInv (A t) (v6At w0))) in *.
  assert (D' : deriv6 (fun u => v6At (d u)) (m66vec (Jlog6 eps (A t)) V) t).
  { assert (E : forall u, Rabs (u - t) < e -> v6At (d u) = log6 eps (A u)).
    { intros u Hu. rewrite EA. pose proof (Near u Hu) as Mu. cbv beta in Mu. rewrite EA in Mu. destruct (middle_between _ _ Mu) as [B1 B2]. rewrite log6_of_exp; [reflexivity|exact He|apply S|lra|lra]. }
    destruct D as [D1 D2]. split; [eapply (deriv3_ext_loc _ _ _ t e Pe); [|exact D1]|eapply (deriv3_ext_loc _ _ _ t e Pe); [|exact D2]]; intros u Hu; cbv beta; rewrite (E u Hu); reflexivity. }
  assert (ER : qmat (qmul (qconj (quatAt (shift 3 (q0 t)))) (quatAt (shift 3 (q1 t)))) = rot (A t)).
  { rewrite qmat_mul, qmat_conj; [reflexivity| |apply U1]. rewrite qnorm_conj. apply U0. }
  assert (EM : mkSE3 (qmat (qmul (qconj (quatAt (shift 3 (q0 t)))) (quatAt (shift 3 (q1 t))))) (qtransform (qconj (quatAt (shift 3 (q0 t)))) (v3sub (v3At (q1 t)) (v3At (q0 t)))) = A t).
  { rewrite ER, qtransform_mat, qmat_conj. reflexivity. }
  assert (EP : qtransform (qconj (quatAt (shift 3 (q1 t)))) (v3sub (v3At (q1 t)) (v3At (q0 t))) = m3vec (m3tr (rot (A t))) (trans (A t))).
  { rewrite qtransform_mat, qmat_conj. unfold A, se3_actInv_se3, poseOf. cbn [rot trans]. rewrite m3tr_mul, m3vec_mul. assert (X : m3tr (m3tr (qmat (quatAt (shift 3 (q0 t))))) = qmat (quatAt (shift 3 (q0 t)))) by (generalize (qmat (quatAt (shift 3 (q0 t)))); intros B; sring). rewrite X, orthogonal_vec_tr by apply (qmat_rot _ (U0 t)). reflexivity. }
  assert (EJ : v6At (fun k => jacMul 6 (lg_dDifference eps LSE3 ARG0 (q0 t) (q1 t)) w0 k + jacMul 6 (lg_dDifference eps LSE3 ARG1 (q0 t) (q1 t)) w1 k) = m66vec (Jlog6 eps (A t)) V).
  { rewrite v6At_add. cbn [lg_dDifference]. rewrite EP, EM, !jac6_at. unfold V, motion_actInv. generalize (Jlog6 eps (A t)). intros B. generalize (HA t). destruct (A t) as [R0 p]. cbn [rot trans]. intros HR. rewrite m3vec_sub, rotation_cross_tr by exact HR.
    generalize (m3vec (m3tr R0) p). intros y. destruct (v6At w0) as [l a], (v6At w1) as [l' a']. unfold m66vec. cbn [tl6 tr6 bl6 br6 lin ang v6sub v6add]. destruct B as [B0 B1 B2 B3]. cbn [tl6 tr6 bl6 br6].
    assert (X : forall C z, m3vec (m3mul C (m3scale (-1) (m3tr R0))) z = v3opp (m3vec C (m3vec (m3tr R0) z))). { intros C z. rewrite m3vec_mul. assert (F : m3vec (m3scale (-1) (m3tr R0)) z = v3opp (m3vec (m3tr R0) z)) by sring. rewrite F. generalize (m3vec (m3tr R0) z). intros z'. sring. }
    rewrite !m3vec_add_l, !X, !m3vec_mul, skew_vec. generalize (m3vec (m3tr R0) l) (m3vec (m3tr R0) a). intros z z'. apply v6_ext; cbn [lin ang]; sring. }
  rewrite <- EJ in D'. destruct D' as ((X & Y & Z) & (X' & Y' & Z')). cbn in X, Y, Z, X', Y', Z'. intros k Hk. destruct k as [|[|[|[|[|[|k]]]]]]; [exact X|exact Y|exact Z|exact X'|exact Y'|exact Z'|lia].
Qed.
