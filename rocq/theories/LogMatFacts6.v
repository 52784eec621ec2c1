(* The rates of log3 and log6 along a moving rotation and a moving placement; the Jacobians of exp6 and log6. *)
Require Import Reals Arith Lra Lia Psatz.
From Verif Require Import Vec3 Spatial Rot RotFacts Joints JointFacts Deriv ExpLog LieGroup LieFacts Spec_Exp ExpFacts ExpFacts2 ExpFacts3 ExpFacts4 ExpFacts5 LogFacts LogFacts2 LogFacts3 LogFacts4 LieFacts10 ExpJac Spec_ExpJac ExpJacFacts ExpJacFacts2 ExpJacFacts3 LogMat Spec_LogMat LogMatFacts LogMatFacts4 LogMatFacts5.
Local Open Scope R_scope.

(* strictly between the two zones where log3 changes its formula *)
Definition middle (eps : R) (A : M3) : Prop := -1 + 2 * ts2 eps < m3trace A < 3 - ts2 eps.
Lemma deriv3_ext_loc f g d t e : 0 < e -> (forall s, Rabs (s - t) < e -> f s = g s) -> deriv3 g d t -> deriv3 f d t.
Proof. intros Hp E (A1 & A2 & A3). repeat split; cbn; (eapply deriv_ext_loc; [exact Hp | intros s Hs; rewrite (E s Hs); reflexivity | assumption]). Qed.
Lemma deriv_trace A dA t : derivM3 A dA t -> deriv (fun u => m3trace (A u)) (m3trace dA) t.
Proof. intros ((A1 & _ & _) & (_ & B1 & _) & (_ & _ & C1)). unfold m3trace. apply deriv_plus; [apply deriv_plus; assumption | assumption]. Qed.
Lemma middle_near eps A dA t : derivM3 A dA t -> middle eps (A t) -> exists e, 0 < e /\ forall u, Rabs (u - t) < e -> middle eps (A u).
Proof.
  intros D [M1 M2]. set (r := Rmin (m3trace (A t) - (-1 + 2 * ts2 eps)) (3 - ts2 eps - m3trace (A t))). assert (Hr : 0 < r) by (apply Rmin_pos; lra).
  destruct (deriv_continuous _ _ t (deriv_trace A dA t D) r Hr) as (e & He & H). exists e. split; [exact He|]. intros u Hu. pose proof (H u Hu) as K. cbv beta in K. apply Rabs_def2 in K.
  pose proof (Rmin_l (m3trace (A t) - (-1 + 2 * ts2 eps)) (3 - ts2 eps - m3trace (A t))) as L1. pose proof (Rmin_r (m3trace (A t) - (-1 + 2 * ts2 eps)) (3 - ts2 eps - m3trace (A t))) as L2. fold r in L1, L2. split; lra.
Qed.
Lemma log3_form eps A : 0 < eps <= 1 / 4096 -> isRotation A -> middle eps A -> let c := (m3trace A - 1) / 2 in
  fst (log3 eps A) = v3scale (acos c / sin (acos c)) (unSkew A) /\ -1 < c < 1.
Proof.
  intros He H [M1 M2] c. pose proof (ts2_pos eps) as B0. destruct (log3_rot eps A He H ltac:(lra) ltac:(lra)) as (C & E & D). set (w := fst (log3 eps A)) in *. rewrite E in D. set (x := v3norm w) in *.
  assert (Ec : c = cos x) by (unfold c; rewrite <- C, rexp_trace; fold x; field). split; [|unfold c; lra].
  rewrite Ec, acos_cos by lra. rewrite <- C at 1. rewrite rexp_unskew. fold x. rewrite sinc_nz by lra. assert (S : 0 < sin x) by (apply sin_gt_0; lra). destruct w. unfold v3scale. cbn. f_equal; field; split; lra.
Qed.
Lemma deriv3_unskew A dA t : derivM3 A dA t -> exists d, deriv3 (fun u => unSkew (A u)) d t.
Proof.
  intros ((A1 & A2 & A3) & (B1 & B2 & B3) & (C1 & C2 & C3)). eexists (mkV3 _ _ _). split; [|split]; unfold unSkew; cbn [vx vy vz];
    (apply (deriv_mult (fun _ => / 2) _); [apply deriv_const | apply deriv_minus; eassumption]).
Qed.
Lemma log3_differentiable eps (A : R -> M3) dA t : 0 < eps <= 1 / 4096 -> (forall u, isRotation (A u)) -> derivM3 A dA t -> middle eps (A t) ->
  exists dw, deriv3 (fun u => fst (log3 eps (A u))) dw t.
Proof.
  intros He HA D M. destruct (middle_near eps A dA t D M) as (e & Hp & N). destruct (deriv3_unskew A dA t D) as [dU DU]. set (c := fun u => (m3trace (A u) - 1) / 2).
  assert (Dc : deriv c (m3trace dA / 2) t). { unfold c. eapply deriv_eq; [unfold Rdiv; apply (deriv_mult (fun u => m3trace (A u) - 1) (fun _ => / 2)); [apply deriv_minus; [apply deriv_trace; exact D | apply deriv_const] | apply deriv_const] | cbv beta; field]. }
  destruct (log3_form eps (A t) He (HA t) M) as [_ Cb]. fold (c t) in Cb. destruct (derivable_pt_acos (c t) Cb) as [l Hl].
  assert (Da : deriv (fun u => acos (c u)) (l * (m3trace dA / 2)) t) by (apply (derivable_pt_lim_comp c acos); [exact Dc | exact Hl]).
  assert (S : sin (acos (c t)) <> 0). { destruct (acos_bound_lt (c t) Cb) as [b1 b2]. pose proof (sin_gt_0 _ b1 b2). lra. }
  eexists. eapply (deriv3_ext_loc _ (fun u => v3scale (acos (c u) / sin (acos (c u))) (unSkew (A u))) _ t e Hp).
  - intros u Hu. exact (proj1 (log3_form eps (A u) He (HA u) (N u Hu))).
  - apply deriv3_scale; [|exact DU]. eapply (deriv_div (fun u => acos (c u)) (fun u => sin (acos (c u))) _ _ t S); [exact Da | apply deriv_sin; exact Da].
Qed.
Theorem log3_rate eps (A : R -> M3) om t : 0 < eps <= 1 / 4096 -> (forall u, isRotation (A u)) -> turns A om t -> middle eps (A t) ->
  deriv3 (fun u => fst (log3 eps (A u))) (m3vec (Jlog3M eps (A t)) om) t.
Proof.
  intros He HA D M. destruct (log3_differentiable eps A _ t He HA D M) as [dw Dw]. destruct (middle_near eps A _ t D M) as (e & Hp & N).
  assert (E : dw = m3vec (Jlog3M eps (A t)) om); [|rewrite <- E; exact Dw]. unfold Jlog3M.
  destruct (log3_far eps (A t) He (HA t) (proj2 M)) as (En & [D1 D2] & G & _). rewrite En in *. pose proof (cos_ne1 _ (conj D1 D2)) as Hc.
  apply (jlog_rate eps ltac:(lra) (fun u => fst (log3 eps (A u))) dw om t Dw); cbv beta; [|lra|lra].
  unfold turns. assert (Loc : forall u, Rabs (u - t) < e -> Rexp (fst (log3 eps (A u))) = A u). { intros u Hu. destruct (N u Hu) as [N1 N2]. apply log3_rot; [exact He | apply HA | lra | lra]. }
  rewrite (Loc t) by (replace (t - t) with 0 by ring; rewrite Rabs_R0; exact Hp). exact (derivM3_ext_loc _ A _ t e Hp Loc D).
Qed.
(* ---- the exponential and its right Jacobian ---- *)
Lemma poly_tr p q r w : m3tr (poly p q r w) = poly p (- q) r w.
Proof. destruct w. unfold poly, m3tr, m3add, m3scale, m3id, skew, m3outer. cbn. f_equal; ring. Qed.
Lemma rexp_poly w : Rexp w = poly (cos (v3norm w)) (sinc (v3norm w)) (cosc (v3norm w)) w.
Proof. pose proof (rel1 (fun _ => w) 0) as R1. cbv beta zeta in R1. destruct w. unfold Rexp, poly. unfold m3add, m3scale, m3id, skew, m3outer, m3mul in *. cbn in *. unfold v3dot in R1. cbn in R1. rewrite R1. f_equal; ring. Qed.
Lemma rexp_jr w : m3mul (Rexp w) (Jr w) = m3tr (Jr w).
Proof.
  rewrite rexp_poly, Jr_poly, poly_tr, poly_mul. cbv zeta. pose proof (rel1 (fun _ => w) 0) as R1. pose proof (rel2 (fun _ => w) 0) as R2. pose proof (rel3 (fun _ => w) 0) as R3. cbv beta zeta in R1, R2, R3.
  set (x := v3norm w) in *. set (c := cos x) in *. set (s := sinc x) in *. set (k := cosc x) in *. set (r := sinc3 x) in *. set (N := v3dot w w) in *. f_equal.
  - transitivity (s * (c + k * N)); [ring | rewrite R1; ring].
  - transitivity (s * s - c * k); [ring | rewrite R3; ring].
  - transitivity (r * (c + k * N)); [ring | rewrite R1; ring].
Qed.
Lemma jlog_tr_rexp eps w : 0 < eps -> ts3 eps <= v3norm w -> cos (v3norm w) <> 1 -> m3mul (m3tr (Jlog3 eps (v3norm w) w)) (Rexp w) = Jlog3 eps (v3norm w) w.
Proof.
  intros He Hw Hc. destruct (jlog_big eps He w Hw Hc) as [J1 J2]. set (A := Jlog3 eps (v3norm w) w) in *.
  rewrite <- (m3mul_1_r (m3mul (m3tr A) (Rexp w))), <- J1, m3mul_assoc, <- (m3mul_assoc _ (Rexp w)), rexp_jr, <- m3tr_mul, J1.
  replace (m3tr m3id) with m3id by (unfold m3tr, m3id; cbn; reflexivity). apply m3mul_1_l.
Qed.
(* the transposed Hlog3 applied to p is the matrix of the top right block applied to the rate of the rotation vector *)
Lemma jblock_vec eps w p d : jblock eps w p = jblock eps w p -> let x := v3norm w in let be := fst (betas eps x (x * x)) in let bd := snd (betas eps x (x * x)) in
  m3vec (jblock eps w p) d = v3add (v3add (v3add (v3scale (bd * v3dot w p * v3dot w d) w) (v3scale (- ((x * x * bd + 2 * be) * v3dot w d)) p)) (v3add (v3scale (v3dot w p * be) d) (v3scale (be * v3dot p d) w))) (v3scale (1 / 2) (v3cross p d)).
Proof.
  intros _. unfold jblock. rewrite norm2_sqrt, norm2_norm. cbv zeta. set (x := v3norm w). generalize (fst (betas eps x (x * x))) (snd (betas eps x (x * x))). intros be bd. clearbody x.
  destruct w as [w1 w2 w3], p as [p1 p2 p3], d as [d1 d2 d3]. cbv [m3vec m3add m3sub m3scale m3outer m3id alphaSkew v3add v3scale v3cross v3dot vx vy vz m00 m01 m02 m10 m11 m12 m20 m21 m22]. f_equal; field.
Qed.
Lemma hlog_tr eps w om p : 0 < eps -> ts3 eps <= v3norm w -> cos (v3norm w) <> 1 ->
  m3vec (m3tr (Hlog3 (v3norm w) w om)) p = m3vec (jblock eps w p) (m3vec (Jlog3 eps (v3norm w) w) om).
Proof.
  intros He Hw Hc. pose proof (ts3_pos eps He) as P. rewrite jblock_vec by reflexivity. cbv zeta. set (x := v3norm w) in *. assert (N : x <> 0) by lra. assert (C1 : 1 - cos x <> 0) by lra.
  assert (Edw : v3add (v3add (v3scale (x * sin x * (/ 2 / (1 - cos x))) om) (v3scale (/ 2) (v3cross w om))) (v3scale ((1 - x * sin x * (/ 2 / (1 - cos x))) / (x * x)) (v3scale (v3dot w om) w)) = m3vec (Jlog3 eps x w) om).
  { rewrite Jlog3_poly. cbv zeta. destruct (Rlt_dec x (ts3 eps)) as [L|_]; [lra|].
    replace (1 / (x * x) - sin x / (1 - cos x) / (2 * x)) with ((1 - x * sin x * (/ 2 / (1 - cos x))) / (x * x)) by (field; split; assumption).
    replace (1 / 2 * (x * (sin x / (1 - cos x)))) with (x * sin x * (/ 2 / (1 - cos x))) by (field; assumption). generalize (x * sin x * (/ 2 / (1 - cos x))). intros a. generalize ((1 - a) / (x * x)). intros b. clearbody x.
    destruct w as [w1 w2 w3], om as [o1 o2 o3]. cbv [poly m3vec m3add m3scale m3id skew m3outer v3add v3scale v3cross v3dot vx vy vz m00 m01 m02 m10 m11 m12 m20 m21 m22]. f_equal; field. }
  unfold Hlog3. rewrite Edw. set (d := m3vec (Jlog3 eps x w) om). clearbody d.
  set (da := (sin x - x) * (/ 2 / (1 - cos x))). set (db := - (2 / x - (x + sin x) * (/ 2 / (1 - cos x))) / (x * x)). set (b := (1 - x * sin x * (/ 2 / (1 - cos x))) / (x * x)).
  unfold betas. destruct (Rlt_dec x (ts3 eps)) as [L|_]; [lra|]. cbn [fst snd].
  replace (1 / x * (1 / x) - sin x * (1 / x) * (1 / (2 * (1 - cos x)))) with b by (unfold b; field; split; assumption).
  set (bd := - (2) * (1 / x * (1 / x)) * (1 / x * (1 / x)) + (1 + sin x * (1 / x)) * (1 / x * (1 / x)) * (1 / (2 * (1 - cos x)))).
  assert (E1 : db / x = bd) by (unfold db, bd; field; split; assumption). assert (E2 : da / x = - (x * x * bd + 2 * b)) by (unfold da, bd, b; field; split; assumption).
  replace (db * (v3dot w d / x)) with (bd * v3dot w d) by (rewrite <- E1; field; exact N). replace (da * (v3dot w d / x)) with (- (x * x * bd + 2 * b) * v3dot w d) by (rewrite <- E2; field; exact N).
  clearbody b bd x. clear. destruct w as [w1 w2 w3], p as [p1 p2 p3], d as [d1 d2 d3]. cbv [m3vec m3tr m3add m3sub m3scale m3outer m3id addSkew v3add v3scale v3cross v3dot vx vy vz m00 m01 m02 m10 m11 m12 m20 m21 m22]. f_equal; field.
Qed.
(* Jlog6 by blocks *)
Lemma jlog6_blocks eps M : snd (log3 eps (rot M)) = v3norm (fst (log3 eps (rot M))) -> let w := fst (log3 eps (rot M)) in let A := Jlog3 eps (v3norm w) w in
  Jlog6 eps M = mkM66 A (m3mul (jblock eps w (trans M)) A) m3zero A.
Proof.
  intros E w A. unfold Jlog6. cbv zeta. rewrite E. fold w. fold A. unfold jblock. rewrite norm2_sqrt, norm2_norm. cbv zeta. set (x := v3norm w) in *. generalize (fst (betas eps x (x * x))) (snd (betas eps x (x * x))). intros be bd.
  f_equal; [f_equal | unfold m3scale, m3id, m3zero; cbn; f_equal; ring]. clearbody x. clearbody A. clearbody w. destruct w as [w1 w2 w3], (trans M) as [p1 p2 p3]. cbv [m3add m3sub m3scale m3outer m3id addSkew alphaSkew v3sub v3scale v3dot vx vy vz m00 m01 m02 m10 m11 m12 m20 m21 m22]. f_equal; field.
Qed.
Lemma deriv6_intro f d t : deriv3 (fun u => lin (f u)) (lin d) t -> deriv3 (fun u => ang (f u)) (ang d) t -> deriv6 f d t.
Proof. intros A B. split; assumption. Qed.
Theorem log6_rate eps (M : R -> SE3) V t : 0 < eps <= 1 / 4096 -> (forall u, isRotation (rot (M u))) -> hasTwist M V t -> middle eps (rot (M t)) ->
  deriv6 (fun u => log6 eps (M u)) (m66vec (Jlog6 eps (M t)) V) t.
Proof.
  intros He HM [D1 D2] Mid. destruct (middle_near eps (fun u => rot (M u)) _ t D1 Mid) as (e & Hp & N). pose proof (log3_rate eps (fun u => rot (M u)) (ang V) t He HM D1 Mid) as DW. cbv beta in DW.
  destruct (log3_far eps (rot (M t)) He (HM t) (proj2 Mid)) as (En & [P1 P2] & G & _ & Ex). assert (Ex2 : Rexp (fst (log3 eps (rot (M t)))) = rot (M t)) by (apply Ex; destruct Mid; lra).
  set (w := fun u => fst (log3 eps (rot (M u)))) in *. fold (w t) in En, Ex2. unfold Jlog3M in DW. fold (w t) in DW. rewrite En in *. pose proof (cos_ne1 _ (conj P1 P2)) as Hc.
  pose proof (hlog_rate eps ltac:(lra) w (ang V) t G ltac:(lra) DW) as DH.
  rewrite jlog6_blocks by exact En. cbv zeta. fold (w t). apply deriv6_intro; cbn [lin ang tl6 tr6 bl6 br6 m66vec].
  - eapply deriv3_eq; [eapply (deriv3_ext_loc _ (fun u => m3vec (m3tr (Jlog3 eps (v3norm (w u)) (w u))) (trans (M u))) _ t e Hp)|].
    + intros u Hu. rewrite log6_far; [reflexivity | exact He | apply HM | exact (proj2 (N u Hu))].
    + apply deriv3_vec; [apply derivM3_tr; exact DH | exact D2].
    + cbv beta. rewrite (hlog_tr eps) by lra. set (A := Jlog3 eps (v3norm (w t)) (w t)) in *. assert (EA : m3mul (m3tr A) (rot (M t)) = A) by (rewrite <- Ex2; unfold A; apply jlog_tr_rexp; lra).
      rewrite <- (m3vec_mul (m3tr A) (rot (M t))), EA, (m3vec_mul _ A). apply v3add_comm.
  - eapply deriv3_eq; [exact DW|]. fold (w t). match goal with |- ?a = _ => destruct a as [a1 a2 a3] eqn:Ea end. destruct (lin V). unfold v3add, m3vec, m3zero. cbn. f_equal; ring.
Qed.
(* ---- Jexp6 ---- *)
Lemma sinc3_differentiable w dw t : deriv3 w dw t -> v3norm (w t) <> 0 -> exists d, deriv (fun u => sinc3 (v3norm (w u))) d t.
Proof.
  intros D N. pose proof (der_norm w dw t D N) as Dn. destruct (near_pos w dw t D N) as (e & Hp & Hn). eexists.
  eapply (deriv_ext_loc _ (fun u => (v3norm (w u) - sin (v3norm (w u))) / (v3norm (w u) * v3norm (w u) * v3norm (w u))) _ t e Hp); [intros u Hu; apply sinc3_nz, Hn, Hu|].
  assert (N3 : v3norm (w t) * v3norm (w t) * v3norm (w t) <> 0) by (repeat apply Rmult_integral_contrapositive_currified; exact N).
  eapply (deriv_div (fun u => v3norm (w u) - sin (v3norm (w u))) (fun u => v3norm (w u) * v3norm (w u) * v3norm (w u)) _ _ t N3).
  - apply deriv_minus; [exact Dn | apply deriv_sin; exact Dn].
  - apply (deriv_mult (fun u => v3norm (w u) * v3norm (w u)) (fun u => v3norm (w u))); [apply (deriv_mult (fun u => v3norm (w u)) (fun u => v3norm (w u))); exact Dn | exact Dn].
Qed.
Lemma texp_differentiable (nu : R -> V6) dnu t : deriv6 nu dnu t -> v3norm (ang (nu t)) <> 0 -> exists d, deriv3 (fun u => Texp (nu u)) d t.
Proof.
  intros [Dv Dw] N. destruct (sinc3_differentiable (fun u => ang (nu u)) (ang dnu) t Dw N) as [d3 D3]. pose proof (der_sinc (fun u => ang (nu u)) (ang dnu) t Dw) as D1. pose proof (der_cosc (fun u => ang (nu u)) (ang dnu) t Dw) as D2.
  eexists. unfold Texp. cbv zeta. apply deriv3_add; [apply deriv3_add|].
  - apply deriv3_scale; [exact D1 | exact Dv].
  - apply deriv3_scale; [apply (deriv_mult (fun u => sinc3 (v3norm (ang (nu u)))) (fun u => v3dot (ang (nu u)) (lin (nu u)))); [exact D3 | apply deriv_dot; [exact Dw | exact Dv]] | exact Dw].
  - apply deriv3_scale; [exact D2 | apply deriv3_cross; [exact Dw | exact Dv]].
Qed.

Lemma v3add_cancel a b c : v3add a b = c -> b = v3sub c a.
Proof. intros <-. destruct a, b. unfold v3add, v3sub. cbn. f_equal; ring. Qed.
Theorem jexp6_rate eps (nu : R -> V6) dnu t J : 0 < eps -> ts3 eps < v3norm (ang (nu t)) -> cos (v3norm (ang (nu t))) <> 1 -> deriv6 nu dnu t ->
  hasTwist (fun u => SE3exp (nu u)) (m66vec (Jexp6 eps SETTO (nu t) J) dnu) t.
Proof.
  intros He Hw Hc D. pose proof (ts3_pos eps He) as P. assert (N : v3norm (ang (nu t)) <> 0) by lra. destruct (texp_differentiable nu dnu t D N) as [dp Dp]. destruct D as [Dv Dw].
  set (w := fun u => ang (nu u)) in *. set (p := fun u => Texp (nu u)) in *. fold (w t) in Hw, Hc, N.
  assert (EJ : Jexp6 eps SETTO (nu t) J = mkM66 (Jr (w t)) (m3mul (m3scale (-1) (Jr (w t))) (jblock eps (w t) (p t))) m3zero (Jr (w t))).
  { unfold Jexp6. cbv zeta. fold (w t). rewrite jexp_big by lra. replace (m3vec (m3tr (Jr (w t))) (lin (nu t))) with (p t) by (unfold p; rewrite texp_tr; reflexivity). f_equal. unfold m3scale, m3id, m3zero. cbn. f_equal; ring. }
  rewrite EJ. unfold m66vec. cbn [tl6 tr6 bl6 br6]. set (om := m3vec (Jr (w t)) (ang dnu)). destruct (jlog_big eps He (w t) ltac:(lra) Hc) as [J1 J2]. set (A := Jlog3 eps (v3norm (w t)) (w t)) in *.
  assert (Edw : m3vec A om = ang dnu) by (unfold om; rewrite <- m3vec_mul, J2; apply m3vec_1).
  assert (Dw2 : deriv3 w (m3vec (Jlog3 eps (v3norm (w t)) (w t)) om) t) by (fold A; rewrite Edw; exact Dw). pose proof (hlog_rate eps He w om t Hw Hc Dw2) as DH.
  assert (Near : exists e, 0 < e /\ forall u, Rabs (u - t) < e -> ts3 eps <= v3norm (w u) /\ cos (v3norm (w u)) <> 1).
  { destruct (deriv_continuous _ _ t (der_norm w _ t Dw N) (v3norm (w t) - ts3 eps) ltac:(lra)) as (e1 & H1 & K1). destruct (deriv_continuous _ _ t (der_cos w _ t Dw) (1 - cos (v3norm (w t))) ltac:(pose proof (COS_bound (v3norm (w t))); lra)) as (e2 & H2 & K2).
    exists (Rmin e1 e2). split; [apply Rmin_pos; assumption|]. intros u Hu. pose proof (K1 u ltac:(eapply Rlt_le_trans; [exact Hu | apply Rmin_l])) as U1. pose proof (K2 u ltac:(eapply Rlt_le_trans; [exact Hu | apply Rmin_r])) as U2. cbv beta in U1, U2. apply Rabs_def2 in U1, U2. split; lra. }
  destruct Near as (e & Hp & Nr).
  assert (Loc : forall u, Rabs (u - t) < e -> lin (nu u) = m3vec (m3tr (Jlog3 eps (v3norm (w u)) (w u))) (p u)).
  { intros u Hu. destruct (Nr u Hu) as [n1 n2]. unfold p. rewrite texp_tr. fold (w u). rewrite <- m3vec_mul, <- m3tr_mul. rewrite (proj1 (jlog_big eps He (w u) n1 n2)). destruct (lin (nu u)). unfold m3vec, m3tr, m3id. cbn. f_equal; ring. }
  assert (Dv2 : deriv3 (fun u => lin (nu u)) (v3add (m3vec (m3tr (Hlog3 (v3norm (w t)) (w t) om)) (p t)) (m3vec (m3tr A) dp)) t).
  { apply (deriv3_ext_loc _ _ _ t e Hp Loc). apply deriv3_vec; [apply derivM3_tr; exact DH | exact Dp]. }
  pose proof (deriv3_unique _ _ _ t Dv2 Dv) as E. rewrite (hlog_tr eps) in E by lra. fold A in E. rewrite Edw in E. apply v3add_cancel in E.
  assert (Edp : dp = m3vec (m3tr (Jr (w t))) (v3sub (lin dnu) (m3vec (jblock eps (w t) (p t)) (ang dnu)))).
  { rewrite <- E, <- m3vec_mul, <- m3tr_mul. rewrite J2. destruct dp. unfold m3vec, m3tr, m3id. cbn. f_equal; ring. }
  split; cbn [SE3exp rot trans lin ang].
  - pose proof (exp_turns w (ang dnu) t Dw) as T. unfold turns in T. fold om in T. eapply derivM3_eq; [exact T|]. fold (w t). apply (f_equal (fun z => m3mul (Rexp (w t)) (skew z))). fold om. clearbody om. destruct om, (lin dnu). unfold v3add, m3vec, m3zero. cbn. f_equal; ring.
  - eapply deriv3_eq; [exact Dp|]. rewrite Edp, <- rexp_jr. fold (w t). rewrite m3vec_mul. apply (f_equal (m3vec (Rexp (w t)))). rewrite m3vec_mul. set (z := m3vec (jblock eps (w t) (p t)) (ang dnu)). clearbody z. generalize (Jr (w t)). intros B. clear. destruct z as [z1 z2 z3], (lin dnu) as [l1 l2 l3]. unfold v3sub, v3add, m3vec, m3scale. cbn. f_equal; ring.
Qed.
Theorem jexp6_ops eps nu J K : Jexp6 eps ADDTO nu J = m66add J (Jexp6 eps SETTO nu K) /\ Jexp6 eps RMTO nu J = m66sub J (Jexp6 eps SETTO nu K).
Proof.
  unfold Jexp6. cbv zeta. assert (E : Jexp3 eps SETTO (ang nu) (br6 K) = Jexp3 eps SETTO (ang nu) m3id) by (unfold Jexp3; reflexivity). rewrite E. unfold m66add, m66sub. cbn [tl6 tr6 bl6 br6]. split; f_equal; (destruct (bl6 J); unfold m3add, m3sub, m3scale, m3id; cbn; f_equal; ring).
Qed.
(* the Jacobian of log6 is the inverse of that of exp6 at the logarithm, half turns included *)
Theorem jlog6_inverse eps M J : 0 < eps <= 1 / 4096 -> isRotation (rot M) -> m3trace (rot M) < 3 - ts2 eps ->
  m66mul (Jlog6 eps M) (Jexp6 eps SETTO (log6 eps M) J) = m66id /\ m66mul (Jexp6 eps SETTO (log6 eps M) J) (Jlog6 eps M) = m66id.
Proof.
  intros He H N. destruct (log3_far eps (rot M) He H N) as (E & [D1 D2] & G & _). pose proof (log6_far_trans eps M He H N) as ET. rewrite jlog6_blocks by exact E. cbv zeta. set (w := fst (log3 eps (rot M))) in *. rewrite E in *. pose proof (cos_ne1 _ (conj D1 D2)) as Hc.
  destruct (jlog_big eps ltac:(lra) w ltac:(lra) ltac:(lra)) as [J1 J2]. set (A := Jlog3 eps (v3norm w) w) in *.
  unfold Jexp6. cbv zeta. change (ang (log6 eps M)) with w. rewrite jexp_big by lra. rewrite texp_tr in ET. change (ang (log6 eps M)) with w in ET. rewrite ET. set (C := jblock eps w (trans M)). set (B := Jr w) in *. clearbody A B C.
  replace (m3scale 0 m3id) with m3zero by (unfold m3scale, m3id, m3zero; cbn; f_equal; ring). unfold m66mul, m66id. cbn [tl6 tr6 bl6 br6].
  assert (Z1 : forall X, m3mul X m3zero = m3zero) by (intros []; unfold m3mul, m3zero; cbn; f_equal; ring). assert (Z2 : forall X, m3mul m3zero X = m3zero) by (intros []; unfold m3mul, m3zero; cbn; f_equal; ring).
  assert (Z3 : forall X, m3add X m3zero = X) by (intros []; unfold m3add, m3zero; cbn; f_equal; ring). assert (Z4 : forall X, m3add m3zero X = X) by (intros []; unfold m3add, m3zero; cbn; f_equal; ring).
  assert (Z5 : forall X Y, m3mul X (m3mul (m3scale (-1) Y) C) = m3scale (-1) (m3mul (m3mul X Y) C)) by (intros [] []; destruct C; unfold m3mul, m3scale; cbn; f_equal; ring).
  rewrite !Z1, !Z2, !Z3, !Z4, J1, J2. split; f_equal.
  - rewrite Z5, J2, <- m3mul_assoc, J2, m3mul_1_r, m3mul_1_l. destruct C. unfold m3add, m3scale, m3zero. cbn. f_equal; ring.
  - rewrite <- m3mul_assoc. generalize (m3mul C A). intros X. replace m3zero with (m3add (m3mul B X) (m3mul (m3scale (-1) B) X)) by (destruct B, X; unfold m3add, m3mul, m3scale, m3zero; cbn; f_equal; ring). reflexivity.
Qed.
