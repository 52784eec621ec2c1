(** Proofs that the spatial model meets the specifications of Spec_Spatial. *)
From Coq Require Import Reals Lra Lia Psatz List.
From Verif Require Import Vec3 Spatial Inertia InertiaFacts Spec_Spatial.
Import ListNotations.
Open Scope R_scope.

Lemma exRot_rot : isRotation exRot.
Proof. split; [unfold orthogonal, exRot; iext; isimp; lra | unfold exRot; isimp; lra]. Qed.
Lemma exRot2_rot : isRotation exRot2.
Proof. split; [unfold orthogonal, exRot2; iext; isimp; lra | unfold exRot2; isimp; lra]. Qed.

Lemma v3_case (v : V3) : {v = v3zero} + {v <> v3zero}.
Proof.
  destruct v as [x y z].
  destruct (Req_EM_T x 0); [|right; intros H; injection H; intros; contradiction].
  destruct (Req_EM_T y 0); [|right; intros H; injection H; intros; contradiction].
  destruct (Req_EM_T z 0); [|right; intros H; injection H; intros; contradiction].
  left; subst; reflexivity.
Qed.
Lemma v3norm2_nonneg v : 0 <= v3norm2 v. Proof. isimp; nra. Qed.
Lemma v3norm2_pos v : v <> v3zero -> 0 < v3norm2 v.
Proof.
  intros H. destruct v as [x y z]. destruct (Rle_lt_or_eq_dec _ _ (v3norm2_nonneg (mkV3 x y z))) as [P|E]; [exact P|].
  exfalso; apply H. revert E; isimp; intros E. assert (x = 0 /\ y = 0 /\ z = 0) as (-> & -> & ->) by (repeat split; nra). reflexivity.
Qed.

(** field interpretation of act *)
Lemma motion_act_field M v p : isRotation (rot M) ->
  velocityAt (motion_act M v) (se3_actPoint M p) = m3vec (rot M) (velocityAt v p).
Proof.
  intros H. unfold velocityAt, motion_act, se3_actPoint; cbn [lin ang].
  rewrite m3vec_add_r, rotation_cross by exact H. iring.
Qed.
Lemma force_act_field M f p : isRotation (rot M) ->
  lin (force_act M f) = m3vec (rot M) (lin f) /\
  momentAt (force_act M f) (se3_actPoint M p) = m3vec (rot M) (momentAt f p).
Proof.
  intros H. split; [reflexivity|]. unfold momentAt, force_act, se3_actPoint; cbn [lin ang].
  rewrite m3vec_sub_r, rotation_cross by exact H. iring.
Qed.
Lemma velocityAt_inj u v : (forall p, velocityAt u p = velocityAt v p) -> u = v.
Proof.
  intros H. pose proof (H v3zero) as H0. pose proof (H (mkV3 1 0 0)) as H1. pose proof (H (mkV3 0 1 0)) as H2.
  destruct u as [[] []], v as [[] []]. unfold velocityAt, v3add, v3cross, v3zero in *; cbn in *.
  injection H0; injection H1; injection H2; intros. f_equal; f_equal; lra.
Qed.

Lemma sym3_rotate_psd S Rm : isRotation Rm -> psd3 (sym3_matrix S) -> psd3 (sym3_matrix (sym3_rotate S Rm)).
Proof.
  intros H P v. rewrite sym3_rotate_spec by exact H.
  replace (v3dot v (m3vec (m3mul (m3mul Rm (sym3_matrix S)) (m3tr Rm)) v))
    with (v3dot (m3vec (m3tr Rm) v) (m3vec (sym3_matrix S) (m3vec (m3tr Rm) v))) by (isimp; ring).
  apply P.
Qed.
Lemma sym3_rotate_pd S Rm : isRotation Rm -> pd3 (sym3_matrix S) -> pd3 (sym3_matrix (sym3_rotate S Rm)).
Proof.
  intros H P v Hv. rewrite sym3_rotate_spec by exact H.
  replace (v3dot v (m3vec (m3mul (m3mul Rm (sym3_matrix S)) (m3tr Rm)) v))
    with (v3dot (m3vec (m3tr Rm) v) (m3vec (sym3_matrix S) (m3vec (m3tr Rm) v))) by (isimp; ring).
  apply P. intros E. apply Hv. rewrite <- (orthogonal_vec_tr Rm v) by apply H. rewrite E. iring.
Qed.
Lemma sym3_rotate_trace S Rm : isRotation Rm -> m3trace (sym3_matrix (sym3_rotate S Rm)) = m3trace (sym3_matrix S).
Proof. intros H. rewrite sym3_rotate_spec by exact H. apply m3trace_conj, H. Qed.

Lemma inertia_vtiv_split Y v :
  inertia_vtiv Y v = mass Y * v3norm2 (v3sub (lin v) (v3cross (lever Y) (ang v)))
                     + v3dot (ang v) (m3vec (sym3_matrix (inertia Y)) (ang v)).
Proof. isimp; ring. Qed.
Lemma inertia_vtiv_nonneg Y v : 0 <= mass Y -> psd3 (sym3_matrix (inertia Y)) -> 0 <= inertia_vtiv Y v.
Proof.
  intros Hm P. rewrite inertia_vtiv_split. apply Rplus_le_le_0_compat; [apply Rmult_le_pos; [exact Hm | apply v3norm2_nonneg] | apply P].
Qed.
Lemma inertia_vtiv_pos Y v : 0 < mass Y -> pd3 (sym3_matrix (inertia Y)) -> v <> v6zero -> 0 < inertia_vtiv Y v.
Proof.
  intros Hm P Hv. rewrite inertia_vtiv_split. destruct (v3_case (ang v)) as [E|E].
  - rewrite E. assert (L : lin v <> v3zero) by (intros L; apply Hv; apply v6_ext; assumption).
    replace (v3sub (lin v) (v3cross (lever Y) v3zero)) with (lin v) by iring.
    replace (v3dot v3zero (m3vec (sym3_matrix (inertia Y)) v3zero)) with 0 by (isimp; ring).
    pose proof (v3norm2_pos _ L). nra.
  - apply Rplus_le_lt_0_compat; [apply Rmult_le_pos; [lra | apply v3norm2_nonneg] | apply P, E].
Qed.

Lemma inertia_vtiv_act M Y v : isRotation (rot M) -> inertia_vtiv (inertia_act M Y) (motion_act M v) = inertia_vtiv Y v.
Proof. intros H. rewrite !inertia_vtiv_spec, inertia_act_mul, act_dot by (exact H || apply H). reflexivity. Qed.

Lemma inertia_eq_of_matrix A B : mass A <> 0 -> inertia_matrix A = inertia_matrix B -> A = B.
Proof.
  intros H E. rewrite <- (inertia_ofMatrix_matrix A H), E. apply inertia_ofMatrix_matrix.
  assert (mass A = mass B) by (change (mass A) with (m00 (mLL (inertia_matrix A))); rewrite E; reflexivity). lra.
Qed.
Lemma inertia_plus_comm eps A B : 0 < eps -> eps <= mass A + mass B -> inertia_plus eps A B = inertia_plus eps B A.
Proof.
  intros He H. apply inertia_eq_of_matrix; [cbn; lra|].
  rewrite !inertia_plus_matrix by (split; [exact He | left; lra]). iring.
Qed.
Lemma inertia_plus_assoc eps A B C : 0 < eps -> eps <= mass A + mass B -> eps <= mass B + mass C ->
  eps <= mass A + mass B + mass C ->
  inertia_plus eps (inertia_plus eps A B) C = inertia_plus eps A (inertia_plus eps B C).
Proof.
  intros He H1 H2 H3. apply inertia_eq_of_matrix; [cbn; lra|].
  rewrite !inertia_plus_matrix by (split; [exact He | left; cbn [mass inertia_plus]; lra]). iring.
Qed.

(** ** Point masses *)
Lemma describes_inj_spin pts c w1 w2 : spin pts c (v3add w1 w2) = v3add (spin pts c w1) (spin pts c w2).
Proof.
  unfold spin. induction pts as [|k l IH]; cbn [map sumV3]; [iring|]. rewrite IH. iring.
Qed.

Lemma spin_shift pts c d w :
  spin pts d w = v3add (spin pts c w)
    (v3sub (v3add (v3cross (v3sub (firstMoment pts) (v3scale (totalMass pts) c)) (v3cross w (v3sub c d)))
                  (v3cross (v3sub c d) (v3cross w (v3sub (firstMoment pts) (v3scale (totalMass pts) c)))))
           (v3scale (- totalMass pts) (v3cross (v3sub c d) (v3cross w (v3sub c d))))).
Proof.
  unfold spin, firstMoment, totalMass. induction pts as [|k l IH]; cbn [map sumV3 sumR]; [iring|].
  rewrite IH. clear IH. generalize (sumV3 (map (fun k : PointMass => v3scale (pm_m k) (pm_p k)) l)).
  generalize (sumR (map pm_m l)).
  generalize (sumV3 (map (fun k0 : PointMass => v3scale (pm_m k0) (v3cross (v3sub (pm_p k0) c) (v3cross w (v3sub (pm_p k0) c)))) l)).
  destruct k as [m p]; cbn [pm_m pm_p]. intros. iring.
Qed.

Lemma describes_momentum Y pts v : describes Y pts ->
  lin (inertia_mul Y v) = linearMomentum pts v /\ ang (inertia_mul Y v) = angularMomentum pts v.
Proof.
  intros (Hm & Hc & HI).
  assert (LM : linearMomentum pts v = v3add (v3scale (totalMass pts) (lin v)) (v3cross (ang v) (firstMoment pts))).
  { unfold linearMomentum, totalMass, firstMoment. clear. induction pts as [|k l IH]; cbn [map sumV3 sumR]; [iring|].
    rewrite IH. unfold velocityAt. iring. }
  assert (AM : angularMomentum pts v = v3add (v3cross (firstMoment pts) (lin v)) (spin pts v3zero (ang v))).
  { unfold angularMomentum, firstMoment, spin. clear. induction pts as [|k l IH]; cbn [map sumV3]; [iring|].
    rewrite IH. unfold velocityAt. iring. }
  split.
  - rewrite LM, <- Hm, <- Hc. iring.
  - rewrite AM, (spin_shift pts (lever Y)), <- HI, <- Hm, <- Hc. iring.
Qed.

Lemma describes_kinetic Y pts v : describes Y pts -> inertia_vtiv Y v = twiceKinetic pts v.
Proof.
  intros H. destruct (describes_momentum Y pts v H) as [HL HA].
  rewrite inertia_vtiv_spec. unfold v6dot. rewrite HL, HA. clear.
  unfold linearMomentum, angularMomentum, twiceKinetic.
  induction pts as [|k l IH]; cbn [map sumV3 sumR]; [isimp; ring|].
  rewrite <- IH. unfold velocityAt. isimp; ring.
Qed.

Definition pm_act (M : SE3) (k : PointMass) : PointMass := mkPM (pm_m k) (se3_actPoint M (pm_p k)).

Lemma totalMass_act M pts : totalMass (map (pm_act M) pts) = totalMass pts.
Proof. unfold totalMass. induction pts as [|k l IH]; cbn [map sumR]; [reflexivity|]. rewrite IH. reflexivity. Qed.

Lemma describes_act M Y pts : isRotation (rot M) -> describes Y pts ->
  describes (inertia_act M Y) (map (pm_act M) pts).
Proof.
  intros H (Hm & Hc & HI). split; [|split].
  - rewrite totalMass_act. exact Hm.
  - cbn [mass lever inertia_act].
    assert (E : firstMoment (map (pm_act M) pts) = v3add (m3vec (rot M) (firstMoment pts)) (v3scale (totalMass pts) (trans M))).
    { unfold firstMoment, totalMass. clear. induction pts as [|k l IH]; cbn [map sumV3 sumR]; [iring|].
      rewrite IH. unfold pm_act, se3_actPoint; cbn [pm_m pm_p]. iring. }
    rewrite E, <- Hc, <- Hm. iring.
  - intros w. cbn [lever inertia inertia_act].
    rewrite sym3_rotate_spec, !m3vec_mul, HI by exact H. clear HI Hc Hm.
    unfold spin. induction pts as [|k l IH]; cbn [map sumV3]; [iring|].
    rewrite m3vec_add_r, IH. f_equal. unfold pm_act, se3_actPoint; cbn [pm_m pm_p].
    rewrite m3vec_scale_r, !rotation_cross by exact H. rewrite orthogonal_vec_tr by apply H.
    rewrite m3vec_sub_r.
    replace (v3sub (v3add (m3vec (rot M) (pm_p k)) (trans M)) (v3add (trans M) (m3vec (rot M) (lever Y))))
      with (v3sub (m3vec (rot M) (pm_p k)) (m3vec (rot M) (lever Y))) by iring.
    reflexivity.
Qed.

Lemma sumR_app a b : sumR (a ++ b) = sumR a + sumR b.
Proof. induction a; cbn [app sumR]; [ring | rewrite IHa; ring]. Qed.
Lemma sumV3_app a b : sumV3 (a ++ b) = v3add (sumV3 a) (sumV3 b).
Proof. induction a; cbn [app sumV3]; [iring | rewrite IHa; iring]. Qed.
Lemma spin_app a b c w : spin (a ++ b) c w = v3add (spin a c w) (spin b c w).
Proof. unfold spin. rewrite map_app. apply sumV3_app. Qed.

Lemma describes_plus eps Ya Yb pa pb : 0 < eps -> eps <= mass Ya + mass Yb ->
  describes Ya pa -> describes Yb pb -> describes (inertia_plus eps Ya Yb) (pa ++ pb).
Proof.
  intros He H (Hma & Hca & HIa) (Hmb & Hcb & HIb). unfold inertia_plus.
  assert (N : mass Ya + mass Yb <> 0) by lra.
  split; [|split]; cbn [mass lever inertia].
  - unfold totalMass. rewrite map_app, sumR_app. rewrite Hma, Hmb. reflexivity.
  - rewrite Rmax_left by exact H. unfold firstMoment. rewrite map_app, sumV3_app. fold (firstMoment pa) (firstMoment pb).
    rewrite <- Hca, <- Hcb. iext; isimp; field; exact N.
  - intros w. rewrite Rmax_left by exact H. rewrite spin_app, (spin_shift pa (lever Ya)), (spin_shift pb (lever Yb)).
    rewrite <- HIa, <- HIb, <- Hma, <- Hmb, <- Hca, <- Hcb. iext; isimp; field; exact N.
Qed.

(** ** Solids *)
Lemma pd3_diag a b c : 0 < a -> 0 < b -> 0 < c -> pd3 (mkM3 a 0 0 0 b 0 0 0 c).
Proof.
  intros Ha Hb Hc v Hv. pose proof (v3norm2_pos v Hv) as P.
  assert (E : v3dot v (m3vec (mkM3 a 0 0 0 b 0 0 0 c) v) = a * (vx v * vx v) + b * (vy v * vy v) + c * (vz v * vz v)) by (isimp; ring).
  rewrite E. clear E. unfold v3norm2, v3dot in P.
  assert (0 <= a * (vx v * vx v)) by (apply Rmult_le_pos; nra).
  assert (0 <= b * (vy v * vy v)) by (apply Rmult_le_pos; nra).
  assert (0 <= c * (vz v * vz v)) by (apply Rmult_le_pos; nra).
  destruct (Req_dec (vx v) 0) as [Ex|Ex]; [|assert (0 < a * (vx v * vx v)) by (apply Rmult_lt_0_compat; [lra | apply (Rsqr_pos_lt (vx v)); assumption]); lra].
  destruct (Req_dec (vy v) 0) as [Ey|Ey]; [|assert (0 < b * (vy v * vy v)) by (apply Rmult_lt_0_compat; [lra | apply (Rsqr_pos_lt (vy v)); assumption]); lra].
  destruct (Req_dec (vz v) 0) as [Ez|Ez]; [|assert (0 < c * (vz v * vz v)) by (apply Rmult_lt_0_compat; [lra | apply (Rsqr_pos_lt (vz v)); assumption]); lra].
  rewrite Ex, Ey, Ez in P. lra.
Qed.

Definition solid_ok (Y : Inertia) (m : R) : Prop :=
  mass Y = m /\ lever Y = v3zero /\
  exists a b c, diagonalInertia (sym3_matrix (inertia Y)) a b c /\ triangle a b c.

Lemma solid_pd Y m : solid_ok Y m -> pd3 (sym3_matrix (inertia Y)).
Proof. intros (_ & _ & a & b & c & E & T). rewrite E. apply pd3_diag; apply T. Qed.

Ltac tri := unfold triangle; repeat split; try (apply Rmult_lt_0_compat; nra); nra.

Lemma ellipsoid_ok m x y z : 0 < m -> 0 < x -> 0 < y -> 0 < z -> solid_ok (inertia_FromEllipsoid m x y z) m.
Proof.
  intros Hm Hx Hy Hz. split; [reflexivity|]. split; [reflexivity|].
  eexists _, _, _. split; [reflexivity|].
  assert (0 < m * (x * x)) by (apply Rmult_lt_0_compat; nra).
  assert (0 < m * (y * y)) by (apply Rmult_lt_0_compat; nra).
  assert (0 < m * (z * z)) by (apply Rmult_lt_0_compat; nra).
  unfold triangle; cbn; repeat split; lra.
Qed.
Lemma sphere_ok m r : 0 < m -> 0 < r -> solid_ok (inertia_FromSphere m r) m.
Proof. intros. apply ellipsoid_ok; assumption. Qed.
Lemma box_ok m x y z : 0 < m -> 0 < x -> 0 < y -> 0 < z -> solid_ok (inertia_FromBox m x y z) m.
Proof.
  intros Hm Hx Hy Hz. split; [reflexivity|]. split; [reflexivity|].
  eexists _, _, _. split; [reflexivity|].
  assert (0 < m * (x * x)) by (apply Rmult_lt_0_compat; nra).
  assert (0 < m * (y * y)) by (apply Rmult_lt_0_compat; nra).
  assert (0 < m * (z * z)) by (apply Rmult_lt_0_compat; nra).
  unfold triangle; cbn; repeat split; lra.
Qed.
Lemma cylinder_ok m r l : 0 < m -> 0 < r -> 0 < l -> solid_ok (inertia_FromCylinder m r l) m.
Proof.
  intros Hm Hr Hl. split; [reflexivity|]. split; [reflexivity|].
  eexists _, _, _. split; [reflexivity|].
  assert (0 < m * (r * r)) by (apply Rmult_lt_0_compat; nra).
  assert (0 < m * (l * l)) by (apply Rmult_lt_0_compat; nra).
  unfold triangle; cbn; repeat split; lra.
Qed.
Lemma capsule_ok m r h : 0 < m -> 0 < r -> 0 < h -> solid_ok (inertia_FromCapsule m r h) m.
Proof.
  intros Hm Hr Hh. split; [reflexivity|]. split; [reflexivity|].
  eexists _, _, _. split; [reflexivity|].
  unfold triangle; cbn - [pow]. pose proof PI_RGT_0 as HP.
  assert (V1 : 0 < PI * r ^ 2 * h) by (pose proof (pow_lt r 2 Hr); apply Rmult_lt_0_compat; [apply Rmult_lt_0_compat; lra | lra]).
  assert (V2 : 0 < 2 / 3 * r ^ 3 * PI) by (pose proof (pow_lt r 3 Hr); apply Rmult_lt_0_compat; [lra | lra]).
  revert V1 V2. generalize (PI * r ^ 2 * h) (2 / 3 * r ^ 3 * PI). intros v1 v2 V1 V2.
  assert (M1 : 0 < m * (v1 / (v1 + 2 * v2))) by (apply Rmult_lt_0_compat; [lra | apply Rdiv_lt_0_compat; lra]).
  assert (M2 : 0 < m * (v2 / (v1 + 2 * v2))) by (apply Rmult_lt_0_compat; [lra | apply Rdiv_lt_0_compat; lra]).
  revert M1 M2. generalize (m * (v1 / (v1 + 2 * v2))) (m * (v2 / (v1 + 2 * v2))). intros a b Ha Hb.
  assert (P1 : 0 < a * r ^ 2) by (apply Rmult_lt_0_compat; [lra | apply pow_lt; lra]).
  assert (P2 : 0 < b * r ^ 2) by (apply Rmult_lt_0_compat; [lra | apply pow_lt; lra]).
  assert (P3 : 0 < a * h ^ 2) by (apply Rmult_lt_0_compat; [lra | apply pow_lt; lra]).
  assert (P4 : 0 < b * (h / 2 + 375 / 1000 * r) ^ 2) by (apply Rmult_lt_0_compat; [lra | apply pow_lt; lra]).
  assert (P5 : b * (h / 2 + 375 / 1000 * r) ^ 2 >= b * r ^ 2 * (9 / 64)).
  { replace (b * r ^ 2 * (9 / 64)) with (b * ((3 / 8 * r) ^ 2)) by field.
    apply Rle_ge, Rmult_le_compat_l; [lra|]. apply pow_incr. lra. }
  repeat split; lra.
Qed.

Lemma lc_positive_mass p : 0 < mass (lc_toInertia p).
Proof. cbn. pose proof (exp_pos (2 * lc_alpha p)). lra. Qed.
Lemma lc_dyn p : inertia_toDynamicParameters (lc_toInertia p) = lc_toDynamicParameters p.
Proof. apply dyn_roundtrip'. cbn. pose proof (exp_pos (2 * lc_alpha p)). lra. Qed.
Lemma lc_pd p : pd4 (pseudo_toMatrix (lc_toPseudoInertia p)).
Proof. intros x s H. exact (lc_pseudo_pos p x s H). Qed.
Lemma lc_pseudo p : pseudo_FromInertia (lc_toInertia p) = lc_toPseudoInertia p.
Proof. unfold pseudo_FromInertia. rewrite lc_dyn. reflexivity. Qed.

Lemma inertia_vxi_vec v Y m : m6vec (inertia_vxi v Y) m = force_cross v (inertia_mul Y m).
Proof. rewrite inertia_vxi_spec, m6vec_mul, motionDualActionMatrix_spec, inertia_mul_spec. reflexivity. Qed.
Lemma inertia_ivx_vec v Y m : m6vec (inertia_ivx v Y) m = inertia_mul Y (motion_cross v m).
Proof. rewrite inertia_ivx_spec, m6vec_mul, motionActionMatrix_spec, inertia_mul_spec. reflexivity. Qed.

Lemma plus_tiny_wrong eps : 0 < eps ->
  exists Ya Yb, 0 < mass Ya /\ 0 < mass Yb /\ mass Ya + mass Yb < eps /\
    inertia_matrix (inertia_plus eps Ya Yb) <> m6add (inertia_matrix Ya) (inertia_matrix Yb).
Proof.
  intros He. exists (mkInertia (eps / 4) (mkV3 1 0 0) sym3_Zero), (mkInertia (eps / 4) (mkV3 1 0 0) sym3_Zero).
  cbn [mass]. split; [lra|]. split; [lra|]. split; [lra|].
  intros H. apply (f_equal (fun A => m21 (mAL A))) in H. revert H.
  unfold inertia_plus; cbn [mass lever inertia]. rewrite Rmax_right by lra. isimp.
  assert (E : - (- (1 / eps * (eps / 4 * 1 + eps / 4 * 1)) * (eps / 4 + eps / 4)) = eps / 4) by (field; lra).
  rewrite E. lra.
Qed.

Lemma solids_all m x y z : 0 < m -> 0 < x -> 0 < y -> 0 < z ->
  forall Y, In Y [inertia_FromSphere m x; inertia_FromEllipsoid m x y z; inertia_FromCylinder m x y;
                  inertia_FromBox m x y z; inertia_FromCapsule m x y] ->
  mass Y = m /\ lever Y = v3zero /\ pd3 (sym3_matrix (inertia Y)) /\
  exists a b c, diagonalInertia (sym3_matrix (inertia Y)) a b c /\ triangle a b c.
Proof.
  intros Hm Hx Hy Hz Y HY.
  assert (K : solid_ok Y m).
  { cbn [In] in HY. destruct HY as [<-|[<-|[<-|[<-|[<-|[]]]]]];
      [apply sphere_ok | apply ellipsoid_ok | apply cylinder_ok | apply box_ok | apply capsule_ok]; assumption. }
  pose proof (solid_pd Y m K) as P. destruct K as (K1 & K2 & K3). auto.
Qed.
