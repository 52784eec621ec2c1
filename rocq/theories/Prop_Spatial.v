(** Property theorems C01-C11 and C16 (spatial classes). Statements only. *)
From Coq Require Import Reals Lra List.
From Verif Require Import Vec3 Spatial Inertia InertiaFacts Spec_Spatial SpatialFacts.
Import ListNotations.
Open Scope R_scope.

(** ** C01 *)
Theorem C01_group (A B C : SE3) :
  se3_mul A (se3_mul B C) = se3_mul (se3_mul A B) C /\
  se3_mul se3_Identity A = A /\ se3_mul A se3_Identity = A.
Proof. exact (conj (se3_mul_assoc A B C) (conj (se3_mul_1_l A) (se3_mul_1_r A))). Qed.
Print Assumptions C01_group.

Theorem C01_inverse (A B : SE3) (HA : orthogonal (rot A)) :
  se3_mul A (se3_inverse A) = se3_Identity /\ se3_mul (se3_inverse A) A = se3_Identity /\
  se3_inverse (se3_inverse A) = A /\ se3_actInv_se3 A B = se3_mul (se3_inverse A) B /\
  se3_inverse (se3_mul A B) = se3_mul (se3_inverse B) (se3_inverse A).
Proof.
  exact (conj (se3_mul_inv_r A HA) (conj (se3_mul_inv_l A HA) (conj (se3_inverse_involutive A HA)
        (conj (se3_actInv_se3_inverse A B) (se3_inverse_mul A B HA))))).
Qed.
Example C01_inverse_ex : orthogonal (rot exM). Proof. exact (proj1 exRot_rot). Qed.
Print Assumptions C01_inverse.

Theorem C01_points (A B : SE3) (p : V3) (HA : orthogonal (rot A)) :
  se3_actPoint (se3_mul A B) p = se3_actPoint A (se3_actPoint B p) /\
  se3_actPoint se3_Identity p = p /\
  se3_actInvPoint A (se3_actPoint A p) = p /\ se3_actPoint A (se3_actInvPoint A p) = p.
Proof.
  exact (conj (se3_actPoint_mul A B p) (conj (se3_actPoint_1 p)
        (conj (se3_actInvPoint_act A p HA) (se3_act_actInvPoint A p HA)))).
Qed.
Print Assumptions C01_points.

Theorem C01_homogeneous (A B : SE3) :
  se3_toHomogeneousMatrix (se3_mul A B) = m4mul (se3_toHomogeneousMatrix A) (se3_toHomogeneousMatrix B).
Proof. exact (se3_toHomogeneous_mul A B). Qed.
Print Assumptions C01_homogeneous.

Theorem C01_closed (A B : SE3) (HA : isRotation (rot A)) (HB : isRotation (rot B)) :
  isRotation (rot (se3_mul A B)) /\ isRotation (rot (se3_inverse A)) /\ isRotation (rot se3_Identity).
Proof. exact (conj (isRotation_se3_mul A B HA HB) (conj (isRotation_tr _ HA) isRotation_id)). Qed.
Example C01_closed_ex : isRotation (rot exM) /\ isRotation (rot exM2). Proof. exact (conj exRot_rot exRot2_rot). Qed.
Print Assumptions C01_closed.

(** ** C02 *)
Theorem C02_matrices (M : SE3) (v : Motion) (f : Force) :
  m6vec (se3_toActionMatrix M) v = motion_act M v /\
  m6vec (se3_toActionMatrixInverse M) v = motion_actInv M v /\
  m6vec (se3_toDualActionMatrix M) f = force_act M f.
Proof. exact (conj (actionMatrix_spec M v) (conj (actionMatrixInverse_spec M v) (dualActionMatrix_spec M f))). Qed.
Print Assumptions C02_matrices.

Theorem C02_action (A B : SE3) (v : Motion) (f : Force) (HA : isRotation (rot A)) :
  motion_act (se3_mul A B) v = motion_act A (motion_act B v) /\
  force_act (se3_mul A B) f = force_act A (force_act B f) /\
  motion_act se3_Identity v = v /\ force_act se3_Identity f = f.
Proof.
  exact (conj (motion_act_mul A B v HA) (conj (force_act_mul A B f HA) (conj (motion_act_1 v) (force_act_1 f)))).
Qed.
Example C02_action_ex : isRotation (rot exM). Proof. exact exRot_rot. Qed.
Print Assumptions C02_action.

Theorem C02_inverse (A : SE3) (v : Motion) (f : Force) (HA : isRotation (rot A)) :
  motion_actInv A (motion_act A v) = v /\ motion_act A (motion_actInv A v) = v /\
  force_actInv A (force_act A f) = f /\ force_act A (force_actInv A f) = f /\
  motion_actInv A v = motion_act (se3_inverse A) v /\ force_actInv A f = force_act (se3_inverse A) f.
Proof.
  exact (conj (motion_actInv_act A v (proj1 HA)) (conj (motion_act_actInv A v (proj1 HA))
        (conj (force_actInv_act A f (proj1 HA)) (conj (force_act_actInv A f (proj1 HA))
        (conj (motion_actInv_inverse A v HA) (force_actInv_inverse A f HA)))))).
Qed.
Print Assumptions C02_inverse.

(** Frame changes act on twists as on rigid velocity fields, on wrenches as on moment fields. *)
Theorem C02_fields (M : SE3) (v : Motion) (f : Force) (p : V3) (H : isRotation (rot M)) :
  velocityAt (motion_act M v) (se3_actPoint M p) = m3vec (rot M) (velocityAt v p) /\
  lin (force_act M f) = m3vec (rot M) (lin f) /\
  momentAt (force_act M f) (se3_actPoint M p) = m3vec (rot M) (momentAt f p).
Proof. exact (conj (motion_act_field M v p H) (force_act_field M f p H)). Qed.
Print Assumptions C02_fields.

(** ** C03 *)
Theorem C03_power (M : SE3) (v : Motion) (f : Force) (H : orthogonal (rot M)) :
  v6dot (motion_act M v) (force_act M f) = v6dot v f.
Proof. exact (act_dot M v f H). Qed.
Example C03_power_ex : orthogonal (rot exM). Proof. exact (proj1 exRot_rot). Qed.
Print Assumptions C03_power.

Theorem C03_duality (v m : Motion) (f : Force) :
  v6dot m (force_cross v f) = - v6dot (motion_cross v m) f /\
  m6vec (motion_toDualActionMatrix v) f = force_cross v f /\
  m6vec (motion_toActionMatrix v) m = motion_cross v m /\
  motion_toDualActionMatrix v = m6opp (m6tr (motion_toActionMatrix v)).
Proof.
  refine (conj _ (conj (motionDualActionMatrix_spec v f) (conj (motionActionMatrix_spec v m) (motionDualMatrix_tr v)))).
  rewrite (cross_dot_dual v m f), Ropp_involutive. exact eq_refl.
Qed.
Print Assumptions C03_duality.

(** ** C04 *)
Theorem C04_bracket (a b c : Motion) :
  motion_cross a a = v6zero /\ motion_cross a b = v6opp (motion_cross b a) /\
  v6add (motion_cross a (motion_cross b c))
        (v6add (motion_cross b (motion_cross c a)) (motion_cross c (motion_cross a b))) = v6zero.
Proof. exact (conj (motion_cross_self a) (conj (motion_cross_anti a b) (motion_cross_jacobi a b c))). Qed.
Print Assumptions C04_bracket.

Theorem C04_frame_change (M : SE3) (v m : Motion) (f : Force) (H : isRotation (rot M)) :
  motion_act M (motion_cross v m) = motion_cross (motion_act M v) (motion_act M m) /\
  force_act M (force_cross v f) = force_cross (motion_act M v) (force_act M f).
Proof. exact (conj (motion_act_cross M v m H) (force_act_cross M v f H)). Qed.
Example C04_frame_change_ex : isRotation (rot exM2). Proof. exact exRot2_rot. Qed.
Print Assumptions C04_frame_change.

(** ** C05 *)
Theorem C05_dense (S T : Sym3) (v : V3) (k : R) :
  sym3_ofMatrix (sym3_matrix S) = S /\
  sym3_matrix (sym3_add S T) = m3add (sym3_matrix S) (sym3_matrix T) /\
  sym3_matrix (sym3_sub S T) = m3sub (sym3_matrix S) (sym3_matrix T) /\
  sym3_matrix (sym3_scale k S) = m3scale k (sym3_matrix S) /\
  sym3_vec S v = m3vec (sym3_matrix S) v /\
  sym3_vtiv S v = v3dot v (m3vec (sym3_matrix S) v) /\
  sym3_matrix (sym3_SkewSquare v) = m3mul (skew v) (skew v) /\
  sym3_matrix (sym3_subSkewSquare S v) = m3sub (sym3_matrix S) (m3mul (skew v) (skew v)) /\
  sym3_matrix (sym3_AlphaSkewSquare k v) = m3scale k (m3mul (skew v) (skew v)) /\
  sym3_matrix (sym3_subAlphaSkewSquare S k v) = m3sub (sym3_matrix S) (m3scale k (m3mul (skew v) (skew v))) /\
  sym3_vxs v S = m3mul (skew v) (sym3_matrix S) /\
  sym3_svx v S = m3mul (sym3_matrix S) (skew v).
Proof.
  exact (conj (sym3_ofMatrix_matrix S) (conj (sym3_matrix_add S T) (conj (sym3_matrix_sub S T)
   (conj (sym3_matrix_scale k S) (conj (sym3_vec_spec S v) (conj (sym3_vtiv_spec S v)
   (conj (sym3_SkewSquare_spec v) (conj (sym3_subSkewSquare_spec S v) (conj (sym3_AlphaSkewSquare_spec k v)
   (conj (sym3_subAlphaSkewSquare_spec S k v) (conj (sym3_vxs_spec v S) (sym3_svx_spec v S)))))))))))).
Qed.
Print Assumptions C05_dense.

Theorem C05_symmetric_arguments (S : Sym3) (A : M3) (H : m3tr A = A) :
  sym3_matrix (sym3_ofMatrix A) = A /\
  sym3_matrix (sym3_addM S A) = m3add (sym3_matrix S) A /\
  sym3_matrix (sym3_subM S A) = m3sub (sym3_matrix S) A.
Proof. exact (conj (sym3_matrix_ofMatrix A H) (conj (sym3_addM_spec S A H) (sym3_subM_spec S A H))). Qed.
Example C05_symmetric_arguments_ex : m3tr (mkM3 1 2 3 2 5 6 3 6 9) = mkM3 1 2 3 2 5 6 3 6 9. Proof. exact eq_refl. Qed.
Print Assumptions C05_symmetric_arguments.

Theorem C05_entries (S : Sym3) (i j : nat) (Hi : (i < 3)%nat) (Hj : (j < 3)%nat) :
  sym3_at S i j = m3get (sym3_matrix S) i j.
Proof. exact (sym3_at_spec S i j Hi Hj). Qed.
Print Assumptions C05_entries.

Theorem C05_inverse (S : Sym3) (H : m3det (sym3_matrix S) <> 0) :
  m3mul (sym3_matrix S) (sym3_inverse S) = m3id /\ m3mul (sym3_inverse S) (sym3_matrix S) = m3id.
Proof. exact (conj (sym3_inverse_r S H) (sym3_inverse_l S H)). Qed.
Example C05_inverse_ex : m3det (sym3_matrix (inertia exY)) <> 0.
Proof. cbv beta iota delta [m3det sym3_matrix inertia exY m00 m01 m02 m10 m11 m12 m20 m21 m22 s0 s1 s2 s3 s4 s5]. lra. Qed.
Print Assumptions C05_inverse.

Theorem C05_rotate (S : Sym3) (A : M3) (H : isRotation A) :
  sym3_matrix (sym3_rotate S A) = m3mul (m3mul A (sym3_matrix S)) (m3tr A) /\
  m3trace (sym3_matrix (sym3_rotate S A)) = m3trace (sym3_matrix S) /\
  (psd3 (sym3_matrix S) -> psd3 (sym3_matrix (sym3_rotate S A))) /\
  (pd3 (sym3_matrix S) -> pd3 (sym3_matrix (sym3_rotate S A))).
Proof.
  exact (conj (sym3_rotate_spec S A H) (conj (sym3_rotate_trace S A H)
        (conj (sym3_rotate_psd S A H) (sym3_rotate_pd S A H)))).
Qed.
Example C05_rotate_ex : isRotation exRot. Proof. exact exRot_rot. Qed.
Print Assumptions C05_rotate.

(** ** C06 *)
Theorem C06_matrix (Y : Inertia) (u v : Motion) :
  inertia_mul Y v = m6vec (inertia_matrix Y) v /\ m6tr (inertia_matrix Y) = inertia_matrix Y /\
  v6dot u (inertia_mul Y v) = v6dot v (inertia_mul Y u) /\ inertia_vtiv Y v = v6dot v (inertia_mul Y v).
Proof.
  exact (conj (inertia_mul_spec Y v) (conj (inertia_matrix_tr Y) (conj (inertia_mul_sym Y u v) (inertia_vtiv_spec Y v)))).
Qed.
Print Assumptions C06_matrix.

Theorem C06_nonnegative (Y : Inertia) (v : Motion) :
  (0 <= mass Y -> psd3 (sym3_matrix (inertia Y)) -> 0 <= inertia_vtiv Y v) /\
  (0 < mass Y -> pd3 (sym3_matrix (inertia Y)) -> v <> v6zero -> 0 < inertia_vtiv Y v).
Proof. exact (conj (inertia_vtiv_nonneg Y v) (inertia_vtiv_pos Y v)). Qed.
Example C06_nonnegative_ex : let Y := inertia_FromBox 2 1 2 3 in
  0 < mass Y /\ pd3 (sym3_matrix (inertia Y)).
Proof. exact (conj Rlt_0_2 (solid_pd _ 2 (box_ok 2 1 2 3 Rlt_0_2 Rlt_0_1 Rlt_0_2 (IZR_lt 0 3 eq_refl)))). Qed.
Print Assumptions C06_nonnegative.

(** inverse() is the inverse of matrix(). *)
Theorem C06_inverse (Y : Inertia) (Hm : mass Y <> 0) (Hd : m3det (sym3_matrix (inertia Y)) <> 0) :
  m6mul (inertia_matrix Y) (inertia_inverse Y) = m6id /\ m6mul (inertia_inverse Y) (inertia_matrix Y) = m6id.
Proof. exact (inertia_inverse_spec Y Hm Hd). Qed.
Example C06_inverse_ex : mass exY <> 0 /\ m3det (sym3_matrix (inertia exY)) <> 0.
Proof. exact (conj (IZR_neq 2 0 (fun H => ltac:(discriminate H))) C05_inverse_ex). Qed.
Print Assumptions C06_inverse.

(** Y*v is the momentum, and vtiv twice the kinetic energy, of any system of point masses
    with the mass, centre and rotational inertia recorded in Y. *)
Theorem C06_momentum (Y : Inertia) (pts : list PointMass) (v : Motion) (H : describes Y pts) :
  lin (inertia_mul Y v) = linearMomentum pts v /\ ang (inertia_mul Y v) = angularMomentum pts v /\
  inertia_vtiv Y v = twiceKinetic pts v.
Proof.
  exact (conj (proj1 (describes_momentum Y pts v H)) (conj (proj2 (describes_momentum Y pts v H)) (describes_kinetic Y pts v H))).
Qed.
Example C06_momentum_ex :
  describes (mkInertia 4 (mkV3 2 0 0) (mkSym3 0 0 4 0 0 4)) [mkPM 2 (mkV3 1 0 0); mkPM 2 (mkV3 3 0 0)].
Proof.
  unfold describes, totalMass, firstMoment, spin; split; [|split]; [| |intros w];
    try apply v3_ext; isimp; cbn [map sumR sumV3 pm_m pm_p]; isimp; lra.
Qed.
Print Assumptions C06_momentum.

(** ** C07 *)
Theorem C07_equivariant (M : SE3) (Y : Inertia) (v : Motion) (H : isRotation (rot M)) :
  inertia_mul (inertia_act M Y) (motion_act M v) = force_act M (inertia_mul Y v) /\
  inertia_vtiv (inertia_act M Y) (motion_act M v) = inertia_vtiv Y v /\
  inertia_matrix (inertia_act M Y)
    = m6mul (m6mul (se3_toDualActionMatrix M) (inertia_matrix Y)) (se3_toActionMatrixInverse M).
Proof. exact (conj (inertia_act_mul M Y v H) (conj (inertia_vtiv_act M Y v H) (inertia_act_matrix M Y H))). Qed.
Example C07_ex : isRotation (rot exM) /\ isRotation (rot exM2). Proof. exact (conj exRot_rot exRot2_rot). Qed.
Print Assumptions C07_equivariant.

Theorem C07_action (A B : SE3) (Y : Inertia) (HA : isRotation (rot A)) (HB : isRotation (rot B)) :
  inertia_act (se3_mul A B) Y = inertia_act A (inertia_act B Y) /\
  inertia_act se3_Identity Y = Y /\
  inertia_actInv A (inertia_act A Y) = Y /\ inertia_act A (inertia_actInv A Y) = Y /\
  inertia_actInv A Y = inertia_act (se3_inverse A) Y.
Proof.
  exact (conj (inertia_act_compose A B Y HA HB) (conj (inertia_act_id Y)
        (conj (inertia_actInv_act A Y HA) (conj (inertia_act_actInv A Y HA) (inertia_actInv_inverse A Y))))).
Qed.
Print Assumptions C07_action.

Theorem C07_point_masses (M : SE3) (Y : Inertia) (pts : list PointMass) (H : isRotation (rot M)) (D : describes Y pts) :
  describes (inertia_act M Y) (map (fun k => mkPM (pm_m k) (se3_actPoint M (pm_p k))) pts).
Proof. exact (describes_act M Y pts H D). Qed.
Print Assumptions C07_point_masses.

(** ** C08 *)
Theorem C08_sum (eps : R) (Ya Yb : Inertia) (He : 0 < eps)
  (H : eps <= mass Ya + mass Yb \/ (mass Ya = 0 /\ mass Yb = 0)) :
  inertia_matrix (inertia_plus eps Ya Yb) = m6add (inertia_matrix Ya) (inertia_matrix Yb) /\
  inertia_pequ eps Ya Yb = inertia_plus eps Ya Yb.
Proof. exact (conj (inertia_plus_matrix eps Ya Yb (conj He H)) (inertia_pequ_plus eps Ya Yb)). Qed.
Example C08_sum_ex : 0 < / 1000 /\ / 1000 <= mass exY + mass (inertia_FromBox 2 1 2 3).
Proof. split; cbn; lra. Qed.
Print Assumptions C08_sum.

Theorem C08_algebra (eps : R) (A B C : Inertia) (He : 0 < eps)
  (HAB : eps <= mass A + mass B) (HBC : eps <= mass B + mass C) (HABC : eps <= mass A + mass B + mass C) :
  inertia_plus eps A B = inertia_plus eps B A /\
  inertia_plus eps (inertia_plus eps A B) C = inertia_plus eps A (inertia_plus eps B C).
Proof. exact (conj (inertia_plus_comm eps A B He HAB) (inertia_plus_assoc eps A B C He HAB HBC HABC)). Qed.
Example C08_algebra_ex : 0 < / 1000 /\ / 1000 <= mass exY + mass exY /\ / 1000 <= mass exY + mass exY + mass exY.
Proof. cbn; lra. Qed.
Print Assumptions C08_algebra.

Theorem C08_minus (eps : R) (Ya Yb : Inertia) (He : 0 < eps) (Ha : eps <= mass Ya) (Hab : eps <= mass Ya + mass Yb) :
  inertia_minus eps (inertia_plus eps Ya Yb) Yb = Ya /\
  inertia_mequ eps (inertia_plus eps Ya Yb) Yb = Ya.
Proof.
  exact (conj (inertia_minus_plus eps Ya Yb He Ha Hab)
     (eq_trans (inertia_mequ_minus eps _ Yb) (inertia_minus_plus eps Ya Yb He Ha Hab))).
Qed.
Example C08_minus_ex : 0 < / 1000 /\ / 1000 <= mass exY /\ / 1000 <= mass exY + mass (inertia_FromBox 2 1 2 3).
Proof. cbn; lra. Qed.
Print Assumptions C08_minus.

Theorem C08_point_masses (eps : R) (Ya Yb : Inertia) (pa pb : list PointMass) (He : 0 < eps)
  (H : eps <= mass Ya + mass Yb) (Ha : describes Ya pa) (Hb : describes Yb pb) :
  describes (inertia_plus eps Ya Yb) (pa ++ pb).
Proof. exact (describes_plus eps Ya Yb pa pb He H Ha Hb). Qed.
Print Assumptions C08_point_masses.

(** Below machine epsilon the sum of inertias is not the inertia of the sum: the guard of
    the division is not enough to make + correct for tiny positive masses. *)
Theorem C08_tiny_masses_refuted (eps : R) (He : 0 < eps) :
  exists Ya Yb, 0 < mass Ya /\ 0 < mass Yb /\ mass Ya + mass Yb < eps /\
    inertia_matrix (inertia_plus eps Ya Yb) <> m6add (inertia_matrix Ya) (inertia_matrix Yb).
Proof. exact (plus_tiny_wrong eps He). Qed.
Print Assumptions C08_tiny_masses_refuted.

(** ** C09 *)
Theorem C09_operators (Y : Inertia) (v m : Motion) :
  m6vec (inertia_vxi v Y) m = force_cross v (inertia_mul Y m) /\
  m6vec (inertia_ivx v Y) m = inertia_mul Y (motion_cross v m) /\
  inertia_variation Y v = m6sub (inertia_vxi v Y) (inertia_ivx v Y) /\
  inertia_vxiv Y v = force_cross v (inertia_mul Y v).
Proof.
  exact (conj (inertia_vxi_vec v Y m) (conj (inertia_ivx_vec v Y m) (conj (inertia_variation_spec v Y) (inertia_vxiv_spec Y v)))).
Qed.
Print Assumptions C09_operators.

(** ** C10 *)
Theorem C10_dynamic_parameters (Y : Inertia) (p : DynParams) :
  (mass Y <> 0 -> inertia_FromDynamicParameters (inertia_toDynamicParameters Y) = Y) /\
  (dyn_m p <> 0 -> inertia_toDynamicParameters (inertia_FromDynamicParameters p) = p) /\
  (mass Y <> 0 -> inertia_ofMatrix (inertia_matrix Y) = Y).
Proof. exact (conj (dyn_roundtrip Y) (conj (dyn_roundtrip' p) (inertia_ofMatrix_matrix Y))). Qed.
Example C10_dynamic_parameters_ex : mass exY <> 0 /\ dyn_m (inertia_toDynamicParameters exY) <> 0.
Proof. cbn; lra. Qed.
Print Assumptions C10_dynamic_parameters.

Theorem C10_pseudo_inertia (Y : Inertia) (p : DynParams) (s : PseudoInertia) :
  (mass Y <> 0 -> pseudo_toInertia (pseudo_FromInertia Y) = Y) /\
  pseudo_toDynamicParameters (pseudo_FromDynamicParameters p) = p /\
  (m3tr (ps_sigma s) = ps_sigma s -> pseudo_FromDynamicParameters (pseudo_toDynamicParameters s) = s) /\
  pseudo_FromMatrix (pseudo_toMatrix s) = s.
Proof.
  exact (conj (pseudo_roundtrip Y) (conj (pseudo_dyn_roundtrip p) (conj (pseudo_dyn_roundtrip' s) (pseudo_matrix_roundtrip s)))).
Qed.
Print Assumptions C10_pseudo_inertia.

Theorem C10_log_cholesky (p : LogCholesky) :
  0 < mass (lc_toInertia p) /\
  inertia_toDynamicParameters (lc_toInertia p) = lc_toDynamicParameters p /\
  pseudo_FromInertia (lc_toInertia p) = lc_toPseudoInertia p /\
  pd4 (pseudo_toMatrix (pseudo_FromInertia (lc_toInertia p))).
Proof.
  exact (conj (lc_positive_mass p) (conj (lc_dyn p) (conj (lc_pseudo p) (eq_ind_r (fun z => pd4 (pseudo_toMatrix z)) (lc_pd p) (lc_pseudo p))))).
Qed.
Print Assumptions C10_log_cholesky.

(** calculateJacobian() is the matrix of partial derivatives of the log-Cholesky map. *)
Theorem C10_log_cholesky_jacobian (p : LogCholesky) (i j : nat) (Hi : (i < 10)%nat) (Hj : (j < 10)%nat) :
  derivable_pt_lim (fun x => dyn_get (lc_toDynamicParameters (lc_set p j x)) i) (lc_get p j) (lc_jacobian p i j).
Proof. exact (lc_jacobian_spec p i j Hi Hj). Qed.
Print Assumptions C10_log_cholesky_jacobian.

(** ** C11 *)
Theorem C11_solids (m x y z : R) (Hm : 0 < m) (Hx : 0 < x) (Hy : 0 < y) (Hz : 0 < z) :
  forall Y, In Y [inertia_FromSphere m x; inertia_FromEllipsoid m x y z; inertia_FromCylinder m x y;
                  inertia_FromBox m x y z; inertia_FromCapsule m x y] ->
  mass Y = m /\ lever Y = v3zero /\ pd3 (sym3_matrix (inertia Y)) /\
  exists a b c, diagonalInertia (sym3_matrix (inertia Y)) a b c /\ triangle a b c.
Proof. exact (solids_all m x y z Hm Hx Hy Hz). Qed.
Example C11_solids_ex : 0 < 2 /\ 0 < / 3. Proof. lra. Qed.
Print Assumptions C11_solids.

(** ** C16 *)
Theorem C16_skew (u v : V3) (M : M3) (a : R) :
  m3vec (skew u) v = v3cross u v /\ unSkew (skew v) = v /\
  (m3tr M = m3opp M -> skew (unSkew M) = M) /\
  addSkew v M = m3add M (skew v) /\ alphaSkew a v = m3scale a (skew v) /\
  skewSquare u v = m3mul (skew u) (skew v) /\ crossM v M = m3mul (skew v) M /\
  (forall k, (k < 3)%nat -> axisCross k v = v3cross (unitAxis k) v).
Proof.
  exact (conj (skew_vec u v) (conj (unSkew_skew v) (conj (skew_unSkew M) (conj (addSkew_spec v M)
        (conj (alphaSkew_spec a v) (conj (skewSquare_spec u v) (conj (crossM_spec v M) (fun k _ => axisCross_spec k v)))))))).
Qed.
Print Assumptions C16_skew.
