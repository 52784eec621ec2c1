(** Skew helpers, rigid placements (SE3), spatial motions and forces.
    Model of include/pinocchio/spatial/{skew,se3-tpl,motion-dense,force-dense,cartesian-axis}.hpp *)
From Coq Require Import Reals Lra Lia Psatz.
From Verif Require Import Vec3.
Open Scope R_scope.

(** ** spatial/skew.hpp *)

(** skew.hpp 21-39: skew(v). *)
Definition skew (v : V3) : M3 :=
  mkM3 0 (- vz v) (vy v)
       (vz v) 0 (- vx v)
       (- vy v) (vx v) 0.

(** skew.hpp 66-82: addSkew(v, M), the updated M. *)
Definition addSkew (v : V3) (M : M3) : M3 :=
  mkM3 (m00 M) (m01 M - vz v) (m02 M + vy v)
       (m10 M + vz v) (m11 M) (m12 M - vx v)
       (m20 M - vy v) (m21 M + vx v) (m22 M).

(** skew.hpp 92-104: unSkew(M). *)
Definition unSkew (M : M3) : V3 :=
  mkV3 (/ 2 * (m21 M - m12 M)) (/ 2 * (m02 M - m20 M)) (/ 2 * (m10 M - m01 M)).

(** skew.hpp 133-152: alphaSkew(alpha, v); the lower entries are the opposites of
    the upper ones just written. *)
Definition alphaSkew (alpha : R) (v : V3) : M3 :=
  let a01 := - vz v * alpha in
  let a02 := vy v * alpha in
  let a12 := - vx v * alpha in
  mkM3 0 a01 a02 (- a01) 0 a12 (- a02) (- a12) 0.

(** skew.hpp 181-197: skewSquare(u, v) = v u^T - (u.v) I. *)
Definition skewSquare (u v : V3) : M3 :=
  let C := m3outer v u in
  let udotv := v3dot u v in
  mkM3 (m00 C - udotv) (m01 C) (m02 C)
       (m10 C) (m11 C - udotv) (m12 C)
       (m20 C) (m21 C) (m22 C - udotv).

(** skew.hpp 227-244: cross(v, Min, Mout), row formulas; 3x3 instance. *)
Definition crossM (v : V3) (Min : M3) : M3 :=
  mkM3 (vy v * m20 Min - vz v * m10 Min) (vy v * m21 Min - vz v * m11 Min) (vy v * m22 Min - vz v * m12 Min)
       (vz v * m00 Min - vx v * m20 Min) (vz v * m01 Min - vx v * m21 Min) (vz v * m02 Min - vx v * m22 Min)
       (vx v * m10 Min - vy v * m00 Min) (vx v * m11 Min - vy v * m01 Min) (vx v * m12 Min - vy v * m02 Min).

(** cartesian-axis.hpp 35-80: CartesianAxis<axis>::cross(v) = e_axis x v, per axis. *)
Definition axisCross (axis : nat) (v : V3) : V3 :=
  match axis with
  | O => mkV3 0 (- vz v) (vy v)
  | S O => mkV3 (vz v) 0 (- vx v)
  | _ => mkV3 (- vy v) (vx v) 0
  end.

(** Unit vector of an axis (Eigen Vector3::UnitX/Y/Z). *)
Definition unitAxis (axis : nat) : V3 :=
  match axis with O => mkV3 1 0 0 | S O => mkV3 0 1 0 | _ => mkV3 0 0 1 end.

(** ** 6-vectors and 6x6 matrices by 3x3 blocks.
    MotionTpl/ForceTpl store a 6-vector (linear first, angular second):
    motion-tpl.hpp / force-tpl.hpp, LINEAR = 0, ANGULAR = 3.  Simplification: both
    classes are the same record here, [toVector] is the identity. *)
Record V6 := mkV6 { lin : V3; ang : V3 }.
Definition Motion := V6.
Definition Force := V6.

Record M6 := mkM6 { mLL : M3; mLA : M3; mAL : M3; mAA : M3 }.

Definition v6zero : V6 := mkV6 v3zero v3zero.
(** motion-dense.hpp 132-208, force-dense.hpp 94-169: componentwise arithmetic. *)
Definition v6add (a b : V6) : V6 := mkV6 (v3add (lin a) (lin b)) (v3add (ang a) (ang b)).
Definition v6sub (a b : V6) : V6 := mkV6 (v3sub (lin a) (lin b)) (v3sub (ang a) (ang b)).
Definition v6opp (a : V6) : V6 := mkV6 (v3opp (lin a)) (v3opp (ang a)).
Definition v6scale (k : R) (a : V6) : V6 := mkV6 (v3scale k (lin a)) (v3scale k (ang a)).
(** motion-dense.hpp 210-214, force-dense.hpp 171-175: dot. *)
Definition v6dot (a b : V6) : R := v3dot (lin b) (lin a) + v3dot (ang b) (ang a).

Definition m6vec (A : M6) (v : V6) : V6 :=
  mkV6 (v3add (m3vec (mLL A) (lin v)) (m3vec (mLA A) (ang v)))
       (v3add (m3vec (mAL A) (lin v)) (m3vec (mAA A) (ang v))).
Definition m6mul (A B : M6) : M6 :=
  mkM6 (m3add (m3mul (mLL A) (mLL B)) (m3mul (mLA A) (mAL B)))
       (m3add (m3mul (mLL A) (mLA B)) (m3mul (mLA A) (mAA B)))
       (m3add (m3mul (mAL A) (mLL B)) (m3mul (mAA A) (mAL B)))
       (m3add (m3mul (mAL A) (mLA B)) (m3mul (mAA A) (mAA B))).
Definition m6tr (A : M6) : M6 := mkM6 (m3tr (mLL A)) (m3tr (mAL A)) (m3tr (mLA A)) (m3tr (mAA A)).
Definition m6add (A B : M6) : M6 :=
  mkM6 (m3add (mLL A) (mLL B)) (m3add (mLA A) (mLA B)) (m3add (mAL A) (mAL B)) (m3add (mAA A) (mAA B)).
Definition m6sub (A B : M6) : M6 :=
  mkM6 (m3sub (mLL A) (mLL B)) (m3sub (mLA A) (mLA B)) (m3sub (mAL A) (mAL B)) (m3sub (mAA A) (mAA B)).
Definition m6opp (A : M6) : M6 := mkM6 (m3opp (mLL A)) (m3opp (mLA A)) (m3opp (mAL A)) (m3opp (mAA A)).
Definition m6scale (k : R) (A : M6) : M6 :=
  mkM6 (m3scale k (mLL A)) (m3scale k (mLA A)) (m3scale k (mAL A)) (m3scale k (mAA A)).
Definition m6id : M6 := mkM6 m3id m3zero m3zero m3id.
Definition m6zero : M6 := mkM6 m3zero m3zero m3zero m3zero.
Definition m6outer (a b : V6) : M6 :=
  mkM6 (m3outer (lin a) (lin b)) (m3outer (lin a) (ang b)) (m3outer (ang a) (lin b)) (m3outer (ang a) (ang b)).

(** ** SE3 *)
Record SE3 := mkSE3 { rot : M3; trans : V3 }.

(** se3-tpl.hpp 136-139 *)
Definition se3_Identity : SE3 := mkSE3 m3id v3zero.
(** se3-tpl.hpp 149-152 *)
Definition se3_inverse (M : SE3) : SE3 :=
  mkSE3 (m3tr (rot M)) (m3vec (m3opp (m3tr (rot M))) (trans M)).
(** se3-tpl.hpp 313-330: act_impl(SE3) and __mult__ *)
Definition se3_mul (A B : SE3) : SE3 :=
  mkSE3 (m3mul (rot A) (rot B)) (v3add (trans A) (m3vec (rot A) (trans B))).
(** se3-tpl.hpp 319-324: actInv_impl(SE3) *)
Definition se3_actInv_se3 (A B : SE3) : SE3 :=
  mkSE3 (m3mul (m3tr (rot A)) (rot B)) (m3vec (m3tr (rot A)) (v3sub (trans B) (trans A))).
(** se3-tpl.hpp 303-306 *)
Definition se3_actPoint (M : SE3) (p : V3) : V3 := v3add (m3vec (rot M) p) (trans M).
(** se3-tpl.hpp 308-311 *)
Definition se3_actInvPoint (M : SE3) (p : V3) : V3 := m3vec (m3tr (rot M)) (v3sub p (trans M)).

(** 4x4 matrices by blocks (rotation block, translation column, bottom row, corner). *)
Record M4 := mkM4 { hR : M3; ht : V3; hrow : V3; hs : R }.
Definition m4mul (A B : M4) : M4 :=
  mkM4 (m3add (m3mul (hR A) (hR B)) (m3outer (ht A) (hrow B)))
       (v3add (m3vec (hR A) (ht B)) (v3scale (hs B) (ht A)))
       (v3add (m3vec (m3tr (hR B)) (hrow A)) (v3scale (hs A) (hrow B)))
       (v3dot (hrow A) (ht B) + hs A * hs B).
(** se3-tpl.hpp 169-177: toHomogeneousMatrix_impl *)
Definition se3_toHomogeneousMatrix (M : SE3) : M4 := mkM4 (rot M) (trans M) v3zero 1.
(** motion-dense.hpp 74-81: toHomogeneousMatrix_impl of a motion *)
Definition motion_toHomogeneousMatrix (v : Motion) : M4 := mkM4 (skew (ang v)) (lin v) v3zero 0.

(** se3-tpl.hpp 180-193: toActionMatrix_impl *)
Definition se3_toActionMatrix (M : SE3) : M6 :=
  mkM6 (rot M)
       (m3ofcols (v3cross (trans M) (m3col (rot M) 0))
                 (v3cross (trans M) (m3col (rot M) 1))
                 (v3cross (trans M) (m3col (rot M) 2)))
       m3zero (rot M).
(** se3-tpl.hpp 202-225: toActionMatrixInverse_impl (C.col(0) is the temporary) *)
Definition se3_toActionMatrixInverse (M : SE3) : M6 :=
  let Rt := m3tr (rot M) in
  mkM6 Rt
       (m3ofcols (m3vec Rt (axisCross 0 (trans M)))
                 (m3vec Rt (axisCross 1 (trans M)))
                 (m3vec Rt (axisCross 2 (trans M))))
       m3zero Rt.
(** se3-tpl.hpp 234-247: toDualActionMatrix_impl *)
Definition se3_toDualActionMatrix (M : SE3) : M6 :=
  mkM6 (rot M) m3zero
       (m3ofcols (v3cross (trans M) (m3col (rot M) 0))
                 (v3cross (trans M) (m3col (rot M) 1))
                 (v3cross (trans M) (m3col (rot M) 2)))
       (rot M).

(** ** Motions *)
(** motion-dense.hpp 52-61: toActionMatrix_impl *)
Definition motion_toActionMatrix (v : Motion) : M6 :=
  mkM6 (skew (ang v)) (skew (lin v)) m3zero (skew (ang v)).
(** motion-dense.hpp 63-72: toDualActionMatrix_impl *)
Definition motion_toDualActionMatrix (v : Motion) : M6 :=
  mkM6 (skew (ang v)) m3zero (skew (lin v)) (skew (ang v)).
(** motion-dense.hpp 216-227: v.cross(m) = m.motionAction(v) *)
Definition motion_cross (v m : Motion) : Motion :=
  mkV6 (v3add (v3cross (lin v) (ang m)) (v3cross (ang v) (lin m)))
       (v3cross (ang v) (ang m)).
(** motion-dense.hpp 258-263: M.act(v) *)
Definition motion_act (M : SE3) (v : Motion) : Motion :=
  let w := m3vec (rot M) (ang v) in
  mkV6 (v3add (m3vec (rot M) (lin v)) (v3cross (trans M) w)) w.
(** motion-dense.hpp 273-279: M.actInv(v) *)
Definition motion_actInv (M : SE3) (v : Motion) : Motion :=
  mkV6 (m3vec (m3tr (rot M)) (v3sub (lin v) (v3cross (trans M) (ang v))))
       (m3vec (m3tr (rot M)) (ang v)).

(** ** Forces *)
(** force-dense.hpp 177-182: v.cross(f) = f.motionAction(v) *)
Definition force_cross (v : Motion) (f : Force) : Force :=
  mkV6 (v3cross (ang v) (lin f))
       (v3add (v3cross (ang v) (ang f)) (v3cross (lin v) (lin f))).
(** force-dense.hpp 213-219: M.act(f) *)
Definition force_act (M : SE3) (f : Force) : Force :=
  let l := m3vec (rot M) (lin f) in
  mkV6 l (v3add (m3vec (rot M) (ang f)) (v3cross (trans M) l)).
(** force-dense.hpp 229-235: M.actInv(f) *)
Definition force_actInv (M : SE3) (f : Force) : Force :=
  mkV6 (m3vec (m3tr (rot M)) (lin f))
       (m3vec (m3tr (rot M)) (v3sub (ang f) (v3cross (trans M) (lin f)))).

(** ** Extensionality and automation *)
Lemma v6_ext a b : lin a = lin b -> ang a = ang b -> a = b.
Proof. destruct a, b; cbn; congruence. Qed.
Lemma m6_ext A B : mLL A = mLL B -> mLA A = mLA B -> mAL A = mAL B -> mAA A = mAA B -> A = B.
Proof. destruct A, B; cbn; congruence. Qed.
Lemma se3_ext A B : rot A = rot B -> trans A = trans B -> A = B.
Proof. destruct A, B; cbn; congruence. Qed.
Lemma m4_ext A B : hR A = hR B -> ht A = ht B -> hrow A = hrow B -> hs A = hs B -> A = B.
Proof. destruct A, B; cbn; congruence. Qed.

Ltac ssimp :=
  cbv beta iota zeta delta [vx vy vz m00 m01 m02 m10 m11 m12 m20 m21 m22
   v3zero v3add v3sub v3opp v3scale v3dot v3cross v3norm2
   m3zero m3id m3add m3sub m3opp m3scale m3tr m3mul m3vec m3det m3trace m3outer m3adj
   m3col m3row m3ofcols v3get m3get
   lin ang mLL mLA mAL mAA rot trans hR ht hrow hs
   v6zero v6add v6sub v6opp v6scale v6dot m6vec m6mul m6tr m6add m6sub m6opp m6scale m6id m6zero m6outer
   skew addSkew unSkew alphaSkew skewSquare crossM axisCross unitAxis
   se3_Identity se3_inverse se3_mul se3_actInv_se3 se3_actPoint se3_actInvPoint
   m4mul se3_toHomogeneousMatrix motion_toHomogeneousMatrix
   se3_toActionMatrix se3_toActionMatrixInverse se3_toDualActionMatrix
   motion_toActionMatrix motion_toDualActionMatrix motion_cross motion_act motion_actInv
   force_cross force_act force_actInv].
Ltac sext := repeat first [ apply se3_ext | apply v6_ext | apply m6_ext | apply m4_ext | apply v3_ext | apply m3_ext ].
Ltac sring := intros; sext; ssimp; ring.

(** ** Skew helpers *)
Lemma skew_vec u v : m3vec (skew u) v = v3cross u v. Proof. sring. Qed.
Lemma unSkew_skew v : unSkew (skew v) = v. Proof. intros; sext; ssimp; field. Qed.
Lemma skew_unSkew M : m3tr M = m3opp M -> skew (unSkew M) = M.
Proof.
  destruct M; intros H. unfold m3tr, m3opp in H; cbn in H. injection H; intros.
  sext; ssimp; lra.
Qed.
Lemma addSkew_spec v M : addSkew v M = m3add M (skew v). Proof. sring. Qed.
Lemma alphaSkew_spec a v : alphaSkew a v = m3scale a (skew v). Proof. sring. Qed.
Lemma skewSquare_spec u v : skewSquare u v = m3mul (skew u) (skew v). Proof. sring. Qed.
Lemma crossM_spec v M : crossM v M = m3mul (skew v) M. Proof. sring. Qed.
Lemma axisCross_spec k v : axisCross k v = v3cross (unitAxis k) v.
Proof. destruct k as [|[|k]]; sring. Qed.
Lemma skew_tr v : m3tr (skew v) = m3opp (skew v). Proof. sring. Qed.

(** ** 6D algebra *)
Lemma v6add_comm a b : v6add a b = v6add b a. Proof. sring. Qed.
Lemma v6add_assoc a b c : v6add a (v6add b c) = v6add (v6add a b) c. Proof. sring. Qed.
Lemma v6add_0_l a : v6add v6zero a = a. Proof. sring. Qed.
Lemma v6add_0_r a : v6add a v6zero = a. Proof. sring. Qed.
Lemma v6sub_add a b : v6sub a b = v6add a (v6opp b). Proof. sring. Qed.
Lemma v6opp_0 : v6opp v6zero = v6zero. Proof. sring. Qed.
Lemma v6sub_0_r a : v6sub a v6zero = a. Proof. sring. Qed.
Lemma v6opp_opp a : v6opp (v6opp a) = a. Proof. sring. Qed.
Lemma v6scale_0_l a : v6scale 0 a = v6zero. Proof. sring. Qed.
Lemma v6scale_0_r k : v6scale k v6zero = v6zero. Proof. sring. Qed.
Lemma v6scale_1 a : v6scale 1 a = a. Proof. sring. Qed.
Lemma v6scale_add_l k l a : v6scale (k + l) a = v6add (v6scale k a) (v6scale l a). Proof. sring. Qed.
Lemma v6scale_add_r k a b : v6scale k (v6add a b) = v6add (v6scale k a) (v6scale k b). Proof. sring. Qed.
Lemma v6scale_scale k l a : v6scale k (v6scale l a) = v6scale (k * l) a. Proof. sring. Qed.
Lemma v6dot_comm a b : v6dot a b = v6dot b a. Proof. intros; ssimp; ring. Qed.
Lemma v6dot_add_l a b c : v6dot (v6add a b) c = v6dot a c + v6dot b c. Proof. intros; ssimp; ring. Qed.
Lemma v6dot_add_r a b c : v6dot a (v6add b c) = v6dot a b + v6dot a c. Proof. intros; ssimp; ring. Qed.
Lemma v6dot_sub_l a b c : v6dot (v6sub a b) c = v6dot a c - v6dot b c. Proof. intros; ssimp; ring. Qed.
Lemma v6dot_sub_r a b c : v6dot a (v6sub b c) = v6dot a b - v6dot a c. Proof. intros; ssimp; ring. Qed.
Lemma v6dot_opp_l a b : v6dot (v6opp a) b = - v6dot a b. Proof. intros; ssimp; ring. Qed.
Lemma v6dot_opp_r a b : v6dot a (v6opp b) = - v6dot a b. Proof. intros; ssimp; ring. Qed.
Lemma v6dot_scale_l k a b : v6dot (v6scale k a) b = k * v6dot a b. Proof. intros; ssimp; ring. Qed.
Lemma v6dot_scale_r k a b : v6dot a (v6scale k b) = k * v6dot a b. Proof. intros; ssimp; ring. Qed.
Lemma v6dot_0_l a : v6dot v6zero a = 0. Proof. intros; ssimp; ring. Qed.
Lemma v6dot_0_r a : v6dot a v6zero = 0. Proof. intros; ssimp; ring. Qed.

Lemma m6vec_mul A B v : m6vec (m6mul A B) v = m6vec A (m6vec B v). Proof. sring. Qed.
Lemma m6vec_1 v : m6vec m6id v = v. Proof. sring. Qed.
Lemma m6vec_0 v : m6vec m6zero v = v6zero. Proof. sring. Qed.
Lemma m6vec_0_r A : m6vec A v6zero = v6zero. Proof. sring. Qed.
Lemma m6vec_add_r A u v : m6vec A (v6add u v) = v6add (m6vec A u) (m6vec A v). Proof. sring. Qed.
Lemma m6vec_add_l A B v : m6vec (m6add A B) v = v6add (m6vec A v) (m6vec B v). Proof. sring. Qed.
Lemma m6vec_sub_l A B v : m6vec (m6sub A B) v = v6sub (m6vec A v) (m6vec B v). Proof. sring. Qed.
Lemma m6vec_scale_r A k v : m6vec A (v6scale k v) = v6scale k (m6vec A v). Proof. sring. Qed.
Lemma m6dot_tr A u v : v6dot (m6vec A u) v = v6dot u (m6vec (m6tr A) v). Proof. intros; ssimp; ring. Qed.
Lemma m6outer_vec a b v : m6vec (m6outer a b) v = v6scale (v6dot b v) a. Proof. sring. Qed.
Lemma m6tr_add A B : m6tr (m6add A B) = m6add (m6tr A) (m6tr B). Proof. sring. Qed.
Lemma m6tr_outer a b : m6tr (m6outer a b) = m6outer b a. Proof. sring. Qed.

(** Two 6x6 matrices with the same action are equal. *)
Lemma m6_ext_vec A B : (forall v, m6vec A v = m6vec B v) -> A = B.
Proof.
  intros H.
  pose proof (H (mkV6 (mkV3 1 0 0) v3zero)) as H0. pose proof (H (mkV6 (mkV3 0 1 0) v3zero)) as H1.
  pose proof (H (mkV6 (mkV3 0 0 1) v3zero)) as H2. pose proof (H (mkV6 v3zero (mkV3 1 0 0))) as H3.
  pose proof (H (mkV6 v3zero (mkV3 0 1 0))) as H4. pose proof (H (mkV6 v3zero (mkV3 0 0 1))) as H5.
  clear H. destruct A as [a b c d], B as [a' b' c' d'].
  destruct a, b, c, d, a', b', c', d'.
  unfold m6vec, m3vec, v3add, v3zero in *; cbn in *.
  injection H0; injection H1; injection H2; injection H3; injection H4; injection H5; intros.
  f_equal; f_equal; lra.
Qed.

(** ** SE3 group *)
Lemma se3_mul_assoc A B C : se3_mul A (se3_mul B C) = se3_mul (se3_mul A B) C. Proof. sring. Qed.
Lemma se3_mul_1_l A : se3_mul se3_Identity A = A. Proof. sring. Qed.
Lemma se3_mul_1_r A : se3_mul A se3_Identity = A. Proof. sring. Qed.
Lemma se3_mul_inv_r A : orthogonal (rot A) -> se3_mul A (se3_inverse A) = se3_Identity.
Proof.
  intros H. apply se3_ext; cbn.
  - apply orthogonal_right, H.
  - replace (m3vec (m3opp (m3tr (rot A))) (trans A)) with (v3opp (m3vec (m3tr (rot A)) (trans A))) by sring.
    rewrite m3vec_opp_r, orthogonal_vec_tr by exact H. apply v3add_opp_r.
Qed.
Lemma se3_mul_inv_l A : orthogonal (rot A) -> se3_mul (se3_inverse A) A = se3_Identity.
Proof.
  intros H. apply se3_ext; cbn.
  - exact H.
  - sring.
Qed.
Lemma se3_actPoint_mul A B p : se3_actPoint (se3_mul A B) p = se3_actPoint A (se3_actPoint B p).
Proof. sring. Qed.
Lemma se3_actPoint_1 p : se3_actPoint se3_Identity p = p. Proof. sring. Qed.
Lemma se3_actInvPoint_act M p : orthogonal (rot M) -> se3_actInvPoint M (se3_actPoint M p) = p.
Proof.
  intros H. unfold se3_actInvPoint, se3_actPoint.
  replace (v3sub (v3add (m3vec (rot M) p) (trans M)) (trans M)) with (m3vec (rot M) p) by sring.
  apply orthogonal_tr_vec, H.
Qed.
Lemma se3_act_actInvPoint M p : orthogonal (rot M) -> se3_actPoint M (se3_actInvPoint M p) = p.
Proof.
  intros H. unfold se3_actInvPoint, se3_actPoint. rewrite orthogonal_vec_tr by exact H. sring.
Qed.
Lemma se3_actInv_se3_inverse A B : se3_actInv_se3 A B = se3_mul (se3_inverse A) B. Proof. sring. Qed.
Lemma se3_inverse_mul A B : orthogonal (rot A) ->
  se3_inverse (se3_mul A B) = se3_mul (se3_inverse B) (se3_inverse A).
Proof.
  intros H. apply se3_ext; cbn; [apply m3tr_mul|].
  rewrite m3tr_mul.
  replace (m3vec (m3opp (m3mul (m3tr (rot B)) (m3tr (rot A)))) (v3add (trans A) (m3vec (rot A) (trans B))))
    with (v3opp (m3vec (m3tr (rot B)) (v3add (m3vec (m3tr (rot A)) (trans A)) (m3vec (m3tr (rot A)) (m3vec (rot A) (trans B)))))) by sring.
  rewrite orthogonal_tr_vec by exact H. sring.
Qed.
Lemma se3_inverse_involutive A : orthogonal (rot A) -> se3_inverse (se3_inverse A) = A.
Proof.
  intros H. apply se3_ext; cbn; [apply m3tr_tr|].
  rewrite m3tr_tr.
  replace (m3vec (m3opp (rot A)) (m3vec (m3opp (m3tr (rot A))) (trans A)))
    with (m3vec (rot A) (m3vec (m3tr (rot A)) (trans A))) by sring.
  apply orthogonal_vec_tr, H.
Qed.
Lemma se3_toHomogeneous_mul A B :
  se3_toHomogeneousMatrix (se3_mul A B) = m4mul (se3_toHomogeneousMatrix A) (se3_toHomogeneousMatrix B).
Proof. sring. Qed.

(** ** Actions on motions and forces *)
Lemma actionMatrix_spec M v : m6vec (se3_toActionMatrix M) v = motion_act M v. Proof. sring. Qed.
Lemma actionMatrixInverse_spec M v : m6vec (se3_toActionMatrixInverse M) v = motion_actInv M v. Proof. sring. Qed.
Lemma dualActionMatrix_spec M f : m6vec (se3_toDualActionMatrix M) f = force_act M f. Proof. sring. Qed.
Lemma motionActionMatrix_spec v m : m6vec (motion_toActionMatrix v) m = motion_cross v m. Proof. sring. Qed.
Lemma motionDualActionMatrix_spec v f : m6vec (motion_toDualActionMatrix v) f = force_cross v f. Proof. sring. Qed.
Lemma motionDualMatrix_tr v : motion_toDualActionMatrix v = m6opp (m6tr (motion_toActionMatrix v)). Proof. sring. Qed.

Lemma motion_act_1 v : motion_act se3_Identity v = v. Proof. sring. Qed.
Lemma force_act_1 f : force_act se3_Identity f = f. Proof. sring. Qed.
Lemma motion_actInv_1 v : motion_actInv se3_Identity v = v. Proof. sring. Qed.

Lemma motion_act_add M u v : motion_act M (v6add u v) = v6add (motion_act M u) (motion_act M v). Proof. sring. Qed.
Lemma motion_act_sub M u v : motion_act M (v6sub u v) = v6sub (motion_act M u) (motion_act M v). Proof. sring. Qed.
Lemma motion_act_scale M k v : motion_act M (v6scale k v) = v6scale k (motion_act M v). Proof. sring. Qed.
Lemma motion_act_0 M : motion_act M v6zero = v6zero. Proof. sring. Qed.
Lemma motion_act_opp M v : motion_act M (v6opp v) = v6opp (motion_act M v). Proof. sring. Qed.
Lemma motion_actInv_add M u v : motion_actInv M (v6add u v) = v6add (motion_actInv M u) (motion_actInv M v). Proof. sring. Qed.
Lemma motion_actInv_scale M k v : motion_actInv M (v6scale k v) = v6scale k (motion_actInv M v). Proof. sring. Qed.
Lemma motion_actInv_0 M : motion_actInv M v6zero = v6zero. Proof. sring. Qed.
Lemma motion_actInv_opp M v : motion_actInv M (v6opp v) = v6opp (motion_actInv M v). Proof. sring. Qed.
Lemma force_act_add M u v : force_act M (v6add u v) = v6add (force_act M u) (force_act M v). Proof. sring. Qed.
Lemma force_act_sub M u v : force_act M (v6sub u v) = v6sub (force_act M u) (force_act M v). Proof. sring. Qed.
Lemma force_act_scale M k v : force_act M (v6scale k v) = v6scale k (force_act M v). Proof. sring. Qed.
Lemma force_act_0 M : force_act M v6zero = v6zero. Proof. sring. Qed.
Lemma force_actInv_add M u v : force_actInv M (v6add u v) = v6add (force_actInv M u) (force_actInv M v). Proof. sring. Qed.

Lemma motion_actInv_act M v : orthogonal (rot M) -> motion_actInv M (motion_act M v) = v.
Proof.
  intros H. apply v6_ext; cbn.
  - replace (v3sub (v3add (m3vec (rot M) (lin v)) (v3cross (trans M) (m3vec (rot M) (ang v))))
                   (v3cross (trans M) (m3vec (rot M) (ang v)))) with (m3vec (rot M) (lin v)) by sring.
    apply orthogonal_tr_vec, H.
  - apply orthogonal_tr_vec, H.
Qed.
Lemma motion_act_actInv M v : orthogonal (rot M) -> motion_act M (motion_actInv M v) = v.
Proof.
  intros H. apply v6_ext; cbn; rewrite !orthogonal_vec_tr by exact H; sring.
Qed.
Lemma force_actInv_act M f : orthogonal (rot M) -> force_actInv M (force_act M f) = f.
Proof.
  intros H. apply v6_ext; cbn.
  - apply orthogonal_tr_vec, H.
  - replace (v3sub (v3add (m3vec (rot M) (ang f)) (v3cross (trans M) (m3vec (rot M) (lin f))))
                   (v3cross (trans M) (m3vec (rot M) (lin f)))) with (m3vec (rot M) (ang f)) by sring.
    apply orthogonal_tr_vec, H.
Qed.
Lemma force_act_actInv M f : orthogonal (rot M) -> force_act M (force_actInv M f) = f.
Proof.
  intros H. apply v6_ext; cbn; rewrite !orthogonal_vec_tr by exact H; sring.
Qed.

Lemma motion_act_mul A B v : isRotation (rot A) -> motion_act (se3_mul A B) v = motion_act A (motion_act B v).
Proof.
  intros H. apply v6_ext; cbn.
  - rewrite !m3vec_add_r, !m3vec_mul, (rotation_cross (rot A)) by exact H. sring.
  - apply m3vec_mul.
Qed.
Lemma force_act_mul A B f : isRotation (rot A) -> force_act (se3_mul A B) f = force_act A (force_act B f).
Proof.
  intros H. apply v6_ext; cbn.
  - apply m3vec_mul.
  - rewrite !m3vec_add_r, !m3vec_mul, (rotation_cross (rot A)) by exact H. sring.
Qed.
Lemma motion_actInv_inverse M v : isRotation (rot M) -> motion_actInv M v = motion_act (se3_inverse M) v.
Proof.
  intros H. apply v6_ext; cbn.
  - replace (m3vec (m3opp (m3tr (rot M))) (trans M)) with (v3opp (m3vec (m3tr (rot M)) (trans M))) by sring.
    rewrite m3vec_sub_r, rotation_cross_tr by exact H. sring.
  - reflexivity.
Qed.
Lemma force_actInv_inverse M f : isRotation (rot M) -> force_actInv M f = force_act (se3_inverse M) f.
Proof.
  intros H. apply v6_ext; cbn.
  - reflexivity.
  - replace (m3vec (m3opp (m3tr (rot M))) (trans M)) with (v3opp (m3vec (m3tr (rot M)) (trans M))) by sring.
    rewrite m3vec_sub_r, rotation_cross_tr by exact H. sring.
Qed.
Lemma motion_actInv_mul A B v : isRotation (rot A) -> isRotation (rot B) ->
  motion_actInv (se3_mul A B) v = motion_actInv B (motion_actInv A v).
Proof.
  intros HA HB. rewrite <- (motion_act_actInv (se3_mul A B) v) at 2
    by (apply orthogonal_mul; [apply HA|apply HB]).
  rewrite motion_act_mul by exact HA.
  rewrite !motion_actInv_act by (apply HA || apply HB). reflexivity.
Qed.

(** Power invariance *)
Lemma act_dot_dual M v f : v6dot (motion_actInv M v) f = v6dot v (force_act M f).
Proof. intros; ssimp; ring. Qed.
Lemma actInv_dot_dual M v f : v6dot (motion_act M v) f = v6dot v (force_actInv M f).
Proof. intros; ssimp; ring. Qed.
Lemma act_dot M v f : orthogonal (rot M) -> v6dot (motion_act M v) (force_act M f) = v6dot v f.
Proof. intros H. rewrite actInv_dot_dual, force_actInv_act by exact H. reflexivity. Qed.
Lemma cross_dot_dual v m f : v6dot (motion_cross v m) f = - v6dot m (force_cross v f).
Proof. intros; ssimp; ring. Qed.

(** Lie bracket *)
Lemma motion_cross_self v : motion_cross v v = v6zero. Proof. sring. Qed.
Lemma motion_cross_anti v m : motion_cross v m = v6opp (motion_cross m v). Proof. sring. Qed.
Lemma motion_cross_jacobi a b c :
  v6add (motion_cross a (motion_cross b c))
        (v6add (motion_cross b (motion_cross c a)) (motion_cross c (motion_cross a b))) = v6zero.
Proof. sring. Qed.
Lemma motion_cross_add_l a b c : motion_cross (v6add a b) c = v6add (motion_cross a c) (motion_cross b c). Proof. sring. Qed.
Lemma motion_cross_add_r a b c : motion_cross a (v6add b c) = v6add (motion_cross a b) (motion_cross a c). Proof. sring. Qed.
Lemma motion_cross_scale_l k a b : motion_cross (v6scale k a) b = v6scale k (motion_cross a b). Proof. sring. Qed.
Lemma motion_cross_scale_r k a b : motion_cross a (v6scale k b) = v6scale k (motion_cross a b). Proof. sring. Qed.
Lemma motion_cross_0_l a : motion_cross v6zero a = v6zero. Proof. sring. Qed.
Lemma motion_cross_0_r a : motion_cross a v6zero = v6zero. Proof. sring. Qed.
Lemma force_cross_0_l f : force_cross v6zero f = v6zero. Proof. sring. Qed.
Lemma force_cross_add_r a b c : force_cross a (v6add b c) = v6add (force_cross a b) (force_cross a c). Proof. sring. Qed.
Lemma force_cross_add_l a b c : force_cross (v6add a b) c = v6add (force_cross a c) (force_cross b c). Proof. sring. Qed.
Lemma force_cross_bracket a b f :
  force_cross (motion_cross a b) f = v6sub (force_cross a (force_cross b f)) (force_cross b (force_cross a f)).
Proof. sring. Qed.
Lemma motion_act_cross M v m : isRotation (rot M) ->
  motion_act M (motion_cross v m) = motion_cross (motion_act M v) (motion_act M m).
Proof.
  intros H. apply v6_ext; cbn; rewrite ?m3vec_add_r, !(rotation_cross (rot M)) by exact H; sring.
Qed.
Lemma force_act_cross M v f : isRotation (rot M) ->
  force_act M (force_cross v f) = force_cross (motion_act M v) (force_act M f).
Proof.
  intros H. apply v6_ext; cbn; rewrite ?m3vec_add_r, !(rotation_cross (rot M)) by exact H; sring.
Qed.
Lemma motion_actInv_cross M v m : isRotation (rot M) ->
  motion_actInv M (motion_cross v m) = motion_cross (motion_actInv M v) (motion_actInv M m).
Proof.
  intros H. rewrite !motion_actInv_inverse by exact H. apply motion_act_cross.
  apply isRotation_tr, H.
Qed.
Lemma isRotation_se3_mul A B : isRotation (rot A) -> isRotation (rot B) -> isRotation (rot (se3_mul A B)).
Proof. apply isRotation_mul. Qed.
