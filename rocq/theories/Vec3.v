(** Dense 3-vectors and 3x3 matrices over the reals.

    Models the fixed-size Eigen types used by pinocchio
    (Eigen::Matrix<Scalar,3,1>, Eigen::Matrix<Scalar,3,3>); Eigen itself is an
    external dependency, so these operations are the mathematical ones.
    Simplification: Scalar (double) is modelled by R, arithmetic is exact. *)
From Coq Require Import Reals Lra Lia Psatz.
Open Scope R_scope.

Global Arguments IZR : simpl never.

Record V3 := mkV3 { vx : R; vy : R; vz : R }.

Record M3 := mkM3 {
  m00 : R; m01 : R; m02 : R;
  m10 : R; m11 : R; m12 : R;
  m20 : R; m21 : R; m22 : R }.

Definition v3zero : V3 := mkV3 0 0 0.
Definition v3add (a b : V3) : V3 := mkV3 (vx a + vx b) (vy a + vy b) (vz a + vz b).
Definition v3sub (a b : V3) : V3 := mkV3 (vx a - vx b) (vy a - vy b) (vz a - vz b).
Definition v3opp (a : V3) : V3 := mkV3 (- vx a) (- vy a) (- vz a).
Definition v3scale (k : R) (a : V3) : V3 := mkV3 (k * vx a) (k * vy a) (k * vz a).
Definition v3dot (a b : V3) : R := vx a * vx b + vy a * vy b + vz a * vz b.
Definition v3cross (a b : V3) : V3 :=
  mkV3 (vy a * vz b - vz a * vy b)
       (vz a * vx b - vx a * vz b)
       (vx a * vy b - vy a * vx b).
Definition v3norm2 (a : V3) : R := v3dot a a.

Definition m3zero : M3 := mkM3 0 0 0 0 0 0 0 0 0.
Definition m3id : M3 := mkM3 1 0 0 0 1 0 0 0 1.
Definition m3add (A B : M3) : M3 :=
  mkM3 (m00 A + m00 B) (m01 A + m01 B) (m02 A + m02 B)
       (m10 A + m10 B) (m11 A + m11 B) (m12 A + m12 B)
       (m20 A + m20 B) (m21 A + m21 B) (m22 A + m22 B).
Definition m3sub (A B : M3) : M3 :=
  mkM3 (m00 A - m00 B) (m01 A - m01 B) (m02 A - m02 B)
       (m10 A - m10 B) (m11 A - m11 B) (m12 A - m12 B)
       (m20 A - m20 B) (m21 A - m21 B) (m22 A - m22 B).
Definition m3opp (A : M3) : M3 :=
  mkM3 (- m00 A) (- m01 A) (- m02 A)
       (- m10 A) (- m11 A) (- m12 A)
       (- m20 A) (- m21 A) (- m22 A).
Definition m3scale (k : R) (A : M3) : M3 :=
  mkM3 (k * m00 A) (k * m01 A) (k * m02 A)
       (k * m10 A) (k * m11 A) (k * m12 A)
       (k * m20 A) (k * m21 A) (k * m22 A).
Definition m3tr (A : M3) : M3 :=
  mkM3 (m00 A) (m10 A) (m20 A)
       (m01 A) (m11 A) (m21 A)
       (m02 A) (m12 A) (m22 A).
Definition m3mul (A B : M3) : M3 :=
  mkM3 (m00 A * m00 B + m01 A * m10 B + m02 A * m20 B)
       (m00 A * m01 B + m01 A * m11 B + m02 A * m21 B)
       (m00 A * m02 B + m01 A * m12 B + m02 A * m22 B)
       (m10 A * m00 B + m11 A * m10 B + m12 A * m20 B)
       (m10 A * m01 B + m11 A * m11 B + m12 A * m21 B)
       (m10 A * m02 B + m11 A * m12 B + m12 A * m22 B)
       (m20 A * m00 B + m21 A * m10 B + m22 A * m20 B)
       (m20 A * m01 B + m21 A * m11 B + m22 A * m21 B)
       (m20 A * m02 B + m21 A * m12 B + m22 A * m22 B).
Definition m3vec (A : M3) (v : V3) : V3 :=
  mkV3 (m00 A * vx v + m01 A * vy v + m02 A * vz v)
       (m10 A * vx v + m11 A * vy v + m12 A * vz v)
       (m20 A * vx v + m21 A * vy v + m22 A * vz v).
Definition m3det (A : M3) : R :=
  m00 A * (m11 A * m22 A - m12 A * m21 A)
  - m01 A * (m10 A * m22 A - m12 A * m20 A)
  + m02 A * (m10 A * m21 A - m11 A * m20 A).
Definition m3trace (A : M3) : R := m00 A + m11 A + m22 A.
Definition m3outer (a b : V3) : M3 :=
  mkM3 (vx a * vx b) (vx a * vy b) (vx a * vz b)
       (vy a * vx b) (vy a * vy b) (vy a * vz b)
       (vz a * vx b) (vz a * vy b) (vz a * vz b).
Definition m3adj (A : M3) : M3 :=
  mkM3 (m11 A * m22 A - m12 A * m21 A) (m02 A * m21 A - m01 A * m22 A) (m01 A * m12 A - m02 A * m11 A)
       (m12 A * m20 A - m10 A * m22 A) (m00 A * m22 A - m02 A * m20 A) (m02 A * m10 A - m00 A * m12 A)
       (m10 A * m21 A - m11 A * m20 A) (m01 A * m20 A - m00 A * m21 A) (m00 A * m11 A - m01 A * m10 A).
Definition m3col (A : M3) (k : nat) : V3 :=
  match k with
  | O => mkV3 (m00 A) (m10 A) (m20 A)
  | S O => mkV3 (m01 A) (m11 A) (m21 A)
  | _ => mkV3 (m02 A) (m12 A) (m22 A)
  end.
Definition m3row (A : M3) (k : nat) : V3 := m3col (m3tr A) k.
Definition m3ofcols (a b c : V3) : M3 :=
  mkM3 (vx a) (vx b) (vx c) (vy a) (vy b) (vy c) (vz a) (vz b) (vz c).

(** Entry access, used only by specifications. *)
Definition v3get (v : V3) (i : nat) : R :=
  match i with O => vx v | S O => vy v | _ => vz v end.
Definition m3get (A : M3) (i j : nat) : R := v3get (m3row A i) j.

(** ** Extensionality and the basic automation *)
Lemma v3_ext a b : vx a = vx b -> vy a = vy b -> vz a = vz b -> a = b.
Proof. destruct a, b; cbn; congruence. Qed.

Lemma m3_ext A B :
  m00 A = m00 B -> m01 A = m01 B -> m02 A = m02 B ->
  m10 A = m10 B -> m11 A = m11 B -> m12 A = m12 B ->
  m20 A = m20 B -> m21 A = m21 B -> m22 A = m22 B -> A = B.
Proof. destruct A, B; cbn; congruence. Qed.

Ltac vsimp := unfold v3norm2, v3dot, m3det, m3trace; cbn beta iota delta [vx vy vz m00 m01 m02 m10 m11 m12 m20 m21 m22
   v3zero v3add v3sub v3opp v3scale v3dot v3cross v3norm2
   m3zero m3id m3add m3sub m3opp m3scale m3tr m3mul m3vec m3det m3trace m3outer m3adj
   m3col m3row m3ofcols v3get m3get].
Ltac vext := first [ apply v3_ext | apply m3_ext ]; vsimp.
Ltac vring := intros; first [ (vext; ring) | (vsimp; ring) ].

(** ** Algebra of vectors and matrices *)
Lemma v3add_comm a b : v3add a b = v3add b a. Proof. vring. Qed.
Lemma v3add_assoc a b c : v3add a (v3add b c) = v3add (v3add a b) c. Proof. vring. Qed.
Lemma v3add_0_l a : v3add v3zero a = a. Proof. vring. Qed.
Lemma v3add_0_r a : v3add a v3zero = a. Proof. vring. Qed.
Lemma v3sub_add a b : v3sub a b = v3add a (v3opp b). Proof. vring. Qed.
Lemma v3add_opp_r a : v3add a (v3opp a) = v3zero. Proof. vring. Qed.
Lemma v3sub_diag a : v3sub a a = v3zero. Proof. vring. Qed.
Lemma v3opp_0 : v3opp v3zero = v3zero. Proof. vring. Qed.
Lemma v3opp_opp a : v3opp (v3opp a) = a. Proof. vring. Qed.
Lemma v3scale_0_r k : v3scale k v3zero = v3zero. Proof. vring. Qed.
Lemma v3scale_1 a : v3scale 1 a = a. Proof. vring. Qed.
Lemma v3scale_0_l a : v3scale 0 a = v3zero. Proof. vring. Qed.
Lemma v3scale_scale k l a : v3scale k (v3scale l a) = v3scale (k * l) a. Proof. vring. Qed.
Lemma v3scale_add_r k a b : v3scale k (v3add a b) = v3add (v3scale k a) (v3scale k b). Proof. vring. Qed.
Lemma v3scale_add_l k l a : v3scale (k + l) a = v3add (v3scale k a) (v3scale l a). Proof. vring. Qed.

Lemma v3dot_comm a b : v3dot a b = v3dot b a. Proof. vring. Qed.
Lemma v3dot_add_l a b c : v3dot (v3add a b) c = v3dot a c + v3dot b c. Proof. vring. Qed.
Lemma v3dot_add_r a b c : v3dot a (v3add b c) = v3dot a b + v3dot a c. Proof. vring. Qed.
Lemma v3dot_sub_l a b c : v3dot (v3sub a b) c = v3dot a c - v3dot b c. Proof. vring. Qed.
Lemma v3dot_sub_r a b c : v3dot a (v3sub b c) = v3dot a b - v3dot a c. Proof. vring. Qed.
Lemma v3dot_opp_l a b : v3dot (v3opp a) b = - v3dot a b. Proof. vring. Qed.
Lemma v3dot_opp_r a b : v3dot a (v3opp b) = - v3dot a b. Proof. vring. Qed.
Lemma v3dot_scale_l k a b : v3dot (v3scale k a) b = k * v3dot a b. Proof. vring. Qed.
Lemma v3dot_scale_r k a b : v3dot a (v3scale k b) = k * v3dot a b. Proof. vring. Qed.
Lemma v3dot_0_l a : v3dot v3zero a = 0. Proof. vring. Qed.
Lemma v3dot_0_r a : v3dot a v3zero = 0. Proof. vring. Qed.

Lemma v3dot_pos a : 0 <= v3dot a a.
Proof. vsimp. nra. Qed.

Lemma v3dot_zero a : v3dot a a = 0 -> a = v3zero.
Proof.
  vsimp; intros H.
  assert (vx a * vx a >= 0) by nra. assert (vy a * vy a >= 0) by nra. assert (vz a * vz a >= 0) by nra.
  apply v3_ext; cbn; apply Rsqr_0_uniq; unfold Rsqr; lra.
Qed.

Lemma v3cross_anti a b : v3cross a b = v3opp (v3cross b a). Proof. vring. Qed.
Lemma v3cross_self a : v3cross a a = v3zero. Proof. vring. Qed.
Lemma v3cross_add_l a b c : v3cross (v3add a b) c = v3add (v3cross a c) (v3cross b c). Proof. vring. Qed.
Lemma v3cross_add_r a b c : v3cross a (v3add b c) = v3add (v3cross a b) (v3cross a c). Proof. vring. Qed.
Lemma v3cross_scale_l k a b : v3cross (v3scale k a) b = v3scale k (v3cross a b). Proof. vring. Qed.
Lemma v3cross_scale_r k a b : v3cross a (v3scale k b) = v3scale k (v3cross a b). Proof. vring. Qed.
Lemma v3cross_0_l a : v3cross v3zero a = v3zero. Proof. vring. Qed.
Lemma v3cross_0_r a : v3cross a v3zero = v3zero. Proof. vring. Qed.
Lemma v3cross_jacobi a b c :
  v3add (v3cross a (v3cross b c)) (v3add (v3cross b (v3cross c a)) (v3cross c (v3cross a b))) = v3zero.
Proof. vring. Qed.
Lemma v3triple a b c : v3dot a (v3cross b c) = v3dot b (v3cross c a). Proof. vring. Qed.
Lemma v3dot_cross_self_l a b : v3dot a (v3cross a b) = 0. Proof. vring. Qed.
Lemma v3lagrange a b :
  v3dot (v3cross a b) (v3cross a b) = v3dot a a * v3dot b b - v3dot a b * v3dot a b.
Proof. vring. Qed.

Lemma m3mul_assoc A B C : m3mul A (m3mul B C) = m3mul (m3mul A B) C. Proof. vring. Qed.
Lemma m3mul_1_l A : m3mul m3id A = A. Proof. vring. Qed.
Lemma m3mul_1_r A : m3mul A m3id = A. Proof. vring. Qed.
Lemma m3mul_add_l A B C : m3mul (m3add A B) C = m3add (m3mul A C) (m3mul B C). Proof. vring. Qed.
Lemma m3mul_add_r A B C : m3mul A (m3add B C) = m3add (m3mul A B) (m3mul A C). Proof. vring. Qed.
Lemma m3mul_scale_l k A B : m3mul (m3scale k A) B = m3scale k (m3mul A B). Proof. vring. Qed.
Lemma m3mul_scale_r k A B : m3mul A (m3scale k B) = m3scale k (m3mul A B). Proof. vring. Qed.
Lemma m3tr_mul A B : m3tr (m3mul A B) = m3mul (m3tr B) (m3tr A). Proof. vring. Qed.
Lemma m3tr_tr A : m3tr (m3tr A) = A. Proof. vring. Qed.
Lemma m3tr_id : m3tr m3id = m3id. Proof. vring. Qed.
Lemma m3tr_add A B : m3tr (m3add A B) = m3add (m3tr A) (m3tr B). Proof. vring. Qed.
Lemma m3add_comm A B : m3add A B = m3add B A. Proof. vring. Qed.
Lemma m3add_assoc A B C : m3add A (m3add B C) = m3add (m3add A B) C. Proof. vring. Qed.
Lemma m3add_0_l A : m3add m3zero A = A. Proof. vring. Qed.
Lemma m3add_0_r A : m3add A m3zero = A. Proof. vring. Qed.
Lemma m3scale_scale k l A : m3scale k (m3scale l A) = m3scale (k * l) A. Proof. vring. Qed.
Lemma m3scale_1 A : m3scale 1 A = A. Proof. vring. Qed.

Lemma m3vec_mul A B v : m3vec (m3mul A B) v = m3vec A (m3vec B v). Proof. vring. Qed.
Lemma m3vec_1 v : m3vec m3id v = v. Proof. vring. Qed.
Lemma m3vec_add_r A u v : m3vec A (v3add u v) = v3add (m3vec A u) (m3vec A v). Proof. vring. Qed.
Lemma m3vec_sub_r A u v : m3vec A (v3sub u v) = v3sub (m3vec A u) (m3vec A v). Proof. vring. Qed.
Lemma m3vec_opp_r A u : m3vec A (v3opp u) = v3opp (m3vec A u). Proof. vring. Qed.
Lemma m3vec_scale_r A k v : m3vec A (v3scale k v) = v3scale k (m3vec A v). Proof. vring. Qed.
Lemma m3vec_add_l A B v : m3vec (m3add A B) v = v3add (m3vec A v) (m3vec B v). Proof. vring. Qed.
Lemma m3vec_scale_l k A v : m3vec (m3scale k A) v = v3scale k (m3vec A v). Proof. vring. Qed.
Lemma m3vec_0 A : m3vec A v3zero = v3zero. Proof. vring. Qed.
Lemma m3dot_tr A u v : v3dot (m3vec A u) v = v3dot u (m3vec (m3tr A) v). Proof. vring. Qed.

Lemma m3det_mul A B : m3det (m3mul A B) = m3det A * m3det B. Proof. vring. Qed.
Lemma m3det_tr A : m3det (m3tr A) = m3det A. Proof. vring. Qed.
Lemma m3det_id : m3det m3id = 1. Proof. vring. Qed.
Lemma m3mul_adj_r A : m3mul A (m3adj A) = m3scale (m3det A) m3id. Proof. vring. Qed.
Lemma m3mul_adj_l A : m3mul (m3adj A) A = m3scale (m3det A) m3id. Proof. vring. Qed.
Lemma m3cross_cof A u v : v3cross (m3vec A u) (m3vec A v) = m3vec (m3tr (m3adj A)) (v3cross u v).
Proof. vring. Qed.

(** ** Orthogonal and rotation matrices *)
Definition orthogonal (A : M3) : Prop := m3mul (m3tr A) A = m3id.
Definition isRotation (A : M3) : Prop := orthogonal A /\ m3det A = 1.

Lemma orthogonal_det2 A : orthogonal A -> m3det A * m3det A = 1.
Proof.
  intros H. rewrite <- (m3det_tr A) at 1. rewrite <- m3det_mul.
  unfold orthogonal in H. rewrite H. apply m3det_id.
Qed.

Lemma orthogonal_adj A : orthogonal A -> m3adj A = m3scale (m3det A) (m3tr A).
Proof.
  intros H.
  assert (E : m3mul (m3mul (m3tr A) A) (m3adj A) = m3mul (m3tr A) (m3scale (m3det A) m3id)).
  { rewrite <- m3mul_assoc, m3mul_adj_r. reflexivity. }
  unfold orthogonal in H. rewrite H, m3mul_1_l, m3mul_scale_r, m3mul_1_r in E. exact E.
Qed.

Lemma orthogonal_right A : orthogonal A -> m3mul A (m3tr A) = m3id.
Proof.
  intros H.
  pose proof (m3mul_adj_r A) as E. rewrite (orthogonal_adj A H), m3mul_scale_r in E.
  pose proof (orthogonal_det2 A H) as D.
  apply (f_equal (m3scale (m3det A))) in E. rewrite !m3scale_scale, D, !m3scale_1 in E. exact E.
Qed.

Lemma orthogonal_tr A : orthogonal A -> orthogonal (m3tr A).
Proof. intros H. unfold orthogonal. rewrite m3tr_tr. apply orthogonal_right, H. Qed.

Lemma orthogonal_mul A B : orthogonal A -> orthogonal B -> orthogonal (m3mul A B).
Proof.
  unfold orthogonal; intros HA HB. rewrite m3tr_mul, <- m3mul_assoc, (m3mul_assoc (m3tr A)), HA, m3mul_1_l.
  exact HB.
Qed.

Lemma orthogonal_id : orthogonal m3id.
Proof. unfold orthogonal. vring. Qed.

Lemma isRotation_id : isRotation m3id.
Proof. split; [apply orthogonal_id | apply m3det_id]. Qed.
Lemma isRotation_mul A B : isRotation A -> isRotation B -> isRotation (m3mul A B).
Proof. intros [HA dA] [HB dB]; split; [now apply orthogonal_mul|]. rewrite m3det_mul, dA, dB; ring. Qed.
Lemma isRotation_tr A : isRotation A -> isRotation (m3tr A).
Proof. intros [HA dA]; split; [now apply orthogonal_tr | now rewrite m3det_tr]. Qed.

Lemma orthogonal_tr_vec A v : orthogonal A -> m3vec (m3tr A) (m3vec A v) = v.
Proof. intros H. rewrite <- m3vec_mul. unfold orthogonal in H. rewrite H. apply m3vec_1. Qed.
Lemma orthogonal_vec_tr A v : orthogonal A -> m3vec A (m3vec (m3tr A) v) = v.
Proof. intros H. rewrite <- m3vec_mul, orthogonal_right by exact H. apply m3vec_1. Qed.
Lemma orthogonal_dot A u v : orthogonal A -> v3dot (m3vec A u) (m3vec A v) = v3dot u v.
Proof. intros H. rewrite m3dot_tr, orthogonal_tr_vec by exact H. reflexivity. Qed.
Lemma rotation_cross A u v : isRotation A -> m3vec A (v3cross u v) = v3cross (m3vec A u) (m3vec A v).
Proof.
  intros [H d]. rewrite m3cross_cof, (orthogonal_adj A H), d. f_equal. vring.
Qed.
Lemma rotation_cross_tr A u v :
  isRotation A -> m3vec (m3tr A) (v3cross u v) = v3cross (m3vec (m3tr A) u) (m3vec (m3tr A) v).
Proof. intros H. apply rotation_cross, isRotation_tr, H. Qed.
