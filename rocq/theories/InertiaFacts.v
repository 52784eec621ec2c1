(** Proofs about the Symmetric3 / Inertia model. *)
From Coq Require Import Reals Lra Lia Psatz List.
From Verif Require Import Vec3 Spatial Inertia.
Import ListNotations.
Open Scope R_scope.

Ltac isimp :=
  cbv beta iota zeta delta [vx vy vz m00 m01 m02 m10 m11 m12 m20 m21 m22
   v3zero v3add v3sub v3opp v3scale v3dot v3cross v3norm2
   m3zero m3id m3add m3sub m3opp m3scale m3tr m3mul m3vec m3det m3trace m3outer m3adj
   m3col m3row m3ofcols v3get m3get
   lin ang mLL mLA mAL mAA rot trans hR ht hrow hs
   v6zero v6add v6sub v6opp v6scale v6dot m6vec m6mul m6tr m6add m6sub m6opp m6scale m6id m6zero m6outer
   skew addSkew unSkew alphaSkew skewSquare crossM axisCross unitAxis
   se3_Identity se3_inverse se3_mul se3_actInv_se3 se3_actPoint se3_actInvPoint
   m4mul se3_toHomogeneousMatrix motion_toHomogeneousMatrix
   se3_toActionMatrix se3_toActionMatrixInverse se3_toDualActionMatrix
   motion_toActionMatrix motion_toDualActionMatrix motion_cross motion_act motion_actInv
   force_cross force_act force_actInv
   s0 s1 s2 s3 s4 s5 sym3_ofMatrix sym3_matrix sym3_Zero sym3_Identity sym3_setDiagonal sym3_add sym3_sub sym3_scale
   sym3_vec sym3_SkewSquare sym3_subSkewSquare sym3_AlphaSkewSquare sym3_subAlphaSkewSquare
   sym3_vtiv sym3_vxs sym3_svx sym3_subM sym3_addM sym3_rotate
   mass lever inertia inertia_Zero inertia_Identity inertia_matrix inertia_mul inertia_vtiv inertia_variation
   inertia_vxi inertia_ivx inertia_vxiv
   dyn_m dyn_h dyn_I ps_m ps_h ps_sigma].
Ltac iext := repeat first [ apply se3_ext | apply v6_ext | apply m6_ext | apply m4_ext | apply v3_ext | apply m3_ext | apply sym3_ext ].
Ltac iring := intros; iext; isimp; ring.

(** ** Symmetric3 *)
Lemma sym3_matrix_inj A B : sym3_matrix A = sym3_matrix B -> A = B.
Proof. destruct A, B; unfold sym3_matrix; cbn; intros H; injection H; intros; subst; reflexivity. Qed.
Lemma sym3_matrix_tr S : m3tr (sym3_matrix S) = sym3_matrix S. Proof. iring. Qed.
Lemma sym3_ofMatrix_matrix S : sym3_ofMatrix (sym3_matrix S) = S. Proof. destruct S; reflexivity. Qed.
Lemma sym3_matrix_ofMatrix A : m3tr A = A -> sym3_matrix (sym3_ofMatrix A) = A.
Proof.
  destruct A. unfold m3tr, sym3_matrix, sym3_ofMatrix; cbn. intros H; injection H; intros; subst. reflexivity.
Qed.
Lemma sym3_matrix_add A B : sym3_matrix (sym3_add A B) = m3add (sym3_matrix A) (sym3_matrix B). Proof. iring. Qed.
Lemma sym3_matrix_sub A B : sym3_matrix (sym3_sub A B) = m3sub (sym3_matrix A) (sym3_matrix B). Proof. iring. Qed.
Lemma sym3_matrix_scale k B : sym3_matrix (sym3_scale k B) = m3scale k (sym3_matrix B). Proof. iring. Qed.
Lemma sym3_vec_spec S v : sym3_vec S v = m3vec (sym3_matrix S) v. Proof. iring. Qed.
Lemma sym3_SkewSquare_spec v : sym3_matrix (sym3_SkewSquare v) = m3mul (skew v) (skew v). Proof. iring. Qed.
Lemma sym3_subSkewSquare_spec S v :
  sym3_matrix (sym3_subSkewSquare S v) = m3sub (sym3_matrix S) (m3mul (skew v) (skew v)). Proof. iring. Qed.
Lemma sym3_AlphaSkewSquare_spec k v : sym3_matrix (sym3_AlphaSkewSquare k v) = m3scale k (m3mul (skew v) (skew v)). Proof. iring. Qed.
Lemma sym3_subAlphaSkewSquare_spec S k v :
  sym3_matrix (sym3_subAlphaSkewSquare S k v) = m3sub (sym3_matrix S) (m3scale k (m3mul (skew v) (skew v))). Proof. iring. Qed.
Lemma sym3_vtiv_spec S v : sym3_vtiv S v = v3dot v (m3vec (sym3_matrix S) v). Proof. intros; isimp; ring. Qed.
Lemma sym3_vxs_spec v S : sym3_vxs v S = m3mul (skew v) (sym3_matrix S). Proof. iring. Qed.
Lemma sym3_svx_spec v S : sym3_svx v S = m3mul (sym3_matrix S) (skew v). Proof. iring. Qed.
Lemma sym3_addM_spec S A : m3tr A = A -> sym3_matrix (sym3_addM S A) = m3add (sym3_matrix S) A.
Proof. destruct A; unfold m3tr; cbn; intros H; injection H; intros; subst. iring. Qed.
Lemma sym3_subM_spec S A : m3tr A = A -> sym3_matrix (sym3_subM S A) = m3sub (sym3_matrix S) A.
Proof. destruct A; unfold m3tr; cbn; intros H; injection H; intros; subst. iring. Qed.
Lemma sym3_at_spec S i j : (i < 3)%nat -> (j < 3)%nat -> sym3_at S i j = m3get (sym3_matrix S) i j.
Proof. intros Hi Hj. destruct i as [|[|[|i]]], j as [|[|[|j]]]; try lia; reflexivity. Qed.
Lemma sym3_inverse_r S : m3det (sym3_matrix S) <> 0 -> m3mul (sym3_matrix S) (sym3_inverse S) = m3id.
Proof.
  intros H.
  assert (E : s0 S * (s5 S * s2 S - s4 S * s4 S) + s1 S * - (s5 S * s1 S - s4 S * s3 S) + s3 S * (s4 S * s1 S - s2 S * s3 S)
              = m3det (sym3_matrix S)) by (isimp; ring).
  unfold sym3_inverse. rewrite <- E in H. iext; isimp; field; exact H.
Qed.
Lemma sym3_inverse_l S : m3det (sym3_matrix S) <> 0 -> m3mul (sym3_inverse S) (sym3_matrix S) = m3id.
Proof.
  intros H.
  assert (E : s0 S * (s5 S * s2 S - s4 S * s4 S) + s1 S * - (s5 S * s1 S - s4 S * s3 S) + s3 S * (s4 S * s1 S - s2 S * s3 S)
              = m3det (sym3_matrix S)) by (isimp; ring).
  unfold sym3_inverse. rewrite <- E in H. iext; isimp; field; exact H.
Qed.

(** R [v]x R^T = [R v]x for rotations. *)
Lemma skew_rotate Rm v : isRotation Rm -> m3mul (m3mul Rm (skew v)) (m3tr Rm) = skew (m3vec Rm v).
Proof.
  intros H.
  assert (E : forall x, m3vec (m3mul (m3mul Rm (skew v)) (m3tr Rm)) x = m3vec (skew (m3vec Rm v)) x).
  { intros x. rewrite !m3vec_mul, !skew_vec, rotation_cross by exact H.
    rewrite orthogonal_vec_tr by apply H. reflexivity. }
  pose proof (E (mkV3 1 0 0)) as E0. pose proof (E (mkV3 0 1 0)) as E1. pose proof (E (mkV3 0 0 1)) as E2.
  revert E0 E1 E2. generalize (m3mul (m3mul Rm (skew v)) (m3tr Rm)) (skew (m3vec Rm v)).
  intros A B. destruct A, B. unfold m3vec; cbn. intros E0 E1 E2.
  injection E0; injection E1; injection E2; intros. f_equal; lra.
Qed.

Lemma m3trace_conj Rm A : orthogonal Rm -> m3trace (m3mul (m3mul Rm A) (m3tr Rm)) = m3trace A.
Proof.
  intros H.
  assert (E : m3trace (m3mul (m3mul Rm A) (m3tr Rm)) = m3trace (m3mul (m3mul (m3tr Rm) Rm) A)) by (isimp; ring).
  rewrite E, H, m3mul_1_l. reflexivity.
Qed.

Lemma sym3_rotate_spec S Rm : isRotation Rm ->
  sym3_matrix (sym3_rotate S Rm) = m3mul (m3mul Rm (sym3_matrix S)) (m3tr Rm).
Proof.
  intros H.
  pose (L := mkM3 (s0 S - s5 S) (s1 S) 0 (s1 S) (s2 S - s5 S) 0 (2 * s3 S) (s4 S + s4 S) 0).
  pose (w := mkV3 (- s4 S) (s3 S) 0).
  assert (D : sym3_matrix S = m3add (m3add (m3scale (s5 S) m3id) L) (skew w)) by (unfold L, w; iring).
  assert (C : m3mul (m3mul Rm (sym3_matrix S)) (m3tr Rm)
              = m3add (m3add (m3scale (s5 S) m3id) (m3mul (m3mul Rm L) (m3tr Rm))) (skew (m3vec Rm w))).
  { rewrite D. rewrite <- (skew_rotate Rm w H).
    transitivity (m3add (m3add (m3scale (s5 S) (m3mul Rm (m3tr Rm))) (m3mul (m3mul Rm L) (m3tr Rm)))
                        (m3mul (m3mul Rm (skew w)) (m3tr Rm))); [iring|].
    rewrite (orthogonal_right Rm (proj1 H)). reflexivity. }
  assert (Sy : m3tr (m3mul (m3mul Rm (sym3_matrix S)) (m3tr Rm)) = m3mul (m3mul Rm (sym3_matrix S)) (m3tr Rm)) by iring.
  assert (T : m3trace (m3mul (m3mul Rm L) (m3tr Rm)) = m3trace L) by (apply m3trace_conj, H).
  assert (G : forall A B : M3, m3tr B = B -> m3tr A = A -> m00 A = m00 B -> m10 A = m10 B -> m11 A = m11 B -> m20 A = m20 B ->
     m21 A = m21 B -> m22 A = m22 B -> A = B).
  { intros [] []; unfold m3tr; cbn; intros HB HA; injection HB; injection HA; intros; subst; reflexivity. }
  apply G; [exact Sy | apply sym3_matrix_tr | | | | | |]; rewrite C.
  - assert (E : m00 (m3mul (m3mul Rm L) (m3tr Rm)) = m3trace L - m11 (m3mul (m3mul Rm L) (m3tr Rm)) - m22 (m3mul (m3mul Rm L) (m3tr Rm)))
      by (rewrite <- T; unfold m3trace; ring).
    unfold m3add at 1, m3add at 1; cbn [m00].
    rewrite E. unfold L, w; isimp; ring.
  - unfold L, w; isimp; ring.
  - unfold L, w; isimp; ring.
  - unfold L, w; isimp; ring.
  - unfold L, w; isimp; ring.
  - unfold L, w; isimp; ring.
Qed.

(** ** Inertia as a linear map *)
Lemma inertia_mul_spec Y v : inertia_mul Y v = m6vec (inertia_matrix Y) v. Proof. iring. Qed.
Lemma inertia_matrix_tr Y : m6tr (inertia_matrix Y) = inertia_matrix Y. Proof. iring. Qed.
Lemma inertia_vtiv_spec Y v : inertia_vtiv Y v = v6dot v (inertia_mul Y v). Proof. intros; isimp; ring. Qed.
Lemma inertia_mul_sym Y u v : v6dot u (inertia_mul Y v) = v6dot v (inertia_mul Y u). Proof. intros; isimp; ring. Qed.
Lemma inertia_mul_add Y u v : inertia_mul Y (v6add u v) = v6add (inertia_mul Y u) (inertia_mul Y v). Proof. iring. Qed.
Lemma inertia_mul_sub Y u v : inertia_mul Y (v6sub u v) = v6sub (inertia_mul Y u) (inertia_mul Y v). Proof. iring. Qed.
Lemma inertia_mul_scale Y k v : inertia_mul Y (v6scale k v) = v6scale k (inertia_mul Y v). Proof. iring. Qed.
Lemma inertia_mul_0 Y : inertia_mul Y v6zero = v6zero. Proof. iring. Qed.
Lemma inertia_mul_Zero v : inertia_mul inertia_Zero v = v6zero. Proof. iring. Qed.
Lemma inertia_vxiv_spec Y v : inertia_vxiv Y v = force_cross v (inertia_mul Y v). Proof. iring. Qed.
Lemma inertia_vxi_spec v Y : inertia_vxi v Y = m6mul (motion_toDualActionMatrix v) (inertia_matrix Y). Proof. iring. Qed.
Lemma inertia_ivx_spec v Y : inertia_ivx v Y = m6mul (inertia_matrix Y) (motion_toActionMatrix v). Proof. iring. Qed.
Lemma inertia_variation_spec v Y : inertia_variation Y v = m6sub (inertia_vxi v Y) (inertia_ivx v Y). Proof. iring. Qed.

Lemma inertia_ofMatrix_matrix Y : mass Y <> 0 -> inertia_ofMatrix (inertia_matrix Y) = Y.
Proof.
  destruct Y as [m [cx cy cz] []]; cbn [mass]; intros H. unfold inertia_ofMatrix; isimp.
  f_equal; [|]; f_equal; field; exact H.
Qed.

Lemma sym3_inverse_sym S : m3tr (sym3_inverse S) = sym3_inverse S. Proof. reflexivity. Qed.

Lemma inertia_inverse_spec Y : mass Y <> 0 -> m3det (sym3_matrix (inertia Y)) <> 0 ->
  m6mul (inertia_matrix Y) (inertia_inverse Y) = m6id /\ m6mul (inertia_inverse Y) (inertia_matrix Y) = m6id.
Proof.
  intros Hm Hd. destruct Y as [m c S]; cbn [mass inertia] in *.
  pose proof (sym3_inverse_r S Hd) as HR. pose proof (sym3_inverse_l S Hd) as HL.
  assert (A : inertia_inverse (mkInertia m c S) =
    mkM6 (m3sub (m3scale (/ m) m3id) (m3mul (skew c) (m3mul (sym3_inverse S) (skew c))))
         (m3mul (skew c) (sym3_inverse S)) (m3opp (m3mul (sym3_inverse S) (skew c))) (sym3_inverse S)).
  { unfold inertia_inverse; cbn [mass lever inertia].
    pose proof (sym3_inverse_sym S) as Hs. revert Hs. generalize (sym3_inverse S). intros X Hs.
    destruct X. unfold m3tr in Hs; cbn in Hs. injection Hs; intros; subst.
    iext; isimp; field; exact Hm. }
  assert (B : inertia_matrix (mkInertia m c S) =
     mkM6 (m3scale m m3id) (m3opp (m3scale m (skew c))) (m3scale m (skew c))
          (m3sub (sym3_matrix S) (m3scale m (m3mul (skew c) (skew c))))) by iring.
  rewrite A, B. revert HL HR. generalize (sym3_inverse S) (sym3_matrix S) (skew c). intros X T K HL HR.
  assert (E1 : m3scale m (m3scale (/ m) m3id) = m3id) by (iext; isimp; field; exact Hm).
  split; apply m6_ext; unfold m6mul, m6id; cbn [mLL mLA mAL mAA].
  - transitivity (m3scale m (m3scale (/ m) m3id)); [iring | exact E1].
  - iring.
  - transitivity (m3add (m3sub (m3mul (m3scale m (m3scale (/ m) m3id)) K) K) (m3sub K (m3mul (m3mul T X) K)));
      [iring | rewrite E1, HR; iring].
  - transitivity (m3mul T X); [iring | exact HR].
  - transitivity (m3scale m (m3scale (/ m) m3id)); [iring | exact E1].
  - transitivity (m3add (m3opp (m3mul (m3scale m (m3scale (/ m) m3id)) K)) (m3mul K (m3mul X T)));
      [iring | rewrite E1, HL; iring].
  - iring.
  - transitivity (m3mul X T); [iring | exact HL].
Qed.

(** ** Change of frame *)
Lemma inertia_act_mul M Y v : isRotation (rot M) ->
  inertia_mul (inertia_act M Y) (motion_act M v) = force_act M (inertia_mul Y v).
Proof.
  intros H. destruct M as [Rm p], Y as [m c S], v as [l w]; cbn [rot] in H.
  unfold inertia_mul, inertia_act, motion_act, force_act; cbn [rot trans lin ang mass lever inertia].
  assert (L : v3scale m (v3sub (v3add (m3vec Rm l) (v3cross p (m3vec Rm w))) (v3cross (v3add p (m3vec Rm c)) (m3vec Rm w)))
              = m3vec Rm (v3scale m (v3sub l (v3cross c w)))).
  { rewrite m3vec_scale_r, m3vec_sub_r, rotation_cross by exact H. iring. }
  rewrite L. apply v6_ext; cbn [lin ang]; [reflexivity|].
  rewrite !sym3_vec_spec, sym3_rotate_spec, !m3vec_mul by exact H.
  rewrite orthogonal_tr_vec by apply H. rewrite m3vec_add_r, rotation_cross by exact H. iring.
Qed.

Lemma inertia_act_matrix M Y : isRotation (rot M) ->
  inertia_matrix (inertia_act M Y)
  = m6mul (m6mul (se3_toDualActionMatrix M) (inertia_matrix Y)) (se3_toActionMatrixInverse M).
Proof.
  intros H. apply m6_ext_vec. intros v.
  rewrite !m6vec_mul, actionMatrixInverse_spec, <- !inertia_mul_spec, dualActionMatrix_spec.
  rewrite <- inertia_act_mul by exact H. rewrite motion_act_actInv by apply H. reflexivity.
Qed.

Lemma rotate_mul S A B : isRotation A -> isRotation B -> sym3_rotate (sym3_rotate S B) A = sym3_rotate S (m3mul A B).
Proof.
  intros HA HB. apply sym3_matrix_inj. rewrite !sym3_rotate_spec by (auto using isRotation_mul). iring.
Qed.
Lemma rotate_id S : sym3_rotate S m3id = S.
Proof. apply sym3_matrix_inj. rewrite sym3_rotate_spec by apply isRotation_id. iring. Qed.

Lemma inertia_act_compose A B Y : isRotation (rot A) -> isRotation (rot B) ->
  inertia_act (se3_mul A B) Y = inertia_act A (inertia_act B Y).
Proof.
  intros HA HB. unfold inertia_act; cbn [mass lever inertia rot trans se3_mul]. f_equal.
  - iring.
  - symmetry; apply rotate_mul; assumption.
Qed.
Lemma inertia_act_id Y : inertia_act se3_Identity Y = Y.
Proof. destruct Y as [m c S]. unfold inertia_act; cbn [mass lever inertia rot trans se3_Identity]. rewrite rotate_id. f_equal. iring. Qed.
Lemma inertia_actInv_act M Y : isRotation (rot M) -> inertia_actInv M (inertia_act M Y) = Y.
Proof.
  intros H. destruct Y as [m c S]. unfold inertia_actInv, inertia_act; cbn [mass lever inertia]. f_equal.
  - replace (v3sub (v3add (trans M) (m3vec (rot M) c)) (trans M)) with (m3vec (rot M) c) by iring.
    apply orthogonal_tr_vec, H.
  - rewrite rotate_mul by (auto using isRotation_tr). rewrite (proj1 H). apply rotate_id.
Qed.
Lemma inertia_act_actInv M Y : isRotation (rot M) -> inertia_act M (inertia_actInv M Y) = Y.
Proof.
  intros H. destruct Y as [m c S]. unfold inertia_actInv, inertia_act; cbn [mass lever inertia]. f_equal.
  - rewrite orthogonal_vec_tr by apply H. iring.
  - rewrite rotate_mul by (auto using isRotation_tr). rewrite (orthogonal_right _ (proj1 H)). apply rotate_id.
Qed.
Lemma inertia_actInv_inverse M Y : inertia_actInv M Y = inertia_act (se3_inverse M) Y.
Proof. unfold inertia_actInv, inertia_act; cbn [rot trans se3_inverse]. f_equal. iring. Qed.

(** ** Sum *)
Definition plus_exact (eps : R) (Ya Yb : Inertia) : Prop :=
  0 < eps /\ (eps <= mass Ya + mass Yb \/ (mass Ya = 0 /\ mass Yb = 0)).

Lemma inertia_plus_matrix eps Ya Yb : plus_exact eps Ya Yb ->
  inertia_matrix (inertia_plus eps Ya Yb) = m6add (inertia_matrix Ya) (inertia_matrix Yb).
Proof.
  intros [He [H|[Ha Hb]]].
  - unfold inertia_plus. rewrite Rmax_left by exact H.
    assert (N : mass Ya + mass Yb <> 0) by lra.
    destruct Ya as [ma ca Sa], Yb as [mb cb Sb]; cbn [mass] in *.
    iext; isimp; field; exact N.
  - destruct Ya as [ma ca Sa], Yb as [mb cb Sb]; cbn [mass] in *. subst.
    unfold inertia_plus; cbn [mass lever inertia]. generalize (1 / Rmax (0 + 0) eps). intros k.
    iext; isimp; ring.
Qed.
Lemma inertia_plus_mul eps Ya Yb v : plus_exact eps Ya Yb ->
  inertia_mul (inertia_plus eps Ya Yb) v = v6add (inertia_mul Ya v) (inertia_mul Yb v).
Proof.
  intros H. rewrite !inertia_mul_spec, inertia_plus_matrix, m6vec_add_l by exact H. reflexivity.
Qed.
Lemma inertia_pequ_plus eps Ya Yb : inertia_pequ eps Ya Yb = inertia_plus eps Ya Yb.
Proof. unfold inertia_pequ, inertia_plus. f_equal. iring. Qed.
Lemma inertia_mequ_minus eps Ya Yb : inertia_mequ eps Ya Yb = inertia_minus eps Ya Yb.
Proof.
  unfold inertia_mequ, inertia_minus.
  replace (v3sub (v3scale (mass Ya * (1 / Rmax (mass Ya - mass Yb) eps)) (lever Ya))
                 (v3scale (mass Yb * (1 / Rmax (mass Ya - mass Yb) eps)) (lever Yb)))
    with (v3scale (1 / Rmax (mass Ya - mass Yb) eps) (v3sub (v3scale (mass Ya) (lever Ya)) (v3scale (mass Yb) (lever Yb)))) by iring.
  reflexivity.
Qed.
Lemma inertia_minus_plus eps Ya Yb : 0 < eps -> eps <= mass Ya -> eps <= mass Ya + mass Yb ->
  inertia_minus eps (inertia_plus eps Ya Yb) Yb = Ya.
Proof.
  intros He Ha Hab. unfold inertia_minus, inertia_plus; cbn [mass lever inertia].
  rewrite (Rmax_left (mass Ya + mass Yb)) by exact Hab.
  replace (mass Ya + mass Yb - mass Yb) with (mass Ya) by ring.
  rewrite (Rmax_left (mass Ya)) by exact Ha.
  destruct Ya as [ma [ax ay az] Sa], Yb as [mb cb Sb]; cbn [mass lever inertia] in *.
  assert (N : ma + mb <> 0) by lra. assert (N' : ma <> 0) by lra.
  assert (C : v3scale (1 / ma) (v3sub (v3scale (ma + mb) (v3scale (1 / (ma + mb)) (v3add (v3scale ma (mkV3 ax ay az)) (v3scale mb cb))))
                 (v3scale mb cb)) = mkV3 ax ay az).
  { iext; isimp; field; split; assumption. }
  rewrite C. f_equal. destruct Sa. iext; isimp; field; exact N.
Qed.

(** ** Dynamic parameters, pseudo-inertia, log-Cholesky *)
Lemma dyn_roundtrip Y : mass Y <> 0 -> inertia_FromDynamicParameters (inertia_toDynamicParameters Y) = Y.
Proof.
  intros H. destruct Y as [m c S]; cbn [mass] in H.
  unfold inertia_FromDynamicParameters, inertia_toDynamicParameters; cbn [dyn_m dyn_h dyn_I mass lever inertia].
  assert (E : v3scale (/ m) (v3scale m c) = c) by (iext; isimp; field; exact H).
  rewrite E. f_equal. iring.
Qed.
Lemma dyn_roundtrip' p : dyn_m p <> 0 -> inertia_toDynamicParameters (inertia_FromDynamicParameters p) = p.
Proof.
  intros H. destruct p as [m h S]; cbn [dyn_m] in H.
  unfold inertia_FromDynamicParameters, inertia_toDynamicParameters; cbn [dyn_m dyn_h dyn_I mass lever inertia].
  f_equal; [iext; isimp; field; exact H | iring].
Qed.
Lemma pseudo_dyn_roundtrip p : pseudo_toDynamicParameters (pseudo_FromDynamicParameters p) = p.
Proof.
  destruct p as [m h []]. unfold pseudo_toDynamicParameters, pseudo_FromDynamicParameters; isimp.
  f_equal. f_equal; field.
Qed.
Lemma pseudo_dyn_roundtrip' p : m3tr (ps_sigma p) = ps_sigma p ->
  pseudo_FromDynamicParameters (pseudo_toDynamicParameters p) = p.
Proof.
  destruct p as [m h []]. unfold pseudo_toDynamicParameters, pseudo_FromDynamicParameters; cbn [ps_sigma]; intros Hs.
  unfold m3tr in Hs; cbn in Hs; injection Hs; intros; subst. isimp. f_equal. f_equal; field.
Qed.
Lemma pseudo_matrix_roundtrip p : pseudo_FromMatrix (pseudo_toMatrix p) = p.
Proof. destruct p; reflexivity. Qed.
Lemma pseudo_roundtrip Y : mass Y <> 0 -> pseudo_toInertia (pseudo_FromInertia Y) = Y.
Proof.
  intros H. unfold pseudo_toInertia, pseudo_FromInertia. rewrite pseudo_dyn_roundtrip. apply dyn_roundtrip, H.
Qed.

(** quadratic form of the 4x4 pseudo-inertia on (x, s) *)
Definition m4quad (A : M4) (x : V3) (s : R) : R :=
  v3dot x (v3add (m3vec (hR A) x) (v3scale s (ht A))) + s * (v3dot (hrow A) x + hs A * s).

Lemma lc_pseudo_quad p x s :
  m4quad (pseudo_toMatrix (lc_toPseudoInertia p)) x s
  = exp (2 * lc_alpha p) *
    ((exp (lc_d1 p) * vx x) ^ 2
     + (lc_s12 p * vx x + exp (lc_d2 p) * vy x) ^ 2
     + (lc_s13 p * vx x + lc_s23 p * vy x + exp (lc_d3 p) * vz x) ^ 2
     + (lc_t1 p * vx x + lc_t2 p * vy x + lc_t3 p * vz x + s) ^ 2).
Proof.
  unfold m4quad, pseudo_toMatrix, lc_toPseudoInertia, pseudo_FromDynamicParameters, lc_toDynamicParameters.
  isimp. field.
Qed.

Lemma lc_pseudo_pos p x s : (x <> v3zero \/ s <> 0) -> 0 < m4quad (pseudo_toMatrix (lc_toPseudoInertia p)) x s.
Proof.
  intros H. rewrite lc_pseudo_quad.
  apply Rmult_lt_0_compat; [apply exp_pos|].
  pose proof (exp_pos (lc_d1 p)) as P1. pose proof (exp_pos (lc_d2 p)) as P2. pose proof (exp_pos (lc_d3 p)) as P3.
  revert P1 P2 P3. generalize (exp (lc_d1 p)) (exp (lc_d2 p)) (exp (lc_d3 p)). intros e1 e2 e3 P1 P2 P3.
  destruct x as [x y z]; cbn [vx vy vz].
  assert (Q : forall a, 0 <= a ^ 2) by (intros; apply pow2_ge_0).
  assert (Z : forall a, a ^ 2 <= 0 -> a = 0) by (intros; nra).
  apply Rnot_le_lt. intros N.
  pose proof (Q (e1 * x)) as Q1. pose proof (Q (lc_s12 p * x + e2 * y)) as Q2.
  pose proof (Q (lc_s13 p * x + lc_s23 p * y + e3 * z)) as Q3.
  pose proof (Q (lc_t1 p * x + lc_t2 p * y + lc_t3 p * z + s)) as Q4.
  assert (Z1 : e1 * x = 0) by (apply Z; lra).
  assert (X : x = 0) by (apply Rmult_integral in Z1; lra). subst x.
  assert (Z2 : lc_s12 p * 0 + e2 * y = 0) by (apply Z; lra).
  assert (Y : y = 0) by (rewrite Rmult_0_r, Rplus_0_l in Z2; apply Rmult_integral in Z2; lra). subst y.
  assert (Z3 : lc_s13 p * 0 + lc_s23 p * 0 + e3 * z = 0) by (apply Z; lra).
  assert (ZZ : z = 0) by (rewrite !Rmult_0_r, !Rplus_0_l in Z3; apply Rmult_integral in Z3; lra). subst z.
  assert (Z4 : lc_t1 p * 0 + lc_t2 p * 0 + lc_t3 p * 0 + s = 0) by (apply Z; lra).
  destruct H as [H|H]; [apply H; reflexivity | lra].
Qed.

(** ** Jacobian of the log-Cholesky map *)
Definition lc_get (p : LogCholesky) (j : nat) : R :=
  match j with
  | 0%nat => lc_alpha p | 1%nat => lc_d1 p | 2%nat => lc_d2 p | 3%nat => lc_d3 p | 4%nat => lc_s12 p
  | 5%nat => lc_s23 p | 6%nat => lc_s13 p | 7%nat => lc_t1 p | 8%nat => lc_t2 p | _ => lc_t3 p end.
Definition lc_set (p : LogCholesky) (j : nat) (x : R) : LogCholesky :=
  let g k := if Nat.eqb k j then x else lc_get p k in
  mkLC (g 0%nat) (g 1%nat) (g 2%nat) (g 3%nat) (g 4%nat) (g 5%nat) (g 6%nat) (g 7%nat) (g 8%nat) (g 9%nat).
Definition dyn_get (p : DynParams) (i : nat) : R :=
  match i with
  | 0%nat => dyn_m p | 1%nat => vx (dyn_h p) | 2%nat => vy (dyn_h p) | 3%nat => vz (dyn_h p)
  | 4%nat => s0 (dyn_I p) | 5%nat => s1 (dyn_I p) | 6%nat => s2 (dyn_I p)
  | 7%nat => s3 (dyn_I p) | 8%nat => s4 (dyn_I p) | _ => s5 (dyn_I p) end.

Lemma dl_ext f g x l : (forall y, f y = g y) -> derivable_pt_lim g x l -> derivable_pt_lim f x l.
Proof.
  intros E H eps He. destruct (H eps He) as [d Hd]. exists d. intros h Hh Hl. rewrite !E. apply Hd; assumption.
Qed.
Lemma dl_const c x : derivable_pt_lim (fun _ => c) x 0. Proof. apply derivable_pt_lim_const. Qed.
Lemma dl_id x : derivable_pt_lim (fun y => y) x 1. Proof. apply derivable_pt_lim_id. Qed.
Lemma dl_plus f g x a b : derivable_pt_lim f x a -> derivable_pt_lim g x b -> derivable_pt_lim (fun y => f y + g y) x (a + b).
Proof. apply derivable_pt_lim_plus. Qed.
Lemma dl_minus f g x a b : derivable_pt_lim f x a -> derivable_pt_lim g x b -> derivable_pt_lim (fun y => f y - g y) x (a - b).
Proof. apply derivable_pt_lim_minus. Qed.
Lemma dl_opp f x a : derivable_pt_lim f x a -> derivable_pt_lim (fun y => - f y) x (- a).
Proof. apply derivable_pt_lim_opp. Qed.
Lemma dl_mult f g x a b : derivable_pt_lim f x a -> derivable_pt_lim g x b ->
  derivable_pt_lim (fun y => f y * g y) x (a * g x + f x * b).
Proof. apply derivable_pt_lim_mult. Qed.
Lemma dl_exp f x a : derivable_pt_lim f x a -> derivable_pt_lim (fun y => exp (f y)) x (exp (f x) * a).
Proof. intros H. apply (derivable_pt_lim_comp f exp); [exact H | apply derivable_pt_lim_exp]. Qed.
Lemma dl_pow2 f x a : derivable_pt_lim f x a -> derivable_pt_lim (fun y => f y ^ 2) x (2 * f x * a).
Proof.
  intros H. apply (dl_ext _ (fun y => f y * f y)); [intros; ring|].
  replace (2 * f x * a) with (a * f x + f x * a) by ring. apply dl_mult; exact H.
Qed.
Lemma dl_eq f x a b : derivable_pt_lim f x a -> a = b -> derivable_pt_lim f x b.
Proof. intros H <-. exact H. Qed.

Ltac dl :=
  lazymatch goal with
  | |- derivable_pt_lim (Rmult ?c) _ _ => change (Rmult c) with (fun y => c * y); dl
  | |- derivable_pt_lim (Rplus ?c) _ _ => change (Rplus c) with (fun y => c + y); dl
  | |- derivable_pt_lim (Rminus ?c) _ _ => change (Rminus c) with (fun y => c - y); dl
  | |- derivable_pt_lim exp _ _ => apply derivable_pt_lim_exp
  | |- derivable_pt_lim Ropp _ _ => change Ropp with (fun y => - y); dl
  | |- derivable_pt_lim (fun _ => ?c) _ _ => apply dl_const
  | |- derivable_pt_lim (fun y => y) _ _ => apply dl_id
  | |- derivable_pt_lim (fun y => _ + _) _ _ => eapply dl_plus; dl
  | |- derivable_pt_lim (fun y => _ - _) _ _ => eapply dl_minus; dl
  | |- derivable_pt_lim (fun y => - _) _ _ => eapply dl_opp; dl
  | |- derivable_pt_lim (fun y => _ * _) _ _ => eapply dl_mult; dl
  | |- derivable_pt_lim (fun y => exp _) _ _ => eapply dl_exp; dl
  | |- derivable_pt_lim (fun y => _ ^ 2) _ _ => eapply dl_pow2; dl
  end.

Lemma exp2 x : exp (2 * x) = exp x * exp x.
Proof. rewrite <- exp_plus. f_equal. ring. Qed.

Lemma lc_jacobian_spec p i j : (i < 10)%nat -> (j < 10)%nat ->
  derivable_pt_lim (fun x => dyn_get (lc_toDynamicParameters (lc_set p j x)) i) (lc_get p j) (lc_jacobian p i j).
Proof.
  intros Hi Hj. destruct p as [al d1 d2 d3 s12 s23 s13 t1 t2 t3].
  do 10 (destruct i as [|i]; [do 10 (destruct j as [|j]; [
    eapply dl_eq;
    [ cbv beta iota zeta delta [lc_toDynamicParameters lc_set dyn_get lc_get sym3_scale v3scale lc_alpha lc_d1 lc_d2 lc_d3 lc_s12 lc_s23 lc_s13 lc_t1 lc_t2 lc_t3 Nat.eqb dyn_m dyn_h dyn_I vx vy vz s0 s1 s2 s3 s4 s5];
      dl
    | cbv beta iota zeta delta [lc_jacobian lc_get lc_alpha lc_d1 lc_d2 lc_d3 lc_s12 lc_s23 lc_s13 lc_t1 lc_t2 lc_t3];
      rewrite ?(exp2 d1), ?(exp2 d2), ?(exp2 d3); ring ]
    |]); lia |]); lia.
Qed.
