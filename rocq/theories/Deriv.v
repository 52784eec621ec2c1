(* Time derivatives of vectors, matrices and placements along a trajectory.
   This is specification vocabulary (mathematics only): nothing here models code. *)
Require Import Reals Ranalysis Lra Lia.
From Verif Require Import Vec3 Spatial InertiaFacts.
Local Open Scope R_scope.

(* [deriv f d t]: the function f has derivative d at time t *)
Definition deriv (f : R -> R) (d : R) (t : R) : Prop := derivable_pt_lim f t d.
Definition deriv3 (f : R -> V3) (d : V3) (t : R) : Prop :=
  deriv (fun s => vx (f s)) (vx d) t /\ deriv (fun s => vy (f s)) (vy d) t /\ deriv (fun s => vz (f s)) (vz d) t.
Definition derivM3 (f : R -> M3) (d : M3) (t : R) : Prop :=
  (deriv (fun s => m00 (f s)) (m00 d) t /\ deriv (fun s => m01 (f s)) (m01 d) t /\ deriv (fun s => m02 (f s)) (m02 d) t) /\
  (deriv (fun s => m10 (f s)) (m10 d) t /\ deriv (fun s => m11 (f s)) (m11 d) t /\ deriv (fun s => m12 (f s)) (m12 d) t) /\
  (deriv (fun s => m20 (f s)) (m20 d) t /\ deriv (fun s => m21 (f s)) (m21 d) t /\ deriv (fun s => m22 (f s)) (m22 d) t).
Definition deriv6 (f : R -> V6) (d : V6) (t : R) : Prop :=
  deriv3 (fun s => lin (f s)) (lin d) t /\ deriv3 (fun s => ang (f s)) (ang d) t.
(* The moving frame M has body velocity V at time t: dR/dt = R [w]x and dp/dt = R v. *)
Definition hasTwist (M : R -> SE3) (V : V6) (t : R) : Prop :=
  derivM3 (fun s => rot (M s)) (m3mul (rot (M t)) (skew (ang V))) t /\
  deriv3 (fun s => trans (M s)) (m3vec (rot (M t)) (lin V)) t.

(* ---- calculus ---- *)
Lemma deriv_eq f a b t : deriv f a t -> a = b -> deriv f b t.
Proof. intros H <-; exact H. Qed.
Lemma deriv_ext f g d t : (forall s, f s = g s) -> deriv g d t -> deriv f d t.
Proof. apply dl_ext. Qed.
Lemma deriv_const c t : deriv (fun _ => c) 0 t. Proof. apply dl_const. Qed.
Lemma deriv_plus f g a b t : deriv f a t -> deriv g b t -> deriv (fun s => f s + g s) (a + b) t.
Proof. apply dl_plus. Qed.
Lemma deriv_minus f g a b t : deriv f a t -> deriv g b t -> deriv (fun s => f s - g s) (a - b) t.
Proof. apply dl_minus. Qed.
Lemma deriv_opp f a t : deriv f a t -> deriv (fun s => - f s) (- a) t.
Proof. apply dl_opp. Qed.
Lemma deriv_mult f g a b t : deriv f a t -> deriv g b t -> deriv (fun s => f s * g s) (a * g t + f t * b) t.
Proof. apply dl_mult. Qed.
Lemma deriv_cos f a t : deriv f a t -> deriv (fun s => cos (f s)) (- sin (f t) * a) t.
Proof. intros H. apply (derivable_pt_lim_comp f cos); [exact H | apply derivable_pt_lim_cos]. Qed.
Lemma deriv_sin f a t : deriv f a t -> deriv (fun s => sin (f s)) (cos (f t) * a) t.
Proof. intros H. apply (derivable_pt_lim_comp f sin); [exact H | apply derivable_pt_lim_sin]. Qed.
Lemma deriv_unique f a b t : deriv f a t -> deriv f b t -> a = b.
Proof. apply uniqueness_limite. Qed.
Lemma deriv_ext_loc f g d t e : 0 < e -> (forall s, Rabs (s - t) < e -> f s = g s) -> deriv g d t -> deriv f d t.
Proof.
  intros He E H eps Heps. destruct (H eps Heps) as [[dl Hdl] Hd].
  assert (Hm : 0 < Rmin dl e) by (apply Rmin_pos; assumption).
  exists (mkposreal _ Hm). intros h Hh Hl. cbn in Hl.
  rewrite (E (t + h)), (E t).
  - apply Hd; [exact Hh|]. cbn. eapply Rlt_le_trans; [exact Hl | apply Rmin_l].
  - replace (t - t) with 0 by ring. rewrite Rabs_R0. exact He.
  - replace (t + h - t) with h by ring. eapply Rlt_le_trans; [exact Hl | apply Rmin_r].
Qed.
Lemma deriv_continuous f d t : deriv f d t ->
  forall eps, 0 < eps -> exists e, 0 < e /\ forall s, Rabs (s - t) < e -> Rabs (f s - f t) < eps.
Proof.
  intros H eps Heps.
  assert (Hc : continuity_pt f t) by (apply derivable_continuous_pt; exists d; exact H).
  destruct (Hc eps Heps) as [e [He Hd]]. exists e. split; [exact He|].
  intros s Hs. destruct (Req_dec s t) as [->|Hne].
  - replace (f t - f t) with 0 by ring. rewrite Rabs_R0. exact Heps.
  - apply (Hd s). split; [split; [exact I | intro; apply Hne; symmetry; assumption] | exact Hs].
Qed.
Lemma deriv_atan f a t : deriv f a t -> deriv (fun s => atan (f s)) (/ (1 + (f t) ^ 2) * a) t.
Proof.
  intros H. apply (derivable_pt_lim_comp f atan); [exact H|].
  apply derivable_pt_lim_atan.
Qed.
Lemma deriv_inv f a t : f t <> 0 -> deriv f a t -> deriv (fun s => / f s) (- a / (f t * f t)) t.
Proof.
  intros Hn H.
  apply (deriv_ext _ (fun s => 1 / f s)); [intros; unfold Rdiv; ring|].
  pose proof (derivable_pt_lim_div (fun _ => 1) f t 0 a (derivable_pt_lim_const 1 t) H Hn) as K.
  eapply deriv_eq; [exact K|]. unfold Rsqr. field; exact Hn.
Qed.

(* one-step solver for derivatives of explicit expressions; leaves for atoms closed by assumption *)
Ltac dv :=
  lazymatch goal with
  | |- deriv (fun _ => ?c) _ _ => apply deriv_const
  | |- deriv (fun s => _ + _) _ _ => eapply deriv_plus; dv
  | |- deriv (fun s => _ - _) _ _ => eapply deriv_minus; dv
  | |- deriv (fun s => - _) _ _ => eapply deriv_opp; dv
  | |- deriv (fun s => _ * _) _ _ => eapply deriv_mult; dv
  | |- deriv (fun s => cos _) _ _ => eapply deriv_cos; dv
  | |- deriv (fun s => sin _) _ _ => eapply deriv_sin; dv
  | |- _ => eassumption
  end.

Lemma deriv3_eq f a b t : deriv3 f a t -> a = b -> deriv3 f b t.
Proof. intros H <-; exact H. Qed.
Lemma derivM3_eq f a b t : derivM3 f a t -> a = b -> derivM3 f b t.
Proof. intros H <-; exact H. Qed.
Lemma deriv6_eq f a b t : deriv6 f a t -> a = b -> deriv6 f b t.
Proof. intros H <-; exact H. Qed.
Lemma hasTwist_eq f a b t : hasTwist f a t -> a = b -> hasTwist f b t.
Proof. intros H <-; exact H. Qed.

Lemma deriv6_ext f g d t : (forall s, f s = g s) -> deriv6 g d t -> deriv6 f d t.
Proof.
  intros E [[A [B C]] [D [F G]]].
  split; (split; [|split]); cbn; (eapply deriv_ext; [intros s; rewrite E; reflexivity | assumption]).
Qed.
Lemma deriv3_ext f g d t : (forall s, f s = g s) -> deriv3 g d t -> deriv3 f d t.
Proof.
  intros E [A [B C]].
  (split; [|split]); cbn; (eapply deriv_ext; [intros s; rewrite E; reflexivity | assumption]).
Qed.
Lemma derivM3_ext f g d t : (forall s, f s = g s) -> derivM3 g d t -> derivM3 f d t.
Proof.
  intros E [[A1 [A2 A3]] [[B1 [B2 B3]] [C1 [C2 C3]]]].
  repeat split; cbn; (eapply deriv_ext; [intros s; rewrite E; reflexivity | assumption]).
Qed.
Lemma hasTwist_ext f g d t : (forall s, f s = g s) -> hasTwist g d t -> hasTwist f d t.
Proof.
  intros E [A B]. split.
  - eapply derivM3_ext; [intros s; rewrite E; reflexivity | rewrite E; exact A].
  - eapply deriv3_ext; [intros s; rewrite E; reflexivity | rewrite E; exact B].
Qed.

Lemma deriv3_const c t : deriv3 (fun _ => c) v3zero t.
Proof. repeat split; apply deriv_const. Qed.
Lemma deriv6_const c t : deriv6 (fun _ => c) v6zero t.
Proof. split; apply deriv3_const. Qed.
Lemma derivM3_const c t : derivM3 (fun _ => c) m3zero t.
Proof. repeat split; apply deriv_const. Qed.

Ltac dsplit := repeat match goal with |- _ /\ _ => split end.
Ltac dvs H := let rec go := (lazymatch goal with |- deriv _ _ _ => eapply deriv_eq; [dv | H] end) in go.

Lemma deriv3_add f g a b t : deriv3 f a t -> deriv3 g b t -> deriv3 (fun s => v3add (f s) (g s)) (v3add a b) t.
Proof. intros [A [B C]] [D [E F]]. split; [|split]; cbn; apply deriv_plus; assumption. Qed.
Lemma deriv3_scale f g a b t : deriv f a t -> deriv3 g b t ->
  deriv3 (fun s => v3scale (f s) (g s)) (v3add (v3scale a (g t)) (v3scale (f t) b)) t.
Proof. intros H [D [E F]]. split; [|split]; cbn; (eapply deriv_eq; [dv | cbv beta; ring]). Qed.
Lemma deriv6_add f g a b t : deriv6 f a t -> deriv6 g b t -> deriv6 (fun s => v6add (f s) (g s)) (v6add a b) t.
Proof. intros [A B] [C D]. split; cbn; apply deriv3_add; assumption. Qed.
Lemma deriv6_scale f g a b t : deriv f a t -> deriv6 g b t ->
  deriv6 (fun s => v6scale (f s) (g s)) (v6add (v6scale a (g t)) (v6scale (f t) b)) t.
Proof. intros H [A B]. split; cbn; apply deriv3_scale; assumption. Qed.
Lemma deriv3_cross f g a b t : deriv3 f a t -> deriv3 g b t ->
  deriv3 (fun s => v3cross (f s) (g s)) (v3add (v3cross a (g t)) (v3cross (f t) b)) t.
Proof. intros [A [B C]] [D [E F]]. split; [|split]; cbn; (eapply deriv_eq; [dv | cbv beta; ring]). Qed.
Lemma deriv_dot f g a b t : deriv3 f a t -> deriv3 g b t ->
  deriv (fun s => v3dot (f s) (g s)) (v3dot a (g t) + v3dot (f t) b) t.
Proof. intros [A [B C]] [D [E F]]. unfold v3dot. eapply deriv_eq; [dv | cbv beta; ring]. Qed.
Lemma deriv_dot6 f g a b t : deriv6 f a t -> deriv6 g b t ->
  deriv (fun s => v6dot (f s) (g s)) (v6dot a (g t) + v6dot (f t) b) t.
Proof.
  intros [A B] [C D]. unfold v6dot.
  eapply deriv_eq; [apply deriv_plus; apply deriv_dot; eassumption|]. cbn. ring.
Qed.
Lemma deriv3_vec f g a b t : derivM3 f a t -> deriv3 g b t ->
  deriv3 (fun s => m3vec (f s) (g s)) (v3add (m3vec a (g t)) (m3vec (f t) b)) t.
Proof.
  intros [[A1 [A2 A3]] [[B1 [B2 B3]] [C1 [C2 C3]]]] [D [E F]].
  split; [|split]; cbn; (eapply deriv_eq; [dv | cbv beta; ring]).
Qed.
Lemma derivM3_mul f g a b t : derivM3 f a t -> derivM3 g b t ->
  derivM3 (fun s => m3mul (f s) (g s)) (m3add (m3mul a (g t)) (m3mul (f t) b)) t.
Proof.
  intros [[A1 [A2 A3]] [[B1 [B2 B3]] [C1 [C2 C3]]]] [[D1 [D2 D3]] [[E1 [E2 E3]] [F1 [F2 F3]]]].
  unfold derivM3; dsplit; cbn; (eapply deriv_eq; [dv | cbv beta; ring]).
Qed.
Lemma derivM3_tr f a t : derivM3 f a t -> derivM3 (fun s => m3tr (f s)) (m3tr a) t.
Proof.
  intros [[A1 [A2 A3]] [[B1 [B2 B3]] [C1 [C2 C3]]]]. unfold derivM3; dsplit; cbn; assumption.
Qed.

(* skew commutes with rotations *)
Lemma skew_mul_rotation A w : isRotation A -> m3mul (skew w) A = m3mul A (skew (m3vec (m3tr A) w)).
Proof.
  intros HA.
  assert (H : forall v, m3vec (m3mul (skew w) A) v = m3vec (m3mul A (skew (m3vec (m3tr A) w))) v).
  { intros v. rewrite !m3vec_mul, !skew_vec. rewrite (rotation_cross A _ _ HA).
    rewrite (orthogonal_vec_tr A w (proj1 HA)). reflexivity. }
  pose proof (H (mkV3 1 0 0)) as H0. pose proof (H (mkV3 0 1 0)) as H1. pose proof (H (mkV3 0 0 1)) as H2.
  destruct (m3mul (skew w) A) as [a00 a01 a02 a10 a11 a12 a20 a21 a22],
           (m3mul A (skew (m3vec (m3tr A) w))) as [b00 b01 b02 b10 b11 b12 b20 b21 b22].
  cbn in H0, H1, H2. injection H0; injection H1; injection H2; intros. apply m3_ext; cbn; lra.
Qed.

Lemma m3mul_skew_add A u v : m3mul A (skew (v3add u v)) = m3add (m3mul A (skew u)) (m3mul A (skew v)).
Proof. sring. Qed.

Lemma hasTwist_const M t : hasTwist (fun _ => M) v6zero t.
Proof.
  split.
  - eapply derivM3_eq; [apply derivM3_const|]. sring.
  - eapply deriv3_eq; [apply deriv3_const|]. sring.
Qed.

Lemma hasTwist_mul A B Va Vb t : isRotation (rot (B t)) -> hasTwist A Va t -> hasTwist B Vb t ->
  hasTwist (fun s => se3_mul (A s) (B s)) (v6add (motion_actInv (B t) Va) Vb) t.
Proof.
  intros HB [HA1 HA2] [HB1 HB2]. split.
  - cbn [se3_mul rot]. eapply derivM3_eq; [apply derivM3_mul; eassumption|].
    cbn [v6add ang motion_actInv]. rewrite m3mul_skew_add.
    rewrite <- !m3mul_assoc. f_equal.
    rewrite (skew_mul_rotation _ _ HB). reflexivity.
  - cbn [se3_mul trans rot]. eapply deriv3_eq.
    + apply deriv3_add; [exact HA2|]. apply deriv3_vec; eassumption.
    + cbn [v6add lin motion_actInv]. rewrite (m3vec_mul (rot (A t)) (rot (B t))), (m3vec_add_r (rot (B t))).
      rewrite (orthogonal_vec_tr _ _ (proj1 HB)). generalize (m3vec (rot (B t)) (lin Vb)). sring.
Qed.

(* derivative of an expression in the moving frame *)
Lemma deriv_actInv M m V m' t : isRotation (rot (M t)) -> hasTwist M V t -> deriv6 m m' t ->
  deriv6 (fun s => motion_actInv (M s) (m s))
         (v6sub (motion_actInv (M t) m') (motion_cross V (motion_actInv (M t) (m t)))) t.
Proof.
  intros HR [H1 H2] [H3 H4].
  assert (HT : derivM3 (fun s => m3tr (rot (M s))) (m3tr (m3mul (rot (M t)) (skew (ang V)))) t)
    by (apply derivM3_tr; exact H1).
  split.
  - cbn [motion_actInv lin].
    eapply deriv3_eq.
    + apply (deriv3_ext _ (fun s => m3vec (m3tr (rot (M s))) (v3add (lin (m s)) (v3cross (ang (m s)) (trans (M s)))))).
      { intros s. sring. }
      apply deriv3_vec; [exact HT|]. apply deriv3_add; [exact H3|]. apply deriv3_cross; eassumption.
    + rewrite m3tr_mul, skew_tr, m3vec_mul. cbn [motion_cross motion_actInv v6sub lin ang].
      rewrite !m3vec_add_r.
      rewrite (rotation_cross_tr _ (ang (m t)) (m3vec (rot (M t)) (lin V)) HR).
      rewrite (orthogonal_tr_vec _ _ (proj1 HR)).
      replace (m3vec (m3tr (rot (M t))) (v3sub (lin (m t)) (v3cross (trans (M t)) (ang (m t)))))
        with (v3add (m3vec (m3tr (rot (M t))) (lin (m t))) (m3vec (m3tr (rot (M t))) (v3cross (ang (m t)) (trans (M t)))))
        by (rewrite <- m3vec_add_r; f_equal; sring).
      replace (m3vec (m3tr (rot (M t))) (v3sub (lin m') (v3cross (trans (M t)) (ang m'))))
        with (v3add (m3vec (m3tr (rot (M t))) (lin m')) (m3vec (m3tr (rot (M t))) (v3cross (ang m') (trans (M t)))))
        by (rewrite <- m3vec_add_r; f_equal; sring).
      generalize (m3vec (m3tr (rot (M t))) (lin m')) (m3vec (m3tr (rot (M t))) (v3cross (ang m') (trans (M t))))
        (m3vec (m3tr (rot (M t))) (lin (m t))) (m3vec (m3tr (rot (M t))) (v3cross (ang (m t)) (trans (M t))))
        (m3vec (m3tr (rot (M t))) (ang (m t))).
      sring.
  - cbn [motion_actInv ang].
    eapply deriv3_eq.
    + apply deriv3_vec; [exact HT | exact H4].
    + rewrite m3tr_mul, skew_tr, m3vec_mul. cbn [motion_cross motion_actInv v6sub lin ang].
      generalize (m3vec (m3tr (rot (M t))) (ang m')) (m3vec (m3tr (rot (M t))) (ang (m t))). sring.
Qed.

(* the body velocity of a moving frame is unique *)
Lemma deriv3_unique f a b t : deriv3 f a t -> deriv3 f b t -> a = b.
Proof.
  intros [A [B C]] [D [E F]]. apply v3_ext; eapply deriv_unique; eassumption.
Qed.
Lemma derivM3_unique f a b t : derivM3 f a t -> derivM3 f b t -> a = b.
Proof.
  intros [[A1 [A2 A3]] [[B1 [B2 B3]] [C1 [C2 C3]]]] [[D1 [D2 D3]] [[E1 [E2 E3]] [F1 [F2 F3]]]].
  apply m3_ext; eapply deriv_unique; eassumption.
Qed.
Lemma hasTwist_unique M V W t : isRotation (rot (M t)) -> hasTwist M V t -> hasTwist M W t -> V = W.
Proof.
  intros HR [A B] [C D].
  pose proof (derivM3_unique _ _ _ _ A C) as E. pose proof (deriv3_unique _ _ _ _ B D) as F.
  assert (E' : skew (ang V) = skew (ang W)).
  { rewrite <- (m3mul_1_l (skew (ang V))), <- (m3mul_1_l (skew (ang W))), <- (proj1 HR).
    rewrite <- !m3mul_assoc, E. reflexivity. }
  apply v6_ext.
  - rewrite <- (orthogonal_tr_vec _ (lin V) (proj1 HR)), F. apply orthogonal_tr_vec. apply HR.
  - rewrite <- (unSkew_skew (ang V)), E'. apply unSkew_skew.
Qed.

(* spatial acceleration in the moving frame: derivative of the body-frame velocity *)
Lemma deriv6_unique f a b t : deriv6 f a t -> deriv6 f b t -> a = b.
Proof. intros [A B] [C D]. apply v6_ext; eapply deriv3_unique; eassumption. Qed.
