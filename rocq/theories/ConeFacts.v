Require Import Reals Lra Psatz.
From Verif Require Import Vec3 Cone Spec_Cone.
Local Open Scope R_scope.

Lemma tnorm_sq x : tnorm x * tnorm x = vx x * vx x + vy x * vy x.
Proof. unfold tnorm. apply sqrt_sqrt. nra. Qed.
Lemma tnorm_pos x : 0 <= tnorm x.
Proof. apply sqrt_pos. Qed.
Lemma sq_le a b : 0 <= b -> a * a <= b * b -> a <= b.
Proof. intros. nra. Qed.
Lemma tnorm_cs x y : vx x * vx y + vy x * vy y <= tnorm x * tnorm y.
Proof.
  apply sq_le; [apply Rmult_le_pos; apply tnorm_pos|].
  replace (tnorm x * tnorm y * (tnorm x * tnorm y)) with ((tnorm x * tnorm x) * (tnorm y * tnorm y)) by ring. rewrite !tnorm_sq. pose proof (Rle_0_sqr (vx x * vy y - vy x * vx y)) as Q. unfold Rsqr in Q. lra.
Qed.
Lemma inCone_iff mu f : 0 <= mu -> inCone mu f <-> (0 <= vz f /\ tnorm f <= mu * vz f).
Proof.
  intros Hm. unfold inCone. pose proof (tnorm_sq f). pose proof (tnorm_pos f). split; intros [A B]; split; try exact A.
  - apply sq_le; [nra|]. rewrite H. nra.
  - assert (tnorm f * tnorm f <= (mu * vz f) * (mu * vz f)) by (apply Rmult_le_compat; lra). nra.
Qed.
Lemma inside_spec mu f : 0 < mu -> isInside mu f 0 = true <-> inCone mu f.
Proof.
  intros Hm. rewrite inCone_iff by lra. unfold isInside. destruct (Rle_dec _ _) as [H|H]; split; try discriminate; intros A; try reflexivity.
  - rewrite Rplus_0_r in H. split; [|exact H]. pose proof (tnorm_pos f). destruct (Rle_lt_dec 0 (vz f)); [assumption|]. nra.
  - destruct H. lra.
Qed.
Lemma inside_prec mu f prec : isInside mu f prec = true <-> tnorm f <= mu * vz f + prec.
Proof. unfold isInside. destruct (Rle_dec _ _); split; auto; discriminate. Qed.
Lemma inDual_iff mu v : 0 <= mu -> inDual mu v <-> mu * tnorm v <= vz v.
Proof.
  intros Hm. pose proof (tnorm_pos v) as Hp. pose proof (tnorm_sq v) as Hs. split.
  - intros H. destruct (Req_dec (tnorm v) 0) as [E|E].
    + rewrite E, Rmult_0_r. assert (Hz : inCone mu (mkV3 0 0 1)) by (apply inCone_iff; [exact Hm|]; unfold tnorm; cbn; replace (0*0+0*0) with 0 by ring; rewrite sqrt_0; lra).
      specialize (H _ Hz). unfold v3dot in H. cbn in H. lra.
    + assert (Hn : 0 < tnorm v) by lra.
      assert (Hz : inCone mu (mkV3 (- (mu / tnorm v) * vx v) (- (mu / tnorm v) * vy v) 1)).
      { unfold inCone. cbn. split; [lra|]. replace (_ + _) with ((mu / tnorm v) * (mu / tnorm v) * (vx v * vx v + vy v * vy v)) by ring. rewrite <- Hs. right. field. lra. }
      specialize (H _ Hz). unfold v3dot in H. cbn in H.
      replace (- (mu / tnorm v) * vx v * vx v + - (mu / tnorm v) * vy v * vy v + 1 * vz v) with (vz v - mu / tnorm v * (vx v * vx v + vy v * vy v)) in H by ring. rewrite <- Hs in H.
      replace (mu / tnorm v * (tnorm v * tnorm v)) with (mu * tnorm v) in H by (field; lra). lra.
  - intros H f Hf. apply inCone_iff in Hf; [|exact Hm]. destruct Hf as [Hz Hf]. unfold v3dot. pose proof (tnorm_cs (v3opp f) v) as C. assert (E : tnorm (v3opp f) = tnorm f) by (unfold tnorm; f_equal; cbn; ring).
    rewrite E in C. cbn in C. pose proof (tnorm_pos f). assert (tnorm f * tnorm v <= mu * vz f * tnorm v) by (apply Rmult_le_compat_r; lra). assert (vz f * (mu * tnorm v) <= vz f * vz v) by (apply Rmult_le_compat_l; lra). lra.
Qed.
Lemma insideDual_spec mu v : 0 <= mu -> isInsideDual mu v 0 = true <-> inDual mu v.
Proof. intros Hm. rewrite inDual_iff by exact Hm. unfold isInsideDual. rewrite Rplus_0_r. destruct (Rle_dec _ _); split; auto; discriminate. Qed.
Lemma v3_zero_norm x : v3norm2 x = 0 -> x = v3zero.
Proof. destruct x as [a b c]. unfold v3norm2, v3dot, v3zero. cbn. intros H. f_equal; nra. Qed.
Lemma norm2_pos a : 0 <= v3norm2 a.
Proof. destruct a as [a b c]. unfold v3norm2, v3dot. cbn. nra. Qed.
(* a point of the set that satisfies the variational inequality is the nearest one *)
Lemma nearest_vi (K : V3 -> Prop) x p : K p -> (forall y, K y -> v3dot (v3sub x p) (v3sub y p) <= 0) -> nearest K dist2 x p.
Proof.
  intros Kp H. assert (G : forall y, K y -> dist2 x p + v3norm2 (v3sub y p) <= dist2 x y).
  { intros y Ky. specialize (H y Ky). unfold dist2, v3norm2, v3dot in *. cbn in *. nra. }
  assert (N : forall a, 0 <= v3norm2 a) by (intros [a b c]; unfold v3norm2, v3dot; cbn; nra).
  split; [exact Kp|]. split.
  - intros y Ky. specialize (G y Ky). pose proof (N (v3sub y p)). lra.
  - intros y Ky E. specialize (G y Ky). pose proof (N (v3sub y p)). assert (Z : v3norm2 (v3sub y p) = 0) by lra. apply v3_zero_norm in Z. destruct y, p. unfold v3sub, v3zero in Z. cbn in Z. inversion Z. f_equal; lra.
Qed.
Lemma project_edge mu x : 0 <= mu -> - vz x < mu * tnorm x -> mu * vz x < tnorm x ->
  let s := (mu * tnorm x + vz x) / (mu * mu + 1) in 0 < tnorm x /\ 0 < s /\ project mu x = mkV3 (s * mu / tnorm x * vx x) (s * mu / tnorm x * vy x) s.
Proof.
  intros Hm H1 H2. cbv zeta. assert (Hn : 0 < tnorm x) by (pose proof (tnorm_pos x); destruct (Req_dec (tnorm x) 0) as [E|]; [rewrite E in *; nra | lra]).
  assert (D : 0 < mu * mu + 1) by nra. split; [exact Hn|]. split; [apply Rdiv_lt_0_compat; lra|].
  unfold project. cbv zeta. destruct (Rle_dec _ _) as [Ha|Ha]; [lra|]. destruct (Rle_dec _ _) as [Hb|Hb]; [lra|]. pose proof (tnorm_sq x) as Hs.
  set (n := tnorm x) in *. set (r := mkV3 _ _ _).
  assert (E : v3norm2 r = mu * mu + 1). { unfold r, v3norm2, v3dot. cbn. replace (_ + _ + _) with ((mu / n) * (mu / n) * (vx x * vx x + vy x * vy x) + 1) by ring. rewrite <- Hs. field. lra. }
  unfold normalize. rewrite E. destruct (Rlt_dec 0 (mu * mu + 1)); [|lra]. set (w := sqrt (mu * mu + 1)). assert (Hw : 0 < w) by (apply sqrt_lt_R0; lra). assert (W : w * w = mu * mu + 1) by (apply sqrt_sqrt; lra).
  assert (Ed : v3dot x (v3scale (/ w) r) = / w * (mu * n + vz x)). { unfold v3dot, r. cbn. replace (_ + _ + _) with (/ w * (mu / n * (vx x * vx x + vy x * vy x) + vz x)) by ring. rewrite <- Hs. field. repeat split; lra. }
  rewrite Ed. unfold v3scale, r. cbn. rewrite <- W. f_equal; field; repeat split; lra.
Qed.
Lemma project_nearest mu x : 0 <= mu -> nearest (inCone mu) dist2 x (project mu x).
Proof.
  intros Hm. pose proof (tnorm_pos x) as Hp. pose proof (tnorm_sq x) as Hs. apply nearest_vi.
  - apply inCone_iff; [exact Hm|]. destruct (Rle_dec (mu * tnorm x) (- vz x)) as [H1|H1].
    + unfold project. destruct (Rle_dec _ _); [|lra]. unfold tnorm. cbn. replace (0*0+0*0) with 0 by ring. rewrite sqrt_0. lra.
    + destruct (Rle_dec (tnorm x) (mu * vz x)) as [H2|H2].
      * unfold project. destruct (Rle_dec _ _); [lra|]. destruct (Rle_dec _ _); [|lra]. split; [|exact H2]. destruct (Rle_lt_dec 0 (vz x)); [assumption|]. nra.
      * destruct (project_edge mu x Hm) as (Hn & Hs0 & E); [lra|lra|]. rewrite E. set (s := _ / _) in *. cbn [vz]. split; [lra|]. right.
        unfold tnorm at 1. cbn [vx vy]. replace (_ + _) with ((mu * s) * (mu * s)); [apply sqrt_square; nra|].
        replace (s * mu / tnorm x * vx x * (s * mu / tnorm x * vx x) + s * mu / tnorm x * vy x * (s * mu / tnorm x * vy x)) with (s * mu / tnorm x * (s * mu / tnorm x) * (vx x * vx x + vy x * vy x)) by ring. rewrite <- Hs. field. lra.
  - intros y Hy. apply inCone_iff in Hy; [|exact Hm]. destruct Hy as [Hyz Hy]. pose proof (tnorm_pos y). pose proof (tnorm_cs x y) as C.
    destruct (Rle_dec (mu * tnorm x) (- vz x)) as [H1|H1].
    + unfold project. destruct (Rle_dec _ _); [|lra]. unfold v3dot. cbn. assert (tnorm x * tnorm y <= tnorm x * (mu * vz y)) by (apply Rmult_le_compat_l; lra). assert (vz y * (mu * tnorm x) <= vz y * (- vz x)) by (apply Rmult_le_compat_l; lra). lra.
    + destruct (Rle_dec (tnorm x) (mu * vz x)) as [H2|H2].
      * unfold project. destruct (Rle_dec _ _); [lra|]. destruct (Rle_dec _ _); [|lra]. unfold v3dot. cbn. lra.
      * destruct (project_edge mu x Hm) as (Hn & Hs0 & E); [lra|lra|]. rewrite E. set (s := _ / _) in *. set (n := tnorm x) in *.
        assert (D : 0 < mu * mu + 1) by nra. pose (w := (n - mu * vz x) / (mu * mu + 1)). assert (Hw : 0 < w) by (apply Rdiv_lt_0_compat; lra).
        assert (E1 : 1 - s * mu / n = w / n) by (unfold s, w; field; repeat split; lra). assert (E2 : vz x - s = - mu * w) by (unfold s, w; field; lra).
        unfold v3dot. cbn [vx vy vz v3sub].
        replace (vx x - s * mu / n * vx x) with (w / n * vx x) by (rewrite <- E1; ring). replace (vy x - s * mu / n * vy x) with (w / n * vy x) by (rewrite <- E1; ring). rewrite E2.
        replace (_ + _ + _) with (w * ((vx x * vx y + vy x * vy y) / n - mu * vz y) - w / n * (s * mu / n * (vx x * vx x + vy x * vy x)) + mu * w * s) by (field; lra).
        rewrite <- Hs. replace (w / n * (s * mu / n * (n * n))) with (mu * w * s) by (field; lra).
        assert ((vx x * vx y + vy x * vy y) / n <= mu * vz y). { apply (Rmult_le_reg_r n); [exact Hn|]. replace ((vx x * vx y + vy x * vy y) / n * n) with (vx x * vx y + vy x * vy y) by (field; lra). nra. }
        nra.
Qed.
Lemma projectDual_edge mu x : 0 <= mu -> - mu * vz x < tnorm x -> vz x < mu * tnorm x ->
  let s := (tnorm x + mu * vz x) / (tnorm x * (mu * mu + 1)) in 0 < tnorm x /\ 0 < s /\ projectDual mu x = mkV3 (s * vx x) (s * vy x) (s * mu * tnorm x).
Proof.
  intros Hm H1 H2. cbv zeta. assert (Hn : 0 < tnorm x) by (pose proof (tnorm_pos x); destruct (Req_dec (tnorm x) 0) as [E|]; [rewrite E in *; nra | lra]).
  assert (D : 0 < mu * mu + 1) by nra. split; [exact Hn|]. split; [apply Rdiv_lt_0_compat; [lra | nra]|].
  unfold projectDual. cbv zeta. destruct (Rle_dec _ _) as [Ha|Ha]; [lra|]. destruct (Rle_dec _ _) as [Hb|Hb]; [lra|]. pose proof (tnorm_sq x) as Hs.
  set (n := tnorm x) in *. set (r := mkV3 _ _ _).
  assert (E : v3norm2 r = n * n * (mu * mu + 1)). { unfold r, v3norm2, v3dot. cbn. rewrite <- Hs. ring. }
  assert (P : 0 < n * n * (mu * mu + 1)) by (apply Rmult_lt_0_compat; nra).
  unfold normalize. rewrite E. destruct (Rlt_dec 0 _); [|lra]. set (w := sqrt _). assert (Hw : 0 < w) by (apply sqrt_lt_R0; lra). assert (W : w * w = n * n * (mu * mu + 1)) by (apply sqrt_sqrt; lra).
  assert (Ed : v3dot x (v3scale (/ w) r) = / w * (n * (n + mu * vz x))). { unfold v3dot, r. cbn. replace (_ + _ + _) with (/ w * ((vx x * vx x + vy x * vy x) + mu * n * vz x)) by ring. rewrite <- Hs. ring. }
  rewrite Ed. unfold v3scale, r. cbn.
  assert (X : / w * (n * (n + mu * vz x)) * / w = (n + mu * vz x) / (n * (mu * mu + 1))). { replace (/ w * (n * (n + mu * vz x)) * / w) with (n * (n + mu * vz x) / (w * w)) by (field; lra). rewrite W. field. repeat split; lra. }
  f_equal; [rewrite <- X; ring | rewrite <- X; ring | rewrite <- X; ring].
Qed.
Lemma projectDual_nearest mu x : 0 < mu -> nearest (inDual mu) dist2 x (projectDual mu x).
Proof.
  intros Hm. pose proof (tnorm_pos x) as Hp. pose proof (tnorm_sq x) as Hs. apply nearest_vi.
  - apply inDual_iff; [lra|]. destruct (Rle_dec (tnorm x) (- mu * vz x)) as [H1|H1].
    + unfold projectDual. destruct (Rle_dec _ _); [|lra]. unfold tnorm. cbn. replace (0*0+0*0) with 0 by ring. rewrite sqrt_0. lra.
    + destruct (Rle_dec (mu * tnorm x) (vz x)) as [H2|H2].
      * unfold projectDual. destruct (Rle_dec _ _); [lra|]. destruct (Rle_dec _ _); [|lra]. exact H2.
      * destruct (projectDual_edge mu x) as (Hn & Hs0 & E); [lra|lra|lra|]. rewrite E. set (s := _ / _) in *. cbn [vz]. right.
        assert (X : tnorm {| vx := s * vx x; vy := s * vy x; vz := s * mu * tnorm x |} = s * tnorm x).
        { unfold tnorm at 1. cbn [vx vy]. replace (_ + _) with ((s * tnorm x) * (s * tnorm x)); [apply sqrt_square; nra|]. replace (s * tnorm x * (s * tnorm x)) with (s * s * (tnorm x * tnorm x)) by ring. rewrite Hs. ring. }
        rewrite X. ring.
  - intros y Hy. apply inDual_iff in Hy; [|lra]. pose proof (tnorm_pos y). pose proof (tnorm_cs x y) as C. assert (Hyz : 0 <= vz y) by nra.
    destruct (Rle_dec (tnorm x) (- mu * vz x)) as [H1|H1].
    + unfold projectDual. destruct (Rle_dec _ _); [|lra]. unfold v3dot. cbn.
      assert (tnorm x * tnorm y <= (- mu * vz x) * tnorm y) by (apply Rmult_le_compat_r; lra). assert (Hz : vz x <= 0) by nra.
      assert ((- vz x) * (mu * tnorm y) <= (- vz x) * vz y) by (apply Rmult_le_compat_l; lra). lra.
    + destruct (Rle_dec (mu * tnorm x) (vz x)) as [H2|H2].
      * unfold projectDual. destruct (Rle_dec _ _); [lra|]. destruct (Rle_dec _ _); [|lra]. unfold v3dot. cbn. lra.
      * destruct (projectDual_edge mu x) as (Hn & Hs0 & E); [lra|lra|lra|]. rewrite E. set (s := _ / _) in *. set (n := tnorm x) in *.
        assert (D : 0 < mu * mu + 1) by nra. pose (w := (mu * n - vz x) / (mu * mu + 1)). assert (Hw : 0 < w) by (apply Rdiv_lt_0_compat; lra).
        assert (E1 : 1 - s = mu * w / n) by (unfold s, w; field; repeat split; lra). assert (E2 : vz x - s * mu * n = - w) by (unfold s, w; field; repeat split; lra).
        unfold v3dot. cbn [vx vy vz v3sub].
        replace (vx x - s * vx x) with (mu * w / n * vx x) by (rewrite <- E1; ring). replace (vy x - s * vy x) with (mu * w / n * vy x) by (rewrite <- E1; ring). rewrite E2.
        replace (_ + _ + _) with (w * (mu * ((vx x * vx y + vy x * vy y) / n) - vz y) - mu * w / n * (s * (vx x * vx x + vy x * vy x)) + w * (s * mu * n)) by (field; lra).
        rewrite <- Hs. replace (mu * w / n * (s * (n * n))) with (w * (s * mu * n)) by (field; lra).
        assert ((vx x * vx y + vy x * vy y) / n <= tnorm y). { apply (Rmult_le_reg_r n); [exact Hn|]. replace ((vx x * vx y + vy x * vy y) / n * n) with (vx x * vx y + vy x * vy y) by (field; lra). lra. }
        set (A := (vx x * vx y + vy x * vy y) / n) in *. assert (mu * A <= vz y) by (assert (mu * A <= mu * tnorm y) by (apply Rmult_le_compat_l; lra); lra).
        assert (w * (mu * A - vz y) <= w * 0) by (apply Rmult_le_compat_l; lra). lra.
Qed.
(* the dual cone is closed by both tests only for mu > 0: with mu = 0 the first test accepts every vertical vector *)
Lemma projectDual_zero_friction z : 0 < z -> inDual 0 (mkV3 0 0 z) /\ projectDual 0 (mkV3 0 0 z) = v3zero.
Proof.
  intros Hz. split; [apply inDual_iff; cbn; lra|]. unfold projectDual. destruct (Rle_dec _ _) as [|H]; [reflexivity|]. destruct H. unfold tnorm. cbn. replace (0*0+0*0) with 0 by ring. rewrite sqrt_0. lra.
Qed.
Lemma nearest_self (K : V3 -> Prop) x p : K x -> nearest K dist2 x p -> p = x.
Proof.
  intros Kx (Kp & A & B). symmetry. apply B; [exact Kx|]. specialize (A x Kx). assert (X : dist2 x x = 0) by (unfold dist2, v3norm2, v3dot; cbn; ring). assert (N : 0 <= dist2 x p) by apply norm2_pos. lra.
Qed.
Lemma project_inside mu x : 0 <= mu -> inCone mu x -> project mu x = x.
Proof. intros Hm H. apply (nearest_self (inCone mu)); [exact H | apply project_nearest, Hm]. Qed.
Lemma projectDual_inside mu x : 0 < mu -> inDual mu x -> projectDual mu x = x.
Proof. intros Hm H. apply (nearest_self (inDual mu)); [exact H | apply projectDual_nearest, Hm]. Qed.
Lemma project_idem mu x : 0 <= mu -> project mu (project mu x) = project mu x.
Proof. intros Hm. apply project_inside; [exact Hm|]. apply (project_nearest mu x Hm). Qed.
Lemma projectDual_idem mu x : 0 < mu -> projectDual mu (projectDual mu x) = projectDual mu x.
Proof. intros Hm. apply projectDual_inside; [exact Hm|]. apply (projectDual_nearest mu x Hm). Qed.
(* Moreau's decomposition *)
Lemma tnorm_opp x : tnorm (v3opp x) = tnorm x.
Proof. unfold tnorm. f_equal. cbn. ring. Qed.
Lemma moreau mu x : 0 < mu -> v3sub (project mu x) (projectDual mu (v3opp x)) = x /\ v3dot (project mu x) (projectDual mu (v3opp x)) = 0.
Proof.
  intros Hm. pose proof (tnorm_pos x) as Hp. pose proof (tnorm_sq x) as Hs. pose proof (tnorm_opp x) as En. assert (Ez : vz (v3opp x) = - vz x) by reflexivity.
  destruct (Rle_dec (mu * tnorm x) (- vz x)) as [H1|H1].
  - assert (E1 : project mu x = v3zero) by (unfold project; destruct (Rle_dec _ _); [reflexivity|lra]).
    assert (E2 : projectDual mu (v3opp x) = v3opp x).
    { apply projectDual_inside; [exact Hm|]. apply inDual_iff; [lra|]. rewrite En, Ez. exact H1. }
    rewrite E1, E2. destruct x. unfold v3sub, v3opp, v3zero, v3dot. cbn. split; [f_equal; ring | ring].
  - destruct (Rle_dec (tnorm x) (mu * vz x)) as [H2|H2].
    + assert (E1 : project mu x = x) by (unfold project; destruct (Rle_dec _ _); [lra|]; destruct (Rle_dec _ _); [reflexivity|lra]).
      assert (E2 : projectDual mu (v3opp x) = v3zero) by (unfold projectDual; rewrite En, Ez; destruct (Rle_dec _ _) as [|N]; [reflexivity|destruct N; lra]).
      rewrite E1, E2. destruct x. unfold v3sub, v3opp, v3zero, v3dot. cbn. split; [f_equal; ring | ring].
    + destruct (project_edge mu x) as (Hn & _ & E1); [lra|lra|lra|]. destruct (projectDual_edge mu (v3opp x)) as (_ & _ & E2); [lra| rewrite En, Ez; lra | rewrite En, Ez; lra |]. rewrite En, Ez in E2. rewrite E1, E2.
      set (n := tnorm x) in *. assert (D : 0 < mu * mu + 1) by nra. destruct x as [a b c]. unfold v3sub, v3opp, v3dot. cbn in *. split.
      * f_equal; field; repeat split; lra.
      * transitivity ((mu * n + c) / (mu * mu + 1) * ((n + mu * - c) / (n * (mu * mu + 1))) * mu * (n - (a * a + b * b) / n)); [field; repeat split; lra|]. rewrite <- Hs. field. repeat split; lra.
Qed.
(* ---- weighted projection ---- *)
Lemma weighted_nearest mu x r : 0 <= mu -> 0 < vx r -> vy r = vx r -> 0 < vz r -> nearest (inCone mu) (wdist2 r) x (weightedProject mu x r).
Proof.
  intros Hm Hr Hy Hz. unfold weightedProject. rewrite Hy. set (a := sqrt (vx r)). set (c := sqrt (vz r)). cbn [vx vy vz].
  assert (Ha : 0 < a) by (apply sqrt_lt_R0, Hr). assert (Hc : 0 < c) by (apply sqrt_lt_R0, Hz). assert (Aa : a * a = vx r) by (apply sqrt_sqrt; lra). assert (Cc : c * c = vz r) by (apply sqrt_sqrt; lra).
  assert (Ew : sqrt (vx r / vz r) = a / c). { rewrite <- Aa, <- Cc. replace (a * a / (c * c)) with ((a / c) * (a / c)) by (field; lra). apply sqrt_square. apply Rlt_le, Rdiv_lt_0_compat; lra. }
  rewrite Ew. set (S := fun y => mkV3 (a * vx y) (a * vy y) (c * vz y)). set (T := fun y => mkV3 (vx y / a) (vy y / a) (vz y / c)).
  assert (ST : forall y, S (T y) = y) by (intros [u v w]; unfold S, T; cbn; f_equal; field; lra). assert (TS : forall y, T (S y) = y) by (intros [u v w]; unfold S, T; cbn; f_equal; field; lra).
  assert (Kiff : forall y, inCone (mu * (a / c)) (S y) <-> inCone mu y).
  { intros y. unfold inCone, S. cbn [vx vy vz]. assert (E : (mu * (a / c) * (c * vz y)) ^ 2 = a * a * (mu * vz y) ^ 2) by (field; lra). rewrite E. replace ((a * vx y) ^ 2 + (a * vy y) ^ 2) with (a * a * (vx y ^ 2 + vy y ^ 2)) by ring.
    assert (Paa : 0 < a * a) by nra. split; intros [A B]; split; [nra | apply (Rmult_le_reg_l (a * a)); assumption | nra | apply Rmult_le_compat_l; lra]. }
  assert (Dist : forall u v, wdist2 r u v = dist2 (S u) (S v)). { intros u v. unfold wdist2, dist2, S, v3norm2, v3dot. cbn. rewrite Hy, <- Aa, <- Cc. ring. }
  assert (Hmu : 0 <= mu * (a / c)) by (apply Rmult_le_pos; [exact Hm | apply Rlt_le, Rdiv_lt_0_compat; lra]).
  destruct (project_nearest (mu * (a / c)) (S x) Hmu) as (P1 & P2 & P3). change (nearest (inCone mu) (wdist2 r) x (T (project (mu * (a / c)) (S x)))). set (p := project _ _) in *.
  split; [apply Kiff; rewrite ST; exact P1|]. split.
  - intros y Ky. rewrite !Dist, ST. apply P2, Kiff, Ky.
  - intros y Ky E. rewrite !Dist, ST in E. rewrite <- (TS y). f_equal. apply P3; [apply Kiff, Ky | exact E].
Qed.
(* ---- the other operations ---- *)
Lemma correction_dual mu v : 0 <= mu -> inDual mu (v3add v (computeNormalCorrection mu v)) <-> 0 <= vz v.
Proof.
  intros Hm. rewrite inDual_iff by exact Hm. unfold computeNormalCorrection. assert (E : tnorm (v3add v {| vx := 0; vy := 0; vz := mu * tnorm v |}) = tnorm v) by (unfold tnorm at 1; cbn; unfold tnorm; f_equal; ring).
  rewrite E. cbn. split; intros; lra.
Qed.
Lemma complementarity mu v f : 0 <= mu -> inCone mu f -> 0 <= vz v -> computeContactComplementarity mu v f = v3dot f v + mu * tnorm v * vz f.
Proof.
  intros Hm Hf Hv. unfold computeContactComplementarity. rewrite Rabs_right.
  - unfold computeNormalCorrection, v3dot. cbn. ring.
  - apply Rle_ge. apply (proj2 (correction_dual mu v Hm) Hv f Hf).
Qed.
Lemma radial_spec mu f : 0 <= mu -> let p := computeRadialProjection mu f in inCone mu p /\ vz p = Rmax 0 (vz f) /\ (inCone mu f -> p = f) /\
  (exists k, 0 <= k <= 1 /\ vx p = k * vx f /\ vy p = k * vy f) /\
  (forall y, inCone mu y -> vz y = vz p -> (vx f - vx p) ^ 2 + (vy f - vy p) ^ 2 <= (vx f - vx y) ^ 2 + (vy f - vy y) ^ 2).
Proof.
  intros Hm. cbv zeta. pose proof (tnorm_pos f) as Hp. pose proof (tnorm_sq f) as Hs. unfold computeRadialProjection. cbv zeta. set (z := Rmax 0 (vz f)). assert (Hz : 0 <= z) by apply Rmax_l.
  assert (P : 0 <= mu * z) by (apply Rmult_le_pos; assumption).
  destruct (Rlt_dec (mu * z) (tnorm f)) as [H|H].
  - set (n := tnorm f) in *. assert (Hn : 0 < n) by lra. pose (k := mu * z / n). assert (Hk : 0 <= k) by (apply Rmult_le_pos; [exact P | apply Rlt_le, Rinv_0_lt_compat, Hn]).
    assert (Kn : k * n = mu * z) by (unfold k; field; lra). assert (Hk1 : k < 1) by (apply (Rmult_lt_reg_r n); lra). fold k. cbn [vx vy vz]. split; [|split; [reflexivity|split; [|split]]].
    + unfold inCone. cbn [vx vy vz]. split; [exact Hz|]. right. rewrite <- Kn. replace ((k * n) ^ 2) with (k * k * (n * n)) by ring. rewrite Hs. ring.
    + intros C. apply inCone_iff in C; [|exact Hm]. destruct C as [C1 C2]. exfalso. assert (z = vz f) by (apply Rmax_right; exact C1). fold n in C2. rewrite H0 in H. lra.
    + exists k. split; [lra | auto].
    + intros y Hy Ey. apply inCone_iff in Hy; [|exact Hm]. destruct Hy as [_ Hy]. rewrite Ey, <- Kn in Hy. pose proof (tnorm_pos y). pose proof (tnorm_sq y) as Hys. pose proof (tnorm_cs f y) as C. fold n in C.
      replace ((vx f - k * vx f) ^ 2 + (vy f - k * vy f) ^ 2) with ((1 - k) * (1 - k) * (vx f * vx f + vy f * vy f)) by ring. rewrite <- Hs.
      replace ((vx f - vx y) ^ 2 + (vy f - vy y) ^ 2) with ((vx f * vx f + vy f * vy f) + (vx y * vx y + vy y * vy y) - 2 * (vx f * vx y + vy f * vy y)) by ring. rewrite <- Hs, <- Hys.
      set (u := tnorm y) in *. assert (0 <= n * (1 - k) <= n - u) by nra. assert ((n * (1 - k)) * (n * (1 - k)) <= (n - u) * (n - u)) by (apply Rmult_le_compat; lra). nra.
  - assert (H' : tnorm f <= mu * z) by lra. cbn [vx vy vz]. split; [|split; [reflexivity|split; [|split]]].
    + apply inCone_iff; [exact Hm|]. cbn [vz]. split; [exact Hz|]. exact H'.
    + intros [C _]. destruct f as [a b c]. cbn in *. f_equal. apply Rmax_right, C.
    + exists 1. split; [lra|]. split; ring.
    + intros y _ _. replace ((vx f - vx f) ^ 2 + (vy f - vy f) ^ 2) with 0 by ring. pose proof (Rle_0_sqr (vx f - vx y)) as Q1. pose proof (Rle_0_sqr (vy f - vy y)) as Q2. unfold Rsqr in *. lra.
Qed.
Lemma ex_out : ~ inCone 1 (mkV3 3 4 1).
Proof. unfold inCone. cbn. lra. Qed.
Lemma ex_in : inCone 1 (mkV3 3 4 6).
Proof. unfold inCone. cbn. lra. Qed.
Lemma frictionless : exists x, inDual 0 x /\ isInsideDual 0 x 0 = true /\ projectDual 0 x = v3zero /\ x <> v3zero.
Proof.
  exists (mkV3 0 0 1). destruct (projectDual_zero_friction 1 Rlt_0_1) as [A B]. split; [exact A|]. split; [apply insideDual_spec; [lra | exact A]|]. split; [exact B|]. intros E. inversion E. lra.
Qed.
