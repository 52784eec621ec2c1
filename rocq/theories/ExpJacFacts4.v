(* The Jacobian of the quaternion exponential: the closed branch is the derivative, the Taylor branch is not. *)
Require Import Reals Lra Lia Psatz.
From Verif Require Import Vec3 Spatial Rot Spec_Exp Deriv ExpLog JointFacts ExpFacts ExpFacts2 ExpJac Spec_ExpJac ExpJacFacts ExpJacFacts2 ExpJacFacts3.
Local Open Scope R_scope.

Lemma qexp_ne v : v3norm v <> 0 -> Qexp v = mkQ (sin (v3norm v / 2) / v3norm v * vx v) (sin (v3norm v / 2) / v3norm v * vy v) (sin (v3norm v / 2) / v3norm v * vz v) (cos (v3norm v / 2)).
Proof. intros N. unfold Qexp. cbv zeta. rewrite sinc_nz by lra. f_equal; field; exact N. Qed.
Theorem qexp_rate eps (w : R -> V3) dw t : 0 < eps -> sqrt eps < v3dot (w t) (w t) -> deriv3 w dw t ->
  derivQ (fun u => Qexp (w u)) (qRate (Jexp3CoeffWise eps (w t)) dw) t.
Proof.
  intros He Hw D. pose proof (sqrt_lt_R0 eps He) as P. set (x := v3norm (w t)). 
  assert (XX : x * x = v3dot (w t) (w t)) by (unfold x, v3norm; apply sqrt_sqrt; lra). assert (N : x <> 0) by (intros E; rewrite E in XX; lra).
  assert (EJ : Jexp3CoeffWise eps (w t) = (m3add (m3scale (/ 2 / (x * x) * (cos (x / 2) - 2 * sin (x / 2) / x)) (m3outer (w t) (w t))) (m3scale (sin (x / 2) / x) m3id), v3scale (- sin (x / 2) / (2 * x)) (w t))).
  { unfold Jexp3CoeffWise. cbv zeta. change (v3norm2 (w t)) with (v3dot (w t) (w t)). destruct (Rlt_dec _ _) as [_|B]; [|contradiction]. rewrite <- XX. rewrite sqrt_square by apply norm_nonneg. replace (/ 2 * x) with (x / 2) by field. reflexivity. }
  rewrite EJ. clear EJ. pose proof (der_norm w dw t D N) as Dn. fold x in Dn. destruct (near_pos w dw t D N) as (e & Hpos & Hn).
  set (n := fun u => v3norm (w u)) in *. assert (Dh : deriv (fun u => n u / 2) (v3dot (w t) dw / x / 2) t).
  { eapply deriv_eq; [apply (deriv_mult n (fun _ => / 2)); [exact Dn | apply deriv_const] | cbv beta; field; exact N]. }
  assert (Ds : deriv (fun u => sin (n u / 2) / n u) (/ 2 / (x * x) * (cos (x / 2) - 2 * sin (x / 2) / x) * v3dot (w t) dw) t).
  { eapply deriv_eq; [apply (deriv_div (fun u => sin (n u / 2)) n (cos (n t / 2) * (v3dot (w t) dw / x / 2)) (v3dot (w t) dw / x) t N); [apply (deriv_sin (fun u => n u / 2)); exact Dh | exact Dn]|].
    cbv beta. change (n t) with x. field. exact N. }
  assert (Dc : deriv (fun u => cos (n u / 2)) (- sin (x / 2) / (2 * x) * v3dot (w t) dw) t).
  { eapply deriv_eq; [apply (deriv_cos (fun u => n u / 2)); exact Dh | cbv beta; change (n t) with x; field; exact N]. }
  assert (Eq : forall u, Rabs (u - t) < e -> Qexp (w u) = mkQ (sin (n u / 2) / n u * vx (w u)) (sin (n u / 2) / n u * vy (w u)) (sin (n u / 2) / n u * vz (w u)) (cos (n u / 2))).
  { intros u Hu. apply qexp_ne, Hn, Hu. }
  destruct D as (D1 & D2 & D3).
  set (f := fun u => sin (n u / 2) / n u) in *. set (g := fun u => cos (n u / 2)) in *.
  assert (Ft : f t = sin (x / 2) / x) by reflexivity. rewrite <- Ft. 
  set (a := / 2 / (x * x) * (cos (x / 2) - 2 * sin (x / 2) / x)) in *. set (b := - sin (x / 2) / (2 * x)) in *.
  unfold derivQ, qRate. repeat match goal with |- _ /\ _ => split end.
  - eapply deriv_ext_loc; [exact Hpos | intros u Hu; rewrite (Eq u Hu); reflexivity|]. cbn [qx]. change (fun u => sin (n u / 2) / n u * vx (w u)) with (fun u => f u * vx (w u)).
    eapply deriv_eq; [apply (deriv_mult f (fun u => vx (w u))); eassumption | unfold v3dot, m3vec, m3add, m3scale, m3outer, m3id; cbn; ring].
  - eapply deriv_ext_loc; [exact Hpos | intros u Hu; rewrite (Eq u Hu); reflexivity|]. cbn [qy]. change (fun u => sin (n u / 2) / n u * vy (w u)) with (fun u => f u * vy (w u)).
    eapply deriv_eq; [apply (deriv_mult f (fun u => vy (w u))); eassumption | unfold v3dot, m3vec, m3add, m3scale, m3outer, m3id; cbn; ring].
  - eapply deriv_ext_loc; [exact Hpos | intros u Hu; rewrite (Eq u Hu); reflexivity|]. cbn [qz]. change (fun u => sin (n u / 2) / n u * vz (w u)) with (fun u => f u * vz (w u)).
    eapply deriv_eq; [apply (deriv_mult f (fun u => vz (w u))); eassumption | unfold v3dot, m3vec, m3add, m3scale, m3outer, m3id; cbn; ring].
  - eapply deriv_ext_loc; [exact Hpos | intros u Hu; rewrite (Eq u Hu); reflexivity|]. cbn [qw]. eapply deriv_eq; [exact Dc | unfold v3dot, v3scale; cbn; ring].
Qed.

Lemma qrate_uniq q a b t : derivQ q a t -> derivQ q b t -> qx a = qx b.
Proof. intros (A & _) (B & _). exact (deriv_unique _ _ _ _ A B). Qed.
(* the first coefficient of the Taylor branch is twice what it should be *)
Theorem qexp_taylor C : exists eps v dw, 0 < eps <= 1 / 4 /\ v3dot v v <= sqrt eps /\
  forall d, derivQ (fun u => Qexp (v3add v (v3scale u dw))) d 0 -> ~ qclose (C * eps) (qRate (Jexp3CoeffWise eps v) dw) d.
Proof.
  set (K := Rabs C + 1). assert (HK : 1 <= K) by (unfold K; pose proof (Rabs_pos C); lra). assert (HC : C <= K) by (unfold K; pose proof (Rle_abs C); lra).
  set (x := / (100 * K)). assert (Hx : 0 < x) by (apply Rinv_0_lt_compat; lra). assert (Hx1 : x * (100 * K) = 1) by (unfold x; field; lra). assert (Hs : x <= 1 / 100) by nra.
  assert (X2 : 0 < x * x <= 1 / 100) by (split; nra). assert (X4 : 0 < x * x * (x * x) <= x * x / 100) by (split; nra).
  exists (x * x * (x * x)), (mkV3 x 0 0), (mkV3 1 0 0). split; [lra|]. 
  assert (VV : v3dot (mkV3 x 0 0) (mkV3 x 0 0) = x * x) by (unfold v3dot; cbn; ring).
  assert (SQ : sqrt (x * x * (x * x)) = x * x) by (apply sqrt_square; lra). split; [rewrite VV, SQ; lra|].
  intros d Hd (H & _). set (w := fun u => v3add (mkV3 x 0 0) (v3scale u (mkV3 1 0 0))) in *.
  assert (E0 : w 0 = mkV3 x 0 0) by (unfold w, v3add, v3scale; cbn; f_equal; ring).
  assert (Dw : deriv3 w (mkV3 1 0 0) 0). { unfold w. split; [|split]; cbn; (eapply deriv_eq; [eapply deriv_plus; [apply deriv_const | eapply deriv_mult; [apply derivable_pt_lim_id | apply deriv_const]] | cbv beta; ring]). }
  set (e' := x * x * (x * x) / 16). assert (Pe : 0 < e') by (unfold e'; lra).
  assert (S' : sqrt e' < v3dot (w 0) (w 0)). { rewrite E0, VV. unfold e'. replace (x * x * (x * x) / 16) with (x * x / 4 * (x * x / 4)) by field. rewrite sqrt_square by lra. lra. }
  pose proof (qexp_rate e' w (mkV3 1 0 0) 0 Pe S' Dw) as Q. pose proof (qrate_uniq _ _ _ _ Hd Q) as U. rewrite U in H. clear U Q Hd. rewrite E0 in H, S'. rewrite VV in S'.
  unfold qRate, Jexp3CoeffWise in H. cbv zeta in H. change (v3norm2 (mkV3 x 0 0)) with (v3dot (mkV3 x 0 0) (mkV3 x 0 0)) in H. rewrite VV, SQ in H.
  destruct (Rlt_dec (x * x) (x * x)) as [B|_]; [lra|]. destruct (Rlt_dec (sqrt e') (x * x)) as [_|B]; [|contradiction]. rewrite (sqrt_square x) in H by lra.
  set (c := cos (/ 2 * x)) in *. set (s := sin (/ 2 * x)) in *. unfold m3vec, m3add, m3scale, m3outer, m3id in H. cbn in H. apply rabs_inv in H. destruct H as [H _].
  match type of H with _ <= ?l - ?r => replace l with (1 / 2 - 5 * (x * x) / 48 + x * x * (x * x) / 480) in H by field; replace r with (c / 2) in H by (field; lra) end.
  destruct (taylor_cos (/ 2 * x) ltac:(lra)) as [[B _] _]. fold c in B. replace (/ 2 * x * (/ 2 * x) / 2) with (x * x / 8) in B by field.
  assert (V1 : C * (x * x * (x * x)) <= K * (x * x * (x * x))) by (apply Rmult_le_compat_r; lra).
  assert (V2 : K * (x * x * (x * x)) = x * (x * x) / 100) by (replace (K * (x * x * (x * x))) with (x * (x * x) / 100 * (x * (100 * K))) by field; rewrite Hx1; ring).
  assert (V3' : x * (x * x) <= x * x / 100) by nra. lra.
Qed.
