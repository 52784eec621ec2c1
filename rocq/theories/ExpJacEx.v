(* A case that meets the hypotheses of the theorems on the Jacobians of the exponential and of the logarithm. *)
Require Import Reals Lra Psatz.
From Verif Require Import Vec3 Spatial Rot Spec_Exp Deriv ExpLog JointFacts ExpFacts ExpFacts2 ExpJac Spec_ExpJac ExpJacFacts ExpJacFacts2 ExpJacFacts3 ExpJacFacts4.
Local Open Scope R_scope.
Lemma ex_ts3 : ts3 (1 / 16) = 1 / 2.
Proof. replace (1 / 16) with (1 / 2 * (1 / 2) * (1 / 2 * (1 / 2))) by field. apply ts3_pow4. lra. Qed.
Lemma ex_big : 0 < 1 / 16 /\ ts3 (1 / 16) < v3norm (mkV3 1 0 0) /\ cos (v3norm (mkV3 1 0 0)) <> 1.
Proof. rewrite ex_ts3, norm_x by lra. repeat split; try lra. destruct (taylor_cos 1 ltac:(lra)) as [[_ B] _]. lra. Qed.
Lemma ex_small : 0 < 1 / 16 <= 1 / 4 /\ v3norm (mkV3 (1 / 4) 0 0) < ts3 (1 / 16).
Proof. rewrite ex_ts3, norm_x by lra. lra. Qed.
Lemma ex_line v d : v3add v (v3scale 0 d) = v /\ deriv3 (fun u => v3add v (v3scale u d)) d 0.
Proof.
  split; [destruct v; unfold v3add, v3scale; cbn; f_equal; ring|].
  split; [|split]; cbn; (eapply deriv_eq; [eapply deriv_plus; [apply deriv_const | eapply deriv_mult; [apply derivable_pt_lim_id | apply deriv_const]] | cbv beta; ring]).
Qed.
Lemma ex_hlog (v : V3) : let w0 := mkV3 1 0 0 in let w := fun u => v3add w0 (v3scale u (m3vec (Jlog3 (1 / 16) (v3norm w0) w0) v)) in
  ts3 (1 / 16) < v3norm (w 0) /\ cos (v3norm (w 0)) <> 1 /\ deriv3 w (m3vec (Jlog3 (1 / 16) (v3norm (w 0)) (w 0)) v) 0.
Proof.
  intros w0 w. destruct (ex_line w0 (m3vec (Jlog3 (1 / 16) (v3norm w0) w0) v)) as [E D]. fold w in D. change (w 0 = w0) in E. rewrite E. destruct ex_big as (_ & A & B). repeat split; try assumption; apply D.
Qed.
Lemma ex_quat : 0 < 1 / 16 /\ sqrt (1 / 16) < v3dot (mkV3 1 0 0) (mkV3 1 0 0).
Proof. split; [lra|]. replace (1 / 16) with (1 / 4 * (1 / 4)) by field. rewrite sqrt_square by lra. unfold v3dot. cbn. lra. Qed.
