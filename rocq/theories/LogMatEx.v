(* Cases that meet the hypotheses of the theorems on the logarithms of rotation matrices and placements. *)
Require Import Reals Lra Psatz.
From Verif Require Import Vec3 Spatial Rot Spec_Exp Deriv ExpLog LieGroup LogFacts LogFacts4 ExpFacts ExpFacts2 ExpJac Spec_ExpJac ExpJacFacts ExpJacFacts3 ExpJacEx LogMat LogMatFacts LogMatFacts4 LogMatFacts5 LogMatFacts6.
Local Open Scope R_scope.
Definition exNu : V6 := mkV6 (mkV3 2 3 5) (mkV3 1 0 0).
Lemma exl_eps : 0 < 1 / 4096 <= 1 / 4096. Proof. lra. Qed.
Lemma exl_cos1 : 1 / 2 <= cos 1 <= 6 / 10.
Proof. destruct (taylor_cos 1 ltac:(lra)) as [[A B] _]. split; lra. Qed.
Lemma exl_norm : v3norm (mkV3 1 0 0) = 1. Proof. apply norm_x. lra. Qed.
Lemma exl_middle : isRotation (Rexp (mkV3 1 0 0)) /\ middle (1 / 4096) (Rexp (mkV3 1 0 0)).
Proof.
  split; [apply rexp_rot|]. unfold middle. rewrite rexp_trace, exl_norm. pose proof exl_cos1. destruct (ts2_bounds _ exl_eps) as [_ B]. pose proof (ts2_pos (1 / 4096)). lra.
Qed.
Lemma exl_half : isRotation (Rexp (mkV3 PI 0 0)) /\ m3trace (Rexp (mkV3 PI 0 0)) < -1 + 2 * ts2 (1 / 4096).
Proof. split; [apply rexp_rot|]. rewrite rexp_trace, norm_x by (pose proof PI_RGT_0; lra). rewrite cos_PI. pose proof (ts2_pos (1 / 4096)). lra. Qed.
Lemma exl_exp : v3norm (ang exNu) <= PI /\ ts2 (1 / 4096) < 2 * (1 - cos (v3norm (ang exNu))) /\ -1 + ts2 (1 / 4096) <= cos (v3norm (ang exNu)).
Proof. cbn [ang exNu]. rewrite exl_norm. pose proof exl_cos1. destruct (ts2_bounds _ exl_eps) as [_ B]. pose proof (ts2_pos (1 / 4096)). pose proof PI2_1. lra. Qed.
Lemma exl_scale : v3scale 1 (mkV3 1 0 0) = mkV3 1 0 0. Proof. unfold v3scale. cbn. f_equal; ring. Qed.
Lemma exl_turn : let A := fun u => Rexp (v3scale u (mkV3 1 0 0)) in (forall u, isRotation (A u)) /\ turns A (mkV3 1 0 0) 1 /\ middle (1 / 4096) (A 1).
Proof.
  intros A. split; [intros u; apply rexp_rot|]. split; [|unfold A; rewrite exl_scale; apply exl_middle]. destruct (SE3exp_flow exNu 1) as [H _]. cbn [SE3exp rot ang v6scale exNu] in H. exact H.
Qed.
Lemma exl_twist : let M := fun u => SE3exp (v6scale u exNu) in (forall u, isRotation (rot (M u))) /\ hasTwist M exNu 1 /\ middle (1 / 4096) (rot (M 1)).
Proof.
  intros M. split; [intros u; apply rexp_rot|]. split; [apply SE3exp_flow|]. unfold M. cbn [SE3exp rot ang v6scale exNu]. rewrite exl_scale. apply exl_middle.
Qed.
Lemma exl_jexp6 : 0 < 1 / 16 /\ ts3 (1 / 16) < v3norm (ang exNu) /\ cos (v3norm (ang exNu)) <> 1 /\ deriv6 (fun u => v6scale u exNu) exNu 1 /\ v6scale 1 exNu = exNu.
Proof.
  destruct ex_big as (A & B & C). split; [exact A|]. split; [exact B|]. split; [exact C|]. split.
  - unfold v6scale, v3scale, exNu. split; (split; [|split]); cbn; (eapply deriv_eq; [apply (deriv_mult (fun u => u) (fun _ => _)); [apply derivable_pt_lim_id | apply deriv_const] | cbv beta; ring]).
  - unfold v6scale, exNu, v3scale. cbn. f_equal; f_equal; ring.
Qed.
