(* The derivatives of forward dynamics: what the first three passes leave. *)
Require Import Reals List Arith ZArith Lia Lra Bool.
From Verif Require Import Vec3 Spatial Inertia InertiaFacts SpatialFacts Joints JointFacts Model Spec_Model ModelFacts ModelTree ModelFacts2 Sums Data Kinematics Spec_Kin Spec_Mass KinFacts KinFacts2 Spec_Dyn Rnea DynFacts DynFacts2 TreeSums MassFacts Crba CrbaFacts CrbaFacts2 Jacobian Spec_Jac JacFacts JacFacts2 JacFacts3 CholFacts4 Com Dccrba DccrbaFacts DccrbaFacts2 DataX Coriolis RneaDer DerSums CoriolisFacts CoriolisFacts2 DerPass RneaDerFacts
  Aba Spec_Aba AbaCore AbaFacts AbaJoints AbaFacts2 AbaFacts3 Spec_Deriv Minverse MinvFacts MinvFacts2 AbaDer.
Import ListNotations.
Local Open Scope nat_scope.
Local Open Scope bool_scope.

(* everything but the matrices and Fcrb from g *)
Definition withMF (g : Glob) (x : MaT -> nat -> nat -> R) (f : nat -> nat -> V6) : Glob := mkGlob (ve g) (co g) x (jcom g) (gv g) (gs g) (ig g) (oMf g) f.
Lemma upward_rel {A B : Type} m (f : A -> nat -> A) (g : B -> nat -> B) (Rl : nat -> A -> B -> Prop) a b : 1 <= m_njoints m -> Rl 1 a b ->
  (forall i a b, 0 < i < m_njoints m -> Rl i a b -> Rl (i + 1) (f a i) (g b i)) -> Rl (m_njoints m) (upward m f a) (upward m g b).
Proof.
  intros Hn H0 Hs. pose proof (upward_inv m (fun p i => (f (fst p) i, g (snd p) i)) (fun k p => Rl k (fst p) (snd p)) (a, b) Hn H0 (fun i s Hi => Hs i (fst s) (snd s) Hi)) as H.
  unfold upward in *. now rewrite fold_pair in H.
Qed.
(* a pass whose update of a part of the state uses, of the rows, what it leaves in the row of the joint it visits *)
Lemma frozen_part {S X P : Type} (Rw : S -> nat -> Row) (pr : S -> P) (val : Row -> X) (f : S -> nat -> S) (F : nat -> X -> P -> P) (I : S -> Prop) :
  (forall s i, I s -> I (f s i) /\ pr (f s i) = F i (val (Rw (f s i) i)) (pr s)) -> (forall s i j, i <> j -> val (Rw (f s i) j) = val (Rw s j)) ->
  forall l s, NoDup l -> I s -> pr (fold_left f l s) = fold_left (fun g i => F i (val (Rw (fold_left f l s) i)) g) l (pr s).
Proof.
  intros Hg Hr.
  assert (K : forall l d j, ~ In j l -> val (Rw (fold_left f l d) j) = val (Rw d j)).
  { induction l as [|i l IH]; intros d j Hj; [reflexivity|]. cbn [fold_left]. rewrite IH by (intros C; apply Hj; now right). apply Hr. intros ->. apply Hj. now left. }
  induction l as [|i l IH]; intros d Hl HI; [reflexivity|]. inversion Hl as [|? ? Hi Hl']; subst. cbn [fold_left]. destruct (Hg d i HI) as [H1 H2].
  rewrite (IH (f d i) Hl' H1) at 1. rewrite H2, (K l (f d i) i Hi). reflexivity.
Qed.

Section Passes.
Variable m : Model.
Hypothesis W : wellFormed m.
Hypothesis T : treeInv m.
Hypothesis Vm : validModel m.
Hypothesis NM : noMimic m.
Variable inv : nat -> (nat -> nat -> R) -> nat -> nat -> R.

(* ---- the first pass ---- *)
Definition kinOk q v i (r : Row) : Prop := pl r F_oMi = worldPl m q i /\ mo r F_ov = worldVel m q v i /\
  mo r F_oh = inertia_mul (worldInertia m q i) (worldVel m q v i) /\ yi r F_oinertias = worldInertia m q i /\ yi r F_oYcrb = worldInertia m q i.
Lemma abaWDyn_more i r : let x := abaWDyn m i r in yi x F_oinertias = inertia_act (pl r F_oMi) (inertiaOf m i) /\ yi x F_oYcrb = inertia_act (pl r F_oMi) (inertiaOf m i) /\
  mo x F_oh = inertia_mul (inertia_act (pl r F_oMi) (inertiaOf m i)) (mo r F_ov) /\ pl x = pl r /\ mo x F_ov = mo r F_ov.
Proof. unfold abaWDyn. mem. auto 10. Qed.
Lemma abaWRow1_more q v i r rp : let x := abaWRow1 m q v i r rp in yi x F_oinertias = inertia_act (pl x F_oMi) (inertiaOf m i) /\ yi x F_oYcrb = yi x F_oinertias /\ mo x F_oh = inertia_mul (yi x F_oinertias) (mo x F_ov).
Proof.
  cbv zeta. unfold abaWRow1. set (r3 := abaWAcc m i _ rp). clearbody r3. destruct (abaWDyn_more i r3) as (A & B & C & D & E). cbv zeta in *. rewrite C, A, B, D, E. auto.
Qed.
Lemma minusExt_keeps fext i r : let x := minusExt fext i r in jd x = jd r /\ pl x = pl r /\ yi x = yi r /\ m6 x = m6 r /\ jU x = jU r /\ jDinv x = jDinv r /\ jUDinv x = jUDinv r /\
  (forall t, t <> F_of -> mo x t = mo r t) /\ mo x F_of = v6sub (mo r F_of) (force_act (pl r F_oMi) (extOf fext i)).
Proof.
  cbv zeta. destruct fext as [f|]; cbn [minusExt extOf].
  - cbn [jd pl yi m6 jU jDinv jUDinv mo setMo]. repeat (split; [reflexivity|]). split; [|reflexivity]. intros t Ht. unfold put. now rewrite MoT_beq_neq by congruence.
  - repeat (split; [reflexivity|]). now rewrite force_act_0, v6sub_0_r.
Qed.
Lemma ad_pass1 q v fext d0 : validState m q -> let d1 := upward m (rowStepG m (adRow1 m q v fext) (crbaWCols m)) d0 in
  (forall i, 0 < i < m_njoints m -> kinOk q v i (rows d1 i)) /\
  ve (gl d1) = ve (gl d0) /\ ma (gl d1) = ma (gl d0) /\ rows d1 0 = rows d0 0 /\ readyW m q d1 /\
  (forall i, 0 < i < m_njoints m -> m6 (rows d1 i) F_oYaba = inertia_matrix (worldInertia m q i) /\
     mo (rows d1 i) F_oa_gf = v6add (motion_act (worldPl m q i) (jc (jointAt m q v i))) (motion_cross (worldVel m q v (parent m i)) (worldVel m q v i)) /\
     mo (rows d1 i) F_of = force_act (worldPl m q i) (v6sub (force_cross (bodyVel m q v i) (inertia_mul (inertiaOf m i) (bodyVel m q v i))) (extOf fext i))).
Proof.
  intros Hq. cbv zeta.
  assert (HF : forall i r rp, let x := abaWRow1 m q v i r rp in jd (adRow1 m q v fext i r rp) = jd x /\ pl (adRow1 m q v fext i r rp) = pl x /\ m6 (adRow1 m q v fext i r rp) = m6 x /\
     (forall t, t <> F_of -> mo (adRow1 m q v fext i r rp) t = mo x t) /\ mo (adRow1 m q v fext i r rp) F_of = v6sub (mo x F_of) (force_act (pl x F_oMi) (extOf fext i))).
  { intros i r rp. cbv zeta. unfold adRow1. destruct (minusExt_keeps fext i (abaWRow1 m q v i r rp)) as (A & B & C & D & _ & _ & _ & E & F). cbv zeta in *. auto. }
  destruct (abaW_forward m W T Vm NM q v Hq d0 (extOf fext) (adRow1 m q v fext) HF) as (G0 & G1 & G2 & G3).
  destruct (upward_rowsG m (adRow1 m q v fext) (crbaWCols m) d0 W) as (E1 & E2 & E0). set (d1 := upward m (rowStepG m _ _) d0) in *.
  assert (EP : forall i, i < m_njoints m -> 0 < i -> pl (rows d1 i) F_oMi = worldPl m q i).
  { refine (tree_ind m _ W _ _); [lia|]. intros i Hi IH _. rewrite (E2 i Hi).
    destruct (HF i (rows d0 i) (rows d1 (parent m i))) as (_ & -> & _). destruct (abaWRow1_eff m W q v i (rows d0 i) (rows d1 (parent m i)) Hi) as (_ & -> & _).
    rewrite (worldPl_step m W T q i Hi). destruct (Nat.ltb_spec 0 (parent m i)); [now rewrite IH|].
    replace (parent m i) with 0 by lia. rewrite (worldPl_0 m W T). symmetry. apply se3_mul_1_l. }
  assert (EV : forall i, i < m_njoints m -> 0 < i -> mo (rows d1 i) F_ov = worldVel m q v i).
  { refine (tree_ind m _ W _ _); [lia|]. intros i Hi IH _. pose proof (EP i ltac:(lia) ltac:(lia)) as Ei. rewrite (E2 i Hi) in Ei |- *.
    destruct (HF i (rows d0 i) (rows d1 (parent m i))) as (_ & F2 & _ & F4 & _). rewrite F2 in Ei. rewrite (F4 F_ov) by discriminate.
    destruct (abaWRow1_eff m W q v i (rows d0 i) (rows d1 (parent m i)) Hi) as (X1 & _ & X3 & _). set (x := abaWRow1 m q v i _ _) in *. clearbody x.
    rewrite X3, (worldVel_step m W T Vm q v i Hq Hi), Ei, X1, (jv_twist m Vm q v i Hi).
    destruct (Nat.ltb_spec 0 (parent m i)).
    - rewrite <- IH by lia. apply v6add_comm.
    - replace (parent m i) with 0 by lia. rewrite (worldVel_0 m W T). now rewrite v6add_comm, v6add_0_r. }
  split.
  { intros i Hi. pose proof (EP i ltac:(lia) ltac:(lia)) as Ei. pose proof (EV i ltac:(lia) ltac:(lia)) as Evi. unfold kinOk. split; [exact Ei|]. split; [exact Evi|].
    rewrite (E2 i Hi) in Ei, Evi |- *. unfold adRow1 in *. 
    destruct (minusExt_keeps fext i (abaWRow1 m q v i (rows d0 i) (rows d1 (parent m i)))) as (_ & B & C & _ & _ & _ & _ & E & _). cbv zeta in *.
    destruct (abaWRow1_more q v i (rows d0 i) (rows d1 (parent m i))) as (X1 & X2 & X3). cbv zeta in *.
    rewrite C, (E F_oh) by discriminate. rewrite B in Ei. rewrite (E F_ov) in Evi by discriminate. rewrite X2, X3, X1, Ei, Evi. auto. }
  split; [exact G0|]. split; [|auto].
  rewrite E0. unfold upward. generalize (seq 1 (m_njoints m - 1)), (gl d0). intros l. induction l as [|i l IH]; intros g; cbn [fold_left]; [reflexivity|]. now rewrite IH.
Qed.

(* ---- the second pass: forward dynamics, and the fill of Minv ---- *)
Lemma abaWBack_MF d i x f : abaWBack inv m (setGl d (withMF (gl d) x f)) i = setGl (abaWBack inv m d i) (withMF (gl (abaWBack inv m d i)) x f).
Proof. cbv beta zeta delta [abaWBack]. destruct (0 <? parent m i); reflexivity. Qed.
Lemma minvFill_MF i J U D g : exists x f, minvFill m i J U D g = withMF g x f.
Proof. cbv beta zeta delta [minvFill]. destruct (Z.ltb _ _), (0 <? parent m i); do 2 eexists; reflexivity. Qed.
Lemma minvFill_with i J U D g g0 : let g' := minvFill m i J U D g in withMF g0 (ma g') (fcrb g') = minvFill m i J U D (withMF g0 (ma g) (fcrb g)).
Proof. cbv beta zeta delta [minvFill]. destruct (Z.ltb _ _), (0 <? parent m i); reflexivity. Qed.
Lemma minvFwdG_with i J UD g g0 : let g' := minvFwdG m i J UD g in withMF g0 (ma g') (fcrb g') = minvFwdG m i J UD (withMF g0 (ma g) (fcrb g)).
Proof. cbv beta zeta delta [minvFwdG]. destruct (0 <? parent m i); reflexivity. Qed.
Lemma minvFwdG_MF i J UD g : exists x f, minvFwdG m i J UD g = withMF g x f.
Proof. cbv beta zeta delta [minvFwdG]. destruct (0 <? parent m i); do 2 eexists; reflexivity. Qed.
Lemma ad_pass2_eq d x f : exists x' f', downward m (adBack1 inv m) (setGl d (withMF (gl d) x f)) = setGl (downward m (abaWBack inv m) d) (withMF (gl (downward m (abaWBack inv m) d)) x' f').
Proof.
  unfold downward. generalize (rev (seq 1 (m_njoints m - 1))). intros l. revert d x f. induction l as [|i l IH]; intros d x f; cbn [fold_left]; [eauto|].
  unfold adBack1 at 2. rewrite abaWBack_MF. cbv zeta. set (d' := abaWBack inv m d i). cbn [gl rows setGl]. 
  match goal with |- context [minvFill m i ?J ?U ?D ?g] => destruct (minvFill_MF i J U D g) as (x1 & f1 & ->) end. exact (IH d' x1 f1).
Qed.
Lemma abaWBack_row3 d i j : i <> j -> row3 (rows (abaWBack inv m d i) j) = row3 (rows d j).
Proof.
  intros Hn. unfold abaWBack. destruct (0 <? parent m i); cbn [rows gl setRow setGl]; [|now rewrite putn_other by exact Hn].
  destruct (Nat.eq_dec (parent m i) j) as [->|Hp]; [rewrite putn_same, putn_other by exact Hn; reflexivity | now rewrite !putn_other by assumption].
Qed.
Lemma abaWBack_co d i : co (gl (abaWBack inv m d i)) = co (gl d) /\ ma (gl (abaWBack inv m d i)) = ma (gl d) /\ fcrb (gl (abaWBack inv m d i)) = fcrb (gl d).
Proof. unfold abaWBack. destruct (0 <? parent m i); cbn [gl setRow setGl setVe co ma fcrb]; auto. Qed.
Lemma ad_pass2_minv d g0 : co g0 F_J = co (gl d) F_J -> let d' := downward m (adBack1 inv m) d in
  withMF g0 (ma (gl d')) (fcrb (gl d')) =
  downward m (fun g i => minvFill m i (jointCols m i (co g F_J)) (jU (rows d' i)) (jDinv (rows d' i)) g) (withMF g0 (ma (gl d)) (fcrb (gl d))).
Proof.
  intros HJ. cbv zeta. unfold downward. set (l := rev (seq 1 (m_njoints m - 1))). assert (NL : NoDup l) by (apply NoDup_rev, seq_NoDup). clearbody l.
  pose proof (frozen_part rows (fun d => withMF g0 (ma (gl d)) (fcrb (gl d))) (fun r => (jU r, jDinv r)) (adBack1 inv m) (fun i x g => minvFill m i (jointCols m i (co g0 F_J)) (fst x) (snd x) g) (fun d => co (gl d) F_J = co g0 F_J)) as H.
  rewrite H; [| | |exact NL|now symmetry].
  - clear. generalize (fold_left (adBack1 inv m) l d). intros e. assert (K : co (withMF g0 (ma (gl d)) (fcrb (gl d))) = co g0) by reflexivity. revert K. generalize (withMF g0 (ma (gl d)) (fcrb (gl d))). 
    induction l as [|i l IH]; intros g K; cbn [fold_left]; [reflexivity|]. rewrite K. cbn [fst snd]. apply IH. now rewrite minvFill_J.
  - intros s i K. unfold adBack1. cbv zeta. cbn [gl rows setGl]. destruct (abaWBack_co s i) as (A & B & C). rewrite minvFill_J, A. split; [exact K|]. rewrite minvFill_with, B, C, K. reflexivity.
  - intros s i j Hn. unfold adBack1. cbv zeta. cbn [rows setGl]. pose proof (abaWBack_row3 s i j Hn) as E. unfold row3 in E. now injection E as -> -> _.
Qed.
End Passes.
