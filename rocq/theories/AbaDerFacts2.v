(* The derivatives of forward dynamics: the second forward pass. *)
Require Import Reals List Arith ZArith Lia Lra Bool.
From Verif Require Import Vec3 Spatial Inertia InertiaFacts SpatialFacts Joints JointFacts Model Spec_Model ModelFacts ModelTree ModelFacts2 Sums Data Kinematics Spec_Kin Spec_Mass KinFacts KinFacts2 Spec_Dyn Rnea DynFacts DynFacts2 TreeSums MassFacts Crba CrbaFacts CrbaFacts2 Jacobian Spec_Jac JacFacts JacFacts2 JacFacts3 CholFacts4 Com Dccrba DccrbaFacts DccrbaFacts2 DataX Coriolis RneaDer DerSums CoriolisFacts CoriolisFacts2 DerPass RneaDerFacts
  Aba Spec_Aba AbaCore AbaFacts AbaJoints AbaFacts2 AbaFacts3 Spec_Deriv Minverse MinvFacts MinvFacts2 AbaDer AbaDerFacts.
Import ListNotations.
Local Open Scope nat_scope.
Local Open Scope bool_scope.

Section Pass3.
Variable m : Model.
Hypothesis W : wellFormed m.
Hypothesis Vm : validModel m.
Hypothesis NM : noMimic m.
Variable fext : option (nat -> Force).

(* what adRest does *)
Lemma minvFwd_eff d i : rows (minvFwd m d i) = rows d /\ ve (gl (minvFwd m d i)) = ve (gl d) /\ co (gl (minvFwd m d i)) = co (gl d).
Proof. unfold minvFwd. destruct (minvFwdG_MF m i (jointCols m i (co (gl d) F_J)) (jUDinv (rows d i)) (gl d)) as (x & f & ->). auto. Qed.
Definition fin i r := minusExt fext i (adVar (adForce r)).
Lemma adCols_bs i s : rows (bs (adCols m i s)) = rows (bs s) /\ ve (gl (bs (adCols m i s))) = ve (gl (bs s)) /\ co (gl (bs (adCols m i s))) F_J = co (gl (bs s)) F_J /\ ma (gl (bs (adCols m i s))) = ma (gl (bs s)) /\
  fcrb (gl (bs (adCols m i s))) = fcrb (gl (bs s)) /\ xma (adCols m i s) = xma s.
Proof. cbv beta zeta delta [adCols]. destruct (0 <? parent m i); memx; unfold onCo; mem; auto 8. Qed.
Lemma adRest_bs i s : let s' := adRest m fext s i in
  (forall j, rows (bs s') j = if i =? j then fin i (rows (bs s) i) else rows (bs s) j) /\ ve (gl (bs s')) = ve (gl (bs s)) /\ co (gl (bs s')) F_J = co (gl (bs s)) F_J /\ xma s' = xma s /\
  forall g0, withMF g0 (ma (gl (bs s'))) (fcrb (gl (bs s'))) = minvFwdG m i (jointCols m i (co (gl (bs s)) F_J)) (jUDinv (rows (bs s) i)) (withMF g0 (ma (gl (bs s))) (fcrb (gl (bs s)))).
Proof.
  cbv zeta. cbv beta zeta delta [adRest]. set (s1 := onBs s _). set (s2 := onBs s1 _). destruct (adCols_bs i s2) as (A1 & A2 & A3 & A4 & A5 & A6). set (s3 := adCols m i s2) in *. clearbody s3.
  destruct (minvFwd_eff (bs s1) i) as (B1 & B2 & B3).
  cbn [onBs bs xma rows gl setRow]. rewrite A1, A2, A3, A4, A5, A6. subst s2. cbn [onBs bs xma]. rewrite B1, B2, B3. subst s1. cbn [onBs bs xma rows gl setRow].
  split; [|split; [reflexivity|]; split; [reflexivity|]; split; [reflexivity|]].
  - intros j. destruct (Nat.eqb_spec i j) as [<-|Hn]; [now rewrite !putn_same | now rewrite !putn_other by exact Hn].
  - intros g0. unfold minvFwd. cbn [gl setGl setRow rows]. rewrite minvFwdG_with, putn_same. reflexivity.
Qed.
(* the columns, from the joint and its parent *)
Definition colR j (s : DX) (r rp : Row) : Prop := forall c, c < nvOf m j -> let k := idx_v m j + c in let J := co (gl (bs s)) F_J k in
  let V := if 0 <? parent m j then motion_cross (mo rp F_ov) J else v6zero in
  co (gl (bs s)) F_dVdq k = V /\ xco s X_dAdq k = v6add (motion_cross (mo rp F_oa_gf) J) (if 0 <? parent m j then motion_cross (mo rp F_ov) V else v6zero) /\
  xco s X_dAdv k = v6add (motion_cross (mo r F_ov) J) V.
Definition colKeep (s s' : DX) j : Prop := forall c, c < nvOf m j -> let k := idx_v m j + c in
  co (gl (bs s')) F_dVdq k = co (gl (bs s)) F_dVdq k /\ xco s' X_dAdq k = xco s X_dAdq k /\ xco s' X_dAdv k = xco s X_dAdv k.
Lemma adCols_cols i s : 0 < i < m_njoints m -> colR i (adCols m i s) (rows (bs s) i) (rows (bs s) (parent m i)) /\
  (forall j, 0 < j < m_njoints m -> i <> j -> colKeep s (adCols m i s) j).
Proof.
  intros Hi. destruct (jm_v m W Vm NM i Hi) as (E1 & E2 & E3 & E4). unfold colR, colKeep. cbv beta delta [adCols]. rewrite E1, E3. split.
  - intros c Hc. pose proof (within_own m W NM i i c Hi Hi Hc) as HW. rewrite Nat.eqb_refl in HW. assert (EC : idx_v m i + c - idx_v m i = c) by lia. cbv zeta.
    destruct (0 <? parent m i); memx; unfold onCo; memx; unfold plusCols, setCols; rewrite !HW, !EC, ?HW, ?EC; rewrite ?v6add_0_r; auto.
  - intros j Hj Hn c Hc. pose proof (within_own m W NM i j c Hi Hj Hc) as HW. destruct (Nat.eqb_spec i j); [congruence|]. cbv zeta.
    destruct (0 <? parent m i); memx; unfold onCo; memx; unfold plusCols, setCols; rewrite HW; auto.
Qed.
Lemma adRest_cols i s : 0 < i < m_njoints m -> let s' := adRest m fext s i in colR i s' (rows (bs s) i) (rows (bs s) (parent m i)) /\
  (forall j, 0 < j < m_njoints m -> i <> j -> colKeep s s' j).
Proof.
  intros Hi. pose proof (wf_parent _ W i Hi) as Hp. cbv zeta. cbv beta zeta delta [adRest]. set (s1 := onBs s _). set (s2 := onBs s1 _). destruct (adCols_cols i s2 Hi) as (A & B). set (s3 := adCols m i s2) in *. clearbody s3.
  destruct (minvFwd_eff (bs s1) i) as (B1 & B2 & B3).
  assert (E : co (gl (bs s2)) = co (gl (bs s)) /\ xco s2 = xco s) by (subst s2; cbn [onBs bs xco]; rewrite B3; split; reflexivity). destruct E as [E1 E2].
  assert (R1 : mo (rows (bs s2) i) F_ov = mo (rows (bs s) i) F_ov) by (subst s2; cbn [onBs bs]; rewrite B1; subst s1; cbn [onBs bs rows setRow]; rewrite putn_same; unfold adForce; mem; reflexivity).
  assert (R2 : rows (bs s2) (parent m i) = rows (bs s) (parent m i)) by (subst s2; cbn [onBs bs]; rewrite B1; subst s1; cbn [onBs bs rows setRow]; rewrite putn_other by lia; reflexivity).
  split.
  - intros c Hc. specialize (A c Hc). cbv zeta in A |- *. rewrite R1, R2 in A. exact A.
  - intros j Hj Hn c Hc. specialize (B j Hj Hn c Hc). cbv zeta in B |- *. rewrite E1, E2 in B. exact B.
Qed.

(* along the second forward pass of aba *)
Definition sim (r r' : Row) : Prop := pl r = pl r' /\ yi r F_oinertias = yi r' F_oinertias /\ jDinv r = jDinv r' /\ jUDinv r = jUDinv r' /\ mo r F_oa_gf = mo r' F_oa_gf /\ mo r F_ov = mo r' F_ov /\ mo r F_oh = mo r' F_oh.
Definition sims (s : DX) (d : Data) : Prop := (forall j, sim (rows (bs s) j) (rows d j)) /\ ve (gl (bs s)) = ve (gl d) /\ co (gl (bs s)) F_J = co (gl d) F_J.
Definition rowR j (r r' : Row) : Prop :=
  mo r F_of = v6sub (v6add (inertia_mul (yi r' F_oinertias) (mo r' F_oa_gf)) (force_cross (mo r' F_ov) (mo r' F_oh))) (force_act (pl r' F_oMi) (extOf fext j)) /\
  yi r F_oYcrb = yi r' F_oinertias /\ m6 r F_doYcrb = addForceCross (mo r' F_oh) (inertia_variation (yi r' F_oinertias) (mo r' F_ov)).
Lemma fin_eff i r : let x := fin i r in sim x r /\ yi x = yi r /\
  (yi r F_oYcrb = yi r F_oinertias -> rowR i x r).
Proof.
  cbv zeta. unfold fin. destruct (minusExt_keeps fext i (adVar (adForce r))) as (A & B & C & D & E & F & G & H & I). cbv zeta in *. set (x := minusExt fext i _) in *. clearbody x.
  unfold sim, rowR. rewrite B, C, D, F, G, (H F_oa_gf), (H F_ov), (H F_oh), I by discriminate. unfold adVar, adForce. mem.
  split; [auto 10|]. split; [reflexivity|]. intros ->. auto.
Qed.
Lemma sim_trans a b c : sim a b -> sim b c -> sim a c.
Proof. intros (A1 & A2 & A3 & A4 & A5 & A6 & A7) (B1 & B2 & B3 & B4 & B5 & B6 & B7). unfold sim. rewrite A1, A2, A3, A4, A5, A6, A7. auto 10. Qed.
Lemma sim_refl a : sim a a. Proof. unfold sim. auto 10. Qed.

Variable (opt : bool) (pre : DX -> nat -> DX) (g : Data -> nat -> Data).
Hypothesis preS : forall i s d, 0 < i < m_njoints m -> sims s d -> (opt = false -> forall j, 0 < j < m_njoints m -> yi (rows (bs s) j) F_oYcrb = yi (rows (bs s) j) F_oinertias) ->
  sims (pre s i) (g d i) /\ yi (rows (bs (pre s i)) i) F_oYcrb = yi (rows (bs (pre s i)) i) F_oinertias.
Hypothesis preR : forall i s j, i <> j -> rows (bs (pre s i)) j = rows (bs s) j.
Hypothesis preG : forall i d j, i <> j -> rows (g d i) j = rows d j.
Hypothesis preX : forall i s, xco (pre s i) = xco s /\ xma (pre s i) = xma s /\ co (gl (bs (pre s i))) = co (gl (bs s)) /\ ma (gl (bs (pre s i))) = ma (gl (bs s)) /\ fcrb (gl (bs (pre s i))) = fcrb (gl (bs s)).

Lemma ad_pass3 s d : sims s d -> (opt = false -> forall j, 0 < j < m_njoints m -> yi (rows (bs s) j) F_oYcrb = yi (rows (bs s) j) F_oinertias) ->
  let s' := upward m (fun s i => adRest m fext (pre s i) i) s in let d' := upward m g d in
  sims s' d' /\ xma s' = xma s /\ forall j, 0 < j < m_njoints m -> rowR j (rows (bs s') j) (rows d' j) /\ colR j s' (rows d' j) (rows d' (parent m j)).
Proof.
  intros HS HY.
  pose (Rl := fun k (t : DX) (e : Data) => sims t e /\ xma t = xma s /\ (opt = false -> forall j, 0 < j < m_njoints m -> yi (rows (bs t) j) F_oYcrb = yi (rows (bs t) j) F_oinertias) /\
     forall j, 0 < j < k -> j < m_njoints m -> rowR j (rows (bs t) j) (rows e j) /\ colR j t (rows e j) (rows e (parent m j))).
  assert (H : Rl (m_njoints m) (upward m (fun s i => adRest m fext (pre s i) i) s) (upward m g d)).
  { apply upward_rel; [apply (wf_n _ W) | |].
    - split; [exact HS|]. split; [reflexivity|]. split; [exact HY|]. intros; lia.
    - intros i t e Hi (I1 & I2 & I3 & I4). pose proof (wf_parent _ W i Hi) as Hp. destruct (preS i t e Hi I1 I3) as (P1 & P2). destruct (preX i t) as (X1 & X2 & X3 & X4 & X5).
      destruct (adRest_bs i (pre t i)) as (A1 & A2 & A3 & A4 & _). destruct (adRest_cols i (pre t i) Hi) as (B1 & B2). set (t' := adRest m fext (pre t i) i) in *. clearbody t'.
      destruct P1 as (Q1 & Q2 & Q3).
      destruct (fin_eff i (rows (bs (pre t i)) i)) as (F1 & F2 & F3). cbv zeta in *. 
      split; [split; [|split]|split; [|split]].
      + intros j. rewrite A1. destruct (Nat.eqb_spec i j) as [<-|Hn]; [|apply Q1]. eapply sim_trans; [exact F1 | apply Q1].
      + now rewrite A2.
      + now rewrite A3.
      + now rewrite A4, X2.
      + intros HO j Hj. rewrite A1. destruct (Nat.eqb_spec i j) as [<-|Hn]; [rewrite F2; exact P2|]. rewrite (preR i t j Hn). now apply I3.
      + intros j Hj Hj'. rewrite A1. destruct (Nat.eqb_spec i j) as [<-|Hn].
        * split.
          -- destruct (F3 P2) as (G1 & G2 & G3). destruct (Q1 i) as (S1 & S2 & S3 & S4 & S5 & S6 & S7). unfold rowR. rewrite <- S1, <- S2, <- S5, <- S6, <- S7. auto.
          -- intros c Hc. specialize (B1 c Hc). cbv zeta in B1 |- *. destruct (Q1 i) as (S1 & S2 & S3 & S4 & S5 & S6 & S7). destruct (Q1 (parent m i)) as (S1' & S2' & S3' & S4' & S5' & S6' & S7'). rewrite <- S6, <- S5', <- S6'. exact B1.
        * rewrite (preR i t j Hn), (preG i e j Hn). pose proof (wf_parent _ W j ltac:(lia)) as Hpj. rewrite (preG i e (parent m j)) by lia.
          destruct (I4 j ltac:(lia) Hj') as (G1 & G2). split; [exact G1|]. intros c Hc. specialize (G2 c Hc). specialize (B2 j ltac:(lia) Hn c Hc). cbv zeta in B2, G2 |- *. 
          destruct B2 as (-> & -> & ->). rewrite A3, X1, X3. exact G2. }
  destruct H as (H1 & H2 & _ & H4). cbv zeta. split; [exact H1|]. split; [exact H2|]. intros j Hj. apply H4; lia.
Qed.
Hypothesis preU : forall i s j, jUDinv (rows (bs (pre s i)) j) = jUDinv (rows (bs s) j).
Lemma ad_pass3_minv s g0 : co g0 F_J = co (gl (bs s)) F_J -> let s' := upward m (fun s i => adRest m fext (pre s i) i) s in
  withMF g0 (ma (gl (bs s'))) (fcrb (gl (bs s'))) =
  upward m (fun g i => minvFwdG m i (jointCols m i (co g F_J)) (jUDinv (rows (bs s) i)) g) (withMF g0 (ma (gl (bs s))) (fcrb (gl (bs s)))).
Proof.
  intros HJ. 
  pose (Rl := fun (k : nat) (t : DX) (x : Glob) => co (gl (bs t)) F_J = co g0 F_J /\ co x = co g0 /\ (forall j, jUDinv (rows (bs t) j) = jUDinv (rows (bs s) j)) /\ withMF g0 (ma (gl (bs t))) (fcrb (gl (bs t))) = x).
  assert (H : Rl (m_njoints m) (upward m (fun s i => adRest m fext (pre s i) i) s) (upward m (fun g i => minvFwdG m i (jointCols m i (co g F_J)) (jUDinv (rows (bs s) i)) g) (withMF g0 (ma (gl (bs s))) (fcrb (gl (bs s)))))).
  { apply upward_rel; [apply (wf_n _ W) | |].
    - split; [now symmetry|]. split; [reflexivity|]. split; [reflexivity|]. reflexivity.
    - intros i t x Hi (I1 & I2 & I3 & I4). destruct (preX i t) as (X1 & X2 & X3 & X4 & X5).
      destruct (adRest_bs i (pre t i)) as (A1 & A2 & A3 & A4 & A5). set (t' := adRest m fext (pre t i) i) in *. clearbody t'.
      split; [now rewrite A3, X3|]. split.
      { destruct (minvFwdG_MF m i (jointCols m i (co x F_J)) (jUDinv (rows (bs s) i)) x) as (y & f & ->). exact I2. }
      split.
      + intros j. rewrite A1. destruct (Nat.eqb_spec i j) as [<-|Hn]; [|now rewrite preU]. destruct (fin_eff i (rows (bs (pre t i)) i)) as ((_ & _ & _ & E & _) & _). rewrite E, preU. apply I3.
      + rewrite A5, X3, X4, X5, preU, I3, I4, I1, I2. reflexivity. }
  apply H.
Qed.
End Pass3.
