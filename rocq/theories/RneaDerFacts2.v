(* The derivatives of inverse dynamics: what the backward pass leaves. *)
Require Import Reals List Arith ZArith Lia Lra Bool.
From Verif Require Import Vec3 Spatial Inertia InertiaFacts SpatialFacts Joints Model Spec_Model ModelFacts ModelTree ModelFacts2 Sums Data Kinematics Spec_Kin Spec_Mass KinFacts KinFacts2 Spec_Dyn Rnea DynFacts DynFacts2 TreeSums MassFacts Crba CrbaFacts CrbaFacts2 Jacobian Spec_Jac JacFacts JacFacts2 JacFacts3 CholFacts4 Com Dccrba DccrbaFacts DccrbaFacts2 DataX Coriolis RneaDer DerSums CoriolisFacts CoriolisFacts2 DerPass RneaDerFacts.
Import ListNotations.
Local Open Scope nat_scope.
Local Open Scope bool_scope.

Section Der.
Variable eps : R.
Variable m : Model.
Hypothesis Bt : Built eps m.
Let W : wellFormed m := Built_wf eps m Bt.
Let T : treeInv m := Built_tree eps m Bt.
Hypothesis Vm : validModel m.
Hypothesis NM : noMimic m.
Hypothesis DF : depthFirst m.
Hypothesis RM : regularMasses eps m.

Notation own i k := (within (idx_v m i) (nvOf m i) k).
Notation sub i k := (within (idx_v m i) (Z.to_nat (nvSubtree m i)) k).
Notation below i k := (within (idx_v m i + nvOf m i) (Z.to_nat (nvSubtree m i) - nvOf m i) k).
Definition Jm (s : DX) := co (gl (bs s)) F_J.
Definition Yr (s : DX) i := yi (rows (bs s) i) F_oYcrb.
Definition Dr (s : DX) i := m6 (rows (bs s) i) F_doYcrb.
Definition Or (s : DX) i := mo (rows (bs s) i) F_of.
Definition same (s t : DX) : Prop := co (gl (bs t)) = co (gl (bs s)) /\ ma (gl (bs t)) = ma (gl (bs s)) /\ xco t X_dAdq = xco s X_dAdq /\ xco t X_dAdv = xco s X_dAdv.

Lemma within_add b n k : within b n k = true -> b + (k - b) = k.
Proof. unfold within. intros H. apply andb_prop in H as [H _]. apply Nat.leb_le in H. lia. Qed.
Lemma setCols_at {V : Type} b n (f : nat -> V) x k : setCols b n (fun a => f (b + a)) x k = if within b n k then f k else x k.
Proof. unfold setCols. destruct (within b n k) eqn:E; [now rewrite (within_add b n k E) | reflexivity]. Qed.
Lemma plusCols_at b n f x k : plusCols b n (fun a => f (b + a)) x k = if within b n k then v6add (x k) (f k) else x k.
Proof. unfold plusCols. destruct (within b n k) eqn:E; [now rewrite (within_add b n k E) | reflexivity]. Qed.
Lemma setBlock_at r c nr nc f x k l : setBlock r c nr nc (fun a b => f (r + a) (c + b)) x k l = if within r nr k && within c nc l then f k l else x k l.
Proof.
  unfold setBlock. destruct (within r nr k) eqn:E1, (within c nc l) eqn:E2; cbn [andb]; try reflexivity. now rewrite (within_add _ _ _ E1), (within_add _ _ _ E2).
Qed.
Lemma setSeg_at b n (f : vec) x k : setSeg b n (fun a => f (b + a)) x k = if within b n k then f k else x k.
Proof. unfold setSeg. destruct (within b n k) eqn:E; [now rewrite (within_add b n k E) | reflexivity]. Qed.

Definition isA i (s t : DX) : Prop := same s t /\ rows (bs t) = rows (bs s) /\
  (forall k, ve (gl (bs t)) F_tau k = if own i k then v6dot (Jm s k) (Or s i) else ve (gl (bs s)) F_tau k) /\
  (forall k, xco t X_dFda k = if own i k then inertia_mul (Yr s i) (Jm s k) else xco s X_dFda k) /\
  (forall k, xco t X_dFdq k = if own i k then (if 0 <? parent m i then v6add (m6vec (Dr s i) (co (gl (bs s)) F_dVdq k)) (inertia_mul (Yr s i) (xco s X_dAdq k)) else inertia_mul (Yr s i) (xco s X_dAdq k)) else xco s X_dFdq k) /\
  xco t X_dFdv = xco s X_dFdv /\
  (forall k, fcrb (gl (bs t)) 0 k = if own i k then m6vec (m6tr (Dr s i)) (Jm s k) else fcrb (gl (bs s)) 0 k) /\
  (forall k l, xma t P_da k l = if own i k && sub i l then v6dot (Jm s k) (xco t X_dFda l) else xma s P_da k l) /\
  xma t P_dq = xma s P_dq /\ xma t P_dv = xma s P_dv.
Lemma isA_eq i s : 0 < i < m_njoints m -> isA i s (rdBackA m i s).
Proof.
  intros Hi. destruct (jm_v m W Vm NM i Hi) as (E1 & E2 & E3 & E4). unfold isA, same, rdBackA. cbv zeta. rewrite E1, E3. memx. unfold Jm, Or, Yr, Dr.
  split; [auto|]. split; [reflexivity|]. split; [intros k; apply setSeg_at with (f := fun k => v6dot (co (gl (bs s)) F_J k) (mo (rows (bs s) i) F_of))|].
  split; [intros k; apply setCols_at with (f := fun k => inertia_mul (yi (rows (bs s) i) F_oYcrb) (co (gl (bs s)) F_J k))|].
  split; [intros k; destruct (0 <? parent m i); [apply setCols_at with (f := fun k => v6add (m6vec (m6 (rows (bs s) i) F_doYcrb) (co (gl (bs s)) F_dVdq k)) (inertia_mul (yi (rows (bs s) i) F_oYcrb) (xco s X_dAdq k))) | apply setCols_at with (f := fun k => inertia_mul (yi (rows (bs s) i) F_oYcrb) (xco s X_dAdq k))]|].
  split; [reflexivity|]. rewrite putn_same. split; [intros k; apply setCols_at with (f := fun k => m6vec (m6tr (m6 (rows (bs s) i) F_doYcrb)) (co (gl (bs s)) F_J k))|].
  split; [|auto]. intros k l. pose (F := setCols (idx_v m i) (nvOf m i) (fun k => inertia_mul (yi (rows (bs s) i) F_oYcrb) (co (gl (bs s)) F_J (idx_v m i + k))) (xco s X_dFda)).
  apply setBlock_at with (f := fun k l => v6dot (co (gl (bs s)) F_J k) (F l)).
Qed.
Definition isQ i (s t : DX) : Prop := same s t /\ rows (bs t) = rows (bs s) /\ ve (gl (bs t)) F_tau = ve (gl (bs s)) F_tau /\ xco t X_dFda = xco s X_dFda /\ xco t X_dFdv = xco s X_dFdv /\ fcrb (gl (bs t)) = fcrb (gl (bs s)) /\
  xma t P_da = xma s P_da /\ xma t P_dv = xma s P_dv /\
  (forall k, xco t X_dFdq k = if own i k then v6add (xco s X_dFdq k) (force_cross (Jm s k) (Or s i)) else xco s X_dFdq k) /\
  (forall k l, xma t P_dq k l = if own i k && sub i l then v6dot (Jm s k) (xco s X_dFdq l)
     else if below i k && own i l then (v6dot (xco s X_dFda k) (xco s X_dAdq l) + v6dot (fcrb (gl (bs s)) 0 k) (co (gl (bs s)) F_dVdq l))%R else xma s P_dq k l).
Lemma isQ_eq i s : 0 < i < m_njoints m -> isQ i s (rdBackQ m i s).
Proof.
  intros Hi. destruct (jm_v m W Vm NM i Hi) as (E1 & E2 & E3 & E4). unfold isQ, same, rdBackQ. cbv zeta. rewrite E1, E3. memx. unfold Jm, Or, Yr, Dr.
  repeat (split; [auto; reflexivity|]). split; [intros k; apply plusCols_at with (f := fun k => force_cross (co (gl (bs s)) F_J k) (mo (rows (bs s) i) F_of))|].
  intros k l. etransitivity; [apply setBlock_at with (f := fun k l => v6dot (co (gl (bs s)) F_J k) (xco s X_dFdq l))|]. destruct (own i k && sub i l); [reflexivity|].
  apply setBlock_at with (f := fun k l => (v6dot (xco s X_dFda k) (xco s X_dAdq l) + v6dot (fcrb (gl (bs s)) 0 k) (co (gl (bs s)) F_dVdq l))%R).
Qed.
Definition isV i (s t : DX) : Prop := same s t /\ rows (bs t) = rows (bs s) /\ ve (gl (bs t)) F_tau = ve (gl (bs s)) F_tau /\ xco t X_dFda = xco s X_dFda /\ xco t X_dFdq = xco s X_dFdq /\ fcrb (gl (bs t)) = fcrb (gl (bs s)) /\
  xma t P_da = xma s P_da /\ xma t P_dq = xma s P_dq /\
  (forall k, xco t X_dFdv k = if own i k then v6add (m6vec (Dr s i) (Jm s k)) (inertia_mul (Yr s i) (xco s X_dAdv k)) else xco s X_dFdv k) /\
  (forall k l, xma t P_dv k l = if own i k && sub i l then v6dot (Jm s k) (xco t X_dFdv l)
     else if below i k && own i l then (v6dot (xco s X_dFda k) (xco s X_dAdv l) + v6dot (fcrb (gl (bs s)) 0 k) (Jm s l))%R else xma s P_dv k l).
Lemma isV_eq i s : 0 < i < m_njoints m -> isV i s (rdBackV m i s).
Proof.
  intros Hi. destruct (jm_v m W Vm NM i Hi) as (E1 & E2 & E3 & E4). unfold isV, same, rdBackV. cbv zeta. rewrite E1, E3. memx. unfold Jm, Or, Yr, Dr.
  repeat (split; [auto; reflexivity|]).
  split; [intros k; apply setCols_at with (f := fun k => v6add (m6vec (m6 (rows (bs s) i) F_doYcrb) (co (gl (bs s)) F_J k)) (inertia_mul (yi (rows (bs s) i) F_oYcrb) (xco s X_dAdv k)))|].
  pose (F := setCols (idx_v m i) (nvOf m i) (fun k => v6add (m6vec (m6 (rows (bs s) i) F_doYcrb) (co (gl (bs s)) F_J (idx_v m i + k))) (inertia_mul (yi (rows (bs s) i) F_oYcrb) (xco s X_dAdv (idx_v m i + k)))) (xco s X_dFdv)).
  intros k l. etransitivity; [apply setBlock_at with (f := fun k l => v6dot (co (gl (bs s)) F_J k) (F l))|]. destruct (own i k && sub i l); [reflexivity|].
  apply setBlock_at with (f := fun k l => (v6dot (xco s X_dFda k) (xco s X_dAdv l) + v6dot (fcrb (gl (bs s)) 0 k) (co (gl (bs s)) F_J l))%R).
Qed.
Definition keepRow (r r' : Row) : Prop := pl r' = pl r /\ jd r' = jd r /\ mo r' F_ov = mo r F_ov /\ mo r' F_oh = mo r F_oh /\ mo r' F_oa_gf = mo r F_oa_gf.
Definition isP i (s t : DX) : Prop := same s t /\ gl (bs t) = gl (bs s) /\ xco t = xco s /\ xma t = xma s /\
  (forall j, 0 < j -> Yr t j = if parent m i =? j then inertia_plus eps (Yr s j) (Yr s i) else Yr s j) /\
  (forall j, 0 < j -> Dr t j = if parent m i =? j then m6add (Dr s j) (Dr s i) else Dr s j) /\
  (forall j, 0 < j -> Or t j = if parent m i =? j then v6add (Or s j) (Or s i) else Or s j) /\
  forall j, keepRow (rows (bs s) j) (rows (bs t) j).
Lemma isP_eq i s : isP i s (rdBackP eps m i s).
Proof.
  unfold isP, same, rdBackP, keepRow, Yr, Dr, Or. destruct (Nat.ltb_spec 0 (parent m i)) as [H|H]; memx.
  - split; [auto|]. split; [reflexivity|]. split; [reflexivity|]. split; [reflexivity|]. split; [|split; [|split]]; intros j.
    + intros Hj. destruct (Nat.eqb_spec (parent m i) j) as [<-|Hn]; [rewrite !putn_same; mem; apply inertia_pequ_plus | now rewrite !putn_other by exact Hn].
    + intros Hj. destruct (Nat.eqb_spec (parent m i) j) as [<-|Hn]; [rewrite !putn_same; mem; reflexivity | now rewrite !putn_other by exact Hn].
    + intros Hj. destruct (Nat.eqb_spec (parent m i) j) as [<-|Hn]; [rewrite !putn_same; mem; reflexivity | now rewrite !putn_other by exact Hn].
    + destruct (Nat.eqb_spec (parent m i) j) as [<-|Hn]; [rewrite !putn_same; mem; auto | rewrite !putn_other by exact Hn; auto].
  - split; [auto|]. split; [reflexivity|]. split; [reflexivity|]. split; [reflexivity|].
    split; [|split; [|split]]; intros j; auto; intros Hj; destruct (Nat.eqb_spec (parent m i) j); try lia; reflexivity.
Qed.

Definition isStep i (s t : DX) : Prop := same s t /\ (forall j, keepRow (rows (bs s) j) (rows (bs t) j)) /\
  (forall j, 0 < j -> Yr t j = if parent m i =? j then inertia_plus eps (Yr s j) (Yr s i) else Yr s j) /\
  (forall j, 0 < j -> Dr t j = if parent m i =? j then m6add (Dr s j) (Dr s i) else Dr s j) /\
  (forall j, 0 < j -> Or t j = if parent m i =? j then v6add (Or s j) (Or s i) else Or s j) /\
  (forall k, ve (gl (bs t)) F_tau k = if own i k then v6dot (Jm s k) (Or s i) else ve (gl (bs s)) F_tau k) /\
  (forall k, xco t X_dFda k = if own i k then inertia_mul (Yr s i) (Jm s k) else xco s X_dFda k) /\
  (forall k, fcrb (gl (bs t)) 0 k = if own i k then m6vec (m6tr (Dr s i)) (Jm s k) else fcrb (gl (bs s)) 0 k) /\
  (forall k l, xma t P_da k l = if own i k && sub i l then v6dot (Jm s k) (xco t X_dFda l) else xma s P_da k l) /\
  (let base k := if 0 <? parent m i then v6add (m6vec (Dr s i) (co (gl (bs s)) F_dVdq k)) (inertia_mul (Yr s i) (xco s X_dAdq k)) else inertia_mul (Yr s i) (xco s X_dAdq k) in
   (forall k, xco t X_dFdq k = if own i k then v6add (base k) (force_cross (Jm s k) (Or s i)) else xco s X_dFdq k) /\
   (forall k l, xma t P_dq k l = if own i k && sub i l then v6dot (Jm s k) (if own i l then base l else xco s X_dFdq l)
     else if below i k && own i l then (v6dot (xco s X_dFda k) (xco s X_dAdq l) + v6dot (fcrb (gl (bs s)) 0 k) (co (gl (bs s)) F_dVdq l))%R else xma s P_dq k l)) /\
  (let base k := v6add (m6vec (Dr s i) (Jm s k)) (inertia_mul (Yr s i) (xco s X_dAdv k)) in
   (forall k, xco t X_dFdv k = if own i k then base k else xco s X_dFdv k) /\
   (forall k l, xma t P_dv k l = if own i k && sub i l then v6dot (Jm s k) (if own i l then base l else xco s X_dFdv l)
     else if below i k && own i l then (v6dot (xco s X_dFda k) (xco s X_dAdv l) + v6dot (fcrb (gl (bs s)) 0 k) (Jm s l))%R else xma s P_dv k l)).
Lemma below_own i k : below i k = true -> own i k = false.
Proof. unfold within. intros H. apply andb_prop in H as [H1 H2]. apply Nat.leb_le in H1. apply Nat.ltb_lt in H2. apply andb_false_iff. right. apply Nat.ltb_ge. lia. Qed.
Lemma step_abs i s s1 s2 s3 t : isA i s s1 -> isQ i s1 s2 -> isV i s2 s3 -> isP i s3 t -> isStep i s t.
Proof.
  intros ((A1 & A2 & A3 & A4) & AR & AT & AFa & AFq & AFv & AFt & AEa & AEq & AEv) ((Q1 & Q2 & Q3 & Q4) & QR & QT & QFa & QFv & QFt & QEa & QEv & QFq & QEq)
    ((V1 & V2 & V3 & V4) & VR & VT & VFa & VFq & VFt & VEa & VEq & VFv & VEv) ((P1 & P2 & P3 & P4) & PG & PX & PM & PY & PD & PO & PK).
  assert (RR : rows (bs s3) = rows (bs s)) by congruence.
  assert (J1 : forall k, Jm s1 k = Jm s k) by (intros; unfold Jm; now rewrite A1).
  assert (J2 : forall k, Jm s2 k = Jm s k) by (intros; unfold Jm; now rewrite Q1, A1).
  assert (O1 : Or s1 i = Or s i) by (unfold Or; now rewrite AR).
  assert (Y2 : Yr s2 i = Yr s i) by (unfold Yr; now rewrite QR, AR). assert (D2 : Dr s2 i = Dr s i) by (unfold Dr; now rewrite QR, AR).
  assert (Y3 : forall j, Yr s3 j = Yr s j) by (intros; unfold Yr; now rewrite RR).
  assert (D3 : forall j, Dr s3 j = Dr s j) by (intros; unfold Dr; now rewrite RR).
  assert (O3 : forall j, Or s3 j = Or s j) by (intros; unfold Or; now rewrite RR).
  assert (ST : same s t) by (unfold same; rewrite P1, P2, P3, P4, V1, V2, V3, V4, Q1, Q2, Q3, Q4; auto).
  unfold isStep. split; [exact ST|]. split; [intros j; rewrite <- RR; apply PK|].
  split; [intros j Hj; rewrite <- !Y3; apply PY, Hj|]. split; [intros j Hj; rewrite <- !D3; apply PD, Hj|]. split; [intros j Hj; rewrite <- !O3; apply PO, Hj|].
  split; [intros k; rewrite PG, VT, QT; apply AT|]. split; [intros k; rewrite PX, VFa, QFa; apply AFa|]. split; [intros k; rewrite PG, VFt, QFt; apply AFt|].
  split; [intros k l; rewrite PM, VEa, QEa, PX, VFa, QFa; apply AEa|]. cbv zeta. split; split.
  - intros k. rewrite PX, VFq, QFq, J1, O1. destruct (own i k) eqn:E; rewrite AFq, E; reflexivity.
  - intros k l. rewrite PM, VEq, QEq, J1, AEq, A1, A3, AFq, AFa, AFt. destruct (own i k && sub i l); [destruct (own i l); reflexivity|].
    destruct (below i k) eqn:E; [|reflexivity]. rewrite (below_own i k E). reflexivity.
  - intros k. rewrite PX, VFv, J2, Y2, D2, QFv, AFv, Q4, A4. reflexivity.
  - intros k l. rewrite PM, VEv, VFv, !J2, Y2, D2, QFv, AFv, Q4, A4, QEv, AEv, QFa, QFt, AFa, AFt. destruct (own i k && sub i l); [destruct (own i l); reflexivity|].
    destruct (below i k) eqn:E; [|reflexivity]. rewrite (below_own i k E). reflexivity.
Qed.
Lemma rd_step i s : 0 < i < m_njoints m -> isStep i s (rdBack eps m s i).
Proof. intros Hi. unfold rdBack. eapply step_abs; [apply isA_eq, Hi | apply isQ_eq, Hi | apply isV_eq, Hi | apply isP_eq]. Qed.

Definition keep (s t : DX) : Prop := same s t /\ forall j, keepRow (rows (bs s) j) (rows (bs t) j).
Lemma keep_trans s t u : keep s t -> keep t u -> keep s u.
Proof.
  intros [(A1 & A2 & A3 & A4) A5] [(B1 & B2 & B3 & B4) B5]. split; [unfold same; rewrite B1, B2, B3, B4; auto|].
  intros j. destruct (A5 j) as (C1 & C2 & C3 & C4 & C5), (B5 j) as (D1 & D2 & D3 & D4 & D5). unfold keepRow. rewrite D1, D2, D3, D4, D5. auto.
Qed.
Lemma keep_refl s : keep s s.
Proof. split; [unfold same; auto|]. intros j. unfold keepRow. auto 6. Qed.

(* the entries of the derivatives *)
Definition qEntry q v a fx i c j l : R := Rplus
  (common m i j (fun b => v6dot (worldCol m q i c) (v6add (m6vec (dYb m q v b) (cVq m q v j l)) (inertia_mul (worldInertia m q b) (cAq m q v a j l)))))
  (if anc m i (parent m j) then subSum m j (fun b => v6dot (worldCol m q i c) (force_cross (worldCol m q j l) (wF m q v a fx b))) else 0%R).
Definition vEntry q v i c j l : R :=
  common m i j (fun b => v6dot (worldCol m q i c) (v6add (m6vec (dYb m q v b) (worldCol m q j l)) (inertia_mul (worldInertia m q b) (cAv m q v j l)))).
Definition aEntry q i c j l : R := subSum m j (fun b => v6dot (worldCol m q i c) (inertia_mul (worldInertia m q b) (worldCol m q j l))).

Theorem rd_passes q v a fext s : validState m q ->
  let s1 := upward m (rdFwd m q v a fext) (rdStart m s) in let t := downward m (rdBack eps m) s1 in
  keep s1 t /\
  (forall i, 0 < i < m_njoints m -> forall X Z, v6dot X (inertia_mul (Yr t i) Z) = subSum m i (fun b => v6dot X (inertia_mul (worldInertia m q b) Z))) /\
  (forall i c, 0 < i < m_njoints m -> c < nvOf m i -> ve (gl (bs t)) F_tau (idx_v m i + c) = subSum m i (fun b => v6dot (worldCol m q i c) (wF m q v a (extOf fext) b))) /\
  forall i c j l, 0 < i < m_njoints m -> c < nvOf m i -> 0 < j < m_njoints m -> l < nvOf m j ->
  xma t P_da (idx_v m i + c) (idx_v m j + l) = (if anc m i j then aEntry q i c j l else xma s P_da (idx_v m i + c) (idx_v m j + l)) /\
  xma t P_dq (idx_v m i + c) (idx_v m j + l) = (if anc m i j || anc m j i then qEntry q v a (extOf fext) i c j l else xma s P_dq (idx_v m i + c) (idx_v m j + l)) /\
  xma t P_dv (idx_v m i + c) (idx_v m j + l) = (if anc m i j || anc m j i then vEntry q v i c j l else xma s P_dv (idx_v m i + c) (idx_v m j + l)).
Proof.
  intros Hq s1 t. destruct RM as [He RM']. destruct (rd_forward eps m Bt Vm NM q v a fext s Hq) as (F1 & F2 & F3). fold s1 in F1, F2, F3.
  assert (FC : forall i c, 0 < i < m_njoints m -> c < nvOf m i -> let k := idx_v m i + c in Jm s1 k = worldCol m q i c /\ co (gl (bs s1)) F_dVdq k = cVq m q v i c /\ xco s1 X_dAdq k = cAq m q v a i c /\ xco s1 X_dAdv k = cAv m q v i c).
  { intros i c Hi Hc. destruct (F3 i Hi) as (_ & C). destruct (C c Hc) as (C1 & C2 & C3 & C4 & C5). cbv zeta. auto. }
  assert (FR : forall b, 0 < b < m_njoints m -> Yr s1 b = worldInertia m q b /\ Dr s1 b = dYb m q v b /\ Or s1 b = wF m q v a (extOf fext) b).
  { intros b Hb. destruct (F3 b Hb) as (R & _). destruct R as (_ & _ & _ & _ & _ & _ & R7 & R8 & R9 & _). auto. }
  assert (FV : forall i k, 0 < i < m_njoints m -> parent m i = 0 -> own i k = true -> co (gl (bs s1)) F_dVdq k = v6zero).
  { intros i k Hi P0 Ho. pose proof (within_add _ _ _ Ho) as Ek. assert (Hc : k - idx_v m i < nvOf m i) by (apply within_true in Ho; lia).
    destruct (FC i _ Hi Hc) as (_ & E & _). rewrite Ek in E. rewrite E. unfold cVq. rewrite P0, (worldVel_0 m W T). sring. }
  clearbody s1.
  assert (Y0 : forall b, 0 < b < m_njoints m -> Yr s1 b = worldInertia m q b /\ regularMass eps (mass (worldInertia m q b))) by (intros b Hb; split; [apply FR, Hb | unfold worldInertia, inertia_act; cbn [mass]; now apply RM']).
  assert (SJ : forall u, keep s1 u -> Jm u = Jm s1 /\ co (gl (bs u)) F_dVdq = co (gl (bs s1)) F_dVdq /\ xco u X_dAdq = xco s1 X_dAdq /\ xco u X_dAdv = xco s1 X_dAdv) by (intros u [(A1 & A2 & A3 & A4) _]; unfold Jm; rewrite A1; auto).
  assert (KS : forall i u, 0 < i < m_njoints m -> keep s1 u -> keep s1 (rdBack eps m u i)) by (intros i u Hi K; apply (keep_trans _ u); [exact K|]; destruct (rd_step i u Hi) as (B1 & B2 & _); split; assumption).
  assert (DQ := der_pass eps m Bt Vm NM DF He (rdBack eps m) Yr Dr Or (fun u => xco u X_dFda) (fun u => fcrb (gl (bs u)) 0) (fun u => xco u X_dFdq) (fun u => xma u P_da) (fun u => xma u P_dq) (fun u => ve (gl (bs u)) F_tau) s1
     (Jm s1) (co (gl (bs s1)) F_dVdq) (xco s1 X_dAdq) (worldInertia m q) (dYb m q v) (wF m q v a (extOf fext)) true (keep s1) (keep_refl s1) KS Y0 (fun b Hb => proj1 (proj2 (FR b Hb))) (fun b Hb => proj2 (proj2 (FR b Hb)))).
  assert (DV := der_pass eps m Bt Vm NM DF He (rdBack eps m) Yr Dr Or (fun u => xco u X_dFda) (fun u => fcrb (gl (bs u)) 0) (fun u => xco u X_dFdv) (fun u => xma u P_da) (fun u => xma u P_dv) (fun u => ve (gl (bs u)) F_tau) s1
     (Jm s1) (Jm s1) (xco s1 X_dAdv) (worldInertia m q) (dYb m q v) (wF m q v a (extOf fext)) false (keep s1) (keep_refl s1) KS Y0 (fun b Hb => proj1 (proj2 (FR b Hb))) (fun b Hb => proj2 (proj2 (FR b Hb)))).
  assert (HY : forall i u j, 0 < i < m_njoints m -> 0 < j -> keep s1 u -> Yr (rdBack eps m u i) j = if parent m i =? j then inertia_plus eps (Yr u j) (Yr u i) else Yr u j) by (intros i u j Hi Hj K; now apply (rd_step i u Hi)).
  assert (HD : forall i u j, 0 < i < m_njoints m -> 0 < j -> keep s1 u -> Dr (rdBack eps m u i) j = if parent m i =? j then m6add (Dr u j) (Dr u i) else Dr u j) by (intros i u j Hi Hj K; now apply (rd_step i u Hi)).
  assert (HO : forall i u j, 0 < i < m_njoints m -> 0 < j -> keep s1 u -> Or (rdBack eps m u i) j = if parent m i =? j then v6add (Or u j) (Or u i) else Or u j) by (intros i u j Hi Hj K; now apply (rd_step i u Hi)).
  assert (HFa : forall i u k, 0 < i < m_njoints m -> keep s1 u -> xco (rdBack eps m u i) X_dFda k = if own i k then inertia_mul (Yr u i) (Jm s1 k) else xco u X_dFda k).
  { intros i u k Hi K. destruct (rd_step i u Hi) as (_ & _ & _ & _ & _ & _ & E & _). rewrite E. destruct (SJ u K) as (-> & _). reflexivity. }
  assert (HFt : forall i u k, 0 < i < m_njoints m -> keep s1 u -> fcrb (gl (bs (rdBack eps m u i))) 0 k = if own i k then m6vec (m6tr (Dr u i)) (Jm s1 k) else fcrb (gl (bs u)) 0 k).
  { intros i u k Hi K. destruct (rd_step i u Hi) as (_ & _ & _ & _ & _ & _ & _ & E & _). rewrite E. destruct (SJ u K) as (-> & _). reflexivity. }
  assert (HT : forall i u k, 0 < i < m_njoints m -> keep s1 u -> ve (gl (bs (rdBack eps m u i))) F_tau k = if own i k then v6dot (Jm s1 k) (Or u i) else ve (gl (bs u)) F_tau k).
  { intros i u k Hi K. destruct (rd_step i u Hi) as (_ & _ & _ & _ & _ & E & _). rewrite E. destruct (SJ u K) as (-> & _). reflexivity. }
  assert (HEa : forall i u k l, 0 < i < m_njoints m -> keep s1 u -> xma (rdBack eps m u i) P_da k l = if own i k && sub i l then v6dot (Jm s1 k) (xco (rdBack eps m u i) X_dFda l) else xma u P_da k l).
  { intros i u k l Hi K. destruct (rd_step i u Hi) as (_ & _ & _ & _ & _ & _ & _ & _ & E & _). rewrite E. destruct (SJ u K) as (-> & _). reflexivity. }
  assert (HB : forall i u k, 0 < i < m_njoints m -> own i k = true -> (if 0 <? parent m i then v6add (m6vec (Dr u i) (co (gl (bs s1)) F_dVdq k)) (inertia_mul (Yr u i) (xco s1 X_dAdq k)) else inertia_mul (Yr u i) (xco s1 X_dAdq k)) =
     v6add (m6vec (Dr u i) (co (gl (bs s1)) F_dVdq k)) (inertia_mul (Yr u i) (xco s1 X_dAdq k))).
  { intros i u k Hi Ho. destruct (Nat.ltb_spec 0 (parent m i)) as [H|H]; [reflexivity|]. rewrite (FV i k Hi ltac:(lia) Ho), m6vec_0_r. sring. }
  specialize (DQ HY HD HO HFa HFt). specialize (DV HY HD HO HFa HFt).
  destruct DQ as (D1 & D2 & D3 & D4).
  { intros i u c X Hi Hc K. destruct (rd_step i u Hi) as (_ & _ & _ & _ & _ & _ & _ & _ & _ & (E & _) & _). rewrite E. destruct (SJ u K) as (-> & -> & -> & _).
    assert (Ho : own i (idx_v m i + c) = true) by (rewrite (within_own m W NM i i c Hi Hi Hc); apply Nat.eqb_refl). rewrite Ho, (HB i u _ Hi Ho). reflexivity. }
  { intros i u k Hi K Ho. destruct (rd_step i u Hi) as (_ & _ & _ & _ & _ & _ & _ & _ & _ & (E & _) & _). rewrite E, Ho. reflexivity. }
  { intros i u k l Hi K. destruct (rd_step i u Hi) as (_ & _ & _ & _ & _ & _ & _ & _ & _ & (_ & E) & _). rewrite E. destruct (SJ u K) as (-> & -> & -> & _).
    destruct (own i k && sub i l); [|reflexivity]. destruct (own i l) eqn:Ho; [now rewrite (HB i u _ Hi Ho) | reflexivity]. }
  { exact HEa. } { exact HT. }
  destruct DV as (_ & _ & _ & V4).
  { intros i u c X Hi Hc K. destruct (rd_step i u Hi) as (_ & _ & _ & _ & _ & _ & _ & _ & _ & _ & (E & _)). rewrite E. destruct (SJ u K) as (-> & _ & _ & ->).
    assert (Ho : own i (idx_v m i + c) = true) by (rewrite (within_own m W NM i i c Hi Hi Hc); apply Nat.eqb_refl). rewrite Ho, v6add_0_r. reflexivity. }
  { intros i u k Hi K Ho. destruct (rd_step i u Hi) as (_ & _ & _ & _ & _ & _ & _ & _ & _ & _ & (E & _)). rewrite E, Ho. reflexivity. }
  { intros i u k l Hi K. destruct (rd_step i u Hi) as (_ & _ & _ & _ & _ & _ & _ & _ & _ & _ & (_ & E)). rewrite E. destruct (SJ u K) as (-> & _ & _ & ->).
    destruct (own i k && sub i l); [|reflexivity]. destruct (own i l) eqn:Ho; reflexivity. }
  { exact HEa. } { exact HT. }
  fold t in D1, D2, D3, D4, V4. split; [exact D1|]. split; [exact D2|]. split.
  - intros i c Hi Hc. rewrite (D3 i c Hi Hc). destruct (FC i c Hi Hc) as (-> & _). reflexivity.
  - intros i c j l Hi Hc Hj Hl. destruct (D4 i c j l Hi Hc Hj Hl) as (-> & ->). destruct (V4 i c j l Hi Hc Hj Hl) as (_ & ->). unfold derEntry, aEntry, qEntry, vEntry.
    destruct (FC i c Hi Hc) as (-> & _ & _ & _). destruct (FC j l Hj Hl) as (-> & -> & -> & ->). rewrite F1. cbn [andb]. rewrite Rplus_0_r. auto.
Qed.
End Der.
