(* computeMinverse computes the inverse of the joint space inertia matrix. *)
Require Import Reals List Arith ZArith Lia Lra Bool.
From Verif Require Import Vec3 Spatial Inertia InertiaFacts Joints JointFacts Model Spec_Model ModelFacts ModelTree ModelFacts2 Sums Data Spec_Kin Kinematics KinFacts TreeSums Spec_Dyn DynFacts DynFacts2 Spec_Mass MassFacts Rnea Crba Aba CrbaFacts JacFacts Spec_Aba AbaCore AbaFacts AbaJoints AbaFacts2 AbaFacts3 Spec_Deriv Minverse MinvFacts.
Import ListNotations.
Local Open Scope nat_scope.
Local Open Scope bool_scope.

Lemma fold_pair {A B : Type} (f : A -> nat -> A) (g : B -> nat -> B) l : forall a b,
  fold_left (fun p i => (f (fst p) i, g (snd p) i)) l (a, b) = (fold_left f l a, fold_left g l b).
Proof. induction l as [|i l IH]; intros a b; cbn [fold_left]; [reflexivity|]. exact (IH (f a i) (g b i)). Qed.
Lemma downward_rel {A B : Type} m (f : A -> nat -> A) (g : B -> nat -> B) (Rl : nat -> A -> B -> Prop) a b : 1 <= m_njoints m -> Rl (m_njoints m) a b ->
  (forall i a b, 0 < i < m_njoints m -> Rl (i + 1) a b -> Rl i (f a i) (g b i)) -> Rl 1 (downward m f a) (downward m g b).
Proof.
  intros Hn H0 Hs. pose proof (downward_inv m (fun p i => (f (fst p) i, g (snd p) i)) (fun k p => Rl k (fst p) (snd p)) (a, b) Hn H0 (fun i s Hi => Hs i (fst s) (snd s) Hi)) as H.
  unfold downward in *. now rewrite fold_pair in H.
Qed.
(* a pass whose update of the globals uses, of the rows, what it leaves in the row of the joint it visits *)
Lemma frozen_fold {X : Type} (val : Row -> X) (f : Data -> nat -> Data) (F : nat -> X -> Glob -> Glob) :
  (forall d i, gl (f d i) = F i (val (rows (f d i) i)) (gl d)) -> (forall d i j, i <> j -> val (rows (f d i) j) = val (rows d j)) ->
  forall l d, NoDup l -> gl (fold_left f l d) = fold_left (fun g i => F i (val (rows (fold_left f l d) i)) g) l (gl d).
Proof.
  intros Hg Hr.
  assert (K : forall l d j, ~ In j l -> val (rows (fold_left f l d) j) = val (rows d j)).
  { induction l as [|i l IH]; intros d j Hj; [reflexivity|]. cbn [fold_left]. rewrite IH by (intros C; apply Hj; now right). apply Hr. intros ->. apply Hj. now left. }
  induction l as [|i l IH]; intros d Hl; [reflexivity|]. inversion Hl as [|? ? Hi Hl']; subst. cbn [fold_left].
  rewrite (IH (f d i) Hl') at 1. rewrite (Hg d i), (K l (f d i) i Hi). reflexivity.
Qed.
Lemma frozen {X : Type} m (val : Row -> X) (f : Data -> nat -> Data) (F : nat -> X -> Glob -> Glob) d :
  (forall d i, gl (f d i) = F i (val (rows (f d i) i)) (gl d)) -> (forall d i j, i <> j -> val (rows (f d i) j) = val (rows d j)) ->
  gl (downward m f d) = downward m (fun g i => F i (val (rows (downward m f d) i)) g) (gl d).
Proof. intros Hg Hr. unfold downward. apply (frozen_fold val f F Hg Hr). apply NoDup_rev, seq_NoDup. Qed.
Lemma upward_gl m (F : nat -> Row -> Glob -> Glob) d : gl (upward m (fun d i => setGl d (F i (rows d i) (gl d))) d) = upward m (fun g i => F i (rows d i) g) (gl d).
Proof.
  unfold upward. generalize (seq 1 (m_njoints m - 1)). intros l. revert d. induction l as [|i l IH]; intros d; cbn [fold_left]; [reflexivity|]. now rewrite IH.
Qed.

Section Minv.
Variable m : Model.
Hypothesis W : wellFormed m.
Hypothesis T : treeInv m.
Hypothesis Vm : validModel m.
Hypothesis NM : noMimic m.
Hypothesis DF : depthFirst m.
Variable inv : nat -> (nat -> nat -> R) -> nat -> nat -> R.
Hypothesis HI : invertsPD inv.
Variable q : vec.
Hypothesis Hq : validState m q.
Hypothesis PM : positiveM (m_nv m) (massMatrix m q).

Definition gen : Data -> nat -> Data := genBack m F_oYaba F_of F_oa_gf (wcols m q) (fun i A => A) (fun i f => f) (calcW m inv q).
Definition row3 (r : Row) := (jU r, jDinv r, jUDinv r).
(* the factorisation does not depend on the forces *)
Lemma gen_rel s s' : (forall j, 0 < j < m_njoints m -> m6 (rows s j) F_oYaba = m6 (rows s' j) F_oYaba) ->
  forall j, 0 < j < m_njoints m -> row3 (rows (downward m gen s) j) = row3 (rows (downward m gen s') j).
Proof.
  intros H0.
  pose (Rl := fun k (s s' : Data) => (forall j, 0 < j < k -> j < m_njoints m -> m6 (rows s j) F_oYaba = m6 (rows s' j) F_oYaba) /\
     (forall j, k <= j < m_njoints m -> row3 (rows s j) = row3 (rows s' j))).
  assert (H : Rl 1 (downward m gen s) (downward m gen s')).
  { apply downward_rel.
    - apply (wf_n m W).
    - split; [intros j Hj _; now apply H0|]. intros; lia.
    - intros i a b Hi [I1 I2]. pose proof (wf_parent m W i Hi) as Hp.
      pose proof (genBack_eff m W F_oYaba F_of F_oa_gf (wcols m q) (fun i A => A) (fun i f => f) (calcW m inv q) a i Hi) as EA.
      pose proof (genBack_eff m W F_oYaba F_of F_oa_gf (wcols m q) (fun i A => A) (fun i f => f) (calcW m inv q) b i Hi) as EB.
      fold gen in EA, EB. cbv zeta in EA, EB. set (a' := gen a i) in *. set (b' := gen b i) in *. clearbody a' b'. rewrite <- (I1 i ltac:(lia) ltac:(lia)) in EB.
      destruct EA as (A1 & A2 & A3 & _ & A5 & A6 & A7). destruct EB as (B1 & B2 & B3 & _ & B5 & B6 & B7). split.
      + intros j Hj Hj'. destruct (Nat.eq_dec j (parent m i)) as [->|Hn].
        * destruct (A5 ltac:(lia)) as (A8 & _ & -> & _). destruct (B5 ltac:(lia)) as (B8 & _ & -> & _). rewrite A8, B8, (I1 (parent m i)) by lia. reflexivity.
        * rewrite A6, B6 by lia. apply I1; lia.
      + intros j Hj. unfold row3. destruct (Nat.eq_dec j i) as [->|Hn]; [now rewrite A1, A2, A3, B1, B2, B3|].
        destruct (A7 j Hn) as (-> & -> & ->). destruct (B7 j Hn) as (-> & -> & ->). apply I2. lia. }
  intros j Hj. apply H. lia.
Qed.
Lemma minvFill_J i J U D g : co (minvFill m i J U D g) = co g.
Proof. unfold minvFill. destruct (Z.ltb _ _), (0 <? parent m i); reflexivity. Qed.
Lemma minvBack_eff d i : 0 < i < m_njoints m -> jointCols m i (co (gl d) F_J) = wcols m q i ->
  let d' := minvBack inv m d i in let w := calcW m inv q i (m6 (rows d i) F_oYaba) in
  row3 (rows d' i) = w /\ co (gl d') = co (gl d) /\
  (0 < parent m i -> m6 (rows d' (parent m i)) F_oYaba = m6add (m6 (rows d (parent m i)) F_oYaba) (subOuter (m6 (rows d i) F_oYaba) (snd w) (fst (fst w)))) /\
  (forall j, j <> i -> (0 < parent m i -> j <> parent m i) -> rows d' j = rows d j).
Proof.
  intros Hi HJ d' w. pose proof (wf_parent m W i Hi) as Hp. unfold d', minvBack. rewrite HJ. destruct (Nat.ltb_spec 0 (parent m i)) as [H0|H0]; cbn [rows gl setRow setGl].
  - rewrite (putn_other _ (parent m i) i) by lia. rewrite !putn_same, (putn_other _ i (parent m i)) by lia. rewrite minvFill_J.
    split; [reflexivity|]. split; [reflexivity|]. split; [intros _; reflexivity|]. intros j Hj Hj'. specialize (Hj' H0). now rewrite !putn_other by lia.
  - rewrite putn_same, minvFill_J. split; [reflexivity|]. split; [reflexivity|]. split; [lia|]. intros j Hj _. now rewrite putn_other by lia.
Qed.
Lemma minvBack_row3 d i j : i <> j -> row3 (rows (minvBack inv m d i) j) = row3 (rows d j).
Proof.
  intros Hn. unfold minvBack. destruct (0 <? parent m i); cbn [rows gl setRow setGl]; [|now rewrite putn_other by exact Hn].
  destruct (Nat.eq_dec (parent m i) j) as [->|Hp]; [rewrite putn_same, putn_other by exact Hn; reflexivity | now rewrite !putn_other by assumption].
Qed.
Lemma minv_rel d : readyW m q d -> forall j, 0 < j < m_njoints m -> row3 (rows (downward m (minvBack inv m) d) j) = row3 (rows (downward m gen d) j).
Proof.
  intros RW.
  pose (Rl := fun k (s s' : Data) => co (gl s) = co (gl d) /\ (forall j, 0 < j < k -> j < m_njoints m -> m6 (rows s j) F_oYaba = m6 (rows s' j) F_oYaba) /\
     (forall j, k <= j < m_njoints m -> row3 (rows s j) = row3 (rows s' j))).
  assert (H : Rl 1 (downward m (minvBack inv m) d) (downward m gen d)).
  { apply downward_rel.
    - apply (wf_n m W).
    - split; [reflexivity|]. split; [reflexivity|]. intros; lia.
    - intros i a b Hi (I0 & I1 & I2). pose proof (wf_parent m W i Hi) as Hp.
      pose proof (minvBack_eff a i Hi) as EA. rewrite I0 in EA. specialize (EA (RW i Hi)).
      pose proof (genBack_eff m W F_oYaba F_of F_oa_gf (wcols m q) (fun i A => A) (fun i f => f) (calcW m inv q) b i Hi) as EB.
      pose proof (minvBack_row3 a i) as A7. fold gen in EB. cbv zeta in EA, EB. set (a' := minvBack inv m a i) in *. set (b' := gen b i) in *. clearbody a' b'. rewrite <- (I1 i ltac:(lia) ltac:(lia)) in EB.
      destruct EA as (A1 & A2 & A5 & A6). destruct EB as (B1 & B2 & B3 & _ & B5 & B6 & B7). split; [exact A2|]. split.
      + intros j Hj Hj'. destruct (Nat.eq_dec j (parent m i)) as [->|Hn].
        * rewrite (A5 ltac:(lia)). destruct (B5 ltac:(lia)) as (B8 & _ & -> & _). rewrite B8, (I1 (parent m i)) by lia. reflexivity.
        * rewrite A6, B6 by lia. apply I1; lia.
      + intros j Hj. destruct (Nat.eq_dec j i) as [->|Hn].
        * rewrite A1. unfold row3. now rewrite B1, B2, B3.
        * rewrite A7 by congruence. unfold row3 in *. destruct (B7 j Hn) as (-> & -> & ->). apply I2. lia. }
  intros j Hj. apply H. lia.
Qed.

(* one column *)
Definition restState (d : Data) (l : nat) : Data :=
  mkData (fun j => setMo (setMo (rows d j) F_of v6zero) F_oa_gf v6zero) (setVe (gl d) F_u (unitv l)).
Definition Uof (d : Data) (i : nat) := jU (rows (downward m gen d) i).
Definition Dof (d : Data) (i : nat) := jDinv (rows (downward m gen d) i).
Lemma column d l : (forall i, 0 < i < m_njoints m -> m6 (rows d i) F_oYaba = inertia_matrix (worldInertia m q i)) -> l < m_nv m ->
  (forall i, 0 < i < m_njoints m -> length (Uof d i) = nvOf m i /\ jUDinv (rows (downward m gen d) i) = colsMul (Uof d i) (Dof d i) /\ symmetricM (nvOf m i) (Dof d i)) /\
  exists P acc u ddq,
    (forall i x, 0 < i < m_njoints m -> v6dot x (P i) = sumN (m_njoints m) (fun c => if childb m i c then v6dot x (v6add (P c) (Smul (colsMul (Uof d c) (Dof d c)) (u c))) else 0%R)) /\
    (forall i k, 0 < i < m_njoints m -> k < nvOf m i -> u i k = ((if idx_v m i + k =? l then 1 else 0) - v6dot (nth k (wcols m q i) v6zero) (P i))%R) /\
    (forall i k, 0 < i < m_njoints m -> k < nvOf m i ->
       ddq (idx_v m i + k) = (sumN (nvOf m i) (fun b => Dof d i k b * u i b) - v6dot (nth k (colsMul (Uof d i) (Dof d i)) v6zero) (acc (parent m i)))%R) /\
    (forall i, 0 < i < m_njoints m -> acc i = v6add (acc (parent m i)) (Smul (wcols m q i) (shift (idx_v m i) ddq))) /\
    acc 0 = v6zero /\
    forall k, k < m_nv m -> dotv (m_nv m) (massMatrix m q k) ddq = unitv l k.
Proof.
  intros HY Hl. set (s0 := restState d l).
  assert (Y0 : forall i, 0 < i < m_njoints m -> m6 (rows s0 i) F_oYaba = inertia_matrix (worldInertia m q i)) by (intros i Hi; exact (HY i Hi)).
  assert (HLen : forall i A, 0 < i < m_njoints m -> length (snd (calcW m inv q i A)) = nvOf m i).
  { intros i A Hi. unfold calcW. cbn [snd]. rewrite colsMul_length, map_length. now apply (wcols_len m W Vm NM). }
  destruct (genBack_done m W NM F_oYaba F_of F_oa_gf ltac:(discriminate) (wcols m q) (fun i A => A) (fun i f => f) (calcW m inv q) HLen s0) as (AP & [K1 K2] & DN).
  fold gen in K1, K2, DN. set (s1 := downward m gen s0) in *.
  assert (R3 : forall i, 0 < i < m_njoints m -> row3 (rows (downward m gen d) i) = row3 (rows s1 i)) by (apply gen_rel; reflexivity).
  destruct (genFwd_done m W NM F_oa_gf (wcols m q) (fun i x => x) (postW m) (wcols_len m W Vm NM q) ltac:(intros; unfold postW; mem; reflexivity) s1) as (G0 & G1).
  set (s2 := upward m _ s1) in G0, G1.
  assert (CS : forall i A, 0 < i < m_njoints m -> let S := wcols m q i in let w := calcW m inv q i A in
     fst (fst w) = map (m6vec A) S /\ snd w = colsMul (map (m6vec A) S) (snd (fst w)) /\
     (symmetricM (length S) (StU S (map (m6vec A) S) (armSel m i)) -> positiveM (length S) (StU S (map (m6vec A) S) (armSel m i)) ->
      identityM (length S) (matMul (length S) (StU S (map (m6vec A) S) (armSel m i)) (snd (fst w))))).
  { intros i A Hi. cbv zeta. unfold calcW. cbn [fst snd]. split; [reflexivity|]. split; [reflexivity|]. intros S1 S2. rewrite map_length. now apply HI. }
  assert (SY : forall i, 0 < i < m_njoints m -> sym6 (m6 (rows s0 i) F_oYaba)) by (intros i Hi; rewrite (Y0 i Hi); apply inertia_sym6).
  assert (PD : forall V w, V 0 = v6zero -> (forall i, 0 < i < m_njoints m -> V i = v6add (Smul (wcols m q i) (w i)) (V (parent m i))) ->
    (exists i k, 0 < i < m_njoints m /\ k < nvOf m i /\ w i k <> 0%R) ->
    (0 < sumN (m_njoints m) (fun i => if 0 <? i then v6dot (V i) (m6vec (m6 (rows s0 i) F_oYaba) (V i)) else 0) +
       sumN (m_njoints m) (fun i => if 0 <? i then sumN (nvOf m i) (fun k => armSel m i k * w i k * w i k) else 0))%R).
  { intros V w V0 HV Hn. pose proof (PD_world m W T Vm NM q Hq PM V w V0 HV Hn) as PL.
    eapply Rlt_le_trans; [exact PL|]. apply Req_le. f_equal. apply sumN_ext. intros j Hj. destruct (Nat.ltb_spec 0 j); [|reflexivity]. now rewrite (Y0 j ltac:(lia)). }
  destruct (aba_passes m W NM F_oYaba F_of F_oa_gf ltac:(discriminate) (wcols m q) (fun i A => A) (fun i f => f) (fun i x => x) (calcW m inv q) (postW m)
    ltac:(intros; unfold postW; mem; reflexivity) (wcols_len m W Vm NM q) ltac:(reflexivity) ltac:(reflexivity) ltac:(reflexivity) CS s0 SY PD) as (P1 & P2 & P3).
  fold gen in P1, P2, P3. fold s1 in P1, P2, P3. fold s2 in P1, P2, P3. set (ddq := ve (gl s2) F_ddq) in *.
  assert (EA : forall i, mo (rows s1 i) F_oa_gf = v6zero) by (intros i; destruct (K2 i) as (_ & _ & _ & K3); rewrite (K3 F_oa_gf) by discriminate; reflexivity).
  assert (EU : forall i, 0 < i < m_njoints m -> jU (rows s1 i) = Uof d i /\ jDinv (rows s1 i) = Dof d i /\ jUDinv (rows s1 i) = jUDinv (rows (downward m gen d) i)).
  { intros i Hi. pose proof (R3 i Hi) as E. unfold row3 in E. injection E as E1 E2 E3. unfold Uof, Dof. now rewrite E1, E2, E3. }
  pose (A := fun i => fst (AP i)). pose (P := fun i => snd (AP i)).
  assert (F : forall i, 0 < i < m_njoints m -> (forall x y, v6dot x (m6vec (A i) y) = (v6dot x (m6vec (m6 (rows s0 i) F_oYaba) y) +
        sumN (m_njoints m) (fun c => if childb m i c then v6dot x (m6vec (m6 (rows s1 c) F_oYaba) y) else 0))%R) /\
     (forall x, v6dot x (P i) = (sumN (m_njoints m) (fun c => if childb m i c then v6dot x (mo (rows s1 c) F_of) else 0))%R) /\
     Uof d i = map (m6vec (A i)) (wcols m q i) /\ Dof d i = snd (fst (calcW m inv q i (A i))) /\ jUDinv (rows s1 i) = colsMul (Uof d i) (Dof d i) /\
     (forall k, k < nvOf m i -> ve (gl s1) F_u (idx_v m i + k) = (unitv l (idx_v m i + k) - v6dot (nth k (wcols m q i) v6zero) (P i))%R) /\
     (0 < parent m i -> m6 (rows s1 i) F_oYaba = subOuter (A i) (colsMul (Uof d i) (Dof d i)) (Uof d i) /\
       mo (rows s1 i) F_of = v6add (P i) (Smul (colsMul (Uof d i) (Dof d i)) (shift (idx_v m i) (ve (gl s1) F_u))))).
  { intros i Hi. pose proof (DN i Hi) as D0. unfold done in D0. unfold A, P. destruct (AP i) as [Ai Pi] eqn:EP. cbn [fst snd].
    destruct D0 as (D1 & D2 & D3 & D4 & D5 & D6 & D7). destruct (EU i Hi) as (U1 & U2 & U3). rewrite U1 in D3. rewrite U2 in D4.
    assert (D5' : jUDinv (rows s1 i) = colsMul (Uof d i) (Dof d i)) by (rewrite D5, D3, D4; reflexivity).
    split; [exact D1|]. split; [intros x; rewrite (D2 x); cbn [s0 restState rows mo setMo put MoT_beq]; rewrite v6dot_0_r; ring|].
    split; [exact D3|]. split; [exact D4|]. split; [exact D5'|]. split; [exact D6|]. intros Hp. destruct (D7 Hp) as [Y1 Y2]. rewrite <- D5', D5, D3.
    split; [exact Y1|]. rewrite Y2. cbn [s0 restState rows mo setMo put MoT_beq]. now rewrite m6vec_0_r, v6add_0_l, D5. }
  assert (ch : forall i c, childb m i c = true -> 0 < c /\ parent m c = i).
  { intros i c E. unfold childb in E. apply andb_prop in E. destruct E as [E1 E2]. apply Nat.ltb_lt in E1. apply Nat.eqb_eq in E2. auto. }
  split.
  - intros i Hi. destruct (F i Hi) as (_ & _ & F3 & F4 & F5 & _ & _). destruct (EU i Hi) as (_ & _ & U3).
    split; [rewrite F3, map_length; now apply (wcols_len m W Vm NM)|]. split; [now rewrite <- U3|].
    pose proof (wcols_len m W Vm NM q i Hi) as WL. rewrite <- WL, F4.
    pose proof (pivots m W (fun i x => x) (wcols m q) (fun i => m6 (rows s0 i) F_oYaba) (armSel m) A (fun i => snd (fst (calcW m inv q i (A i)))) ltac:(reflexivity) SY) as PV.
    cbv beta in PV. refine (let H := PV _ _ _ i Hi in Dinv_sym (wcols m q) (armSel m) A (fun i => snd (fst (calcW m inv q i (A i)))) i (proj1 H) (proj2 H)).
    + intros j x y Hj _. rewrite (proj1 (F j Hj)). f_equal. apply sumN_ext. intros c Hc. destruct (childb m j c) eqn:E; [|reflexivity].
      destruct (ch j c E) as [E1 E2]. destruct (F c ltac:(lia)) as (_ & _ & Fc3 & Fc4 & _ & _ & Fc). rewrite (proj1 (Fc ltac:(lia))), Fc4, Fc3. reflexivity.
    + intros j Hj. apply (CS j (A j) Hj).
    + intros V w V0 HV (j & k & Hj & Hk & Hn). rewrite (wcols_len m W Vm NM) in Hk by exact Hj. pose proof (PD V w V0 HV (ex_intro _ j (ex_intro _ k (conj Hj (conj Hk Hn))))) as HP.
      eapply Rlt_le_trans; [exact HP|]. apply Req_le. f_equal. apply sumN_ext.
      intros a Ha. destruct (Nat.ltb_spec 0 a); [rewrite (wcols_len m W Vm NM) by lia; reflexivity | reflexivity].
  - exists P, (fun i => mo (rows s2 i) F_oa_gf), (fun i => shift (idx_v m i) (ve (gl s1) F_u)), ddq.
    split; [|split; [|split; [|split; [|split]]]].
    + intros i x Hi. rewrite (proj1 (proj2 (F i Hi))). apply sumN_ext. intros c Hc. destruct (childb m i c) eqn:E; [|reflexivity].
      destruct (ch i c E) as [E1 E2]. destruct (F c ltac:(lia)) as (_ & _ & _ & _ & _ & _ & Fc). now rewrite (proj2 (Fc ltac:(lia))).
    + intros i k Hi Hk. destruct (F i Hi) as (_ & _ & _ & _ & _ & F6 & _). unfold shift. rewrite (F6 k Hk). unfold unitv. now rewrite Nat.eqb_sym.
    + intros i k Hi Hk. destruct (F i Hi) as (_ & _ & _ & _ & F5 & _). destruct (G1 i Hi) as [G2 _]. rewrite (G2 k Hk), EA, v6add_0_l. unfold abaSolve.
      rewrite F5. destruct (EU i Hi) as (_ & -> & _). reflexivity.
    + intros i Hi. destruct (G1 i Hi) as [_ ->]. now rewrite EA, v6add_0_l.
    + rewrite G0. apply EA.
    + apply dotv_inj. intros z. 
      assert (EW : forall i, i < m_njoints m -> mo (rows s2 i) F_oa_gf = worldVel m q ddq i).
      { refine (tree_ind m _ W _ _); [rewrite G0, (worldVel_0 m W T); apply EA|]. intros i Hi IH. destruct (G1 i Hi) as [_ ->].
        rewrite EA, v6add_0_l, IH, (worldVel_step m W T Vm q ddq i Hq Hi), Smul_wcols. reflexivity. }
      pose proof (P3 (fun i => worldVel m q z i) z (worldVel_0 m W T q z)) as E. change (ve (gl s0) F_u) with (unitv l) in E. rewrite <- E.
      * rewrite (dotv_comm (m_nv m) (fun k => dotv (m_nv m) (massMatrix m q k) ddq) z). rewrite (massMatrix_form m W T Vm q z ddq). f_equal.
        rewrite (kineticForm_world m W T Vm q z ddq Hq). unfold bodies. apply sumN_ext. intros k Hk. rewrite (Y0 (S k)), <- inertia_mul_spec, (EW (S k)) by lia.
        cbn [s0 restState rows mo setMo put MoT_beq]. now rewrite v6add_0_r.
      * intros i Hi. rewrite (worldVel_step m W T Vm q z i Hq Hi), Smul_wcols. apply v6add_comm.
Qed.

Lemma assemble d g (val : nat -> list V6 * (nat -> nat -> R) * list V6) : (forall i, 0 < i < m_njoints m -> m6 (rows d i) F_oYaba = inertia_matrix (worldInertia m q i)) ->
  (forall i, 0 < i < m_njoints m -> val i = row3 (rows (downward m gen d) i)) ->
  (forall k l, k <= l < m_nv m -> ma g F_Minv k l = 0%R) -> (forall l, fcrb g 0 l = v6zero) -> (forall j, 0 < j < m_njoints m -> jointCols m j (co g F_J) = wcols m q j) ->
  let g1 := downward m (fun g i => minvFill m i (jointCols m i (co g F_J)) (fst (fst (val i))) (snd (fst (val i))) g) g in
  let g2 := upward m (fun g i => minvFwdG m i (jointCols m i (co g F_J)) (snd (val i)) g) g1 in
  symmetricM (m_nv m) (symUpper (ma g2 F_Minv)) /\ identityM (m_nv m) (matMul (m_nv m) (massMatrix m q) (symUpper (ma g2 F_Minv))).
Proof.
  intros HY Hv Z0 F0 RJ. cbv zeta.
  assert (LEN : forall i, 0 < i < m_njoints m -> length (Uof d i) = nvOf m i /\ jUDinv (rows (downward m gen d) i) = colsMul (Uof d i) (Dof d i) /\ symmetricM (nvOf m i) (Dof d i)).
  { intros i Hi. destruct (Nat.eq_dec (m_nv m) 0) as [E0|E0]; [|apply (column d 0 HY ltac:(lia)); exact Hi].
    destruct (le_lt_dec (nvOf m i) 0) as [Ez|Ez]; [|exfalso; pose proof (idx_v_bound m W NM i Hi); lia].
    assert (U0 : Uof d i = [] /\ jUDinv (rows (downward m gen d) i) = []).
    { destruct (genBack_done m W NM F_oYaba F_of F_oa_gf ltac:(discriminate) (wcols m q) (fun i A => A) (fun i f => f) (calcW m inv q)
        ltac:(intros j A Hj; unfold calcW; cbn [snd]; rewrite colsMul_length, map_length; now apply (wcols_len m W Vm NM)) d) as (AP & _ & DN).
      pose proof (DN i Hi) as D0. unfold done in D0. destruct (AP i) as [Ai Pi]. destruct D0 as (_ & _ & D3 & _ & D5 & _). fold gen in D3, D5. unfold Uof. rewrite D3, D5.
      pose proof (wcols_len m W Vm NM q i Hi) as WL. unfold calcW. cbn [fst snd]. destruct (wcols m q i); [split; reflexivity | cbn in WL; lia]. }
    destruct U0 as [U1 U2]. rewrite U1, U2. split; [cbn; lia|]. split; [reflexivity|]. intros a b Ha. lia. }
  destruct (downward_congr m (fun g i => minvFill m i (jointCols m i (co g F_J)) (fst (fst (val i))) (snd (fst (val i))) g) (fun g i => minvFill m i (wcols m q i) (Uof d i) (Dof d i) g)
    (fun g' => co g' = co g)) with (s := g) as [-> K1]; [|reflexivity|].
  { intros s i Hi K. rewrite K, (RJ i Hi), (Hv i Hi). split; [reflexivity|]. now rewrite minvFill_J. }
  set (g1 := downward m _ g) in *.
  destruct (upward_congr m (fun g i => minvFwdG m i (jointCols m i (co g F_J)) (snd (val i)) g) (fun g i => minvFwdG m i (wcols m q i) (colsMul (Uof d i) (Dof d i)) g)
    (fun g' => co g' = co g)) with (s := g1) as [-> K2]; [|exact K1|].
  { intros s i Hi K. rewrite K, (RJ i Hi), (Hv i Hi). split; [unfold row3; cbn [snd]; now rewrite (proj1 (proj2 (LEN i Hi)))|]. unfold minvFwdG. destruct (0 <? parent m i); exact K. }
  set (g2 := upward m _ g1) in *.
  destruct (finite_choice (fun _ => 0%R) (m_nv m) (fun l x => (forall k, k < m_nv m -> dotv (m_nv m) (massMatrix m q k) x = unitv l k) /\ forall k, k <= l -> ma g2 F_Minv k l = x k)) as [X HX].
  { intros l Hl. destruct (proj2 (column d l HY Hl)) as (P & acc & u & ddq & C1 & C2 & C3 & C4 & C5 & C6). exists ddq. split; [exact C6|]. intros k Hk.
    destruct (dof_owner m W l Hl) as (o & a & Ho & Ha & ->).
    destruct (dof_owner m W k ltac:(lia)) as (i & b & Hi & Hb & ->). 
    refine (fwd_pass m W Vm NM o a Ho Ha (wcols m q) (Uof d) (Dof d) acc u (fun i b => ddq (idx_v m i + b)) (wcols_len m W Vm NM q) C3 C4 C5 g1 _ i b Hi Hb ltac:(lia)).
    refine (fill_pass m W T Vm NM DF o a Ho Ha (wcols m q) (Uof d) (Dof d) P u (wcols_len m W Vm NM q) (fun i Hi => proj1 (LEN i Hi)) (fun i Hi => proj2 (proj2 (LEN i Hi))) C1 C2 g _ _).
    - intros j Hj. apply Z0. lia.
    - apply F0. }
  pose (B := fun k l => X l k).
  assert (IB : identityM (m_nv m) (matMul (m_nv m) (massMatrix m q) B)).
  { intros k l Hk Hl. unfold matMul, B. destruct (HX l Hl) as [E _]. pose proof (E k Hk) as E1. unfold dotv in E1. rewrite E1. unfold unitv. now rewrite Nat.eqb_sym. }
  pose proof (inverse_sym (m_nv m) (massMatrix m q) B ltac:(intros a b _ _; apply massMatrix_sym) IB) as SB.
  assert (EB : forall k l, k < m_nv m -> l < m_nv m -> symUpper (ma g2 F_Minv) k l = B k l).
  { intros k l Hk Hl. unfold symUpper. destruct (Nat.leb_spec k l).
    - now apply (proj2 (HX l Hl)).
    - rewrite (SB k l Hk Hl). apply (proj2 (HX k Hk)). lia. }
  split.
  - intros k l Hk Hl. rewrite !EB by assumption. now apply SB.
  - intros k l Hk Hl. rewrite <- (IB k l Hk Hl). unfold matMul. apply sumN_ext. intros j Hj. now rewrite EB.
Qed.

(* the first forward pass *)
Lemma minv_forward d : let d1 := upward m (rowStepG m (minvRow1 m q) (crbaWCols m)) d in
  ma (gl d1) = ma (gl d) /\ readyW m q d1 /\ forall i, 0 < i < m_njoints m -> m6 (rows d1 i) F_oYaba = inertia_matrix (worldInertia m q i).
Proof.
  cbv zeta. destruct (upward_rowsG m (minvRow1 m q) (crbaWCols m) d W) as (H0 & H1 & H2). set (d1 := upward m _ d) in *.
  assert (E : forall i r rp, 0 < i < m_njoints m -> let x := minvRow1 m q i r rp in jS (jd x) = lcols m q i /\
     pl x F_oMi = (if 0 <? parent m i then se3_mul (pl rp F_oMi) (relPl m q i) else relPl m q i) /\ m6 x F_oYaba = inertia_matrix (inertia_act (pl x F_oMi) (inertiaOf m i))).
  { intros i r rp Hi. cbv zeta. unfold minvRow1. destruct (calcJoint0_at m W i (jd r) q Hi) as (E1 & E2). mem. rewrite E1, E2. auto. }
  assert (EP : forall i, i < m_njoints m -> 0 < i -> pl (rows d1 i) F_oMi = worldPl m q i).
  { refine (tree_ind m _ W _ _); [lia|]. intros i Hi IH _. rewrite (H1 i Hi). destruct (E i (rows d i) (rows d1 (parent m i)) Hi) as (_ & -> & _).
    rewrite (worldPl_step m W T q i Hi). destruct (Nat.ltb_spec 0 (parent m i)); [now rewrite IH|].
    replace (parent m i) with 0 by lia. rewrite (worldPl_0 m W T). symmetry. apply se3_mul_1_l. }
  assert (G : forall i, 0 < i < m_njoints m -> jS (jd (rows d1 i)) = lcols m q i /\ m6 (rows d1 i) F_oYaba = inertia_matrix (worldInertia m q i)).
  { intros i Hi. pose proof (EP i ltac:(lia) ltac:(lia)) as Ei. rewrite (H1 i Hi) in Ei |- *. destruct (E i (rows d i) (rows d1 (parent m i)) Hi) as (E1 & _ & E3). rewrite E3, Ei. split; [exact E1 | reflexivity]. }
  assert (GL : ma (gl d1) = ma (gl d) /\ forall i, 0 < i < m_njoints m -> forall a, a < nvOf m i -> co (gl d1) F_J (idx_v m i + a) = worldCol m q i a).
  { rewrite H2.
    pose (Inv := fun k (g : Glob) => ma g = ma (gl d) /\ forall i, 0 < i < k -> i < m_njoints m -> forall a, a < nvOf m i -> co g F_J (idx_v m i + a) = worldCol m q i a).
    assert (HIn : Inv (m_njoints m) (upward m (fun g i => crbaWCols m i (rows d1 i) g) (gl d))).
    { apply upward_inv.
      - apply (wf_n _ W).
      - split; [reflexivity|]. intros; lia.
      - intros i g Hi [I1 I2]. split; [unfold crbaWCols; mem; exact I1|]. intros j Hj Hj' a Ha. unfold crbaWCols. mem. unfold setCols.
        destruct (jm_v m W Vm NM i Hi) as (_ & -> & _ & ->). rewrite (within_own m W NM i j a Hi ltac:(lia) Ha).
        destruct (Nat.eqb_spec i j) as [<-|Hn]; [|apply I2; try lia; exact Ha].
        replace (idx_v m i + a - idx_v m i) with a by lia. unfold worldCol, colOf. rewrite (EP i), (proj1 (G i Hi)) by lia. reflexivity. }
    destruct HIn as [I1 I2]. split; [exact I1|]. intros i Hi. apply I2; lia. }
  destruct GL as [GL1 GL2]. split; [exact GL1|]. split; [|intros i Hi; apply (G i Hi)].
  intros i Hi. unfold jointCols. rewrite (idx_vE_v m W Vm NM i Hi), (nvE_nv m W Vm i (NM i Hi) Hi).
  apply (nth_ext _ _ v6zero v6zero); [rewrite map_length, seq_length; symmetry; now apply (wcols_len m W Vm NM)|]. intros k Hk. rewrite map_length, seq_length in Hk.
  rewrite (nth_indep _ _ (co (gl d1) F_J (idx_v m i + 0))) by now rewrite map_length, seq_length.
  rewrite (map_nth (fun k => co (gl d1) F_J (idx_v m i + k))), seq_nth by exact Hk. rewrite Nat.add_0_l, (GL2 i Hi k Hk). unfold worldCol, wcols.
  assert (Lk : k < length (lcols m q i)) by (rewrite (lcols_len m W Vm NM) by exact Hi; exact Hk). fold (lcols m q i).
  rewrite (nth_indep (map (motion_act (worldPl m q i)) (lcols m q i)) v6zero (motion_act (worldPl m q i) v6zero)) by now rewrite map_length. symmetry. apply (map_nth (motion_act (worldPl m q i))).
Qed.

Theorem minverse_inverse d : let X := symUpper (ma (gl (computeMinverse inv m d q)) F_Minv) in
  symmetricM (m_nv m) X /\ identityM (m_nv m) (matMul (m_nv m) (massMatrix m q) X).
Proof.
  cbv zeta. unfold computeMinverse. set (d0 := setGl d _).
  destruct (minv_forward d0) as (G1 & G2 & G3). set (d1 := upward m (rowStepG m _ _) d0) in *.
  set (d2 := setGl d1 _). unfold minvFwd. rewrite (upward_gl m (fun i r g => minvFwdG m i (jointCols m i (co g F_J)) (jUDinv r) g)).
  rewrite (frozen m (fun r => (jU r, jDinv r)) (minvBack inv m) (fun i x g => minvFill m i (jointCols m i (co g F_J)) (fst x) (snd x) g)).
  - refine (assemble d1 (gl d2) (fun i => row3 (rows (downward m (minvBack inv m) d2) i)) G3 _ _ _ G2).
    + intros i Hi. rewrite (minv_rel d2 G2 i Hi). apply gen_rel; [reflexivity | exact Hi].
    + intros k l Hkl. unfold d2. cbn [gl setGl onFcrb setFcrb ma]. rewrite G1. unfold d0, onMinv. cbn [gl setGl ma setMa put MaT_beq]. unfold zeroUpper.
      destruct (Nat.leb_spec k l), (Nat.ltb_spec l (m_nv m)); try lia. reflexivity.
    + intros l. unfold d2. cbn [gl setGl onFcrb setFcrb fcrb]. now rewrite putn_same.
  - intros d' i. unfold minvBack. destruct (Nat.ltb_spec 0 (parent m i)) as [Hp|Hp]; cbn [rows gl setRow setGl].
    + destruct (Nat.eq_dec (parent m i) i) as [E|E]; [rewrite E, !putn_same; reflexivity|]. rewrite (putn_other _ (parent m i) i) by exact E. rewrite putn_same. reflexivity.
    + rewrite putn_same. reflexivity.
  - intros d' i j Hn. pose proof (minvBack_row3 d' i j Hn) as E. unfold row3 in E. now injection E as -> -> _.
Qed.

(* after the articulated-body algorithm *)
Lemma optimized d d1 : (forall i, 0 < i < m_njoints m -> m6 (rows d1 i) F_oYaba = inertia_matrix (worldInertia m q i)) ->
  (forall i, 0 < i < m_njoints m -> row3 (rows d i) = row3 (rows (downward m gen d1) i)) -> readyW m q d ->
  let X := symUpper (ma (gl (computeMinverseO m d)) F_Minv) in symmetricM (m_nv m) X /\ identityM (m_nv m) (matMul (m_nv m) (massMatrix m q) X).
Proof.
  intros HY HR RW. cbv zeta. unfold computeMinverseO. set (d2 := setGl (setGl d _) _).
  unfold minvFwd. rewrite (upward_gl m (fun i r g => minvFwdG m i (jointCols m i (co g F_J)) (jUDinv r) g)).
  assert (ER : rows (downward m (minvBackO m) d2) = rows d).
  { unfold downward. change (rows d) with (rows d2). generalize (rev (seq 1 (m_njoints m - 1))), d2. clear. intros l. induction l as [|i l IH]; intros d; cbn [fold_left]; [reflexivity|]. now rewrite IH. }
  rewrite (frozen m (fun r => (jU r, jDinv r)) (minvBackO m) (fun i x g => minvFill m i (jointCols m i (co g F_J)) (fst x) (snd x) g)); [|reflexivity|reflexivity].
  rewrite ER. refine (assemble d1 (gl d2) (fun i => row3 (rows d i)) HY HR _ _ RW).
  - intros k l Hkl. unfold d2, onMinv. cbn [gl setGl onFcrb setFcrb ma setMa put MaT_beq]. unfold zeroUpper. destruct (Nat.leb_spec k l), (Nat.ltb_spec l (m_nv m)); try lia. reflexivity.
  - intros l. unfold d2. cbn [gl setGl onFcrb setFcrb fcrb]. now rewrite putn_same.
Qed.
Lemma abaW_rows s0 : readyW m q s0 -> let s2 := upward m (abaWRow2 m) (downward m (abaWBack inv m) s0) in
  readyW m q s2 /\ forall i, row3 (rows s2 i) = row3 (rows (downward m gen s0) i).
Proof.
  intros RW. cbv zeta.
  destruct (downward_congr m (abaWBack inv m) gen (kept F_of s0) (fun s i Hi K => abaWBack_gen m inv q s0 s i RW Hi K) s0) as [-> [K1 K2]].
  { split; [reflexivity | intros j; auto]. }
  set (s1 := downward m gen s0) in *.
  assert (E : forall d i, co (gl (abaWRow2 m d i)) = co (gl d) /\ forall j, row3 (rows (abaWRow2 m d i) j) = row3 (rows d j)).
  { intros d i. unfold abaWRow2. cbn [gl setRow setGl rows]. split; [reflexivity|]. intros j. destruct (Nat.eq_dec i j) as [<-|Hn]; [rewrite putn_same; reflexivity | now rewrite putn_other]. }
  assert (H : co (gl (upward m (abaWRow2 m) s1)) = co (gl s1) /\ forall j, row3 (rows (upward m (abaWRow2 m) s1) j) = row3 (rows s1 j)).
  { unfold upward. generalize (seq 1 (m_njoints m - 1)), s1. intros l. induction l as [|i l IH]; intros s; cbn [fold_left]; [auto|]. destruct (IH (abaWRow2 m s i)) as [H1 H2]. destruct (E s i) as [E1 E2].
    rewrite H1, E1. split; [reflexivity|]. intros j. now rewrite H2, E2. }
  destruct H as [H1 H2]. split; [|exact H2]. intros j Hj. rewrite H1, K1. now apply RW.
Qed.
Theorem minverse_after_aba d v tau : let X := symUpper (ma (gl (computeMinverseO m (abaWorldData inv m d q v tau))) F_Minv) in
  symmetricM (m_nv m) X /\ identityM (m_nv m) (matMul (m_nv m) (massMatrix m q) X).
Proof.
  cbv zeta. unfold abaWorldData. set (d0 := setGl _ _).
  destruct (abaW_forward m W T Vm NM q v Hq d0 (fun _ => v6zero) (abaWRow1 m q v)) as (_ & _ & G2 & G3).
  { intros i r rp. cbv zeta. rewrite force_act_0, v6sub_0_r. auto. }
  set (d1 := upward m _ d0) in *. destruct (abaW_rows d1 G2) as [R1 R2]. set (d2 := upward m (abaWRow2 m) _) in *.
  assert (E : gl (downward m (pushOf m) d2) = gl d2 /\ forall i, row3 (rows (downward m (pushOf m) d2) i) = row3 (rows d2 i)).
  { unfold downward. generalize (rev (seq 1 (m_njoints m - 1))), d2. clear. intros l. induction l as [|i l IH]; intros d; cbn [fold_left]; [auto|]. destruct (IH (pushOf m d i)) as [-> H]. split; [reflexivity|].
    intros j. rewrite H. unfold pushOf. cbn [rows setRow]. destruct (Nat.eq_dec (parent m i) j) as [<-|Hn]; [rewrite putn_same; reflexivity | now rewrite putn_other]. }
  destruct E as [E1 E2]. apply (optimized _ d1); [intros i Hi; apply (G3 i Hi) | intros i Hi; now rewrite E2, R2 | intros j Hj; rewrite E1; now apply R1].
Qed.
Theorem minverse_after_abaExt d v tau fx : let X := symUpper (ma (gl (computeMinverseO m (abaWorldDataExt inv m d q v tau fx))) F_Minv) in
  symmetricM (m_nv m) X /\ identityM (m_nv m) (matMul (m_nv m) (massMatrix m q) X).
Proof.
  cbv zeta. unfold abaWorldDataExt. set (d0 := setGl _ _). set (F := fun i r rp => let r := abaWRow1 m q v i r rp in setMo r F_of (v6sub (mo r F_of) (force_act (pl r F_oMi) (fx i)))).
  destruct (abaW_forward m W T Vm NM q v Hq d0 fx F) as (_ & _ & G2 & G3).
  { intros i r rp. cbv zeta. unfold F. set (x := abaWRow1 m q v i r rp). cbn [jd pl m6 mo setMo].
    split; [reflexivity|]. split; [reflexivity|]. split; [reflexivity|]. split; [|reflexivity]. intros t Ht. unfold put. now rewrite MoT_beq_neq by congruence. }
  set (d1 := upward m _ d0) in *. destruct (abaW_rows d1 G2) as [R1 R2].
  apply (optimized _ d1); [intros i Hi; apply (G3 i Hi) | intros i Hi; apply R2 | exact R1].
Qed.
End Minv.
