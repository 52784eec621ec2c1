(* The passes of the articulated-body algorithm, in either convention. *)
Require Import Reals List Arith Lia Lra Bool.
From Verif Require Import Vec3 Spatial Inertia Joints JointFacts Model Spec_Model ModelFacts ModelTree ModelFacts2 Sums Data Kinematics KinFacts TreeSums DynFacts Spec_Mass MassFacts Rnea Crba Aba CrbaFacts Spec_Aba AbaCore Spec_Dyn DynFacts2.
Import ListNotations.
Local Open Scope nat_scope.

Lemma MoT_beq_neq a b : a <> b -> MoT_beq a b = false.
Proof. destruct a, b; intros H; try reflexivity; congruence. Qed.

Section Pass.
Variable m : Model.
Hypothesis W : wellFormed m.
Hypothesis Vm : validModel m.
Hypothesis NM : noMimic m.
(* tags of the articulated inertia, of the force and of the acceleration *)
Variables (YT : M6T) (FT AT : MoT).
Hypothesis FA : FT <> AT.
Variables (cols : nat -> list V6) (XA : nat -> M6 -> M6) (Xf up : nat -> V6 -> V6).
Variable calc : nat -> M6 -> list V6 * (nat -> nat -> R) * list V6.
Hypothesis HC : forall i, 0 < i < m_njoints m -> length (cols i) = nvOf m i.
Hypothesis HL : forall i A, 0 < i < m_njoints m -> length (snd (calc i A)) = nvOf m i.

Definition genBack (d : Data) (i : nat) : Data :=
  let p := parent m i in
  let r := rows d i in
  let d := setGl d (setVe (gl d) F_u (subSeg (idx_v m i) (nvOf m i) (StMul (cols i) (mo r FT)) (ve (gl d) F_u))) in
  let w := calc i (m6 r YT) in
  let r := setAba r (fst (fst w)) (snd (fst w)) (snd w) in
  if 0 <? p then
    let r := setM6 r YT (subOuter (m6 r YT) (snd w) (fst (fst w))) in
    let r := setMo r FT (v6add (mo r FT) (v6add (m6vec (m6 r YT) (mo r AT)) (Smul (jUDinv r) (velSel m i (ve (gl d) F_u))))) in
    let d := setRow d i r in
    let rp := rows d p in
    let rp := setM6 rp YT (m6add (m6 rp YT) (XA i (m6 r YT))) in
    let rp := setMo rp FT (v6add (mo rp FT) (Xf i (mo r FT))) in
    setRow d p rp
  else setRow d i r.

(* what the backward pass does not touch *)
Definition kept (s0 s : Data) : Prop :=
  co (gl s) F_J = co (gl s0) F_J /\
  forall j, jd (rows s j) = jd (rows s0 j) /\ pl (rows s j) = pl (rows s0 j) /\ yi (rows s j) = yi (rows s0 j) /\ (forall t, t <> FT -> mo (rows s j) t = mo (rows s0 j) t).
(* what it leaves for a processed joint: the articulated inertia A, the articulated bias force P *)
Definition done (s0 s : Data) (i : nat) (AP : M6 * V6) : Prop :=
  let '(A, P) := AP in
  (forall x y, v6dot x (m6vec A y) = (v6dot x (m6vec (m6 (rows s0 i) YT) y) +
     sumN (m_njoints m) (fun c => if childb m i c then v6dot x (m6vec (XA c (m6 (rows s c) YT)) y) else 0))%R) /\
  (forall x, v6dot x P = (v6dot x (mo (rows s0 i) FT) + sumN (m_njoints m) (fun c => if childb m i c then v6dot x (Xf c (mo (rows s c) FT)) else 0))%R) /\
  jU (rows s i) = fst (fst (calc i A)) /\ jDinv (rows s i) = snd (fst (calc i A)) /\ jUDinv (rows s i) = snd (calc i A) /\
  (forall k, k < nvOf m i -> ve (gl s) F_u (idx_v m i + k) = (ve (gl s0) F_u (idx_v m i + k) - v6dot (nth k (cols i) v6zero) P)%R) /\
  (0 < parent m i -> m6 (rows s i) YT = subOuter A (snd (calc i A)) (fst (fst (calc i A))) /\
     mo (rows s i) FT = v6add P (v6add (m6vec (m6 (rows s i) YT) (mo (rows s0 i) AT)) (Smul (jUDinv (rows s i)) (shift (idx_v m i) (ve (gl s) F_u))))).
Definition pend (s0 : Data) (k : nat) (s : Data) (j : nat) : Prop :=
  (forall x y, v6dot x (m6vec (m6 (rows s j) YT) y) = (v6dot x (m6vec (m6 (rows s0 j) YT) y) +
     sumN (m_njoints m) (fun c => if (k <=? c) && childb m j c then v6dot x (m6vec (XA c (m6 (rows s c) YT)) y) else 0))%R) /\
  (forall x, v6dot x (mo (rows s j) FT) = (v6dot x (mo (rows s0 j) FT) + sumN (m_njoints m) (fun c => if (k <=? c) && childb m j c then v6dot x (Xf c (mo (rows s c) FT)) else 0))%R).

Lemma genBack_kept s0 s i : kept s0 s -> kept s0 (genBack s i).
Proof.
  intros [K1 K2]. unfold genBack. split.
  - destruct (0 <? parent m i); mem; exact K1.
  - intros j. destruct (K2 j) as (E1 & E2 & E3 & E4). destruct (K2 i) as (F1 & F2 & F3 & F4).
    assert (G : forall r : Row, (jd r = jd (rows s j) /\ pl r = pl (rows s j) /\ yi r = yi (rows s j) /\ (forall t, t <> FT -> mo r t = mo (rows s j) t)) ->
       jd r = jd (rows s0 j) /\ pl r = pl (rows s0 j) /\ yi r = yi (rows s0 j) /\ (forall t, t <> FT -> mo r t = mo (rows s0 j) t)).
    { intros r (X1 & X2 & X3 & X4). rewrite X1, X2, X3. split; [exact E1|]. split; [exact E2|]. split; [exact E3|]. intros t Ht. rewrite (X4 t Ht). apply E4, Ht. }
    apply G. clear G.
    assert (Q : forall (f : MoT -> V6) x t, t <> FT -> put MoT_beq f FT x t = f t).
    { intros f x t Ht. unfold put. now rewrite MoT_beq_neq by congruence. }
    destruct (0 <? parent m i); cbn [rows gl setRow setGl].
    + destruct (Nat.eq_dec (parent m i) j) as [->|Hp].
      * rewrite putn_same. cbn [setMo setM6 jd pl yi mo]. destruct (Nat.eq_dec i j) as [->|Hn].
        -- rewrite putn_same. cbn [setMo setM6 setAba jd pl yi mo]. split; [reflexivity|]. split; [reflexivity|]. split; [reflexivity|]. intros t Ht. now rewrite !Q.
        -- rewrite putn_other by exact Hn. split; [reflexivity|]. split; [reflexivity|]. split; [reflexivity|]. intros t Ht. now rewrite !Q.
      * rewrite putn_other by exact Hp. destruct (Nat.eq_dec i j) as [->|Hn].
        -- rewrite putn_same. cbn [setMo setM6 setAba jd pl yi mo]. split; [reflexivity|]. split; [reflexivity|]. split; [reflexivity|]. intros t Ht. now rewrite !Q.
        -- rewrite putn_other by exact Hn. auto.
    + destruct (Nat.eq_dec i j) as [->|Hn].
      * rewrite putn_same. cbn [setAba jd pl yi mo]. auto.
      * rewrite putn_other by exact Hn. auto.
Qed.

Lemma put_m6 (f : M6T -> M6) x : put M6T_beq f YT x YT = x.
Proof. unfold put. destruct YT; reflexivity. Qed.
Lemma put_mo (f : MoT -> V6) t x : put MoT_beq f t x t = x.
Proof. unfold put. destruct t; reflexivity. Qed.
Lemma put_mo' (f : MoT -> V6) x : put MoT_beq f FT x AT = f AT.
Proof. unfold put. now rewrite MoT_beq_neq. Qed.

(* the effect of one step on the fields the pass works on *)
Lemma genBack_eff s i : 0 < i < m_njoints m ->
  let s' := genBack s i in let w := calc i (m6 (rows s i) YT) in
  jU (rows s' i) = fst (fst w) /\ jDinv (rows s' i) = snd (fst w) /\ jUDinv (rows s' i) = snd w /\
  ve (gl s') F_u = subSeg (idx_v m i) (nvOf m i) (StMul (cols i) (mo (rows s i) FT)) (ve (gl s) F_u) /\
  (0 < parent m i -> m6 (rows s' i) YT = subOuter (m6 (rows s i) YT) (snd w) (fst (fst w)) /\
     mo (rows s' i) FT = v6add (mo (rows s i) FT) (v6add (m6vec (m6 (rows s' i) YT) (mo (rows s i) AT)) (Smul (jUDinv (rows s' i)) (shift (idx_v m i) (ve (gl s') F_u)))) /\
     m6 (rows s' (parent m i)) YT = m6add (m6 (rows s (parent m i)) YT) (XA i (m6 (rows s' i) YT)) /\
     mo (rows s' (parent m i)) FT = v6add (mo (rows s (parent m i)) FT) (Xf i (mo (rows s' i) FT))) /\
  (forall j, j <> i -> (0 < parent m i -> j <> parent m i) -> rows s' j = rows s j) /\
  (forall j, j <> i -> jU (rows s' j) = jU (rows s j) /\ jDinv (rows s' j) = jDinv (rows s j) /\ jUDinv (rows s' j) = jUDinv (rows s j)).
Proof.
  intros Hi s' w. pose proof (wf_parent m W i Hi) as Hp.
  assert (R1 : forall j, j <> i -> jU (rows s' j) = jU (rows s j) /\ jDinv (rows s' j) = jDinv (rows s j) /\ jUDinv (rows s' j) = jUDinv (rows s j)).
  { intros j Hj. unfold s', genBack. destruct (Nat.ltb_spec 0 (parent m i)) as [H0|H0]; cbn [rows gl setRow setGl].
    - destruct (Nat.eq_dec (parent m i) j) as [<-|Hn]; [rewrite putn_same, putn_other by lia; cbn; auto | rewrite !putn_other by lia; auto].
    - rewrite !putn_other by lia; auto. }
  assert (R2 : forall j, j <> i -> (0 < parent m i -> j <> parent m i) -> rows s' j = rows s j).
  { intros j Hj Hj'. unfold s', genBack. destruct (Nat.ltb_spec 0 (parent m i)) as [H0|H0]; cbn [rows gl setRow setGl].
    - specialize (Hj' H0). now rewrite !putn_other by lia.
    - now rewrite !putn_other by lia. }
  assert (R3 : (forall j, j <> i -> (0 < parent m i -> j <> parent m i) -> rows s' j = rows s j) /\
    (forall j, j <> i -> jU (rows s' j) = jU (rows s j) /\ jDinv (rows s' j) = jDinv (rows s j) /\ jUDinv (rows s' j) = jUDinv (rows s j))) by (split; assumption).
  clear R1 R2. revert R3. generalize (forall j, j <> i -> (0 < parent m i -> j <> parent m i) -> rows s' j = rows s j).
  generalize (forall j, j <> i -> jU (rows s' j) = jU (rows s j) /\ jDinv (rows s' j) = jDinv (rows s j) /\ jUDinv (rows s' j) = jUDinv (rows s j)).
  intros Q1 Q2 R3. unfold s', genBack. fold w. rewrite (velSel_at m W i _ Hi). destruct (Nat.ltb_spec 0 (parent m i)) as [H0|H0]; cbn [rows gl setRow setGl].
  - rewrite (putn_other _ (parent m i) i) by lia. rewrite !putn_same, (putn_other _ i (parent m i)) by lia.
    cbn [setMo setM6 setAba jU jDinv jUDinv mo m6 ve gl setVe put VeT_beq].
    split; [reflexivity|]. split; [reflexivity|]. split; [reflexivity|]. split; [reflexivity|]. split; [|exact R3].
    intros _. rewrite !put_m6, !put_mo. split; [reflexivity|]. split; [reflexivity|]. split; [reflexivity|]. reflexivity.
  - rewrite !putn_same. cbn [setMo setM6 setAba jU jDinv jUDinv mo m6 ve gl setVe put VeT_beq].
    split; [reflexivity|]. split; [reflexivity|]. split; [reflexivity|]. split; [reflexivity|]. split; [lia|exact R3].
Qed.

Lemma genBack_done s0 : exists AP : nat -> M6 * V6, let s := downward m genBack s0 in kept s0 s /\ forall i, 0 < i < m_njoints m -> done s0 s i (AP i).
Proof.
  pose (Inv := fun k s => kept s0 s /\ (forall j, 0 < j < k -> j < m_njoints m -> pend s0 k s j /\ forall a, a < nvOf m j -> ve (gl s) F_u (idx_v m j + a) = ve (gl s0) F_u (idx_v m j + a)) /\
     (forall i, k <= i -> i < m_njoints m -> exists AP, done s0 s i AP)).
  assert (H : Inv 1 (downward m genBack s0)).
  { apply downward_inv.
    - apply (wf_n m W).
    - split; [split; [reflexivity | intros j; auto]|]. split; [|intros; lia]. intros j Hj _. split; [|reflexivity].
      split; intros; rewrite sumN_zero; try ring; intros c Hc; destruct (Nat.leb_spec (m_njoints m) c); (lia || reflexivity).
    - intros i s Hi (IK & IP & ID). pose proof (wf_parent m W i Hi) as Hp.
      destruct (genBack_eff s i Hi) as (E1 & E2 & E3 & E4 & E5 & E6 & E7). set (s' := genBack s i) in *.
      split; [now apply genBack_kept|].
      assert (Hseg : forall j a, 0 < j < m_njoints m -> j <> i -> a < nvOf m j -> ve (gl s') F_u (idx_v m j + a) = ve (gl s) F_u (idx_v m j + a)).
      { intros j a Hj Hn Ha. rewrite E4. unfold subSeg. rewrite (within_own m W NM i j a Hi Hj Ha). destruct (Nat.eqb_spec i j); [congruence|reflexivity]. }
      split.
      + intros j Hj Hj'. destruct (IP j ltac:(lia) Hj') as [[P1 P2] P3]. split.
        2:{ intros a Ha. rewrite Hseg by (try lia; exact Ha). apply P3, Ha. }
        assert (Ec : forall c, i + 1 <= c -> rows s' c = rows s c) by (intros c Hc; apply E6; lia).
        destruct (Nat.eq_dec (parent m i) j) as [Ej|Ej].
        * destruct (E5 ltac:(lia)) as (_ & _ & E8 & E9). rewrite Ej in E8, E9. split.
          -- intros x y. rewrite E8, m6vec_add_l, v6dot_add_r, P1, Rplus_assoc. f_equal.
             rewrite (sumN_ext _ (fun c => if (i <=? c) && childb m j c then v6dot x (m6vec (XA c (m6 (rows s' c) YT)) y) else 0)%R
               (fun c => (if (i + 1 <=? c) && childb m j c then v6dot x (m6vec (XA c (m6 (rows s c) YT)) y) else 0) + (if i =? c then v6dot x (m6vec (XA i (m6 (rows s' i) YT)) y) else 0))%R).
             { rewrite sumN_add, (sumN_delta _ i (fun _ => v6dot x (m6vec (XA i (m6 (rows s' i) YT)) y))) by lia. reflexivity. }
             intros c Hc. unfold childb. destruct (Nat.leb_spec i c), (Nat.leb_spec (i + 1) c), (Nat.eqb_spec i c); try lia; cbn [andb]; try ring.
             ++ rewrite (Ec c) by lia. ring.
             ++ subst c. destruct (Nat.ltb_spec 0 i), (Nat.eqb_spec (parent m i) j); try lia. cbn [andb]. ring.
          -- intros x. rewrite E9, v6dot_add_r, P2, Rplus_assoc. f_equal.
             rewrite (sumN_ext _ (fun c => if (i <=? c) && childb m j c then v6dot x (Xf c (mo (rows s' c) FT)) else 0)%R
               (fun c => (if (i + 1 <=? c) && childb m j c then v6dot x (Xf c (mo (rows s c) FT)) else 0) + (if i =? c then v6dot x (Xf i (mo (rows s' i) FT)) else 0))%R).
             { rewrite sumN_add, (sumN_delta _ i (fun _ => v6dot x (Xf i (mo (rows s' i) FT)))) by lia. reflexivity. }
             intros c Hc. unfold childb. destruct (Nat.leb_spec i c), (Nat.leb_spec (i + 1) c), (Nat.eqb_spec i c); try lia; cbn [andb]; try ring.
             ++ rewrite (Ec c) by lia. ring.
             ++ subst c. destruct (Nat.ltb_spec 0 i), (Nat.eqb_spec (parent m i) j); try lia. cbn [andb]. ring.
        * rewrite <- (E6 j ltac:(lia) ltac:(intros; congruence)) in P1, P2. split.
          -- intros x y. rewrite P1. f_equal. apply sumN_ext. intros c Hc. unfold childb.
             destruct (Nat.leb_spec i c), (Nat.leb_spec (i + 1) c); try lia; cbn [andb]; try reflexivity.
             ++ now rewrite (Ec c) by lia.
             ++ replace c with i by lia. destruct (Nat.eqb_spec (parent m i) j); [congruence|]. now rewrite andb_false_r.
          -- intros x. rewrite P2. f_equal. apply sumN_ext. intros c Hc. unfold childb.
             destruct (Nat.leb_spec i c), (Nat.leb_spec (i + 1) c); try lia; cbn [andb]; try reflexivity.
             ++ now rewrite (Ec c) by lia.
             ++ replace c with i by lia. destruct (Nat.eqb_spec (parent m i) j); [congruence|]. now rewrite andb_false_r.
      + intros j Hj Hj'. destruct (Nat.eq_dec j i) as [->|Hn].
        * exists (m6 (rows s i) YT, mo (rows s i) FT). destruct (IP i ltac:(lia) Hj') as [[P1 P2] P3].
          assert (Ec : forall c, childb m i c = true -> i + 1 <= c /\ rows s' c = rows s c \/ m_njoints m <= c).
          { intros c E. unfold childb in E. destruct (Nat.ltb_spec 0 c), (Nat.eqb_spec (parent m c) i); try discriminate.
            destruct (Nat.lt_ge_cases c (m_njoints m)) as [Hc|Hc]; [left|now right]. pose proof (wf_parent m W c ltac:(lia)). split; [lia|]. apply E6; lia. }
          split; [|split; [|split; [exact E1|split; [exact E2|split; [exact E3|split]]]]].
          -- intros x y. rewrite P1. f_equal. apply sumN_ext. intros c Hc. destruct (childb m i c) eqn:E; [|now rewrite andb_false_r].
             destruct (Ec c E) as [[H1 ->]|]; [|lia]. destruct (Nat.leb_spec (i + 1) c); [reflexivity|lia].
          -- intros x. rewrite P2. f_equal. apply sumN_ext. intros c Hc. destruct (childb m i c) eqn:E; [|now rewrite andb_false_r].
             destruct (Ec c E) as [[H1 ->]|]; [|lia]. destruct (Nat.leb_spec (i + 1) c); [reflexivity|lia].
          -- intros k Hk. rewrite E4. unfold subSeg. rewrite (within_own m W NM i i k Hi Hi Hk), Nat.eqb_refl, (P3 k Hk).
             replace (idx_v m i + k - idx_v m i) with k by lia. reflexivity.
          -- intros H0. destruct (E5 H0) as (E8 & E9 & _). split; [exact E8|]. rewrite E9. 
             destruct IK as [_ IK]. destruct (IK i) as (_ & _ & _ & IKm). rewrite (IKm AT) by congruence. reflexivity.
        * destruct (ID j ltac:(lia) Hj') as [[A P] (D1 & D2 & D3 & D4 & D5 & D6 & D7)]. exists (A, P).
          assert (Ec : forall c, childb m j c = true -> rows s' c = rows s c \/ m_njoints m <= c).
          { intros c E. unfold childb in E. destruct (Nat.ltb_spec 0 c), (Nat.eqb_spec (parent m c) j); try discriminate.
            destruct (Nat.lt_ge_cases c (m_njoints m)) as [Hc|Hc]; [left|now right]. pose proof (wf_parent m W c ltac:(lia)). apply E6; lia. }
          assert (Ej : rows s' j = rows s j) by (apply E6; lia).
          assert (Eu : forall k, k < nvOf m j -> ve (gl s') F_u (idx_v m j + k) = ve (gl s) F_u (idx_v m j + k)) by (intros k Hk; apply Hseg; [lia|lia|exact Hk]).
          unfold done. rewrite !Ej. split; [|split; [|split; [exact D3|split; [exact D4|split; [exact D5|split]]]]].
          -- intros x y. rewrite D1. f_equal. apply sumN_ext. intros c Hc. destruct (childb m j c) eqn:E; [|reflexivity]. destruct (Ec c E) as [->|]; [reflexivity|lia].
          -- intros x. rewrite D2. f_equal. apply sumN_ext. intros c Hc. destruct (childb m j c) eqn:E; [|reflexivity]. destruct (Ec c E) as [->|]; [reflexivity|lia].
          -- intros k Hk. rewrite (Eu k Hk). apply D6, Hk.
          -- intros H0. destruct (D7 H0) as [D8 D9]. split; [exact D8|]. rewrite D9. f_equal. f_equal.
             rewrite D5. 
             apply Smul_ext. intros k Hk. rewrite HL in Hk by lia. unfold shift. symmetry. apply Eu, Hk. }
  destruct H as (HK & _ & HD).
  destruct (finite_choice (m6zero, v6zero) (m_njoints m) (fun i AP => 0 < i -> done s0 (downward m genBack s0) i AP)) as [f Hf].
  { intros i Hi. destruct (Nat.eq_dec i 0) as [->|Hn]; [exists (m6zero, v6zero); lia|]. destruct (HD i ltac:(lia) Hi) as [AP HAP]. exists AP. auto. }
  exists f. split; [exact HK|]. intros i Hi. apply Hf; lia.
Qed.
End Pass.

(* ---- second forward pass ---- *)
Section Fwd.
Variable m : Model.
Hypothesis W : wellFormed m.
Hypothesis NM : noMimic m.
Variables (AT : MoT) (cols : nat -> list V6) (up : nat -> V6 -> V6) (post : nat -> Row -> Row).
Hypothesis HC : forall i, 0 < i < m_njoints m -> length (cols i) = nvOf m i.
Hypothesis Hpost : forall i r, mo (post i r) AT = mo r AT.
Definition genFwd (d : Data) (i : nat) : Data :=
  let r := rows d i in let rp := rows d (parent m i) in
  let r := setMo r AT (v6add (mo r AT) (up i (mo rp AT))) in
  let d := setGl d (setVe (gl d) F_ddq (setSeg (idx_v m i) (nvOf m i)
             (abaSolve (nvOf m i) (jDinv r) (jUDinv r) (velSel m i (ve (gl d) F_u)) (mo r AT)) (ve (gl d) F_ddq))) in
  let r := setMo r AT (v6add (mo r AT) (Smul (cols i) (velSel m i (ve (gl d) F_ddq)))) in
  setRow d i (post i r).

Lemma genFwd_done s : let s' := upward m genFwd s in
  rows s' 0 = rows s 0 /\
  forall i, 0 < i < m_njoints m ->
    let a' := v6add (mo (rows s i) AT) (up i (mo (rows s' (parent m i)) AT)) in
    (forall k, k < nvOf m i -> ve (gl s') F_ddq (idx_v m i + k) = abaSolve (nvOf m i) (jDinv (rows s i)) (jUDinv (rows s i)) (shift (idx_v m i) (ve (gl s) F_u)) a' k) /\
    mo (rows s' i) AT = v6add a' (Smul (cols i) (shift (idx_v m i) (ve (gl s') F_ddq))).
Proof.
  cbv zeta.
  pose (Inv := fun k (s' : Data) => rows s' 0 = rows s 0 /\ ve (gl s') F_u = ve (gl s) F_u /\ (forall j, k <= j -> rows s' j = rows s j) /\
    forall i, 0 < i < k -> i < m_njoints m ->
    let a' := v6add (mo (rows s i) AT) (up i (mo (rows s' (parent m i)) AT)) in
    (forall k, k < nvOf m i -> ve (gl s') F_ddq (idx_v m i + k) = abaSolve (nvOf m i) (jDinv (rows s i)) (jUDinv (rows s i)) (shift (idx_v m i) (ve (gl s) F_u)) a' k) /\
    mo (rows s' i) AT = v6add a' (Smul (cols i) (shift (idx_v m i) (ve (gl s') F_ddq)))).
  assert (H : Inv (m_njoints m) (upward m genFwd s)).
  { apply upward_inv.
    - apply (wf_n m W).
    - split; [reflexivity|]. split; [reflexivity|]. split; [reflexivity|]. intros; lia.
    - intros i d Hi (I0 & I1 & I2 & I3). pose proof (wf_parent m W i Hi) as Hp. set (d' := genFwd d i).
      assert (Er : forall j, j <> i -> rows d' j = rows d j) by (intros j Hj; unfold d', genFwd; cbn [rows gl setRow setGl]; now rewrite putn_other by lia).
      assert (Eu : ve (gl d') F_u = ve (gl d) F_u) by (unfold d', genFwd; mem; reflexivity).
      assert (Ei : mo (rows d' i) AT = v6add (v6add (mo (rows s i) AT) (up i (mo (rows d (parent m i)) AT))) (Smul (cols i) (shift (idx_v m i) (ve (gl d') F_ddq)))).
      { unfold d', genFwd. cbn [rows gl setRow setGl]. rewrite putn_same, Hpost. cbn [mo setMo]. rewrite !put_mo, (velSel_at m W i _ Hi), (I2 i) by lia. reflexivity. }
      assert (Eq : forall k, ve (gl d') F_ddq k = if within (idx_v m i) (nvOf m i) k then abaSolve (nvOf m i) (jDinv (rows s i)) (jUDinv (rows s i)) (shift (idx_v m i) (ve (gl s) F_u))
           (v6add (mo (rows s i) AT) (up i (mo (rows d (parent m i)) AT))) (k - idx_v m i) else ve (gl d) F_ddq k).
      { intros k. unfold d', genFwd. cbn [gl setRow setGl ve setVe]. unfold put. cbn [VeT_beq]. unfold setSeg.
        destruct (within (idx_v m i) (nvOf m i) k); [|reflexivity]. cbn [jDinv jUDinv setMo mo]. rewrite put_mo, (velSel_at m W i _ Hi), I1, (I2 i) by lia. reflexivity. }
      split; [rewrite Er by lia; exact I0|]. split; [now rewrite Eu|]. split; [intros j Hj; rewrite Er by lia; apply I2; lia|].
      intros j Hj Hj'. assert (Hpj : parent m j < j) by (apply (wf_parent m W); lia). rewrite (Er (parent m j)) by lia.
      destruct (Nat.eq_dec j i) as [->|Hn].
      + split; [|exact Ei]. intros k Hk. rewrite Eq, (within_own m W NM i i k Hi Hi Hk), Nat.eqb_refl. now replace (idx_v m i + k - idx_v m i) with k by lia.
      + destruct (I3 j ltac:(lia) Hj') as [J1 J2].
        assert (Ek : forall k, k < nvOf m j -> ve (gl d') F_ddq (idx_v m j + k) = ve (gl d) F_ddq (idx_v m j + k)).
        { intros k Hk. rewrite Eq, (within_own m W NM i j k Hi ltac:(lia) Hk). destruct (Nat.eqb_spec i j); [congruence|reflexivity]. }
        split; [intros k Hk; rewrite (Ek k Hk); now apply J1|]. rewrite (Er j Hn), J2. f_equal. apply Smul_ext. intros k Hk. rewrite HC in Hk by lia. unfold shift. symmetry. now apply Ek. }
  destruct H as (A & _ & _ & B). split; [exact A|]. intros i Hi. now apply B.
Qed.
End Fwd.

Lemma fold_congr {St} (f g : St -> nat -> St) (K : St -> Prop) (Q : nat -> Prop) l : (forall i, In i l -> Q i) ->
  (forall s i, Q i -> K s -> f s i = g s i /\ K (g s i)) -> forall s, K s -> fold_left f l s = fold_left g l s /\ K (fold_left g l s).
Proof.
  intros HQ H. induction l as [|i l IH]; intros s Ks; cbn [fold_left]; [auto|].
  destruct (H s i (HQ i (or_introl eq_refl)) Ks) as [-> K']. apply IH; [intros j Hj; apply HQ; now right | exact K'].
Qed.
Lemma upward_congr {St} m (f g : St -> nat -> St) (K : St -> Prop) :
  (forall s i, 0 < i < m_njoints m -> K s -> f s i = g s i /\ K (g s i)) -> forall s, K s -> upward m f s = upward m g s /\ K (upward m g s).
Proof. intros H s. unfold upward. apply (fold_congr f g K (fun i => 0 < i < m_njoints m)); [|exact H]. intros i Hi. apply in_seq in Hi. lia. Qed.
Lemma downward_congr {St} m (f g : St -> nat -> St) (K : St -> Prop) :
  (forall s i, 0 < i < m_njoints m -> K s -> f s i = g s i /\ K (g s i)) -> forall s, K s -> downward m f s = downward m g s /\ K (downward m g s).
Proof. intros H s. unfold downward. apply (fold_congr f g K (fun i => 0 < i < m_njoints m)); [|exact H]. intros i Hi. apply in_rev in Hi. apply in_seq in Hi. lia. Qed.

(* ---- sums over the dofs of the joints ---- *)
Section Dofs.
Variable m : Model.
Hypothesis W : wellFormed m.
Hypothesis Vm : validModel m.
Hypothesis NM : noMimic m.
Lemma owner_sum i a (f : nat -> R) : 0 < i < m_njoints m -> a < nvOf m i ->
  sumN (m_njoints m) (fun j => if (0 <? j) && within (idx_v m j) (nvOf m j) (idx_v m i + a) then f j else 0%R) = f i.
Proof.
  intros Hi Ha. rewrite <- (sumN_delta (m_njoints m) i f) by lia. apply sumN_ext. intros j Hj.
  destruct (Nat.ltb_spec 0 j); cbn [andb].
  - rewrite (within_own m W NM j i a ltac:(lia) Hi Ha), (Nat.eqb_sym j i). reflexivity.
  - destruct (Nat.eqb_spec i j); [lia|reflexivity].
Qed.
Lemma dof_sum f : sumN (m_nv m) f = sumN (m_njoints m) (fun i => if 0 <? i then sumN (nvOf m i) (fun k => f (idx_v m i + k)) else 0%R).
Proof.
  rewrite (sumN_ext (m_nv m) f (fun k => sumN (m_njoints m) (fun j => if (0 <? j) && within (idx_v m j) (nvOf m j) k then f k else 0%R))).
  - rewrite sumN_swap. apply sumN_ext. intros i Hi. destruct (Nat.ltb_spec 0 i); cbn [andb]; [|apply sumN_0].
    unfold within. apply sumN_seg. apply (idx_v_bound m W NM). lia.
  - intros k Hk. destruct (dof_owner m W k Hk) as (i & a & Hi & Ha & ->). symmetry. exact (owner_sum i a (fun _ => f (idx_v m i + a)) Hi Ha).
Qed.
(* one vector from the parts of the joints *)
Definition glue (w : nat -> nat -> R) : nat -> R := fun k =>
  sumN (m_njoints m) (fun j => if (0 <? j) && within (idx_v m j) (nvOf m j) k then w j (k - idx_v m j) else 0%R).
Lemma glue_at w i a : 0 < i < m_njoints m -> a < nvOf m i -> glue w (idx_v m i + a) = w i a.
Proof.
  intros Hi Ha. unfold glue. rewrite (owner_sum i a (fun j => w j (idx_v m i + a - idx_v m j)) Hi Ha). f_equal. lia.
Qed.
Lemma bodies_if g : bodies m g = sumN (m_njoints m) (fun i => if 0 <? i then g i else 0%R).
Proof.
  rewrite <- (bodies_all m W); [|reflexivity]. unfold bodies. apply sumN_ext. intros k Hk. reflexivity.
Qed.
End Dofs.
