(* Sequences of transformations, rejected arguments and counterexamples. *)
Require Import Reals String List Arith Bool Lia Lra.
From Verif Require Import Vec3 Spatial Inertia InertiaFacts Joints Spec_Joints JointFacts JointFacts2 Model Spec_Model ModelFacts ModelFacts2 ModelTree ModelFacts3 Data Kinematics Spec_Kin KinFacts Mimic Spec_Mimic MimicFacts MimicFacts2 MimicFacts3 CrbaFacts4.
Import ListNotations.
Local Open Scope nat_scope.

Lemma Assembled_good eps m : Assembled eps m -> wellFormed m /\ treeInv (paired m).
Proof.
  induction 1 as [m B|out m m' a b s o A [W T] P E].
  - split; [exact (Built_wf _ _ B) | exact (treeInv_paired _ (Built_tree _ _ B))].
  - split; [exact (W' m a b s o out m' W P E) | exact (T' m a b s o out m' W T P E)].
Qed.
Lemma pair_ok m a b s o out : wellFormed m -> mimicPair m a b -> exists m', transformJointIntoMimic out m a b s o = Ok m' tt.
Proof.
  intros W ((H1 & H2) & H3 & H4 & (j & H5 & H6 & H7 & H8) & H9).
  destruct (transform_ok m a b j s o W H1 H2 H3 H5 H6 H9 out) as (t & Et & _). eexists; exact Et.
Qed.
Section One.
Variables (m : Model) (a b : nat) (s o : R) (out m' : Model).
Hypothesis W : wellFormed m.
Hypothesis T : treeInv (paired m).
Hypothesis P : mimicPair m a b.
Hypothesis E : transformJointIntoMimic out m a b s o = Ok m' tt.

Lemma one_dims i : i < m_njoints m -> nqOf m' i = (if i =? b then 0 else nqOf m i) /\ nvOf m' i = (if i =? b then 0 else nvOf m i).
Proof.
  destruct P as ((H1 & H2) & H3 & H4 & (j & H5 & H6 & H7 & H8) & H9). intros Hi. destruct (r_ns m a b j s o out W H1 H2 H3 H5 H6 H9 H7 H8 m' E) as [N1 N2].
  unfold nqOf, nvOf. rewrite N1, N2, (nth_nqs' m a b W H1 H2 H3), (nth_nvs' m a b W H1 H2 H3). auto.
Qed.
Lemma one_unchanged : unchanged m m' b.
Proof.
  destruct P as ((H1 & H2) & H3 & H4 & (j & H5 & H6 & H7 & H8) & H9).
  destruct (r_fields m a b j s o out W H1 H2 H3 H5 H6 H9 m' E) as (F1&F2&F3&F4&F5&F6&F7&F8&F9&F10&F11&F12&F13&F14&F15&F16&F17&F18&F19&F20&F21).
  constructor; [auto | auto | auto 10|]. intros i Hi Hib. destruct (one_dims i ltac:(lia)) as [D1 D2]. destruct (Nat.eqb_spec i b); [lia|]. split; [|split; [exact D1|split; [exact D2|]]].
  - rewrite (r_joint m a b j s o out) by (assumption || lia). rewrite newJ_type by (assumption || lia). destruct (Nat.eqb_spec i b); [lia|reflexivity].
  - intros _. rewrite (r_ref m a b j s o out) by (assumption || lia). destruct (Nat.eqb_spec i b); [lia|reflexivity].
Qed.
Lemma one_b : jm_ref (joint m' b) = a /\ nqOf m' b = 0 /\ nvOf m' b = 0 /\ (exists j, jm_type (joint m b) = JSimple j /\ jm_type (joint m' b) = JMimic j s o).
Proof.
  destruct P as ((H1 & H2) & H3 & H4 & (j & H5 & H6 & H7 & H8) & H9). destruct (one_dims b H3) as [D1 D2]. rewrite Nat.eqb_refl in D1, D2.
  split; [|split; [exact D1|split; [exact D2|]]].
  - rewrite (r_ref m a b j s o out) by (assumption || lia). now rewrite Nat.eqb_refl.
  - exists j. split; [exact H5|]. rewrite (r_joint m a b j s o out) by (assumption || lia). rewrite newJ_type by (assumption || lia). now rewrite Nat.eqb_refl.
Qed.
Lemma one_idx i : 0 < i < m_njoints m -> i <> b -> isMimic (joint m i) = false ->
  (i < b -> idx_q m' i = idx_q m i /\ idx_q m i + nqOf m i <= idx_q m b /\ idx_v m' i = idx_v m i /\ idx_v m i + nvOf m i <= idx_v m b) /\
  (b < i -> idx_q m' i + nqOf m b = idx_q m i /\ idx_q m b + nqOf m b <= idx_q m i /\ idx_v m' i + nvOf m b = idx_v m i /\ idx_v m b + nvOf m b <= idx_v m i).
Proof.
  destruct P as ((H1 & H2) & H3 & H4 & (j & H5 & H6 & H7 & H8) & H9). intros Hi Hib Hm.
  destruct (r_idx m a b j s o out W H1 H2 H3 H5 H6 H9 H7 H8 m' E i ltac:(lia)) as [I1 I2]. destruct (newQ_ordinary m a b j s o W H1 H2 H3 i Hi Hib Hm) as [J1 J2].
  destruct (wf_lengths _ W) as (L1&L2&L3&L4&L5&L6&L7&L8&L9&L10&L11&L12&L13&L14&L15).
  assert (Hmb : isMimic (joint m b) = false) by (unfold isMimic; now rewrite H5).
  destruct (wf_range _ W i Hi Hm) as [R1 R2]. destruct (wf_range _ W b ltac:(lia) Hmb) as [R3 R4].
  pose proof (sumQ m b W H3 i) as S1. pose proof (sumV m b W H3 i) as S2.
  pose proof (sum_firstn_S (m_nqs m) b ltac:(lia)) as Fq. pose proof (sum_firstn_S (m_nvs m) b ltac:(lia)) as Fv.
  pose proof (sum_firstn_S (m_nqs m) i ltac:(lia)) as Gq. pose proof (sum_firstn_S (m_nvs m) i ltac:(lia)) as Gv.
  fold (nqOf m b) in Fq. fold (nvOf m b) in Fv. fold (nqOf m i) in Gq. fold (nvOf m i) in Gv.
  split; intros Hl.
  - pose proof (sum_firstn_mono (m_nqs m) (S i) b ltac:(lia)). pose proof (sum_firstn_mono (m_nvs m) (S i) b ltac:(lia)). destruct (Nat.ltb_spec b i); lia.
  - pose proof (sum_firstn_mono (m_nqs m) (S b) i ltac:(lia)). pose proof (sum_firstn_mono (m_nvs m) (S b) i ltac:(lia)). destruct (Nat.ltb_spec b i); lia.
Qed.

Theorem one_transform : wellFormed m' /\ unchanged m m' b /\
  m_nq m' + nqOf m b = m_nq m /\ m_nv m' + nvOf m b = m_nv m /\
  (jm_ref (joint m' b) = a /\ nqOf m' b = 0 /\ nvOf m' b = 0 /\ exists j, jm_type (joint m b) = JSimple j /\ jm_type (joint m' b) = JMimic j s o) /\
  (forall i, 0 < i < m_njoints m -> i <> b -> isMimic (joint m i) = false ->
     idx_q m' i = (if i <? b then idx_q m i else idx_q m i - nqOf m b) /\ idx_v m' i = (if i <? b then idx_v m i else idx_v m i - nvOf m b)) /\
  m_mimicking m' = filter (fun i => isMimic (joint m' i)) (seq 1 (m_njoints m' - 1)) /\
  (let rv := removeSeg (idx_v m b) (nvOf m b) in let rq := removeSeg (idx_q m b) (nqOf m b) in
   m_effort m' = rv (m_effort m) /\ m_velocity m' = rv (m_velocity m) /\ m_armature m' = rv (m_armature m) /\ m_rotorInertia m' = rv (m_rotorInertia m) /\
   m_rotorGearRatio m' = rv (m_rotorGearRatio m) /\ m_friction m' = rv (m_friction m) /\ m_damping m' = rv (m_damping m) /\
   m_lower m' = rq (m_lower m) /\ m_upper m' = rq (m_upper m)).
Proof.
  split; [exact (W' m a b s o out m' W P E)|]. split; [exact one_unchanged|].
  assert (B : idx_q m b + nqOf m b <= m_nq m /\ idx_v m b + nvOf m b <= m_nv m).
  { destruct P as ((H1 & H2) & H3 & H4 & (j & H5 & H6 & H7 & H8) & H9). exact (b_end m a b j W H1 H2 H3 H5). }
  assert (F : m_nq m' = m_nq m - nqOf m b /\ m_nv m' = m_nv m - nvOf m b).
  { destruct P as ((H1 & H2) & H3 & H4 & (j & H5 & H6 & H7 & H8) & H9). destruct (r_fields m a b j s o out W H1 H2 H3 H5 H6 H9 m' E) as (F1&F2&F3&_). auto. }
  split; [lia|]. split; [lia|]. split; [exact one_b|]. split; [|split].
  - intros i Hi Hib Hm. destruct (one_idx i Hi Hib Hm) as [X1 X2]. destruct (Nat.ltb_spec i b) as [Hl|Hl]; [destruct (X1 Hl); lia | destruct (X2 ltac:(lia)); lia].
  - exact (proj1 (ti_mimicking _ (T' m a b s o out m' W T P E))).
  - destruct P as ((H1 & H2) & H3 & H4 & (j & H5 & H6 & H7 & H8) & H9). exact (r_vecs m a b j s o out W H1 H2 H3 H5 H6 H9 m' E).
Qed.
Lemma one_valid : validModel m -> (forall j, jm_type (joint m b) = JSimple j -> ~ isHelical j) -> validModel m'.
Proof.
  intros V H i Hi. destruct one_unchanged as [(U1 & _) _ (D1 & _) U4]. rewrite U1 in Hi. destruct (V i Hi) as [V1 V2]. split.
  - destruct (Nat.eq_dec i b) as [->|Hib]; [|destruct (U4 i Hi Hib) as (-> & _); exact V1].
    destruct one_b as (_ & _ & _ & j & E1 & ->). specialize (H j E1). rewrite E1 in V1. cbn. cbn in V1.
    destruct P as (_ & _ & _ & (j' & E2 & M & _) & _). rewrite E1 in E2. injection E2 as <-. auto.
  - unfold placementOf. now rewrite D1.
Qed.
End One.

Lemma mimicPairs_in m l a b s o : mimicPairs m l -> In (a, b, s, o) l -> mimicPair m a b.
Proof.
  induction l as [|[[[x y] u] w] l IH]; cbn; [tauto|]. intros (H1 & _ & H2) [H|H]; [injection H as -> -> _ _; exact H1 | now apply IH].
Qed.
Lemma pair_after m m' a b s o out x y : wellFormed m -> treeInv (paired m) -> mimicPair m a b -> transformJointIntoMimic out m a b s o = Ok m' tt ->
  mimicPair m x y -> x <> b -> y <> b -> y <> a -> mimicPair m' x y.
Proof.
  intros W T P E Q H1 H2 H3. destruct (one_unchanged m a b s o out m' W P E) as [(U1 & _) _ _ U4]. destruct (one_b m a b s o out m' W P E) as (B1 & _ & _ & jb & _ & B4).
  destruct Q as ((Q1 & Q2) & Q3 & Q4 & (j & Q5 & Q6 & Q7 & Q8) & Q9).
  destruct (U4 x ltac:(lia) H1) as (X1 & X2 & X3 & _). destruct (U4 y ltac:(lia) H2) as (Y1 & _ & _ & _).
  split; [auto|]. split; [lia|]. split; [unfold isMimic in *; now rewrite X1|]. split; [exists j; rewrite Y1, X2, X3; auto|].
  intros k Hk Hm. rewrite U1 in Hk. destruct (Nat.eq_dec k b) as [->|Hkb]; [lia|]. destruct (U4 k Hk Hkb) as (K1 & _ & _ & K2).
  unfold isMimic in Hm. rewrite K1 in Hm. rewrite K2 by exact Hm. apply Q9; assumption.
Qed.
Lemma driven_ext j s o f g f' g' : mimicable j -> (forall k, k < nq1 j -> f k = f' k) -> (forall k, k < nq1 j -> g k = g' k) -> driven j s o f g -> driven j s o f' g'.
Proof.
  intros M F G. destruct j; cbn in M; try tauto; cbn [driven nq1] in *; rewrite <- ?(F 0), <- ?(F 1), <- ?(G 0), <- ?(G 1) by lia; auto.
Qed.

Definition dropAt (p n : nat) (q : vec) : vec := fun k => if k <? p then q k else q (k + n).
Lemma drop_config m a b s o out m' q : wellFormed m -> mimicPair m a b -> transformJointIntoMimic out m a b s o = Ok m' tt ->
  sameConfigBut m m' b q (dropAt (idx_q m b) (nqOf m b) q) /\ sameVelocityBut m m' b q (dropAt (idx_v m b) (nvOf m b) q).
Proof.
  intros W P E. split; intros i k Hi Hib Hm Hk; destruct (one_idx m a b s o out m' W P E i Hi Hib Hm) as [X1 X2]; unfold dropAt;
    (destruct (lt_eq_lt_dec i b) as [[Hl| ->]|Hl]; [destruct (X1 Hl) as (Y1 & Y2 & Y3 & Y4) | lia | destruct (X2 Hl) as (Y1 & Y2 & Y3 & Y4)]);
    match goal with |- (if ?x <? ?y then _ else _) = _ => destruct (Nat.ltb_spec x y) end; f_equal; lia.
Qed.

Theorem build_ok eps l : forall out m, Assembled eps m -> validModel m -> mimicPairs m l -> noHelical m l -> l <> [] ->
  exists m', buildMimicModel out m l = Ok m' tt /\ Assembled eps m' /\ m_njoints m' = m_njoints m /\
    (m_nq m' + sum (map (fun t => nqOf m (target t)) l) = m_nq m /\ m_nv m' + sum (map (fun t => nvOf m (target t)) l) = m_nv m) /\
    (forall i, 0 < i < m_njoints m -> isMimic (joint m' i) = true <-> (isMimic (joint m i) = true \/ isTarget l i)) /\
    forall q v q' v' d d', allDriven m l q v -> sameConfigElse m m' l q q' -> sameVelocityElse m m' l v v' ->
      forall i, 0 < i < m_njoints m ->
        pl (rows (forwardKinematics1 m' d' q' v') i) F_oMi = pl (rows (forwardKinematics1 m d q v) i) F_oMi /\
        mo (rows (forwardKinematics1 m' d' q' v') i) F_v = mo (rows (forwardKinematics1 m d q v) i) F_v.
Proof.
  induction l as [|[[[a b] s] o] l IH]; intros out m A V HP NH Hne; [contradiction|]. clear Hne. cbn [mimicPairs] in HP. destruct HP as (P & D & HP).
  destruct (Assembled_good _ _ A) as [W T]. destruct (pair_ok m a b s o out W P) as (m1 & E). cbn [buildMimicModel]. rewrite E.
  destruct (one_unchanged m a b s o out m1 W P E) as [(U1 & _) _ _ U4]. destruct (one_b m a b s o out m1 W P E) as (B1 & B2 & B3 & jb & B4 & B5).
  assert (A1 : Assembled eps m1) by (eapply As_mimic; eassumption).
  assert (M1 : forall i, 0 < i < m_njoints m -> isMimic (joint m1 i) = true <-> (isMimic (joint m i) = true \/ i = b)).
  { intros i Hi. destruct (Nat.eq_dec i b) as [->|Hib]; [unfold isMimic; rewrite B5; tauto|]. destruct (U4 i Hi Hib) as (K & _). unfold isMimic. rewrite K. tauto. }
  assert (Step : forall q v d d' i, driven jb s o (shift (idx_q m a) q) (shift (idx_q m b) q) -> v (idx_v m b) = (s * v (idx_v m a))%R ->
    forall q1 v1, sameConfigBut m m1 b q q1 -> sameVelocityBut m m1 b v v1 -> 0 < i < m_njoints m ->
        pl (rows (forwardKinematics1 m1 d' q1 v1) i) F_oMi = pl (rows (forwardKinematics1 m d q v) i) F_oMi /\
        mo (rows (forwardKinematics1 m1 d' q1 v1) i) F_v = mo (rows (forwardKinematics1 m d q v) i) F_v).
  { intros q v d d' i Hq Hv q1 v1 C1 C2 Hi. eapply (motion_fk1 m a b s o out m1 W T P E V q q1 jb); eassumption. }
  assert (Tb : forall r, isTarget ((a, b, s, o) :: r) b) by (intros r; exists a, s, o; now left).
  assert (Tt : forall r i, isTarget ((a, b, s, o) :: r) i <-> i = b \/ isTarget r i).
  { intros r i. split; [intros (x & y & z & [H|H]); [injection H; auto | right; exists x, y, z; exact H] | intros [->|(x & y & z & H)]; [apply Tb | exists x, y, z; now right]]. }
  destruct (one_transform m a b s o out m1 W T P E) as (_ & _ & Tq & Tv & _). cbn [map]. change (target (a, b, s, o)) with b.
  destruct l as [|p l].
  - exists m1. split; [reflexivity|]. split; [exact A1|]. split; [exact U1|]. split; [cbn; lia|].
    assert (T0 : forall i, ~ isTarget [] i) by (intros i (x & y & z & [])).
    split; [intros i Hi; rewrite (M1 i Hi), Tt; specialize (T0 i); tauto|].
    intros q v q' v' d d' HD C1 C2 i Hi. destruct (HD a b s o (or_introl eq_refl)) as (j & J1 & J3 & J4). rewrite B4 in J1. injection J1 as <-.
    apply Step; try assumption; intros k c Hk Hkb Hm Hc; [apply C1 | apply C2]; auto; rewrite Tt; specialize (T0 k); tauto.
  - set (r := p :: l) in *. assert (Hr : r <> []) by discriminate. clearbody r. clear p l.
    assert (HP1 : mimicPairs m1 r).
    { revert HP D. clear - W T P E. induction r as [|[[[x y] u] w] r IHr]; [auto|]. intros HP D. cbn [mimicPairs] in HP |- *. destruct HP as (R1 & R2 & R3).
      split; [|split; [exact R2 | apply IHr; [exact R3 | intros; eapply D; right; eassumption]]].
      destruct (D x y u w (or_introl eq_refl)) as (X1 & X2 & X3). exact (pair_after m m1 a b s o out x y W T P E R1 X1 X2 X3). }
    assert (Ty : forall x y u w, In (x, y, u, w) r -> mimicPair m x y /\ x <> b /\ y <> b /\ 0 < x < m_njoints m /\ 0 < y < m_njoints m /\ isMimic (joint m x) = false /\ isMimic (joint m y) = false).
    { intros x y u w Hin. pose proof (mimicPairs_in _ _ _ _ _ _ HP Hin) as Q. destruct (D x y u w Hin) as (D1 & D2 & D3). split; [exact Q|].
      destruct Q as ((Q1 & Q2) & Q3 & Q4 & (jq & Q5 & _) & _). repeat split; try assumption; try lia. unfold isMimic. now rewrite Q5. }
    assert (V1 : validModel m1).
    { apply (one_valid m a b s o out m1 W P E V). intros j Ej. apply (NH a b s o j); [now left | exact Ej]. }
    assert (NH1 : noHelical m1 r).
    { intros x y u w j Hin Ej. destruct (Ty x y u w Hin) as (_ & _ & Y1 & _ & Y2 & _). destruct (U4 y Y2 Y1) as (K & _). rewrite K in Ej. eapply NH; [right; exact Hin | exact Ej]. }
    destruct (IH m1 m1 A1 V1 HP1 NH1 Hr) as (m' & E' & A' & N' & (Nq & Nv) & Mi & Mot). exists m'. split; [exact E'|]. split; [exact A'|]. split; [congruence|].
    assert (Eq : map (fun t => nqOf m1 (target t)) r = map (fun t => nqOf m (target t)) r /\ map (fun t => nvOf m1 (target t)) r = map (fun t => nvOf m (target t)) r).
    { split; apply map_ext_in; intros [[[x y] u] w] Hin; destruct (Ty x y u w Hin) as (_ & _ & Y1 & _ & Y2 & _); destruct (U4 y Y2 Y1) as (_ & K1 & K2 & _); assumption. }
    split; [rewrite (proj1 Eq) in Nq; rewrite (proj2 Eq) in Nv; cbn [sum fold_right]; unfold sum in *; cbn [fold_right]; lia|]. split.
    { intros i Hi. rewrite (Mi i ltac:(lia)), (M1 i Hi), Tt. tauto. }
    intros q v q' v' d d' HD C1 C2 i Hi.
    set (q1 := dropAt (idx_q m b) (nqOf m b) q). set (v1 := dropAt (idx_v m b) (nvOf m b) v).
    destruct (drop_config m a b s o out m1 q W P E) as [X1 _]. destruct (drop_config m a b s o out m1 v W P E) as [_ X2]. fold q1 in X1. fold v1 in X2.
    destruct (HD a b s o (or_introl eq_refl)) as (j & J1 & J3 & J4). rewrite B4 in J1. injection J1 as <-.
    destruct (Step q v d d i J3 J4 q1 v1 X1 X2 Hi) as [S1 S2]. rewrite <- S1, <- S2. apply Mot; [| | |lia].
    + intros x y u w Hin. destruct (Ty x y u w Hin) as (Q & Y1 & Y2 & Y3 & Y4 & Y5 & Y6). destruct (HD x y u w (or_intror Hin)) as (j & K1 & K2 & K3).
      exists j. destruct (U4 y Y4 Y2) as (Z1 & Z2 & Z3 & _). destruct (U4 x Y3 Y1) as (Z4 & Z5 & Z6 & _). rewrite Z1. split; [exact K1|].
      destruct Q as (_ & _ & _ & (j' & K4 & K5 & K6 & K7) & _). rewrite K1 in K4. injection K4 as <-.
      assert (Dy : nqOf m y = nq1 j /\ nvOf m y = nv1 j) by (destruct (wf_joint _ W y Y4) as (_&_&_&_&Dq&Dv&_); rewrite K1 in Dq, Dv; auto).
      assert (N1 : nv1 j = 1) by (destruct j; cbn in K5; try tauto; reflexivity).
      split.
      * eapply driven_ext; [exact K5 | | | exact K2]; intros k Hk; unfold shift; symmetry; apply X1; auto; lia.
      * pose proof (X2 y 0 Y4 Y2 Y6 ltac:(lia)) as G1. pose proof (X2 x 0 Y3 Y1 Y5 ltac:(lia)) as G2. rewrite !Nat.add_0_r in G1, G2. now rewrite G1, G2.
    + intros k c Hk Ht Hm Hc. rewrite U1 in Hk. assert (Hkb : k <> b) by (intros ->; rewrite (proj2 (M1 b Hk) (or_intror eq_refl)) in Hm; discriminate).
      destruct (U4 k Hk Hkb) as (Z1 & Z2 & _). rewrite Z2 in Hc. assert (Hm0 : isMimic (joint m k) = false) by (unfold isMimic in *; now rewrite <- Z1).
      transitivity (q (idx_q m k + c)); [|symmetry; apply X1; assumption]. apply C1; auto. rewrite Tt. tauto.
    + intros k c Hk Ht Hm Hc. rewrite U1 in Hk. assert (Hkb : k <> b) by (intros ->; rewrite (proj2 (M1 b Hk) (or_intror eq_refl)) in Hm; discriminate).
      destruct (U4 k Hk Hkb) as (Z1 & _ & Z2 & _). rewrite Z2 in Hc. assert (Hm0 : isMimic (joint m k) = false) by (unfold isMimic in *; now rewrite <- Z1).
      transitivity (v (idx_v m k + c)); [|symmetry; apply X2; assumption]. apply C2; auto. rewrite Tt. tauto.
Qed.

(* ---- rejected arguments ---- *)
Lemma reject_range out m a b s o : m_njoints m < a \/ m_njoints m < b \/ b <= a -> transformJointIntoMimic out m a b s o = Throw out.
Proof.
  intros H. unfold transformJointIntoMimic. destruct (Nat.leb_spec a (m_njoints m)); cbn [negb]; [|reflexivity]. destruct (Nat.leb_spec b (m_njoints m)); cbn [negb]; [|reflexivity].
  destruct (Nat.ltb_spec a b); cbn [negb]; [lia | reflexivity].
Qed.
Lemma checkMimic_none t : (forall j, t = JSimple j -> ~ mimicable j) -> checkMimic t = None.
Proof. intros H. destruct t as [j| |]; try reflexivity. specialize (H j eq_refl). destruct j; cbn in H; try reflexivity; tauto. Qed.
Lemma reject_type out m a b s o : wellFormed m -> a < b < m_njoints m -> (forall j, jm_type (joint m b) = JSimple j -> ~ mimicable j) ->
  transformJointIntoMimic out m a b s o = Throw m.
Proof.
  intros W Hab H. destruct (wf_lengths _ W) as (L1&L2&L3&_). unfold transformJointIntoMimic.
  destruct (Nat.leb_spec a (m_njoints m)); cbn [negb]; [|lia]. destruct (Nat.leb_spec b (m_njoints m)); cbn [negb]; [|lia]. destruct (Nat.ltb_spec a b); cbn [negb]; [|lia].
  rewrite (nth_error_nth' (m_joints m) b dJ), (nth_error_nth' (m_joints m) a dJ) by lia. fold (joint m b). now rewrite (checkMimic_none _ H).
Qed.
Lemma copyJoint_joints m ji jo t t' : copyJoint m ji jo t = Some t' -> t_joints t' = t_joints t.
Proof. unfold copyJoint. destruct (copySegs _ _ _ _ _); [|discriminate]. destruct (copySegs _ _ _ _ _); [|discriminate]. now intros [= <-]. Qed.
Lemma mimLoop1_joints m l t t' : mimLoop1 m l t = Some t' -> t_joints t' = t_joints t.
Proof.
  revert t. induction l as [|i l IH]; intros t; cbn [mimLoop1]; [now intros [= ->]|]. destruct (nth_error (m_joints m) i); [|discriminate]. destruct (nth_error (t_joints t) i); [|discriminate].
  destruct (copyJoint m j j0 t) eqn:Ec; [|discriminate]. intros H. rewrite (IH _ H). eapply copyJoint_joints; exact Ec.
Qed.
Lemma reject_universe out m b s o : wellFormed m -> forall m', transformJointIntoMimic out m 0 b s o <> Ok m' tt.
Proof.
  intros W m'. destruct (wf_lengths _ W) as (L1&L2&L3&_). unfold transformJointIntoMimic.
  destruct (Nat.leb_spec 0 (m_njoints m)); cbn [negb]; [|lia]. destruct (Nat.leb_spec b (m_njoints m)); cbn [negb]; [|discriminate]. destruct (Nat.ltb_spec 0 b); cbn [negb]; [|discriminate].
  destruct (nth_error (m_joints m) b) as [jb|] eqn:Eb; [|discriminate]. destruct (nth_error (m_joints m) 0) as [ja|]; [|discriminate].
  destruct (checkMimic (jm_type jb)) as [j|]; [|discriminate]. cbv zeta. rewrite Nat.eqb_refl.
  destruct (mimLoop1 _ _ _) as [t1|] eqn:E1; [|discriminate]. destruct (nth_error (m_idx_qs m) b) as [iq|]; [|discriminate]. destruct (nth_error (m_idx_vs m) b) as [iv|]; [|discriminate]. destruct (nth_error (m_subtrees m) b); [|discriminate].
  assert (Hb : b < m_njoints m) by (rewrite <- L3; apply nth_error_Some; congruence).
  apply mimLoop1_joints in E1. cbn [t_joints] in E1.
  assert (Hj : jm_id (joint m b) = b) by (apply (wf_joint _ W b); lia).
  assert (Ejb : jb = joint m b) by (rewrite (nth_error_nth' (m_joints m) b dJ) in Eb by lia; injection Eb as <-; reflexivity).
  destruct (m_njoints m - b) as [|k] eqn:Ek; [lia|]. cbn [seq mimLoop2]. rewrite Eb, E1.
  rewrite (nth_error_nth' _ b dJ) by (rewrite upd_length; lia). rewrite nth_upd, L3. destruct (Nat.ltb_spec b (m_njoints m)); [|lia]. rewrite Nat.eqb_refl. cbn [andb].
  subst jb. rewrite Hj. unfold setIndexes, mkMimic. cbn [isMimic jm_type jm_ref jm_id]. destruct (Nat.ltb_spec (m_njoints m) b); [lia|]. discriminate.
Qed.

(* ---- the statements about assembled models ---- *)
Lemma transform_all eps out m a b s o : Assembled eps m -> mimicPair m a b ->
  exists m', transformJointIntoMimic out m a b s o = Ok m' tt /\
  wellFormed m' /\ unchanged m m' b /\
  m_nq m' + nqOf m b = m_nq m /\ m_nv m' + nvOf m b = m_nv m /\
  (jm_ref (joint m' b) = a /\ nqOf m' b = 0 /\ nvOf m' b = 0 /\ exists j, jm_type (joint m b) = JSimple j /\ jm_type (joint m' b) = JMimic j s o) /\
  (forall i, 0 < i < m_njoints m -> i <> b -> isMimic (joint m i) = false ->
     idx_q m' i = (if i <? b then idx_q m i else idx_q m i - nqOf m b) /\ idx_v m' i = (if i <? b then idx_v m i else idx_v m i - nvOf m b)) /\
  m_mimicking m' = filter (fun i => isMimic (joint m' i)) (seq 1 (m_njoints m' - 1)) /\
  (let rv := removeSeg (idx_v m b) (nvOf m b) in let rq := removeSeg (idx_q m b) (nqOf m b) in
   m_effort m' = rv (m_effort m) /\ m_velocity m' = rv (m_velocity m) /\ m_armature m' = rv (m_armature m) /\ m_rotorInertia m' = rv (m_rotorInertia m) /\
   m_rotorGearRatio m' = rv (m_rotorGearRatio m) /\ m_friction m' = rv (m_friction m) /\ m_damping m' = rv (m_damping m) /\
   m_lower m' = rq (m_lower m) /\ m_upper m' = rq (m_upper m)).
Proof.
  intros A P. destruct (Assembled_good _ _ A) as [W T]. destruct (pair_ok m a b s o out W P) as (m' & E). exists m'. split; [exact E|]. exact (one_transform m a b s o out m' W T P E).
Qed.
Lemma transform_motion eps out m m' a b s o j q q' v v' d d' i : Assembled eps m -> validModel m -> mimicPair m a b -> transformJointIntoMimic out m a b s o = Ok m' tt ->
  jm_type (joint m b) = JSimple j -> sameConfigBut m m' b q q' -> driven j s o (shift (idx_q m a) q) (shift (idx_q m b) q) ->
  sameVelocityBut m m' b v v' -> v (idx_v m b) = (s * v (idx_v m a))%R -> 0 < i < m_njoints m ->
  pl (rows (forwardKinematics0 m' d' q') i) F_oMi = pl (rows (forwardKinematics0 m d q) i) F_oMi /\
  pl (rows (forwardKinematics1 m' d' q' v') i) F_oMi = pl (rows (forwardKinematics1 m d q v) i) F_oMi /\
  mo (rows (forwardKinematics1 m' d' q' v') i) F_v = mo (rows (forwardKinematics1 m d q v) i) F_v.
Proof.
  intros A V P E Ej C1 C2 C3 C4 Hi. destruct (Assembled_good _ _ A) as [W T].
  split; [eapply (motion_oMi m a b s o out m' W T P E V q q' j); eassumption | eapply (motion_fk1 m a b s o out m' W T P E V q q' j); eassumption].
Qed.
Lemma transform_acceleration eps out m m' a b s o j q q' v v' c c' d d' i : Assembled eps m -> validModel m -> mimicPair m a b -> transformJointIntoMimic out m a b s o = Ok m' tt ->
  jm_type (joint m b) = JSimple j -> ~ isHelical j -> sameConfigBut m m' b q q' -> driven j s o (shift (idx_q m a) q) (shift (idx_q m b) q) ->
  sameVelocityBut m m' b v v' -> v (idx_v m b) = (s * v (idx_v m a))%R ->
  sameVelocityBut m m' b c c' -> c (idx_v m b) = (s * c (idx_v m a))%R -> 0 < i < m_njoints m ->
  mo (rows (forwardKinematics2 m' d' q' v' c') i) F_a = mo (rows (forwardKinematics2 m d q v c) i) F_a.
Proof.
  intros A V P E Ej NH C1 C2 C3 C4 C5 C6 Hi. destruct (Assembled_good _ _ A) as [W T].
  apply (motion_fk2 m a b s o out m' W T P E V q q' j Ej C1 C2 v v' C3 C4 c c' C5 C6 NH d d' i Hi).
Qed.
Lemma references_kept eps out m m' a b s o n (r : list R) : Assembled eps m -> mimicPair m a b ->
  transformJointIntoMimic out m a b s o = Ok m' tt -> In (n, r) (m_refs m) -> length r = m_nq m -> In (n, r) (m_refs m') /\ length r <> m_nq m'.
Proof.
  intros A P E Hin Hl. destruct (Assembled_good _ _ A) as [W T]. destruct (one_transform m a b s o out m' W T P E) as (_ & U & Nq & _).
  destruct U as [_ _ (_ & _ & _ & _ & _ & -> & _) _]. split; [exact Hin|].
  assert (0 < nqOf m b). { destruct P as ((P1 & P1') & P2 & _ & (j & P3 & P4 & _) & _). destruct (wf_joint _ W b ltac:(lia)) as (_&_&_&_&D&_). rewrite <- D, P3. destruct j; cbn in P4; try tauto; cbn; lia. }
  lia.
Qed.
