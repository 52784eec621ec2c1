Require Import Reals String List Arith Bool Lia Lra.
From Verif Require Import Vec3 Spatial Joints Spec_Joints Model Spec_Model ModelFacts ModelFacts2 ModelFacts3 ModelTree ReduceFacts Kinematics LieGroup Spec_Srdf Srdf SrdfFacts SrdfRotor.
Import ListNotations.
Local Open Scope nat_scope.

Section Rotor.
Variable m : Model.
Hypothesis W : wellFormed m.
Hypothesis ND : NoDup (m_names m).

Lemma vranges i j k : 0 < i < m_njoints m -> 0 < j < m_njoints m -> i <> j -> isMimic (joint m i) = false -> isMimic (joint m j) = false -> k < nvOf m i ->
  idx_v m i + k < idx_v m j \/ idx_v m j + nvOf m j <= idx_v m i + k.
Proof.
  intros Hi Hj N Mi Mj Hk. destruct (wf_range _ W i Hi Mi) as [_ Ei], (wf_range _ W j Hj Mj) as [_ Ej].
  destruct (wf_lengths _ W) as (_&_&_&_&_&_&Ln&_). unfold nvOf in *.
  pose proof (sum_firstn_S (m_nvs m) i ltac:(lia)). pose proof (sum_firstn_S (m_nvs m) j ltac:(lia)).
  destruct (Nat.lt_total i j) as [L|[L|L]]; [left|lia|right].
  - pose proof (sum_firstn_mono (m_nvs m) (S i) j ltac:(lia)). lia.
  - pose proof (sum_firstn_mono (m_nvs m) (S j) i ltac:(lia)). lia.
Qed.
Lemma vrange_total i : 0 < i < m_njoints m -> isMimic (joint m i) = false -> idx_v m i + nvOf m i <= m_nv m.
Proof.
  intros Hi Mi. destruct (wf_range _ W i Hi Mi) as [_ Ei]. destruct (wf_total _ W) as (_ & E & _). destruct (wf_lengths _ W) as (_&_&_&_&_&_&Ln&_). unfold nvOf.
  pose proof (sum_firstn_S (m_nvs m) i ltac:(lia)). pose proof (sum_firstn_mono (m_nvs m) (S i) (length (m_nvs m)) ltac:(lia)). rewrite firstn_all in *. lia.
Qed.
Lemma mimic_nv i : isMimic (joint m i) = true -> jnv (jm_type (joint m i)) = 0.
Proof. unfold isMimic. destruct (jm_type (joint m i)); try discriminate. reflexivity. Qed.

Definition sized (s : Rotors) : Prop := length (ro_armature s) = m_nv m /\ length (ro_inertia s) = m_nv m /\ length (ro_ratio s) = m_nv m.
Lemma rotor_step s s' nm Ir g : sized s -> readRotor m s (nm, (Ir, g)) = Ok s' tt ->
  sized s' /\ forall i k, 0 < i < m_njoints m -> isMimic (joint m i) = false -> k < nvOf m i ->
    let p := idx_v m i + k in
    nth p (ro_armature s') 0%R = (nth p (ro_armature s) 0 + if String.eqb nm (nth i (m_names m) ""%string) then Ir * g * g else 0)%R /\
    nth p (ro_inertia s') 0%R = (if String.eqb nm (nth i (m_names m) ""%string) then Ir else nth p (ro_inertia s) 0%R) /\
    nth p (ro_ratio s') 0%R = (if String.eqb nm (nth i (m_names m) ""%string) then g else nth p (ro_ratio s) 0%R) /\
    (nm = nth i (m_names m) ""%string -> nvOf m i = 1).
Proof.
  intros (S1 & S2 & S3) H. destruct (wf_lengths _ W) as (_&_&L3&_). unfold readRotor in H. cbn [fst snd] in H. rewrite L3 in H.
  destruct (getJointId_spec m nm W) as (_ & _ & G3 & _).
  destruct (Nat.eqb_spec (getJointId m nm) (m_njoints m)) as [E|E].
  - injection H as <-. split; [repeat split; assumption|]. intros i k Hi Mi Hk p.
    destruct (String.eqb_spec nm (nth i (m_names m) ""%string)) as [En|En]; [exfalso; assert (getJointId m nm = i) by (apply (id_name m W ND nm i (proj2 Hi)); now symmetry); lia|].
    repeat split; [ring | contradiction].
  - destruct (Nat.eqb_spec (getJointId m nm) 0) as [Z|Z]; [discriminate|]. set (j := getJointId m nm) in *. assert (Hj : 0 < j < m_njoints m) by lia.
    replace (nth j (m_joints m) (freshJoint (JSimple (JRevolute 0)))) with (joint m j) in H by (unfold joint; apply nth_indep; lia). cbv zeta in H.
    destruct (wf_joint _ W j Hj) as (_ & _ & Ev & _ & _ & En & _). rewrite Ev, En in H.
    destruct (Nat.eqb_spec (nvOf m j) 1) as [N1|]; [|discriminate]. cbn [negb] in H. injection H as <-.
    assert (Mj : isMimic (joint m j) = false) by (destruct (isMimic (joint m j)) eqn:Q; [pose proof (mimic_nv j Q); lia | reflexivity]).
    pose proof (vrange_total j Hj Mj) as Tj.
    split; [unfold sized; cbn; rewrite !upd_length; auto|]. intros i k Hi Mi Hk p. cbn [ro_armature ro_inertia ro_ratio]. rewrite !nth_upd, S1, S2, S3.
    replace (idx_v m j <? m_nv m) with true by (symmetry; apply Nat.ltb_lt; lia).
    destruct (String.eqb_spec nm (nth i (m_names m) ""%string)) as [Em|Em].
    + assert (Eij : j = i) by (apply (id_name m W ND nm i (proj2 Hi)); now symmetry). assert (Ei : idx_v m i = idx_v m j) by (rewrite Eij; reflexivity). assert (Ni : nvOf m i = 1) by (rewrite <- Eij; exact N1). assert (k = 0) by lia. subst k. unfold p. rewrite Ei, Nat.add_0_r, Nat.eqb_refl. cbn [andb]. auto.
    + assert (Nij : i <> j) by (intros ->; apply Em; symmetry; apply (id_name m W ND nm j (proj2 Hi)); reflexivity).
      pose proof (vranges i j k Hi Hj Nij Mi Mj Hk) as R. unfold p. destruct (Nat.eqb_spec (idx_v m i + k) (idx_v m j)); [lia|]. cbn [andb]. repeat split; [ring | contradiction].
Qed.
Definition runR (es : list (string * (R * R))) (o : Res Rotors unit) : Res Rotors unit := fold_left (fun o e => match o with Ok s _ => readRotor m s e | x => x end) es o.
Lemma runR_throw es : forall s s', runR es (Throw s) = Ok s' tt -> False.
Proof. induction es as [|x es IH]; intros s s' H; [discriminate H | exact (IH s s' H)]. Qed.
Lemma runR_undef es : forall s', runR es Undef = Ok s' tt -> False.
Proof. induction es as [|x es IH]; intros s' H; [discriminate H | exact (IH s' H)]. Qed.
Lemma rotor_values es : forall s s', sized s -> NoDup (map fst es) -> runR es (Ok s tt) = Ok s' tt ->
  forall i k, 0 < i < m_njoints m -> isMimic (joint m i) = false -> k < nvOf m i ->
    let p := idx_v m i + k in
    match lookup (nth i (m_names m) ""%string) es with
    | Some (Ir, g) => nvOf m i = 1 /\ nth p (ro_armature s') 0%R = (nth p (ro_armature s) 0 + Ir * g * g)%R /\ nth p (ro_inertia s') 0%R = Ir /\ nth p (ro_ratio s') 0%R = g
    | None => nth p (ro_armature s') 0%R = nth p (ro_armature s) 0%R /\ nth p (ro_inertia s') 0%R = nth p (ro_inertia s) 0%R /\ nth p (ro_ratio s') 0%R = nth p (ro_ratio s) 0%R
    end.
Proof.
  induction es as [|[nm [Ir g]] es IH]; intros s s' Sz Nd H i k Hi Mi Hk p; [cbn in H; injection H as <-; cbn [lookup]; repeat split|].
  cbn [map fst] in Nd. apply NoDup_cons_iff in Nd. destruct Nd as [N1 N2]. unfold runR in H. cbn [fold_left] in H.
  destruct (readRotor m s (nm, (Ir, g))) as [s1 []|s1|] eqn:E1.
  2: destruct (runR_throw es s1 s' H).
  2: destruct (runR_undef es s' H).
  destruct (rotor_step s s1 nm Ir g Sz E1) as (Sz1 & St). specialize (St i k Hi Mi Hk). cbv zeta in St. fold p in St. destruct St as (A & B & C & D).
  pose proof (IH s1 s' Sz1 N2 H i k Hi Mi Hk) as R. cbv zeta in R. fold p in R. cbn [lookup].
  destruct (String.eqb_spec nm (nth i (m_names m) ""%string)) as [En|En].
  - assert (Nl : lookup (nth i (m_names m) ""%string) es = None).
    { rewrite <- En. clear - N1. induction es as [|[x y] es IH]; [reflexivity|]. cbn in *. destruct (String.eqb_spec x nm); [exfalso; apply N1; auto | apply IH; intros h; apply N1; auto]. }
    rewrite Nl in R. destruct R as (R1 & R2 & R3). rewrite R1, R2, R3. auto.
  - rewrite A, B, C, Rplus_0_r in R. exact R.
Qed.
Lemma runR_sized es : forall s s', sized s -> runR es (Ok s tt) = Ok s' tt -> sized s'.
Proof.
  induction es as [|[nm [Ir g]] es IH]; intros s s' Sz H; [cbn in H; injection H as <-; exact Sz|].
  unfold runR in H. cbn [fold_left] in H. destruct (readRotor m s (nm, (Ir, g))) as [s1 []|s1|] eqn:E1.
  2: destruct (runR_throw es s1 s' H).
  2: destruct (runR_undef es s' H).
  exact (IH s1 s' (proj1 (rotor_step s s1 nm Ir g Sz E1)) H).
Qed.
End Rotor.

Theorem rotors_loaded eps m es s s' : Built eps m -> NoDup (m_names m) -> NoDup (map fst es) ->
  length (ro_armature s) = m_nv m -> length (ro_inertia s) = m_nv m -> length (ro_ratio s) = m_nv m -> loadRotors m es s = Ok s' tt ->
  forall i k, 0 < i < m_njoints m -> isMimic (joint m i) = false -> k < nvOf m i ->
    let p := idx_v m i + k in
    match lookup (nth i (m_names m) ""%string) es with
    | Some (Ir, g) => nvOf m i = 1 /\ nth p (ro_armature s') 0%R = (nth p (ro_armature s) 0 + Ir * g * g)%R /\ nth p (ro_inertia s') 0%R = Ir /\ nth p (ro_ratio s') 0%R = g
    | None => nth p (ro_armature s') 0%R = nth p (ro_armature s) 0%R /\ nth p (ro_inertia s') 0%R = nth p (ro_inertia s) 0%R /\ nth p (ro_ratio s') 0%R = nth p (ro_ratio s) 0%R
    end.
Proof. intros B ND Ne S1 S2 S3 H. exact (rotor_values m (Built_wf _ _ B) ND es s s' (conj S1 (conj S2 S3)) Ne H). Qed.

Theorem rotors_twice eps m es s s1 s2 : Built eps m -> NoDup (m_names m) -> NoDup (map fst es) ->
  length (ro_armature s) = m_nv m -> length (ro_inertia s) = m_nv m -> length (ro_ratio s) = m_nv m -> loadRotors m es s = Ok s1 tt -> loadRotors m es s1 = Ok s2 tt ->
  forall i Ir g, 0 < i < m_njoints m -> isMimic (joint m i) = false -> nvOf m i = 1 -> lookup (nth i (m_names m) ""%string) es = Some (Ir, g) ->
    nth (idx_v m i) (ro_armature s2) 0%R = (nth (idx_v m i) (ro_armature s) 0 + 2 * (Ir * g * g))%R.
Proof.
  intros B ND Ne S1 S2 S3 H1 H2 i Ir g Hi Mi Nv El.
  destruct (runR_sized m (Built_wf _ _ B) ND es s s1 (conj S1 (conj S2 S3)) H1) as (T1 & T2 & T3).
  pose proof (rotors_loaded eps m es s s1 B ND Ne S1 S2 S3 H1 i 0 Hi Mi ltac:(lia)) as A.
  pose proof (rotors_loaded eps m es s1 s2 B ND Ne T1 T2 T3 H2 i 0 Hi Mi ltac:(lia)) as C.
  cbv zeta in A, C. rewrite El, Nat.add_0_r in A, C. destruct A as (_ & A & _), C as (_ & C & _). rewrite C, A. ring.
Qed.

Definition roTags : list (string * (R * R)) := [("a", (2, 3)); ("nobody", (1, 1))]%string%R.
Definition roZero : Rotors := mkRotors [0%R] [0%R] [1%R].
Lemma ro_ex eps : Built eps ex1 /\ NoDup (m_names ex1) /\ NoDup (map fst roTags) /\ length (ro_armature roZero) = m_nv ex1 /\
  loadRotors ex1 roTags roZero = Ok (mkRotors [(0 + 2 * 3 * 3)%R] [2%R] [3%R]) tt.
Proof.
  split; [exists []; apply ex1_history|]. split; [repeat constructor; cbn; intuition discriminate|]. split; [repeat constructor; cbn; intuition discriminate|]. split; reflexivity.
Qed.
(* loading the same file twice *)
Lemma ro_twice : exists s1 s2, loadRotors ex1 roTags roZero = Ok s1 tt /\ loadRotors ex1 roTags s1 = Ok s2 tt /\
  nth 0 (ro_armature s1) 0%R = 18%R /\ nth 0 (ro_armature s2) 0%R = 36%R.
Proof. eexists _, _. split; [reflexivity|]. split; [reflexivity|]. cbn. split; ring. Qed.
