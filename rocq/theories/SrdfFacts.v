Require Import Reals String List Arith Bool Lia Lra.
From Verif Require Import Vec3 Spatial Joints Spec_Joints Model Spec_Model ModelFacts ModelFacts2 ModelFacts3 ModelTree ReduceFacts Kinematics LieGroup Srdf Spec_Srdf.
Import ListNotations.
Local Open Scope nat_scope.

Lemma writeSeg_in i n x q k : k < n -> writeSeg i n x q (i + k) = x k.
Proof. intros H. unfold writeSeg. replace (i <=? i + k) with true by (symmetry; apply Nat.leb_le; lia). replace (i + k <? i + n) with true by (symmetry; apply Nat.ltb_lt; lia). cbn. f_equal. lia. Qed.
Lemma writeSeg_out i n x q k : k < i \/ i + n <= k -> writeSeg i n x q k = q k.
Proof. intros H. unfold writeSeg. destruct (Nat.leb_spec i k), (Nat.ltb_spec k (i + n)); cbn; try reflexivity; lia. Qed.

Section Read.
Variable m : Model.
Hypothesis W : wellFormed m.

Lemma ranges i j k : 0 < i < m_njoints m -> 0 < j < m_njoints m -> i <> j -> isMimic (joint m i) = false -> isMimic (joint m j) = false -> k < nqOf m i ->
  idx_q m i + k < idx_q m j \/ idx_q m j + nqOf m j <= idx_q m i + k.
Proof.
  intros Hi Hj N Mi Mj Hk. destruct (wf_range _ W i Hi Mi) as [Ei _], (wf_range _ W j Hj Mj) as [Ej _].
  destruct (wf_lengths _ W) as (_&_&_&_&Ln&_). unfold nqOf in *.
  pose proof (sum_firstn_S (m_nqs m) i ltac:(lia)). pose proof (sum_firstn_S (m_nqs m) j ltac:(lia)).
  destruct (Nat.lt_total i j) as [L|[L|L]]; [left|lia|right].
  - pose proof (sum_firstn_mono (m_nqs m) (S i) j ltac:(lia)). lia.
  - pose proof (sum_firstn_mono (m_nqs m) (S j) i ltac:(lia)). lia.
Qed.
Lemma mimic_nq i : isMimic (joint m i) = true -> jnq (jm_type (joint m i)) = 0.
Proof. unfold isMimic. destruct (jm_type (joint m i)); try discriminate. reflexivity. Qed.

(* the effect of one tag on joint j *)
Lemma read_cases q e : getJointId m (fst e) <> 0 -> exists q', readEntry m q e = Some q' /\
  ((getJointId m (fst e) = m_njoints m /\ q' = q) \/
   (0 < getJointId m (fst e) < m_njoints m /\ let j := getJointId m (fst e) in
      match denoted (jm_type (joint m j)) (snd e) with
      | Some w => length w = nqOf m j /\ q' = writeSeg (idx_q m j) (nqOf m j) (fun k => nth k w 0%R) q
      | None => q' = q end)).
Proof.
  intros H0. destruct (wf_lengths _ W) as (_&_&L3&_). destruct (getJointId_spec m (fst e) W) as (_ & _ & G3 & _).
  unfold readEntry. rewrite L3. destruct (Nat.eqb_spec (getJointId m (fst e)) (m_njoints m)) as [E|E]; [exists q; auto|].
  destruct (Nat.eqb_spec (getJointId m (fst e)) 0) as [Z|_]; [contradiction|]. set (j := getJointId m (fst e)) in *.
  assert (Hj : 0 < j < m_njoints m) by lia. destruct (wf_joint _ W j Hj) as (_ & Eq & _ & _ & En & _).
  replace (nth j (m_joints m) (freshJoint (JSimple (JRevolute 0)))) with (joint m j) by (unfold joint; apply nth_indep; lia).
  cbv zeta. rewrite Eq, <- En.
  assert (Gen : forall t, jm_type (joint m j) = t -> exists q',
    (if jnq t =? length (snd e) then Some (writeSeg (idx_q m j) (jnq t) (fun k => nth k (snd e) 0%R) q) else Some q) = Some q' /\
    (j = m_njoints m /\ q' = q \/ 0 < j < m_njoints m /\
      match (if length (snd e) =? jnq t then Some (snd e) else None) with
      | Some w => length w = jnq t /\ q' = writeSeg (idx_q m j) (jnq t) (fun k => nth k w 0%R) q | None => q' = q end)).
  { intros t _. rewrite (Nat.eqb_sym (length (snd e))). destruct (Nat.eqb_spec (jnq t) (length (snd e))); eexists; (split; [reflexivity|]); right; auto. }
  destruct (jm_type (joint m j)) as [s|s a b|l] eqn:Et; try (exact (Gen _ eq_refl)).
  destruct s; try (exact (Gen _ eq_refl)). unfold denoted.
  destruct (snd e) as [|x [|y r]]; eexists; (split; [reflexivity|]); right; auto.
Qed.
Lemma read_other q q' e i k : getJointId m (fst e) <> 0 -> readEntry m q e = Some q' -> 0 < i < m_njoints m -> isMimic (joint m i) = false -> k < nqOf m i ->
  getJointId m (fst e) <> i -> q' (idx_q m i + k) = q (idx_q m i + k).
Proof.
  intros H0 E Hi Mi Hk N. destruct (read_cases q e H0) as (q1 & E1 & [(_ & ->)|(Hj & R)]); rewrite E in E1; injection E1 as E1; [now rewrite E1|]. rewrite <- E1 in R. clear E1 q1. cbv zeta in R.
  set (j := getJointId m (fst e)) in *. destruct (denoted (jm_type (joint m j)) (snd e)) as [w|]; [|now rewrite R]. destruct R as [Lw ->].
  destruct (isMimic (joint m j)) eqn:Mj.
  - destruct (wf_joint _ W j Hj) as (_ & _ & _ & _ & En & _). rewrite <- En, (mimic_nq j Mj). apply writeSeg_out. lia.
  - apply writeSeg_out. exact (ranges i j k Hi Hj ltac:(congruence) Mi Mj Hk).
Qed.
Definition run (es : list (string * list R)) (o : option vec) : option vec := fold_left (fun o e => match o with Some q => readEntry m q e | None => None end) es o.
Lemma run_other es : forall q, (forall e, In e es -> getJointId m (fst e) <> 0) -> exists q', run es (Some q) = Some q' /\
  forall i k, 0 < i < m_njoints m -> isMimic (joint m i) = false -> k < nqOf m i -> (forall e, In e es -> getJointId m (fst e) <> i) -> q' (idx_q m i + k) = q (idx_q m i + k).
Proof.
  induction es as [|e es IH]; intros q H0; [exists q; auto|].
  destruct (read_cases q e (H0 e (or_introl eq_refl))) as (q1 & E1 & _). destruct (IH q1 (fun x Hx => H0 x (or_intror Hx))) as (q' & E' & R).
  exists q'. split; [unfold run in *; cbn [fold_left]; rewrite E1; exact E'|]. intros i k Hi Mi Hk N.
  rewrite (R i k Hi Mi Hk (fun x Hx => N x (or_intror Hx))). exact (read_other q q1 e i k (H0 e (or_introl eq_refl)) E1 Hi Mi Hk (N e (or_introl eq_refl))).
Qed.

Hypothesis ND : NoDup (m_names m).
Lemma id_name nm i : i < m_njoints m -> (getJointId m nm = i <-> nth i (m_names m) ""%string = nm).
Proof.
  intros Hi. destruct (wf_lengths _ W) as (_&_&_&_&_&_&_&_&_&_&_&L12&_). split; intros H.
  - destruct (getJointId_spec m nm W) as (G1 & _). destruct (G1 i H Hi) as [G _]. exact (nth_error_nth _ _ ""%string G).
  - apply (getJointId_unique m i nm W ND). rewrite <- H. apply nth_error_nth'. lia.
Qed.
Lemma run_values es : forall q, (forall e, In e es -> getJointId m (fst e) <> 0) -> NoDup (map fst es) -> exists q', run es (Some q) = Some q' /\
  forall i k, 0 < i < m_njoints m -> isMimic (joint m i) = false -> k < nqOf m i ->
    q' (idx_q m i + k) = match lookup (nth i (m_names m) ""%string) es with
                         | Some vals => match denoted (jm_type (joint m i)) vals with Some w => nth k w 0%R | None => q (idx_q m i + k) end
                         | None => q (idx_q m i + k) end.
Proof.
  induction es as [|e es IH]; intros q H0 Nd; [exists q; auto|]. inversion Nd as [|a b N1 N2]; subst.
  destruct (read_cases q e (H0 e (or_introl eq_refl))) as (q1 & E1 & C). destruct (IH q1 (fun x Hx => H0 x (or_intror Hx)) N2) as (q' & E' & R).
  destruct (run_other es q1 (fun x Hx => H0 x (or_intror Hx))) as (q2 & E2 & R2). rewrite E' in E2. injection E2 as <-.
  exists q'. split; [unfold run in *; cbn [fold_left]; rewrite E1; exact E'|]. intros i k Hi Mi Hk. destruct e as [nm vals]. cbn [lookup fst snd] in *.
  destruct (String.eqb_spec nm (nth i (m_names m) ""%string)) as [En|En].
  - rewrite (R2 i k Hi Mi Hk).
    2: { intros x Hx Ex. apply (id_name (fst x) i (proj2 Hi)) in Ex. apply N1. rewrite En, Ex. apply in_map. exact Hx. }
    assert (Ei : getJointId m nm = i) by (apply id_name; [lia | now symmetry]). rewrite Ei in C.
    destruct C as [(Z & _)|(_ & C)]; [lia|]. cbv zeta in C. destruct (denoted (jm_type (joint m i)) vals) as [w|]; [|now rewrite C].
    destruct C as [Lw ->]. apply writeSeg_in. exact Hk.
  - assert (Eo : q1 (idx_q m i + k) = q (idx_q m i + k)).
    { apply (read_other q q1 (nm, vals) i k (H0 _ (or_introl eq_refl)) E1 Hi Mi Hk). cbn [fst]. intros Ex. apply (id_name nm i (proj2 Hi)) in Ex. congruence. }
    rewrite (R i k Hi Mi Hk), Eo. reflexivity.
Qed.
End Read.

Theorem state_values eps m es : Built eps m -> NoDup (m_names m) -> NoDup (map fst es) -> ~ In (nth 0 (m_names m) ""%string) (map fst es) ->
  exists q, readState m es = Some q /\
  forall i k, 0 < i < m_njoints m -> isMimic (joint m i) = false -> k < nqOf m i ->
    q (idx_q m i + k) = match lookup (nth i (m_names m) ""%string) es with
                        | Some vals => match denoted (jm_type (joint m i)) vals with Some w => nth k w 0%R | None => neutral m (fun _ => 0%R) (idx_q m i + k) end
                        | None => neutral m (fun _ => 0%R) (idx_q m i + k) end.
Proof.
  intros B ND Ne N0. pose proof (Built_wf _ _ B) as W. apply (run_values m W ND es); [|exact Ne].
  intros e He Z. apply (id_name m W ND _ 0 (wf_n _ W)) in Z. apply N0. rewrite Z. apply in_map. exact He.
Qed.

(* ---- repeated names ---- *)
Lemma lookup_app {A} n (a b : list (string * A)) : lookup n (a ++ b) = match lookup n a with Some x => Some x | None => lookup n b end.
Proof. induction a as [|[x y] a IH]; [reflexivity|]. cbn. destruct (String.eqb x n); [reflexivity | exact IH]. Qed.
Lemma exists_lookup {A} n (l : list (string * A)) : existsb (fun r => String.eqb (fst r) n) l = match lookup n l with Some _ => true | None => false end.
Proof. induction l as [|[x y] l IH]; [reflexivity|]. cbn. destruct (String.eqb x n); [reflexivity | exact IH]. Qed.
Lemma insert_lookup n q refs n' : lookup n' (insertRef n q refs) = match lookup n' refs with Some x => Some x | None => if String.eqb n n' then Some q else None end.
Proof.
  unfold insertRef. rewrite exists_lookup. destruct (lookup n refs) as [x|] eqn:E.
  - destruct (String.eqb_spec n n') as [<-|]; [now rewrite E | destruct (lookup n' refs); reflexivity].
  - rewrite lookup_app. cbn. destruct (lookup n' refs); reflexivity.
Qed.
Theorem load_first m states : forall refs refs', loadReferences m states refs = Some refs' ->
  forall n, lookup n refs' = match lookup n refs with Some x => Some x | None => match lookup n states with Some es => readState m es | None => None end end.
Proof.
  induction states as [|[s es] r IH]; intros refs refs' H n.
  - injection H as <-. cbn. destruct (lookup n refs); reflexivity.
  - unfold loadReferences in H. cbn [fold_left fst snd] in H. destruct (readState m es) as [q|] eqn:Eq.
    + rewrite (IH _ _ H n), insert_lookup. cbn [lookup]. destruct (lookup n refs); [reflexivity|]. destruct (String.eqb s n); [now rewrite Eq | reflexivity].
    + exfalso. clear - H. induction r as [|x r IH]; cbn in H; [discriminate | exact (IH H)].
Qed.
