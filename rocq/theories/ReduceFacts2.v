(* Locking joints: the invariant on the joints of the reduced model, and the steps that keep it. *)
Require Import Reals String List Arith Bool Lia Lra Sorted.
From Verif Require Import Vec3 Spatial Inertia InertiaFacts Joints Spec_Joints Model Spec_Model ModelFacts ModelFacts2 ModelTree ModelFacts3 Spec_Kin Mimic MimicFacts Reduce Spec_Append AppendFacts AppendFacts2 AppendFacts3 ReduceFacts.
Import ListNotations.
Local Open Scope nat_scope.

Lemma NoDup_map_names m l : wellFormed m -> NoDup (m_names m) -> NoDup l -> (forall x, In x l -> x < m_njoints m) -> NoDup (map (nameOf m) l).
Proof.
  intros W ND H Hr. induction H as [|x l Hx H IH]; cbn; [constructor|]. constructor; [|apply IH; intros y Hy; apply Hr; now right].
  intros Hin. apply in_map_iff in Hin. destruct Hin as (y & E & Hy). apply Hx.
  destruct (wf_lengths _ W) as (_&_&_&_&_&_&_&_&_&_&_&L12&_).
  assert (y = x); [|now subst]. apply (proj1 (NoDup_nth (m_names m) ""%string) ND); [rewrite L12; apply Hr; now right | rewrite L12; apply Hr; now left | exact E].
Qed.
Lemma attachedMatrix_none j l : (forall x, In x l -> fst (fst x) <> j) -> attachedMatrix j l = inertia_matrix inertia_Zero /\ attachedMass j l = 0%R.
Proof.
  induction l as [|[[k pl] Y] l IH]; intros H; cbn; [split; reflexivity|]. destruct (Nat.eqb_spec k j) as [->|]; [exfalso; apply (H (j, pl, Y)); [now left | reflexivity]|].
  apply IH. intros x Hx. apply H. now right.
Qed.

Section Reduce.
Variables (eps : R) (m : Model) (lk : list nat) (q0 : nat -> R).
Hypotheses (W : wellFormed m) (T : treeInv m) (PR : plainRefs m) (WN : wellNamed m) (LO : lockable m lk).
Let HL := lo_joints _ _ LO.
Notation NI := (newIx lk).
Notation AF := (ancF m lk q0).

Definition mkIt (k : nat) : Item :=
  mkItem m k (NI (fst (AF (parent m k)))) (se3_mul (snd (AF (parent m k))) (placementOf m k)) (NI (jm_ref (joint m k))).
Definition itemsOf (i : nat) : list Item := map mkIt (keptList lk i).
Definition bodies (i : nat) : list (nat * SE3 * Inertia) := map (fun k => (NI (fst (AF k)), snd (AF k), inertiaOf m k)) (seq 0 i).
Definition regular (Y : Inertia) : Prop := (mass Y = 0 \/ eps <= mass Y)%R.

Record JInv (i : nat) (r : Model) : Prop := {
  ji_lay : Layout r (itemsOf i);
  ji_names : m_names r = nameOf m 0 :: map (nameOf m) (keptList lk i);
  ji_const : m_gravity r = m_gravity m /\ m_name r = m_name m;
  ji_mass : totalMass r = massSum (bodies i);
  ji_body : (0 < eps)%R -> (forall k, k < m_njoints m -> regular (inertiaOf m k)) -> forall j, j < m_njoints r ->
     inertia_matrix (inertiaOf r j) = attachedMatrix j (bodies i) /\ mass (inertiaOf r j) = attachedMass j (bodies i) /\ regular (inertiaOf r j)
}.

Lemma items_S i : 0 < i -> itemsOf (S i) = itemsOf i ++ (if keptb lk i then [mkIt i] else []).
Proof. intros H. unfold itemsOf. rewrite keptList_S, map_app by exact H. destruct (keptb lk i); reflexivity. Qed.
Lemma bodies_S i : bodies (S i) = bodies i ++ [(NI (fst (AF i)), snd (AF i), inertiaOf m i)].
Proof. unfold bodies. rewrite List.seq_S, map_app. reflexivity. Qed.
Lemma item_nth i a : 0 < a < i -> keptb lk a = true -> nth_error (itemsOf i) (NI a - 1) = Some (mkIt a).
Proof. intros Ha Hk. unfold itemsOf. rewrite nth_error_map, (keptList_nth lk i a Ha Hk). reflexivity. Qed.
Lemma njoints_r i r : JInv i r -> m_njoints r = S (length (keptList lk i)).
Proof. intros J. rewrite (lay_n _ _ (ji_lay _ _ J)). unfold itemsOf. now rewrite map_length. Qed.
Lemma mimic_ok i j s o : 0 < i < m_njoints m -> keptb lk i = true -> jm_type (joint m i) = JMimic j s o ->
  0 < jm_ref (joint m i) < i /\ keptb lk (jm_ref (joint m i)) = true.
Proof.
  intros Hi Hk E. pose proof (wf_mimic _ W i j s o Hi E) as (_ & H & _). split; [exact H|]. apply keptb_In, (lo_mimic _ _ LO i Hi); [now apply keptb_In|].
  unfold isMimic. now rewrite E.
Qed.
Lemma isMimic_inv jm : isMimic jm = true -> exists j s o, jm_type jm = JMimic j s o.
Proof. unfold isMimic. destruct (jm_type jm); try discriminate. eauto. Qed.
Lemma Linked_items i : i <= m_njoints m -> Linked (itemsOf i).
Proof.
  intros Hi n it Hn Hm. unfold itemsOf in Hn. rewrite nth_error_map in Hn. destruct (nth_error (keptList lk i) n) as [a|] eqn:Ea; [|discriminate].
  injection Hn as <-. cbn [mkIt it_src it_ix it_ref] in *. apply nth_error_In, keptList_In in Ea. destruct Ea as [Ha Hk].
  destruct (isMimic_inv _ Hm) as (j & s & o & E). destruct (mimic_ok a j s o ltac:(lia) Hk E) as [H1 H2].
  exists (NI (jm_ref (joint m a)) - 1), (mkIt (jm_ref (joint m a))). split; [|split; [|split; reflexivity]].
  - pose proof (newIx_pos lk _ (proj1 H1) H2). lia.
  - apply item_nth; [lia | exact H2].
Qed.
Lemma keptList_NoDup i : NoDup (0 :: keptList lk i).
Proof. constructor; [rewrite keptList_In; lia|]. unfold keptList. apply NoDup_filter, seq_NoDup. Qed.
Lemma names_NoDup i r : i <= m_njoints m -> JInv i r -> NoDup (m_names r).
Proof.
  intros Hi J. rewrite (ji_names _ _ J). change (nameOf m 0 :: map (nameOf m) (keptList lk i)) with (map (nameOf m) (0 :: keptList lk i)).
  apply (NoDup_map_names m _ W (wn_joints _ WN)); [apply keptList_NoDup|]. pose proof (wf_n _ W). intros x [<-|Hx]; [lia|]. apply keptList_In in Hx. lia.
Qed.
Lemma names_nth i r a : JInv i r -> a < i -> (a = 0 \/ keptb lk a = true) -> nth_error (m_names r) (NI a) = Some (nameOf m a).
Proof.
  intros J Ha Hk. rewrite (ji_names _ _ J). destruct (Nat.eq_dec a 0) as [->|]; [reflexivity|]. destruct Hk as [|Hk]; [contradiction|].
  pose proof (newIx_pos lk a ltac:(lia) Hk). replace (NI a) with (S (NI a - 1)) by lia. cbn [nth_error]. rewrite nth_error_map, (keptList_nth lk i a ltac:(lia) Hk). reflexivity.
Qed.
Lemma findJoint i r a : i <= m_njoints m -> JInv i r -> a < i -> (a = 0 \/ keptb lk a = true) ->
  getJointId r (nameOf m a) = NI a /\ existJointName r (nameOf m a) = true.
Proof.
  intros Hi J Ha Hk. apply getJointId_unique; [apply (lay_wf _ _ (ji_lay _ _ J)) | apply (names_NoDup i r Hi J) | now apply (names_nth i r a J)].
Qed.
Lemma noJoint i r a : i <= m_njoints m -> JInv i r -> In a lk -> existJointName r (nameOf m a) = false.
Proof.
  intros Hi J Ha. apply not_true_is_false. intros H. apply (getJointId_spec r (nameOf m a) (lay_wf _ _ (ji_lay _ _ J))) in H.
  rewrite (ji_names _ _ J) in H. change (nameOf m 0 :: map (nameOf m) (keptList lk i)) with (map (nameOf m) (0 :: keptList lk i)) in H.
  apply in_map_iff in H. destruct H as (b & E & Hb). pose proof (wf_n _ W). destruct (wf_lengths _ W) as (_&_&_&_&_&_&_&_&_&_&_&L12&_).
  assert (b < m_njoints m) by (destruct Hb as [<-|Hb]; [lia|]; apply keptList_In in Hb; lia).
  assert (Eb : b = a) by (apply (proj1 (NoDup_nth (m_names m) ""%string) (wn_joints _ WN)); [lia | rewrite L12; apply HL, Ha | exact E]).
  subst b. destruct Hb as [<-|Hb]; [specialize (HL 0 Ha); lia|]. apply keptList_In in Hb. destruct Hb as [_ Hb]. apply keptb_In in Hb. contradiction.
Qed.
Lemma anc_lt i r k : i <= m_njoints m -> JInv i r -> k < i -> NI (fst (AF k)) < m_njoints r.
Proof.
  intros Hi J Hk. rewrite (njoints_r i r J). destruct (ancF_le m lk q0 W HL k ltac:(lia)) as [A1 A2]. apply newIx_lt; [lia | exact A2].
Qed.

(* a joint that is kept *)
Lemma keep_ok i r : 0 < i < m_njoints m -> JInv i r -> keptb lk i = true ->
  exists r', keepJoint eps m r i (nameOf m i) (joint m i) (NI (fst (AF (parent m i)))) (snd (AF (parent m i))) = Ok r' (m_njoints r) /\
    JInv (S i) r' /\ m_frames r' = m_frames r /\ m_njoints r' = S (m_njoints r).
Proof.
  intros Hi J Hk. pose proof (wf_parent _ W i Hi) as Hp. pose proof (lay_wf _ _ (ji_lay _ _ J)) as Wr.
  destruct (wf_lengths _ W) as (L1&L2&L3&L4&L5&L6&L7&L8&L9&L10&L11&L12&L13&L14&L15).
  destruct (wf_lengths _ Wr) as (R1&R2&R3&R4&R5&R6&R7&R8&R9&R10&R11&R12&R13&R14&R15).
  assert (Hpr : NI (fst (AF (parent m i))) < m_njoints r) by (apply (anc_lt i r); [lia | exact J | lia]).
  assert (Hlink : exists jm', relink m r (joint m i) = Some jm' /\ linked m r i (NI (jm_ref (joint m i))) jm').
  { unfold linked, relink. destruct (isMimic (joint m i)) eqn:Em; [|eauto].
    destruct (isMimic_inv _ Em) as (j & s & o & E). destruct (mimic_ok i j s o Hi Hk E) as [M1 M2].
    pose proof (wf_mimic _ W i j s o Hi E) as (_ & _ & Sm & _ & _ & Sd1 & Sd2).
    rewrite (nth_error_nth' (m_names m) _ ""%string) by lia. change (nth (jm_ref (joint m i)) (m_names m) ""%string) with (nameOf m (jm_ref (joint m i))).
    cbv zeta. rewrite (proj1 (findJoint i r (jm_ref (joint m i)) ltac:(lia) J ltac:(lia) (or_intror M2))).
    pose proof (newIx_lt lk i (jm_ref (joint m i)) ltac:(lia) (or_intror M2)) as Hlt. pose proof (newIx_pos lk _ (proj1 M1) M2) as Hpos. rewrite <- (njoints_r i r J) in Hlt.
    rewrite (nth_error_nth' (m_idx_qs r) _ 0) by lia. rewrite (nth_error_nth' (m_idx_vs r) _ 0) by lia.
    eexists. split; [reflexivity|]. pose proof (item_nth i (jm_ref (joint m i)) ltac:(lia) M2) as Hit.
    assert (Es : S (NI (jm_ref (joint m i)) - 1) = NI (jm_ref (joint m i))) by lia.
    split; [reflexivity|]. split; [lia|]. split.
    - pose proof (item_mimic r (itemsOf i) (ji_lay _ _ J) _ _ Hit) as X. rewrite Es in X. rewrite X. exact Sm.
    - intros j' s' o' E'. rewrite E in E'. injection E' as <- <- <-. pose proof (item_dims r (itemsOf i) (ji_lay _ _ J) _ _ Hit) as [X1 X2]. rewrite Es in X1, X2. rewrite X1, X2. split; assumption. }
  destruct Hlink as (jm' & E1 & Hl). unfold keepJoint. rewrite E1.
  rewrite (proj1 (limits_linked m r i _ jm' W Hi Hl)).
  destruct (copy_ok eps m r (itemsOf i) i _ (snd (AF (parent m i))) _ jm' W PR Hi (ji_lay _ _ J) Hpr Hl)
    as (r' & E2 & Y' & C1 & C2 & C3 & C4 & C5 & C6 & C7 & C8 & C9 & C10).
  exists r'. split; [exact E2|]. split; [|split; [exact C1|exact C9]].
  assert (Eit : itemsOf (S i) = itemsOf i ++ [mkIt i]) by (rewrite items_S, Hk by lia; reflexivity).
  assert (Eaf : AF i = (i, se3_Identity)) by now apply ancF_kept.
  assert (Eni : NI i = m_njoints r) by (rewrite (njoints_r i r J); apply newIx_kept; [lia|exact Hk]).
  constructor.
  - rewrite Eit. exact Y'.
  - rewrite C7, (ji_names _ _ J), keptList_S, Hk, map_app by lia. reflexivity.
  - rewrite C3, C4. apply (ji_const _ _ J).
  - unfold totalMass. rewrite C6, map_app, rsum_app. rewrite bodies_S. unfold massSum. rewrite map_app, rsum_app. cbn [map fold_right fst snd].
    pose proof (ji_mass _ _ J) as Hm. unfold totalMass, massSum in Hm. rewrite Hm. cbn. ring.
  - intros He Hr j Hj. rewrite C9 in Hj. rewrite bodies_S, attachedMatrix_app, attachedMass_app. cbn [attachedMatrix attachedMass]. rewrite Eaf. cbn [fst snd]. rewrite Eni.
    unfold inertiaOf at 1 3 5. rewrite C6, nth_snoc, R1. rewrite (Nat.eqb_sym (m_njoints r) j). destruct (Nat.eqb_spec j (m_njoints r)) as [->|Hne].
    + assert (Hnone : forall x, In x (bodies i) -> fst (fst x) <> m_njoints r).
      { intros x Hx. unfold bodies in Hx. apply in_map_iff in Hx. destruct Hx as (k & <- & Hin). cbn [fst]. apply in_seq in Hin. pose proof (anc_lt i r k ltac:(lia) J ltac:(lia)). lia. }
      destruct (attachedMatrix_none _ _ Hnone) as [N1 N2]. rewrite N1, N2. rewrite inertia_act_id, m6add_zero_l, m6add_zero_r.
      specialize (Hr i ltac:(lia)). unfold regular in *. split; [|split].
      * rewrite inertia_plus_matrix; [apply m6add_zero_l|]. split; [exact He|]. cbn. lra.
      * cbn. ring.
      * cbn. lra.
    + destruct (ji_body _ _ J He Hr j ltac:(lia)) as (B1 & B2 & B3). unfold inertiaOf in B1, B2, B3. rewrite B1, B2, m6add_zero_r. split; [reflexivity|]. split; [ring|exact B3].
Qed.

(* a joint that is locked, once the frames before its own have been added *)
Lemma lock_inv i r pf : 0 < i < m_njoints m -> JInv i r -> In i lk ->
  JInv (S i) (setInertias (setFrames r (m_frames r ++ [mkFrame (nameOf m i) (NI (fst (AF i))) pf (snd (AF i)) FIXED_JOINT (inertiaOf m i)]) (S (m_nframes r)))
     (upd (m_inertias r) (NI (fst (AF i))) (fun Y0 => inertia_pequ eps Y0 (inertia_act (snd (AF i)) (inertiaOf m i)))) (m_nbodies r)).
Proof.
  intros Hi J Hin. pose proof (lay_wf _ _ (ji_lay _ _ J)) as Wr. destruct (wf_lengths _ Wr) as (R1&_). destruct (wf_frames _ Wr) as [RF1 RF2].
  assert (Hk : keptb lk i = false) by (unfold keptb; rewrite (proj2 (lockedb_In lk i) Hin); reflexivity).
  assert (Hlt : NI (fst (AF i)) < m_njoints r).
  { rewrite (ancF_locked m lk q0 W HL i Hin). cbn [fst]. pose proof (wf_parent _ W i Hi). apply (anc_lt i r); [lia|exact J|lia]. }
  assert (EL : length (upd (m_inertias r) (NI (fst (AF i))) (fun Y0 => inertia_pequ eps Y0 (inertia_act (snd (AF i)) (inertiaOf m i)))) = m_njoints r) by (rewrite upd_length; exact R1).
  constructor.
  - rewrite items_S, Hk, app_nil_r by lia. apply Layout_setInertias; [|exact EL]. apply Layout_setFrames; [apply (ji_lay _ _ J)| |].
    + rewrite app_length, <- RF1. cbn. lia.
    + intros f Hf. apply in_app_or in Hf. destruct Hf as [Hf|[<-|[]]]; [now apply RF2 | exact Hlt].
  - cbn [setInertias setFrames m_names]. rewrite keptList_S, Hk, app_nil_r by lia. apply (ji_names _ _ J).
  - apply (ji_const _ _ J).
  - unfold totalMass. cbn [setInertias m_inertias]. rewrite <- R1 in Hlt. rewrite (rsum_upd (m_inertias r) _ (fun Y0 => inertia_pequ eps Y0 (inertia_act (snd (AF i)) (inertiaOf m i))) Hlt (mass (inertiaOf m i))) by reflexivity.
    rewrite bodies_S. unfold massSum. rewrite map_app, rsum_app. cbn [map fold_right fst snd]. pose proof (ji_mass _ _ J) as Hm. unfold totalMass, massSum in Hm. rewrite Hm. ring.
  - intros He Hr j Hj. cbn [setInertias setFrames m_njoints] in Hj. rewrite bodies_S, attachedMatrix_app, attachedMass_app. cbn [attachedMatrix attachedMass].
    destruct (ji_body _ _ J He Hr j Hj) as (B1 & B2 & B3). match goal with |- context [inertiaOf (setInertias ?x ?l ?n) j] => set (r' := setInertias x l n) end.
    assert (Ei : inertiaOf r' j = nth j (upd (m_inertias r) (NI (fst (AF i))) (fun Y0 => inertia_pequ eps Y0 (inertia_act (snd (AF i)) (inertiaOf m i)))) inertia_Zero) by reflexivity.
    rewrite nth_upd, (Nat.eqb_sym j) in Ei. rewrite Ei. clear Ei r'.
    destruct (Nat.eqb_spec (NI (fst (AF i))) j) as [->|].
    + rewrite (proj2 (Nat.ltb_lt _ _)) by lia. cbn [andb]. fold (inertiaOf r j). rewrite inertia_pequ_plus, m6add_zero_r. specialize (Hr i ltac:(lia)). unfold regular in *. split; [|split].
      * rewrite inertia_plus_matrix; [rewrite B1; reflexivity|]. split; [exact He|]. change (mass (inertia_act (snd (AF i)) (inertiaOf m i))) with (mass (inertiaOf m i)). lra.
      * cbn. rewrite B2. ring.
      * cbn. lra.
    + cbn [andb]. fold (inertiaOf r j). rewrite m6add_zero_r, <- B1, <- B2. split; [reflexivity|]. split; [ring|exact B3].
Qed.
Lemma JInv_setFrames i r l n : JInv i r -> n = length l -> (forall f, In f l -> fr_parentJoint f < m_njoints r) -> JInv i (setFrames r l n).
Proof. intros [J1 J2 J3 J5 J6] Hn H. constructor; try assumption. now apply Layout_setFrames. Qed.
Lemma JInv_setRefs i r l : JInv i r -> JInv i (setRefs r l).
Proof. intros [J1 J2 J3 J5 J6]. constructor; try assumption. now apply Layout_setRefs. Qed.

(* the reduced model before any joint *)
Lemma JInv_start : JInv 1 (copyUniverse m emptyModel).
Proof.
  pose proof (wf_n _ W). destruct (wf_lengths _ W) as (L1&L2&L3&L4&L5&L6&L7&L8&L9&L10&L11&L12&L13&L14&L15).
  assert (E0 : AF 0 = (0, se3_Identity)) by (apply ancF_0; exact HL).
  constructor.
  - constructor; try reflexivity.
    + pose proof (wf_parent0 _ W) as P0. constructor; cbn; try lia; try (repeat split; lia); try (repeat split; reflexivity); try reflexivity; try exact P0; intros; try lia.
      split; [reflexivity|]. intros f [<-|[]]. cbn. lia.
    + constructor; cbn; try reflexivity.
      * intros j Hj. destruct j; [constructor | lia].
      * intros i Hi. destruct i; [reflexivity | lia].
      * intros i Hi. lia.
      * intros i Hi. destruct i; [reflexivity | lia].
      * split; reflexivity.
    + intros it [].
    + intros n it Hn. destruct n; discriminate.
    + cbn. unfold set0, upd. cbn. pose proof (wf_parent0 _ W) as P0. unfold parent in P0. rewrite P0. reflexivity.
    + intros g Hg. cbn in Hg. destruct Hg as [<-|[<-|[<-|[<-|[<-|[<-|[]]]]]]]; reflexivity.
    + intros g Hg. cbn in Hg. destruct Hg as [<-|[<-|[]]]; reflexivity.
  - reflexivity.
  - split; reflexivity.
  - unfold totalMass, massSum, bodies. cbn -[ancF]. unfold inertiaOf. reflexivity.
  - intros He Hr j Hj. cbn in Hj. assert (j = 0) by lia. subst j. unfold bodies. cbn [seq map attachedMatrix attachedMass]. rewrite E0. cbn [fst snd].
    rewrite newIx_0. cbn [Nat.eqb]. rewrite inertia_act_id, m6add_zero_r. specialize (Hr 0 ltac:(lia)). split; [reflexivity|]. split; [cbn; unfold inertiaOf; ring|exact Hr].
Qed.
End Reduce.
