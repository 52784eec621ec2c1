(* Appending a model: what the result means. *)
Require Import Reals String List Arith Bool Lia Lra Permutation.
From Verif Require Import Vec3 Spatial Inertia InertiaFacts Joints Spec_Joints JointFacts Model Spec_Model ModelFacts ModelFacts2 ModelTree ModelFacts3 Data Spec_Kin KinFacts Sums Spec_Dyn DynFacts DynFacts2 Mimic MimicFacts MimicFacts2 Reduce Spec_Append AppendFacts AppendFacts2 AppendFacts3 ReduceFacts ReduceFacts2 ReduceFacts5 Append AppendFacts4 AppendFacts5 AppendFacts6.
Import ListNotations.
Local Open Scope nat_scope.

Lemma m6add_comm A B : m6add A B = m6add B A. Proof. sring. Qed.
Lemma attachedMatrix_perm j l l' : Permutation l l' -> attachedMatrix j l = attachedMatrix j l'.
Proof.
  induction 1 as [|[[k P] Y] l l' H IH|[[k P] Y] [[k' P'] Y'] l|l l' l'' H1 IH1 H2 IH2]; cbn [attachedMatrix]; [reflexivity | | | congruence].
  - destruct (k =? j); now rewrite ?IH.
  - destruct (k =? j), (k' =? j); try reflexivity. rewrite !m6add_assoc. f_equal. apply m6add_comm.
Qed.
Lemma rsum_perm l l' : Permutation l l' -> fold_right Rplus 0%R l = fold_right Rplus 0%R l'.
Proof. induction 1 as [|x l l' H IH|x y l|l l' l'' H1 IH1 H2 IH2]; cbn; [reflexivity | now rewrite IH | ring | congruence]. Qed.
Lemma total_seq m : wellFormed m -> totalMass m = fold_right Rplus 0%R (map (fun i => mass (inertiaOf m i)) (seq 0 (m_njoints m))).
Proof.
  intros W. unfold totalMass. destruct (wf_lengths _ W) as (L1&_). rewrite <- L1. f_equal. apply (nth_ext _ _ 0%R 0%R); rewrite !map_length, ?seq_length; [reflexivity|]. intros k Hk.
  rewrite (nth_indep (map _ (seq _ _)) _ (mass (inertiaOf m 0))) by (rewrite map_length, seq_length; exact Hk). rewrite (map_nth (fun i => mass (inertiaOf m i))), seq_nth by exact Hk.
  rewrite (nth_indep _ _ (mass inertia_Zero)) by (rewrite map_length; exact Hk). rewrite map_nth. reflexivity.
Qed.
Lemma attached_one j (P : nat -> SE3) (Y : nat -> Inertia) (f : nat -> nat) l i : NoDup l -> In i l -> f i = j -> (forall x, In x l -> f x = j -> x = i) ->
  attachedMatrix j (map (fun x => (f x, P x, Y x)) l) = inertia_matrix (inertia_act (P i) (Y i)).
Proof.
  intros ND Hi Hf Hu. assert (Z : forall l', (forall x, In x l' -> f x <> j) -> attachedMatrix j (map (fun x => (f x, P x, Y x)) l') = inertia_matrix inertia_Zero).
  { intros l' H. apply attachedMatrix_none. intros x Hx. apply in_map_iff in Hx. destruct Hx as (y & <- & Hy). now apply H. }
  induction ND as [|x l Hx ND IH]; [destruct Hi|]. cbn [map attachedMatrix]. destruct (Nat.eqb_spec (f x) j) as [E|E].
  - rewrite (Hu x (or_introl eq_refl) E) in *. rewrite Z; [apply m6add_zero_r|]. intros y Hy Ey. apply Hx. rewrite <- (Hu y (or_intror Hy) Ey). exact Hy.
  - destruct Hi as [->|Hi]; [contradiction|]. apply IH; [exact Hi|]. intros y Hy. apply Hu. now right.
Qed.

Section Append.
Variables (eps : R) (a b : Model) (f0 : Frame) (aMb : SE3).
Notation p := (fr_parentJoint f0).
Notation KSab := (KS a b p).
Notation posK := (pos a b p).
Notation src := (srcOf a b).
Notation M := (se3_mul (fr_placement f0) aMb).
Hypotheses (W : forall c, wellFormed (src c)) (T : forall c, treeInv (src c)) (PR : forall c, plainRefs (src c)) (WN : forall c, wellNamed (src c)).
Hypothesis U : forall c, nameOf (src c) 0 = "universe"%string /\ nth_error (m_frames (src c)) 0 = Some universeFrame.
Hypothesis NJ : NoDup (m_names a ++ tl (m_names b)).
Hypothesis NF : NoDup (map fr_name (m_frames a ++ tl (m_frames b))).
Hypothesis Hp : p < m_njoints a.
Notation AI := (AInv eps a b f0 aMb).
Notation dn := (dnOf a b).
Notation mnt := (mount f0 aMb).
Variables (r0 : Model) (refs : list (string * list R)).
Hypothesis J : AI KSab (dn KSab) r0.
Notation r := (setRefs r0 refs).
Notation items := (map (itemOf a b f0 aMb) (joints KSab)).
Let Y : Layout r items := Layout_setRefs r0 items refs (ai_lay _ _ _ _ _ _ _ _ J).
Let Wr : wellFormed r := lay_wf _ _ Y.
Let Tr : treeInv r := lay_tree _ _ Y.
Let Wr0 : wellFormed r0 := lay_wf _ _ (ai_lay _ _ _ _ _ _ _ _ J).

Lemma key_item c i : 0 < i < m_njoints (src c) -> nth_error items (posK (c, i) - 1) = Some (itemOf a b f0 aMb (c, i)) /\ S (posK (c, i) - 1) = posK (c, i) /\ 0 < posK (c, i) < m_njoints r.
Proof. intros Hi. exact (end_item eps a b f0 aMb W Hp r0 J c i Hi). Qed.
Lemma linked : Linked items.
Proof.
  intros n it Hn Hm. rewrite nth_error_map in Hn. destruct (nth_error (joints KSab) n) as [[c i]|] eqn:En; [|discriminate]. injection Hn as <-. cbn [itemOf it_src it_ix it_ref fst snd] in *.
  pose proof (nth_error_In _ _ En) as Hin. destruct (joints_In a b f0 W Hp KSab [] (c, i) (eq_sym (app_nil_r _)) Hin) as (_ & _ & Hi). cbn [fst snd] in Hi.
  destruct (isMimic_inv _ Hm) as (j & s & o & Ej). pose proof (wf_mimic _ (W c) i j s o Hi Ej) as (_ & Hk & _).
  assert (Hr : 0 < jm_ref (joint (src c) i) < m_njoints (src c)) by lia. destruct (key_item c (jm_ref (joint (src c) i)) Hr) as (I1 & I2 & I3).
  exists (posK (c, jm_ref (joint (src c) i)) - 1), (itemOf a b f0 aMb (c, jm_ref (joint (src c) i))). split; [now symmetry|]. split; [exact I1|]. split; reflexivity.
Qed.
Lemma key_copied c i : 0 < i < m_njoints (src c) -> copied (src c) i r (posK (c, i)).
Proof. intros Hi. destruct (key_item c i Hi) as (I1 & I2 & I3). rewrite <- I2. exact (item_copied r items Y linked _ _ I1). Qed.
Lemma names_r : NoDup (m_names r).
Proof. exact (names_NoDup eps a b f0 aMb W WN U NJ Hp KSab [] _ r0 (eq_sym (app_nil_r _)) J). Qed.
Lemma copy_unique c i k : copied (src c) i r k -> k = posK (c, i).
Proof.
  intros C. destruct (cp_range _ _ _ _ C) as [R1 R2]. destruct (wf_lengths _ Wr) as (_&_&_&_&_&_&_&_&_&_&_&L12&_). destruct (key_item c i R1) as (_ & _ & I3).
  apply (proj1 (NoDup_nth (m_names r) ""%string) names_r); [lia | lia|]. fold (nameOf r k). fold (nameOf r (posK (c, i))). rewrite (cp_name _ _ _ _ C). symmetry. apply (cp_name _ _ _ _ (key_copied c i R1)).
Qed.
Lemma key_stands c i : (i = 0 -> c = true) -> i < m_njoints (src c) -> stands (src c) r i (posK (c, i)).
Proof. intros H Hi. destruct (Nat.eq_dec i 0) as [->|Hn]; [left; rewrite (H eq_refl); split; reflexivity|]. right. apply key_copied. lia. Qed.
Lemma every_joint k : 0 < k < m_njoints r -> exists c i, 0 < i < m_njoints (src c) /\ k = posK (c, i) /\ copied (src c) i r k.
Proof.
  intros Hk. change (m_njoints r) with (m_njoints r0) in Hk. rewrite (njoints_r eps a b f0 aMb KSab _ r0 J) in Hk. destruct (nth_error (joints KSab) (k - 1)) as [[c i]|] eqn:E; [|apply nth_error_None in E; lia].
  pose proof (nth_error_In _ _ E) as Hin. destruct (joints_In a b f0 W Hp KSab [] (c, i) (eq_sym (app_nil_r _)) Hin) as (K1 & K2 & Hi). cbn [fst snd] in Hi. exists c, i. split; [exact Hi|].
  assert (Ek : k = posK (c, i)).
  { destruct (pos_prefix a b p (W true) Hp KSab [] (c, i) (eq_sym (app_nil_r _)) K1 K2) as (P1 & P2 & P3).
    assert (ND : NoDup (joints KSab)) by (apply NoDup_filter, (KS_NoDup a b p (W true) Hp)).
    assert (k - 1 = posK (c, i) - 1) by (apply (proj1 (NoDup_nth_error _) ND); [apply nth_error_Some; congruence | congruence]). lia. }
  split; [exact Ek|]. rewrite Ek. now apply key_copied.
Qed.
Lemma KS_perm : Permutation KSab (map (pair true) (seq 0 (m_njoints a)) ++ map (pair false) (seq 0 (m_njoints b))).
Proof.
  apply NoDup_Permutation; [apply (KS_NoDup a b p (W true) Hp)| |].
  - apply NoDup_app_i; try (apply NoDup_map_pair, seq_NoDup). intros x H1 H2. apply in_map_iff in H1. apply in_map_iff in H2. destruct H1 as (i & <- & _), H2 as (i' & E & _). discriminate.
  - intros [c i]. rewrite (KS_In a b p (W true) (W false) Hp c i), in_app_iff, !in_map_iff. split.
    + intros Hi. destruct c; [left|right]; exists i; (split; [reflexivity|]); apply in_seq; cbn [srcOf] in Hi; lia.
    + intros [(x & E & Hx)|(x & E & Hx)]; injection E as <- <-; apply in_seq in Hx; cbn [srcOf]; lia.
Qed.
Lemma count : m_njoints r + 1 = m_njoints a + m_njoints b.
Proof.
  change (m_njoints r) with (m_njoints r0). rewrite (njoints_r eps a b f0 aMb KSab _ r0 J).
  assert (E : length KSab = m_njoints a + m_njoints b) by (rewrite (Permutation_length KS_perm), app_length, !map_length, !seq_length; reflexivity).
  assert (F : forall l, length (joints l) + length (filter (fun k => negb (isJ k)) l) = length l).
  { induction l as [|x l IH]; [reflexivity|]. unfold joints in *. cbn. destruct (isJ x); cbn; lia. }
  assert (G : length (filter (fun k => negb (isJ k)) KSab) = 2).
  { transitivity (length [(true, 0); (false, 0)]); [|reflexivity]. apply Permutation_length, NoDup_Permutation; [apply NoDup_filter, (KS_NoDup a b p (W true) Hp) | repeat constructor; cbn; intuition discriminate|].
    intros [c i]. rewrite filter_In, (KS_In a b p (W true) (W false) Hp c i). unfold isJ. cbn [snd]. rewrite negb_involutive, Nat.eqb_eq. split.
    - intros [_ ->]. destruct c; cbn; auto.
    - intros [H|[H|[]]]; injection H as <- <-; (split; [apply (wf_n _ (W _))|reflexivity]). }
  pose proof (F KSab). lia.
Qed.
Lemma key_parent c i : 0 < i < m_njoints (src c) -> parent r (posK (c, i)) = posK (c, parent (src c) i) /\ placementOf r (posK (c, i)) = se3_mul (mnt c (parent (src c) i)) (placementOf (src c) i).
Proof.
  intros Hi. destruct (key_item c i Hi) as (I1 & I2 & _). pose proof (item_parent r items Y _ _ I1) as P. pose proof (item_placement r items Y _ _ I1) as Q. rewrite I2 in P, Q. split; [exact P | exact Q].
Qed.
Lemma mount_pos c i : 0 < i -> mnt c i = se3_Identity.
Proof. clear Hp J Y Wr Tr Wr0. intros H. unfold mount. destruct c; [reflexivity|]. destruct (Nat.eqb_spec i 0); [lia|reflexivity]. Qed.

(* ---- motion ---- *)
Section Motion.
Variables (qs : bool -> nat -> R) (qr : nat -> R).
Hypotheses (V : forall c, validModel (src c)) (SQ : forall c, sameCoordinates (src c) r (qs c) qr).
Definition basePl (c : bool) : SE3 := if c then se3_Identity else se3_mul (worldPl a (qs true) p) M.
Lemma key_rel c i : 0 < i < m_njoints (src c) -> relPl r qr (posK (c, i)) = se3_mul (mnt c (parent (src c) i)) (relPl (src c) (qs c) i).
Proof.
  intros Hi. destruct (key_item c i Hi) as (I1 & I2 & _). rewrite <- I2. unfold relPl at 2. rewrite se3_mul_assoc. exact (item_relPl r items Y linked _ _ (qs c) qr I1 (proj1 (V c i Hi)) (SQ c)).
Qed.
Lemma world_from c : se3_mul (worldPl r qr (posK (c, 0))) (mnt c 0) = basePl c -> forall i, i < m_njoints (src c) -> se3_mul (worldPl r qr (posK (c, i))) (mnt c i) = se3_mul (basePl c) (worldPl (src c) (qs c) i).
Proof.
  intros H0. refine (tree_ind (src c) _ (W c) _ _).
  - rewrite (worldPl_0 _ (W c) (T c)), se3_mul_1_r. exact H0.
  - intros i Hi IH. rewrite (mount_pos c i (proj1 Hi)), se3_mul_1_r. destruct (key_item c i Hi) as (_ & _ & I3). rewrite (worldPl_step r Wr Tr qr _ I3), (proj1 (key_parent c i Hi)), (key_rel c i Hi).
    rewrite (worldPl_step _ (W c) (T c) (qs c) i Hi), !se3_mul_assoc. f_equal. exact IH.
Qed.
Lemma world_a i : i < m_njoints a -> worldPl r qr (posK (true, i)) = worldPl a (qs true) i.
Proof.
  intros Hi. pose proof (world_from true) as X. cbn [srcOf basePl] in X. unfold mount in X at 2. rewrite <- (se3_mul_1_l (worldPl a _ i)), <- X; [symmetry; apply se3_mul_1_r | | exact Hi].
  change (posK (true, 0)) with 0. rewrite (worldPl_0 r Wr Tr). apply se3_mul_1_l.
Qed.
Lemma world_p : worldPl r qr p = worldPl a (qs true) p.
Proof. pose proof (world_a p Hp) as X. rewrite (pos_p a b p (W true) Hp) in X. exact X. Qed.
Lemma world_key c i : i < m_njoints (src c) -> se3_mul (worldPl r qr (posK (c, i))) (mnt c i) = se3_mul (basePl c) (worldPl (src c) (qs c) i).
Proof.
  apply world_from. destruct c.
  - change (posK (true, 0)) with 0. rewrite (worldPl_0 r Wr Tr). apply se3_mul_1_l.
  - change (posK (false, 0)) with p. rewrite world_p. reflexivity.
Qed.
Hypotheses (Q : forall c, validState (src c) (qs c)) (RF : isRotation (rot (fr_placement f0))) (RM : isRotation (rot aMb)).
Lemma M_rot : isRotation (rot M). Proof. now apply isRotation_se3_mul. Qed.
Lemma mount_rot c i : isRotation (rot (mnt c i)).
Proof. unfold mount. destruct c; [exact isRotation_id|]. destruct (i =? 0); [exact M_rot | exact isRotation_id]. Qed.
Lemma valid_r : validModel r.
Proof.
  intros k Hk. destruct (every_joint k Hk) as (c & i & Hi & -> & C). rewrite (cp_type _ _ _ _ C). destruct (V c i Hi) as [V1 V2]. split; [exact V1|].
  rewrite (proj2 (key_parent c i Hi)). apply isRotation_se3_mul; [apply mount_rot | exact V2].
Qed.
Lemma state_r : validState r qr.
Proof.
  intros k Hk. destruct (every_joint k Hk) as (c & i & Hi & -> & C). rewrite (cp_type _ _ _ _ C).
  apply (validConfig_ext _ (shift (idx_q (src c) i) (qs c))); [|apply (V c i Hi) | apply (Q c i Hi)]. intros t Ht. unfold shift.
  destruct (isMimic (joint (src c) i)) eqn:Em.
  - destruct (isMimic_inv _ Em) as (j & s & o & Ej). pose proof (wf_mimic _ (W c) i j s o Hi Ej) as (_ & Hl & Sm & Sq & _ & Sd & _). pose proof (cp_type _ _ _ _ C) as Ty. rewrite Ej in Ty.
    pose proof (wf_mimic _ Wr _ j s o Hk Ty) as (_ & _ & _ & Rq & _).
    destruct (key_item c i Hi) as (I1 & I2 & _). pose proof (lay_refs _ _ Y _ _ I1 Em) as Rr. rewrite I2 in Rr. cbn [itemOf it_ref fst snd] in Rr.
    assert (Hr : 0 < jm_ref (joint (src c) i) < m_njoints (src c)) by lia. rewrite Rq, Sq, Rr. symmetry. apply (SQ c (jm_ref (joint (src c) i)) _ t (key_copied c _ Hr) Sm). rewrite Ej in Ht. cbn [rnq] in Ht. lia.
  - symmetry. apply (SQ c i _ t C Em). destruct (wf_joint _ (W c) i Hi) as (_ & _ & _ & _ & E1 & _). rewrite <- E1.
    unfold isMimic in Em. destruct (jm_type (joint (src c) i)); try discriminate; exact Ht.
Qed.
Section Velocity.
Variables (ws : bool -> nat -> R) (wr : nat -> R).
Hypothesis SW : forall c, sameVelocities (src c) r (ws c) wr.
Definition baseVel (c : bool) : V6 := if c then v6zero else motion_actInv M (bodyVel a (qs true) (ws true) p).
Definition movedVel (c : bool) (i : nat) : V6 := v6add (bodyVel (src c) (qs c) (ws c) i) (motion_actInv (worldPl (src c) (qs c) i) (baseVel c)).
Lemma key_twist c i : 0 < i < m_njoints (src c) -> jointTwist r qr wr (posK (c, i)) = jointTwist (src c) (qs c) (ws c) i.
Proof.
  intros Hi. destruct (key_item c i Hi) as (I1 & I2 & I3). rewrite <- (jv_twist (src c) (V c) (qs c) (ws c) i Hi), <- (jv_twist r valid_r qr wr _ I3). rewrite <- I2.
  f_equal. exact (item_jointAt r items Y linked _ _ (qs c) qr (ws c) wr I1 (proj1 (V c i Hi)) (SQ c) (SW c)).
Qed.
Lemma vel_from c : motion_actInv (mnt c 0) (bodyVel r qr wr (posK (c, 0))) = baseVel c -> forall i, i < m_njoints (src c) -> motion_actInv (mnt c i) (bodyVel r qr wr (posK (c, i))) = movedVel c i.
Proof.
  intros H0. refine (tree_ind (src c) _ (W c) _ _).
  - unfold movedVel. rewrite (worldPl_0 _ (W c) (T c)), (bodyVel_0 _ (W c) (T c)), v6add_0_l, motion_actInv_1. exact H0.
  - intros i Hi IH. rewrite (mount_pos c i (proj1 Hi)), motion_actInv_1. destruct (key_item c i Hi) as (_ & _ & I3). pose proof (wf_parent _ (W c) i Hi) as Hpar.
    rewrite (bodyVel_step r Wr Tr valid_r qr wr _ state_r I3), (key_twist c i Hi), (proj1 (key_parent c i Hi)), (key_rel c i Hi).
    rewrite motion_actInv_mul; [|apply mount_rot | now apply relPl_rot]. rewrite IH. unfold movedVel. rewrite motion_actInv_add, v6add_assoc.
    rewrite <- (bodyVel_step _ (W c) (T c) (V c) (qs c) (ws c) i (Q c) Hi). f_equal. rewrite (worldPl_step _ (W c) (T c) (qs c) i Hi), motion_actInv_mul; [reflexivity | | now apply relPl_rot].
    apply (worldPl_rot _ (W c) (T c) (V c)); [apply Q | lia].
Qed.
Lemma vel_a i : i < m_njoints a -> bodyVel r qr wr (posK (true, i)) = bodyVel a (qs true) (ws true) i.
Proof.
  intros Hi. pose proof (vel_from true) as X. cbn [srcOf baseVel] in X. unfold movedVel, baseVel in X. cbn [srcOf] in X. unfold mount in X. rewrite motion_actInv_1 in X. specialize (X (bodyVel_0 r Wr Tr qr wr) i Hi).
  rewrite motion_actInv_1, motion_actInv_0, v6add_0_r in X. exact X.
Qed.
Lemma vel_p : bodyVel r qr wr p = bodyVel a (qs true) (ws true) p.
Proof. pose proof (vel_a p Hp) as X. rewrite (pos_p a b p (W true) Hp) in X. exact X. Qed.
Lemma vel_key c i : i < m_njoints (src c) -> motion_actInv (mnt c i) (bodyVel r qr wr (posK (c, i))) = movedVel c i.
Proof.
  apply vel_from. destruct c.
  - change (posK (true, 0)) with 0. rewrite (bodyVel_0 r Wr Tr). apply motion_actInv_0.
  - change (posK (false, 0)) with p. rewrite vel_p. reflexivity.
Qed.
End Velocity.
Lemma kinetic_ok ws wr ws' wr' : (0 < eps)%R -> (forall c k, k < m_njoints (src c) -> regular eps (inertiaOf (src c) k)) -> zeroFrames a b ->
  (forall c, sameVelocities (src c) r (ws c) wr) -> (forall c, sameVelocities (src c) r (ws' c) wr') ->
  kineticForm r qr wr wr' = (kineticForm a (qs true) (ws true) (ws' true) + sumN (m_njoints b) (fun i => v6dot (movedVel ws false i) (inertia_mul (inertiaOf b i) (movedVel ws' false i))))%R.
Proof.
  intros He Hreg Hz S1 S2.
  assert (H0 : forall x (Wx : wellFormed x) (Tx : treeInv x) qx wx wx', kineticForm x qx wx wx' = sumN (m_njoints x) (fun i => v6dot (bodyVel x qx wx i) (inertia_mul (inertiaOf x i) (bodyVel x qx wx' i)))).
  { intros x Wx Tx qx wx wx'. unfold kineticForm, Spec_Dyn.bodies. pose proof (wf_n _ Wx). replace (m_njoints x) with (S (m_njoints x - 1)) at 2 by lia. rewrite sumN_shift1.
    rewrite (bodyVel_0 x Wx Tx). rewrite v6dot_0_l. ring. }
  rewrite (H0 r Wr Tr), (H0 a (W true) (T true)).
  transitivity (sumN (m_njoints r) (fun j => v6dot (bodyVel r qr wr j) (m6vec (attachedMatrix j (bodiesOf a b f0 aMb KSab)) (bodyVel r qr wr' j)))).
  { apply sumN_ext. intros j Hj. destruct (ai_body _ _ _ _ _ _ _ _ J He Hreg Hz j Hj) as [E _]. change (inertiaOf r0 j) with (inertiaOf r j) in E. rewrite <- E, inertia_mul_spec. reflexivity. }
  rewrite attached_sum.
  - unfold bodiesOf. rewrite map_map. rewrite (rsum_perm _ _ (Permutation_map _ KS_perm)), map_app, rsum_app, !map_map, !fold_sumN. cbn [fst snd srcOf].
    assert (X : forall c i, i < m_njoints (src c) -> v6dot (bodyVel r qr wr (posK (c, i))) (inertia_mul (inertia_act (mnt c i) (inertiaOf (src c) i)) (bodyVel r qr wr' (posK (c, i)))) = v6dot (movedVel ws c i) (inertia_mul (inertiaOf (src c) i) (movedVel ws' c i))).
    { intros c i Hi. rewrite <- (vel_key ws wr S1 c i Hi), <- (vel_key ws' wr' S2 c i Hi). symmetry. apply act_form, mount_rot. }
    f_equal.
    + apply sumN_ext. intros i Hi. etransitivity; [exact (X true i Hi)|]. unfold movedVel, baseVel. cbn [srcOf]. rewrite motion_actInv_0, !v6add_0_r. reflexivity.
    + apply sumN_ext. intros i Hi. apply (X false i Hi).
  - intros x Hx. unfold bodiesOf in Hx. apply in_map_iff in Hx. destruct Hx as (k & <- & Hin). cbn [fst]. exact (pos_range eps a b f0 aMb W Hp KSab [] _ r0 k (eq_sym (app_nil_r _)) J Hin).
Qed.
End Motion.

(* ---- bodies ---- *)
Lemma mass_r : totalMass r = (totalMass a + totalMass b)%R.
Proof.
  change (totalMass r) with (totalMass r0). rewrite (ai_mass _ _ _ _ _ _ _ _ J). unfold massSum, bodiesOf. rewrite map_map. cbn [snd].
  rewrite (rsum_perm _ _ (Permutation_map _ KS_perm)), map_app, rsum_app, !map_map. cbn [fst snd srcOf]. rewrite (total_seq a (W true)), (total_seq b (W false)). reflexivity.
Qed.
Lemma bodies_r j : (0 < eps)%R -> (forall c k, k < m_njoints (src c) -> regular eps (inertiaOf (src c) k)) -> zeroFrames a b -> j < m_njoints r ->
  inertia_matrix (inertiaOf r j) =
    m6add (attachedMatrix j (map (fun i => (posK (true, i), mnt true i, inertiaOf a i)) (seq 0 (m_njoints a)))) (attachedMatrix j (map (fun i => (posK (false, i), mnt false i, inertiaOf b i)) (seq 0 (m_njoints b)))).
Proof.
  intros He Hr Hz Hj. destruct (ai_body _ _ _ _ _ _ _ _ J He Hr Hz j Hj) as [E _]. change (inertiaOf r j) with (inertiaOf r0 j). rewrite E. unfold bodiesOf.
  rewrite (attachedMatrix_perm j _ _ (Permutation_map _ KS_perm)), map_app, attachedMatrix_app, !map_map. reflexivity.
Qed.
Lemma pos_eq c i c' i' : i < m_njoints (src c) -> i' < m_njoints (src c') -> 0 < i -> posK (c, i) = posK (c', i') -> (c, i) = (c', i') \/ (c' = false /\ i' = 0 /\ c = true /\ i = p).
Proof.
  intros Hi Hi' Hn E. destruct (end_key a b f0 W Hp c i ltac:(lia)) as [K1 K2]. destruct (key_item c i ltac:(lia)) as (_ & _ & I3). destruct (Nat.eq_dec i' 0) as [->|Hn'].
  - destruct c'; [change (posK (true, 0)) with 0 in E; lia|]. change (posK (false, 0)) with p in E. right. assert (E' : posK (c, i) = posK (true, p)) by (etransitivity; [exact E|]; symmetry; apply (pos_p a b p (W true) Hp)).
    assert (Hp0 : 0 < p) by lia.
    destruct (end_key a b f0 W Hp true p ltac:(cbn [srcOf]; lia)) as [K3 K4]. pose proof (pos_inj a b p (W true) Hp _ _ K1 K3 K2 K4 E') as X. injection X as -> ->. auto.
  - left. destruct (end_key a b f0 W Hp c' i' ltac:(lia)) as [K3 K4]. exact (pos_inj a b p (W true) Hp _ _ K1 K3 K2 K4 E).
Qed.
Lemma bodies_a i : (0 < eps)%R -> (forall c k, k < m_njoints (src c) -> regular eps (inertiaOf (src c) k)) -> zeroFrames a b -> i < m_njoints a ->
  inertia_matrix (inertiaOf r (posK (true, i))) = if i =? p then m6add (inertia_matrix (inertiaOf a i)) (inertia_matrix (inertia_act M (inertiaOf b 0))) else inertia_matrix (inertiaOf a i).
Proof.
  intros He Hr Hz Hi. pose proof (wf_n _ (W false)) as Hnb. cbn [srcOf] in Hnb.
  assert (Hk : In (true, i) KSab) by (apply (KS_In a b p (W true) (W false) Hp true i); exact Hi).
  rewrite bodies_r; [|assumption..|exact (pos_range eps a b f0 aMb W Hp KSab [] _ r0 (true, i) (eq_sym (app_nil_r _)) J Hk)].
  rewrite (attached_one (posK (true, i)) (mnt true) (inertiaOf a) (fun x => posK (true, x)) (seq 0 (m_njoints a)) i (seq_NoDup _ _)).
  - change (mnt true i) with se3_Identity. rewrite inertia_act_id. destruct (Nat.eqb_spec i p) as [E|E].
    + f_equal. rewrite (attached_one (posK (true, i)) (mnt false) (inertiaOf b) (fun x => posK (false, x)) (seq 0 (m_njoints b)) 0 (seq_NoDup _ _)); [reflexivity | apply in_seq; lia | |].
      * change (posK (false, 0)) with p. rewrite E. symmetry. apply (pos_p a b p (W true) Hp).
      * intros x Hx Ex. apply in_seq in Hx. destruct (Nat.eq_dec x 0) as [|Hx0]; [assumption|]. destruct (pos_eq false x true i ltac:(cbn [srcOf]; lia) Hi ltac:(lia) Ex) as [X|(X & _)]; discriminate.
    + replace (attachedMatrix (posK (true, i)) (map (fun i0 => (posK (false, i0), mnt false i0, inertiaOf b i0)) (seq 0 (m_njoints b)))) with (inertia_matrix inertia_Zero); [apply m6add_zero_r|].
      symmetry. apply attachedMatrix_none. intros x Hx. apply in_map_iff in Hx. destruct Hx as (y & <- & Hy). cbn [fst]. intros Ex. apply in_seq in Hy. destruct (Nat.eq_dec y 0) as [->|Hy0].
      * destruct (Nat.eq_dec i 0) as [->|Hi0]; [change (posK (false, 0)) with p in Ex; change (posK (true, 0)) with 0 in Ex; congruence|].
        destruct (pos_eq true i false 0 Hi ltac:(cbn [srcOf]; lia) ltac:(lia) (eq_sym Ex)) as [X|(_ & _ & _ & X)]; [discriminate | contradiction].
      * destruct (pos_eq false y true i ltac:(cbn [srcOf]; lia) Hi ltac:(lia) Ex) as [X|(X & _)]; discriminate.
  - apply in_seq. lia.
  - reflexivity.
  - intros x Hx Ex. apply in_seq in Hx. destruct (Nat.eq_dec x 0) as [->|Hx0].
    + destruct (Nat.eq_dec i 0) as [|Hi0]; [now symmetry|]. destruct (pos_eq true i true 0 Hi ltac:(cbn [srcOf]; lia) ltac:(lia) (eq_sym Ex)) as [X|(X & _)]; [now injection X | discriminate].
    + destruct (pos_eq true x true i ltac:(cbn [srcOf]; lia) Hi ltac:(lia) Ex) as [X|(X & _)]; [now injection X | discriminate].
Qed.
Lemma bodies_b i : (0 < eps)%R -> (forall c k, k < m_njoints (src c) -> regular eps (inertiaOf (src c) k)) -> zeroFrames a b -> 0 < i < m_njoints b ->
  inertia_matrix (inertiaOf r (posK (false, i))) = inertia_matrix (inertiaOf b i).
Proof.
  intros He Hr Hz Hi. assert (Hk : In (false, i) KSab) by (apply (KS_In a b p (W true) (W false) Hp false i); apply Hi).
  rewrite bodies_r; [|assumption..|exact (pos_range eps a b f0 aMb W Hp KSab [] _ r0 (false, i) (eq_sym (app_nil_r _)) J Hk)].
  rewrite (attached_one (posK (false, i)) (mnt false) (inertiaOf b) (fun x => posK (false, x)) (seq 0 (m_njoints b)) i (seq_NoDup _ _)).
  - rewrite (mount_pos false i (proj1 Hi)), inertia_act_id.
    replace (attachedMatrix (posK (false, i)) (map (fun i0 => (posK (true, i0), mnt true i0, inertiaOf a i0)) (seq 0 (m_njoints a)))) with (inertia_matrix inertia_Zero); [apply m6add_zero_l|].
    symmetry. apply attachedMatrix_none. intros x Hx. apply in_map_iff in Hx. destruct Hx as (y & <- & Hy). cbn [fst]. intros Ex. apply in_seq in Hy.
    destruct (pos_eq false i true y ltac:(cbn [srcOf]; lia) ltac:(cbn [srcOf]; lia) ltac:(lia) (eq_sym Ex)) as [X|(X & _)]; discriminate.
  - apply in_seq. lia.
  - reflexivity.
  - intros x Hx Ex. apply in_seq in Hx. destruct (pos_eq false i false x ltac:(cbn [srcOf]; lia) ltac:(cbn [srcOf]; lia) ltac:(lia) (eq_sym Ex)) as [X|(_ & _ & X & _)]; [now injection X | discriminate].
Qed.

(* ---- frames ---- *)
Lemma frames_to c f : In f (tl (m_frames (src c))) -> exists g, In g (m_frames r) /\ img a b f0 aMb (c, f) g.
Proof.
  intros Hf. destruct (ai_frames _ _ _ _ _ _ _ _ J) as (gs & Eg & Fg).
  assert (Hd : In (c, f) (dn KSab)).
  { apply dnOf_In. split; [|exact Hf]. apply (KS_In a b p (W true) (W false) Hp c). apply (proj2 (wf_frames _ (W c)) f). rewrite (frames_cons a b U c). now right. }
  destruct (img_In a b f0 aMb _ _ _ Fg Hd) as (g & G1 & G2). exists g. split; [|exact G2]. change (m_frames r) with (m_frames r0). rewrite Eg. now right.
Qed.
Lemma frames_from g : In g (m_frames r) -> g = universeFrame \/ exists c f, In f (tl (m_frames (src c))) /\ img a b f0 aMb (c, f) g.
Proof.
  intros Hg. destruct (ai_frames _ _ _ _ _ _ _ _ J) as (gs & Eg & Fg). change (m_frames r) with (m_frames r0) in Hg. rewrite Eg in Hg. destruct Hg as [<-|Hg]; [now left|]. right.
  assert (X : exists x, In x (dn KSab) /\ img a b f0 aMb x g). { clear -Fg Hg. induction Fg as [|x g' ds gs Hx F IH]; [destruct Hg|]. destruct Hg as [->|Hg]; [exists x; split; [now left | exact Hx]|]. destruct (IH Hg) as (y & Y1 & Y2). exists y. split; [now right | exact Y2]. }
  destruct X as ([c f] & Hx & Hi). apply dnOf_In in Hx. exists c, f. split; [apply Hx | exact Hi].
Qed.
Lemma frames_r : NoDup (map fr_name (m_frames r)).
Proof. exact (frames_NoDup eps a b f0 aMb WN U KSab _ r0 J). Qed.
End Append.
