(* Appending a model: the properties, in terms of the two models. *)
Require Import Reals String List Arith Bool Lia Lra.
From Verif Require Import Vec3 Spatial Inertia InertiaFacts Joints Spec_Joints Model Spec_Model ModelFacts ModelFacts2 ModelTree ModelFacts3 Spec_Kin Sums Spec_Dyn LieGroup Mimic Reduce Spec_Append AppendFacts AppendFacts2 AppendFacts3 ReduceFacts ReduceFacts2 ReduceFacts6 Append Spec_Attach AppendFacts4 AppendFacts5 AppendFacts6 AppendFacts7.
Import ListNotations.
Local Open Scope nat_scope.

Lemma name0_step eps m m' b : wellFormed m -> Step eps m m' b -> nameOf m 0 = "universe"%string -> nameOf m' 0 = "universe"%string.
Proof.
  intros W H E0.
  assert (A : forall x, nameOf m 0 = "universe"%string -> nth 0 (m_names m ++ [x]) ""%string = "universe"%string).
  { intros x E. unfold nameOf in E. destruct (m_names m) as [|y l]; [discriminate E|exact E]. }
  assert (Fr : forall f c id, addFrame eps m f c = Ok m' id -> nameOf m' 0 = "universe"%string).
  { intros f c id E. destruct (addFrame_cases _ _ _ _ _ _ E) as (_ & [(_ & -> & _) | (_ & _ & [(_ & ->) | (_ & _ & ->)])]); exact E0. }
  inversion H as [p j pl nm lim id Hn Ha | p j k s o pl nm lim id Hk Hm Hi Hq Hv Ha | j Y pl Ha | f id Ha Hi
    | f b' id Ha Hi | f id Ha | g arm Hl Ha]; subst.
  - destruct (addJoint_inv _ _ _ _ _ _ _ _ Ha) as (jm' & anc & sup & msup & _ & _ & _ & _ & _ & ->). unfold nameOf. cbn [m_names]. now apply A.
  - destruct (addJoint_inv _ _ _ _ _ _ _ _ Ha) as (jm' & anc & sup & msup & _ & _ & _ & _ & _ & ->). unfold nameOf. cbn [m_names]. now apply A.
  - unfold appendBodyToJoint in Ha. destruct (_ <? _); [|discriminate]. inversion Ha. exact E0.
  - now apply (Fr _ _ _ Ha).
  - now apply (Fr _ _ _ Ha).
  - now apply (Fr _ _ _ Ha).
  - exact E0.
Qed.
Lemma Configured_name0 eps m : Configured eps m -> nameOf m 0 = "universe"%string.
Proof.
  intros (m0 & ri & rg & refs & B & _ & _ & ->). change (nameOf m0 0 = "universe"%string). destruct B as [l H]. induction H as [|m m' l b H IH S]; [reflexivity|].
  apply (name0_step eps m m' b); [apply (Built_wf eps); exists l; exact H | exact S | exact IH].
Qed.
Lemma append_rejects eps neu a b fi aMb : m_nframes a <= fi -> appendModel eps neu a b fi aMb = Throw emptyModel.
Proof. intros H. unfold appendModel. destruct (Nat.ltb_spec fi (m_nframes a)); [lia | reflexivity]. Qed.
Lemma neutralVector_length m : length (neutralVector m) = m_nq m.
Proof. unfold neutralVector. now rewrite map_length, seq_length. Qed.

Section Final.
Variables (eps : R) (a b : Model) (fi : nat) (f : Frame) (aMb : SE3).
Hypothesis A : appendable eps a b fi f.
Notation p := (fr_parentJoint f).
Notation src := (srcOf a b).
Notation posK := (pos a b p).
Notation M := (se3_mul (fr_placement f) aMb).
Let Cf : forall c, Configured eps (src c) := fun c => match c with true => proj1 (ap_models _ _ _ _ _ A) | false => proj2 (ap_models _ _ _ _ _ A) end.
Let WN : forall c, wellNamed (src c) := fun c => match c with true => proj1 (ap_named _ _ _ _ _ A) | false => proj2 (ap_named _ _ _ _ _ A) end.
Let RK : forall c, NoDup (map fst (m_refs (src c))) := fun c => match c with true => proj1 (ap_refs _ _ _ _ _ A) | false => proj2 (ap_refs _ _ _ _ _ A) end.
Let W : forall c, wellFormed (src c) := fun c => proj1 (Configured_facts eps (src c) (Cf c)).
Let T : forall c, treeInv (src c) := fun c => proj1 (proj2 (Configured_facts eps (src c) (Cf c))).
Let PR : forall c, plainRefs (src c) := fun c => proj1 (proj2 (proj2 (Configured_facts eps (src c) (Cf c)))).
Let U : forall c, nameOf (src c) 0 = "universe"%string /\ nth_error (m_frames (src c)) 0 = Some universeFrame :=
  fun c => conj (Configured_name0 eps (src c) (Cf c)) (proj2 (proj2 (proj2 (Configured_facts eps (src c) (Cf c))))).
Let NJ := ap_joints _ _ _ _ _ A.
Let NF := ap_frames _ _ _ _ _ A.
Lemma Hp : p < m_njoints a.
Proof. apply (proj2 (wf_frames _ (W true)) f). eapply nth_error_In. apply (ap_frame _ _ _ _ _ A). Qed.
Definition refsOk (r : Model) (refs : list (string * list R)) (neu : list R) : Prop :=
  forall key, if match lookup key (m_refs a), lookup key (m_refs b) with None, None => true | _, _ => false end
    then lookup key refs = None
    else exists x, lookup key refs = Some x /\ length x = m_nq r /\
       forall c i, 0 < i < m_njoints (src c) -> segQ r (posK (c, i)) x = match lookup key (m_refs (src c)) with Some q => segQ (src c) i q | None => segQ r (posK (c, i)) neu end.
Lemma runs : exists r refs, appendModel eps neutralVector a b fi aMb = Ok (setRefs r refs) tt /\ AInv eps a b f aMb (KS a b p) (dnOf a b (KS a b p)) r /\ refsOk r refs (neutralVector r).
Proof. exact (append_ok eps a b f aMb W (T true) PR WN U NJ NF Hp (ap_mimic _ _ _ _ _ A) RK neutralVector fi (ap_frame _ _ _ _ _ A) neutralVector_length). Qed.
Lemma succeeds : exists r, appendModel eps neutralVector a b fi aMb = Ok r tt.
Proof. destruct runs as (r & refs & E & _). eauto. Qed.
Variable rr : Model.
Hypothesis HB : appendModel eps neutralVector a b fi aMb = Ok rr tt.
Lemma inv : exists r refs, rr = setRefs r refs /\ AInv eps a b f aMb (KS a b p) (dnOf a b (KS a b p)) r /\ refsOk r refs (neutralVector r).
Proof. destruct runs as (r & refs & E & J & Rf). rewrite HB in E. injection E as ->. exists r, refs. auto. Qed.

Lemma fin_joints : wellFormed rr /\ NoDup (m_names rr) /\ m_njoints rr + 1 = m_njoints a + m_njoints b /\
  (forall i, 0 < i < m_njoints a -> exists k, copied a i rr k) /\ (forall i, 0 < i < m_njoints b -> exists k, copied b i rr k) /\
  (forall k, 0 < k < m_njoints rr -> (exists i, copied a i rr k) \/ (exists i, copied b i rr k)) /\
  (forall i, 0 < i <= p -> copied a i rr i).
Proof.
  destruct inv as (r & refs & -> & J & _). split; [apply (lay_wf _ _ (Layout_setRefs r _ refs (ai_lay _ _ _ _ _ _ _ _ J)))|].
  split; [apply (names_r eps a b f aMb W WN U NJ Hp r refs J)|]. split; [apply (count eps a b f aMb W Hp r refs J)|].
  pose proof (key_copied eps a b f aMb W Hp r refs J) as KC.
  split; [intros i Hi; exists (posK (true, i)); exact (KC true i Hi)|]. split; [intros i Hi; exists (posK (false, i)); exact (KC false i Hi)|]. split.
  - intros k Hk. destruct (every_joint eps a b f aMb W Hp r refs J k Hk) as (c & i & _ & _ & C). destruct c; [left|right]; exists i; exact C.
  - intros i Hi. pose proof Hp as H. pose proof (KC true i ltac:(cbn [srcOf]; lia)) as X. rewrite (pos_a a b p (W true) H i) in X by lia. exact X.
Qed.
Lemma fin_place : (forall i k, copied a i rr k -> stands a rr (parent a i) (parent rr k) /\ placementOf rr k = placementOf a i) /\
  (forall i k, copied b i rr k -> parent b i <> 0 -> copied b (parent b i) rr (parent rr k) /\ placementOf rr k = placementOf b i) /\
  (forall i k, copied b i rr k -> parent b i = 0 -> parent rr k = p /\ placementOf rr k = se3_mul M (placementOf b i)).
Proof.
  destruct inv as (r & refs & -> & J & _). pose proof (copy_unique eps a b f aMb W WN U NJ Hp r refs J) as CU. pose proof (key_parent eps a b f aMb W Hp r refs J) as KP.
  split; [|split].
  - intros i k C. destruct (cp_range _ _ _ _ C) as [R1 _]. rewrite (CU true i k C). destruct (KP true i R1) as [-> ->]. pose proof (wf_parent _ (W true) i R1) as Hpa. cbn [srcOf] in *. split; [|apply se3_mul_1_l].
    apply (key_stands eps a b f aMb W Hp r refs J true); [reflexivity | cbn [srcOf]; lia].
  - intros i k C Hn. destruct (cp_range _ _ _ _ C) as [R1 _]. rewrite (CU false i k C). destruct (KP false i R1) as [-> ->]. pose proof (wf_parent _ (W false) i R1) as Hpa. cbn [srcOf] in *. split.
    + apply (key_copied eps a b f aMb W Hp r refs J false). cbn [srcOf]. lia.
    + rewrite (mount_pos f aMb) by lia. apply se3_mul_1_l.
  - intros i k C Hz. destruct (cp_range _ _ _ _ C) as [R1 _]. rewrite (CU false i k C). destruct (KP false i R1) as [-> ->]. cbn [srcOf]. rewrite Hz. split; reflexivity.
Qed.
Section Motion.
Variables (qa qb qr : nat -> R).
Hypotheses (Va : validModel a) (Vb : validModel b) (SA : sameCoordinates a rr qa qr) (SB : sameCoordinates b rr qb qr).
Let qs := fun c : bool => if c then qa else qb.
Let Vs : forall c, validModel (src c) := fun c => match c with true => Va | false => Vb end.
Lemma fin_world : (forall i k, stands a rr i k -> worldPl rr qr k = worldPl a qa i) /\ (forall i k, copied b i rr k -> worldPl rr qr k = se3_mul (se3_mul (worldPl a qa p) M) (worldPl b qb i)).
Proof.
  destruct inv as (r & refs & E & J & _). rewrite E in *. pose proof (copy_unique eps a b f aMb W WN U NJ Hp r refs J) as CU.
  assert (SQ : forall c, sameCoordinates (src c) (setRefs r refs) (qs c) qr) by (intros []; assumption).
  pose proof (wf_n _ (W true)) as Hn. split.
  - intros i k S. destruct S as [[-> ->]|C].
    + exact (world_a eps a b f aMb W T Hp r refs J qs qr Vs SQ 0 Hn).
    + destruct (cp_range _ _ _ _ C) as [R1 _]. rewrite (CU true i k C). apply (world_a eps a b f aMb W T Hp r refs J qs qr Vs SQ i (proj2 R1)).
  - intros i k C. destruct (cp_range _ _ _ _ C) as [R1 _]. rewrite (CU false i k C). pose proof (world_key eps a b f aMb W T Hp r refs J qs qr Vs SQ false i (proj2 R1)) as X.
    rewrite (mount_pos f aMb false i (proj1 R1)), se3_mul_1_r in X. exact X.
Qed.
Hypotheses (Qa : validState a qa) (Qb : validState b qb) (RF : isRotation (rot (fr_placement f))) (RM : isRotation (rot aMb)).
Let Qs : forall c, validState (src c) (qs c) := fun c => match c with true => Qa | false => Qb end.
Lemma fin_vel wa wb wr : sameVelocities a rr wa wr -> sameVelocities b rr wb wr ->
  (forall i k, stands a rr i k -> bodyVel rr qr wr k = bodyVel a qa wa i) /\ (forall i k, copied b i rr k -> bodyVel rr qr wr k = carriedVel b qb wb M (bodyVel a qa wa p) i).
Proof.
  intros H1 H2. destruct inv as (r & refs & E & J & _). rewrite E in *. pose proof (copy_unique eps a b f aMb W WN U NJ Hp r refs J) as CU.
  assert (SQ : forall c, sameCoordinates (src c) (setRefs r refs) (qs c) qr) by (intros []; assumption).
  assert (SW : forall c, sameVelocities (src c) (setRefs r refs) (if c then wa else wb) wr) by (intros []; assumption).
  pose proof (wf_n _ (W true)) as Hn. split.
  - intros i k S. destruct S as [[-> ->]|C].
    + exact (vel_a eps a b f aMb W T Hp r refs J qs qr Vs SQ Qs RF RM (fun c : bool => if c then wa else wb) wr SW 0 Hn).
    + destruct (cp_range _ _ _ _ C) as [R1 _]. rewrite (CU true i k C). exact (vel_a eps a b f aMb W T Hp r refs J qs qr Vs SQ Qs RF RM (fun c : bool => if c then wa else wb) wr SW i (proj2 R1)).
  - intros i k C. destruct (cp_range _ _ _ _ C) as [R1 _]. rewrite (CU false i k C). pose proof (vel_key eps a b f aMb W T Hp r refs J qs qr Vs SQ Qs RF RM (fun c : bool => if c then wa else wb) wr SW false i (proj2 R1)) as X.
    rewrite (mount_pos f aMb false i (proj1 R1)), motion_actInv_1 in X. exact X.
Qed.
Lemma fin_kinetic wa wb wr wa' wb' wr' : regularMasses eps a -> regularMasses eps b -> plainFrames a -> plainFrames b ->
  sameVelocities a rr wa wr -> sameVelocities b rr wb wr -> sameVelocities a rr wa' wr' -> sameVelocities b rr wb' wr' ->
  kineticForm rr qr wr wr' = (kineticForm a qa wa wa' +
    sumN (m_njoints b) (fun i => v6dot (carriedVel b qb wb M (bodyVel a qa wa p) i) (inertia_mul (inertiaOf b i) (carriedVel b qb wb' M (bodyVel a qa wa' p) i))))%R.
Proof.
  intros [He Ma] [_ Mb] Za Zb H1 H2 H3 H4. destruct inv as (r & refs & E & J & _). rewrite E in *.
  apply (kinetic_ok eps a b f aMb W T Hp r refs J qs qr Vs) with (ws := fun c : bool => if c then wa else wb) (ws' := fun c : bool => if c then wa' else wb');
    try assumption; try exact Qs; intros []; assumption.
Qed.
End Motion.
Lemma fin_mass : totalMass rr = (totalMass a + totalMass b)%R.
Proof. destruct inv as (r & refs & -> & J & _). apply (mass_r eps a b f aMb W Hp r refs J). Qed.
Lemma fin_inertias : regularMasses eps a -> regularMasses eps b -> plainFrames a -> plainFrames b ->
  (forall i k, stands a rr i k -> i <> p -> inertia_matrix (inertiaOf rr k) = inertia_matrix (inertiaOf a i)) /\
  inertia_matrix (inertiaOf rr p) = m6add (inertia_matrix (inertiaOf a p)) (inertia_matrix (inertia_act M (inertiaOf b 0))) /\
  (forall i k, copied b i rr k -> inertia_matrix (inertiaOf rr k) = inertia_matrix (inertiaOf b i)).
Proof.
  intros [He Ma] [_ Mb] Za Zb. destruct inv as (r & refs & -> & J & _). pose proof (copy_unique eps a b f aMb W WN U NJ Hp r refs J) as CU.
  assert (Hr : forall c k, k < m_njoints (src c) -> regular eps (inertiaOf (src c) k)) by (intros []; [exact Ma | exact Mb]).
  assert (Hz : zeroFrames a b) by (intros []; [exact Za | exact Zb]). pose proof Hp as Hp'.
  assert (BA : forall i, i < m_njoints a -> inertia_matrix (inertiaOf (setRefs r refs) (posK (true, i))) = if i =? p then m6add (inertia_matrix (inertiaOf a i)) (inertia_matrix (inertia_act M (inertiaOf b 0))) else inertia_matrix (inertiaOf a i)).
  { intros i Hi. apply (bodies_a eps a b f aMb W Hp r refs J i He Hr Hz Hi). }
  split; [|split].
  - intros i k S Hne. assert (Hi : i < m_njoints a) by (destruct S as [[-> _]|C]; [apply (wf_n _ (W true)) | apply (cp_range _ _ _ _ C)]).
    assert (Ek : k = posK (true, i)) by (destruct S as [[-> ->]|C]; [reflexivity | now apply (CU true)]). rewrite Ek, (BA i Hi). destruct (Nat.eqb_spec i p); [contradiction | reflexivity].
  - pose proof (BA p Hp') as X. rewrite Nat.eqb_refl in X. rewrite (pos_p a b p (W true) Hp) in X. exact X.
  - intros i k C. destruct (cp_range _ _ _ _ C) as [R1 _]. rewrite (CU false i k C). apply (bodies_b eps a b f aMb W Hp r refs J i He Hr Hz R1).
Qed.
Lemma fin_frames :
  (forall h, In h (m_frames a) -> exists g, In g (m_frames rr) /\ fr_name g = fr_name h /\ fr_type g = fr_type h /\ fr_inertia g = fr_inertia h /\
     stands a rr (fr_parentJoint h) (fr_parentJoint g) /\ fr_placement g = fr_placement h) /\
  (forall h, In h (tl (m_frames b)) -> exists g, In g (m_frames rr) /\ fr_name g = fr_name h /\ fr_type g = fr_type h /\ fr_inertia g = fr_inertia h /\
     (fr_parentJoint h <> 0 -> copied b (fr_parentJoint h) rr (fr_parentJoint g) /\ fr_placement g = fr_placement h) /\
     (fr_parentJoint h = 0 -> fr_parentJoint g = p /\ fr_placement g = se3_mul M (fr_placement h))) /\
  (forall g, In g (m_frames rr) -> exists h, In h (m_frames a ++ tl (m_frames b)) /\ fr_name h = fr_name g) /\ NoDup (map fr_name (m_frames rr)).
Proof.
  destruct inv as (r & refs & -> & J & _). pose proof (frames_to eps a b f aMb W U Hp r refs J) as FT. pose proof (frames_cons a b U true) as Fa. cbn [srcOf] in Fa.
  split; [|split; [|split]].
  - intros h Hh. rewrite Fa in Hh. destruct Hh as [<-|Hh].
    + destruct (ai_frames _ _ _ _ _ _ _ _ J) as (gs & Eg & _). exists universeFrame. change (m_frames (setRefs r refs)) with (m_frames r). rewrite Eg. split; [now left|]. repeat split. left. split; reflexivity.
    + destruct (FT true h Hh) as (g & G1 & G2 & G3 & G4 & G5 & G6). cbn [fst snd] in *. exists g. repeat (split; [assumption|]). split.
      * rewrite G5. apply (key_stands eps a b f aMb W Hp r refs J true); [reflexivity|]. apply (proj2 (wf_frames _ (W true)) h). cbn [srcOf]. rewrite Fa. now right.
      * rewrite G6. apply se3_mul_1_l.
  - intros h Hh. destruct (FT false h Hh) as (g & G1 & G2 & G3 & G4 & G5 & G6). cbn [fst snd] in *. exists g. repeat (split; [assumption|]). split.
    + intros Hn. split.
      * rewrite G5. apply (key_copied eps a b f aMb W Hp r refs J false). split; [lia|]. apply (proj2 (wf_frames _ (W false)) h). rewrite (frames_cons a b U false). now right.
      * rewrite G6, (mount_pos f aMb) by lia. apply se3_mul_1_l.
    + intros Hz. rewrite G5, G6, Hz. split; reflexivity.
  - intros g Hg. destruct (frames_from eps a b f aMb r refs J g Hg) as [->|(c & h & Hh & I1 & _)].
    + exists universeFrame. rewrite Fa. split; [now left | reflexivity].
    + exists h. cbn [snd] in I1. split; [|now symmetry]. apply in_or_app. destruct c; [left; rewrite Fa; now right | right; exact Hh].
  - apply (frames_r eps a b f aMb WN U r refs J).
Qed.
Lemma fin_refs key : (lookup key (m_refs rr) = None <-> lookup key (m_refs a) = None /\ lookup key (m_refs b) = None) /\
  forall x, lookup key (m_refs rr) = Some x -> length x = m_nq rr /\
   (forall i k, copied a i rr k -> segQ rr k x = match lookup key (m_refs a) with Some q => segQ a i q | None => segQ rr k (neutralVector rr) end) /\
   (forall i k, copied b i rr k -> segQ rr k x = match lookup key (m_refs b) with Some q => segQ b i q | None => segQ rr k (neutralVector rr) end).
Proof.
  destruct inv as (r & refs & -> & J & Rf). specialize (Rf key). pose proof (copy_unique eps a b f aMb W WN U NJ Hp r refs J) as CU.
  change (m_refs (setRefs r refs)) with refs. change (m_nq (setRefs r refs)) with (m_nq r). change (neutralVector (setRefs r refs)) with (neutralVector r).
  assert (Sg : forall k x, segQ (setRefs r refs) k x = segQ r k x) by reflexivity.
  destruct (lookup key (m_refs a)) as [xa|] eqn:Ea, (lookup key (m_refs b)) as [xb|] eqn:Eb; cbn [srcOf] in Rf.
  4:{ rewrite Rf. split; [split; [split; reflexivity | reflexivity]|]. intros x E. discriminate. }
  all: destruct Rf as (x & -> & Hl & Hs); (split; [split; [discriminate | intros [? ?]; discriminate]|]); intros x' E; injection E as <-; (split; [exact Hl|]); split; intros i k C; destruct (cp_range _ _ _ _ C) as [R1 _];
    rewrite Sg; try rewrite Sg.
  all: match type of C with copied ?m ?i _ ?k => first [rewrite (CU true i k C); specialize (Hs true i R1); cbn [srcOf] in Hs; rewrite Ea in Hs; exact Hs
                     | rewrite (CU false i k C); specialize (Hs false i R1); cbn [srcOf] in Hs; rewrite Eb in Hs; exact Hs] end.
Qed.
Lemma fin_lost : m_gravity rr = m_gravity emptyModel /\ m_name rr = m_name emptyModel /\ m_armature rr = repeat 0%R (m_nv rr).
Proof.
  destruct inv as (r & refs & -> & J & _). destruct (ai_const _ _ _ _ _ _ _ _ J) as (G1 & G2 & _). split; [exact G1|]. split; [exact G2|]. exact (lay_arm _ _ (ai_lay _ _ _ _ _ _ _ _ J)).
Qed.
End Final.
