Require Import Reals String List Arith Bool Lia Lra.
From Verif Require Import Vec3 Spatial SpatialFacts Inertia Joints Spec_Joints Model Spec_Model ModelFacts ModelFacts2 ModelFacts3 ModelTree Data Kinematics Spec_Kin KinFacts Append AppendFacts5 Urdf Spec_Urdf UrdfFacts.
Import ListNotations.
Local Open Scope nat_scope.

Section Loading.
Variable eps : R.

Lemma pushBody m l L J body j p k : History eps m l -> Fr m L J -> ~ In body L -> j < m_njoints m -> k < m_nframes m ->
  exists m', addBodyFrame eps m body j p (Some k) = Ok m' (m_nframes m) /\ m_frames m' = m_frames m ++ [mkFrame body j k p BODY inertia_Zero] /\
    ext m m' /\ m_njoints m' = m_njoints m /\ History eps m' (l ++ [(j, p, inertia_Zero)]) /\ Fr m' (L ++ [body]) J.
Proof.
  intros H F N Hj Hk. assert (W : wellFormed m) by (apply (Built_wf eps); exists l; exact H). destruct (wf_frames _ W) as [Lf _].
  unfold addBodyFrame. replace (k <? length (m_frames m)) with true by (symmetry; apply Nat.ltb_lt; lia).
  destruct (push eps m l (mkFrame body j k p BODY inertia_Zero) H Hj (Fr_freshBody _ _ _ _ F N)) as (m' & E & E2 & X & Nj & H').
  exists m'. repeat (split; [assumption|]). exact (Fr_body m m' L J _ E2 eq_refl N F).
Qed.

Lemma append_ok m l L J fid jf Y body : History eps m l -> Fr m L J -> ~ In body L -> nth_error (m_frames m) fid = Some jf ->
  fr_placement jf = se3_Identity ->
  exists m' l' f, visitorAppend eps m fid Y se3_Identity body = Ok m' tt /\ ext m m' /\ m_njoints m' = m_njoints m /\
    History eps m' l' /\ Fr m' (L ++ [body]) J /\ isBody m' (m_nframes m) body f /\ fr_parentJoint f = fr_parentJoint jf /\
    fr_placement f = se3_Identity /\ (forall P, attached m P l -> attached m' (P ++ [(body, Y)]) l').
Proof.
  intros H F N Hf Hp. assert (W : wellFormed m) by (apply (Built_wf eps); exists l; exact H). destruct (wf_frames _ W) as [Lf Wf].
  assert (Hj : fr_parentJoint jf < m_njoints m) by (apply Wf; eapply nth_error_In; exact Hf).
  assert (Hk : fid < m_nframes m) by (rewrite Lf; apply nth_error_Some; congruence).
  unfold visitorAppend, frameAt. rewrite (nth_error_nth _ _ universeFrame Hf), Hp, se3_mul_1_l.
  destruct (isZeroInertia Y) eqn:Z.
  - destruct (pushBody m l L J body (fr_parentJoint jf) se3_Identity fid H F N Hj Hk) as (m' & E & E2 & X & Nj & H' & F').
    exists m', (l ++ [(fr_parentJoint jf, se3_Identity, inertia_Zero)]), (mkFrame body (fr_parentJoint jf) fid se3_Identity BODY inertia_Zero).
    cbn [bind]. rewrite E. split; [reflexivity|]. repeat (split; [assumption|]).
    split; [split; [rewrite E2, Lf; apply snoc_new | split; reflexivity]|]. split; [reflexivity|]. split; [reflexivity|].
    intros P A. apply attached_zero, attached_skip; [exact Z|]. exact (attached_ext _ _ _ _ X A).
  - destruct (appendBody_effect eps m (fr_parentJoint jf) Y se3_Identity W Hj) as (m1 & E1 & _ & _ & _ & Ef & _ & _).
    pose proof (H_step eps m m1 l _ H (S_body eps m m1 _ Y se3_Identity E1)) as H1. cbn in H1.
    assert (X1 : ext m m1 /\ m_njoints m1 = m_njoints m /\ m_nframes m1 = m_nframes m).
    { revert E1. unfold appendBodyToJoint. destruct (_ <? _); [|discriminate]. intros E1. injection E1 as <-. repeat split; auto. }
    destruct X1 as (X1 & Nj1 & Nf1).
    destruct (pushBody m1 _ L J body (fr_parentJoint jf) se3_Identity fid H1 (Fr_frames _ _ _ _ Ef F) N ltac:(lia) ltac:(lia)) as (m' & E & E2 & X & Nj & H' & F').
    exists m', ((l ++ [(fr_parentJoint jf, se3_Identity, Y)]) ++ [(fr_parentJoint jf, se3_Identity, inertia_Zero)]), (mkFrame body (fr_parentJoint jf) fid se3_Identity BODY inertia_Zero).
    rewrite E1. cbn [bind]. rewrite E. split; [reflexivity|].
    assert (Bd : isBody m' (m_nframes m) body (mkFrame body (fr_parentJoint jf) fid se3_Identity BODY inertia_Zero)).
    { split; [rewrite E2, Ef, Lf; apply snoc_new | split; reflexivity]. }
    split; [exact (ext_trans _ _ _ X1 X)|]. split; [congruence|]. split; [exact H'|]. split; [exact F'|]. split; [exact Bd|]. split; [reflexivity|]. split; [reflexivity|].
    intros P A. apply attached_zero. exact (attached_add m' P l body Y _ _ Bd (attached_ext _ _ _ _ (ext_trans _ _ _ X1 X) A)).
Qed.

(* a moving joint and its body *)
Lemma joint_ok m l L J p j lim pl jn pf Y body : History eps m l -> Fr m L J -> ~ In body L -> ~ In jn J -> p < m_njoints m ->
  notMimic j -> goodSizes j lim ->
  exists m' l' f, bind (addJoint m p (freshJoint j) pl jn lim)
    (fun m1 id => bind (addJointFrame eps m1 id (Some pf)) (fun m2 fid => visitorAppend eps m2 fid Y se3_Identity body)) = Ok m' tt /\
    ext m m' /\ History eps m' l' /\ Fr m' (L ++ [body]) (J ++ [jn]) /\
    (exists k, isBody m' k body f) /\ fr_parentJoint f = m_njoints m /\ fr_placement f = se3_Identity /\
    m_njoints m' = S (m_njoints m) /\ parent m' (m_njoints m) = p /\ placementOf m' (m_njoints m) = pl /\
    jm_type (joint m' (m_njoints m)) = j /\ nth (m_njoints m) (m_names m') ""%string = jn /\
    (forall P, attached m P l -> attached m' (P ++ [(body, Y)]) l').
Proof.
  intros H F Nb Nj Hp Hm Hs. assert (B : Built eps m) by (exists l; exact H). pose proof (Built_wf _ _ B) as W.
  assert (G : goodArg m (freshJoint j)) by (left; exists j; auto).
  destruct (addJoint_added eps m p (freshJoint j) pl jn lim B G Hp Hs) as (m1 & E1 & _).
  pose proof (addJoint_effect _ _ _ _ _ _ _ _ W G E1) as (_ & N1 & T1 & P1 & Q1 & M1 & _ & Old & R).
  destruct R as (_&_&_&_&_&_&_&_&_& Ef & _).
  pose proof (H_step eps m m1 l _ H (S_joint eps m m1 p j pl jn lim _ Hm E1)) as H1. cbn in H1.
  assert (X1 : ext m m1).
  { split; [lia|]. split; [intros k f; now rewrite Ef|]. intros i Hi. destruct (Old i Hi) as (O1&O2&O3&O4&_). auto. }
  assert (W1 : wellFormed m1) by (apply (Built_wf eps); exists l; exact H1).
  destruct (push eps m1 l (mkFrame jn (m_njoints m) pf se3_Identity JOINT inertia_Zero) H1 ltac:(cbn; lia)
    (Fr_freshJoint m1 L J jn JOINT (or_introl eq_refl) (Fr_frames _ _ _ _ Ef F) Nj)) as (m2 & E2 & F2 & X2 & N2 & H2).
  assert (A2 : addJointFrame eps m1 (m_njoints m) (Some pf) = Ok m2 (m_nframes m1)).
  { destruct (wf_lengths _ W1) as (_&_&L3&_&_&_&_&_&_&_&_&L12&_). unfold addJointFrame.
    replace (m_njoints m <? length (m_joints m1)) with true by (symmetry; apply Nat.ltb_lt; lia). cbn [negb].
    destruct (nth_error (m_names m1) (m_njoints m)) as [nm|] eqn:En; [|apply nth_error_None in En; lia].
    rewrite (nth_error_nth _ _ ""%string En) in M1. subst nm. exact E2. }
  pose proof (Fr_joint m1 m2 L J _ F2 (or_introl eq_refl) (Fr_frames _ _ _ _ Ef F)) as G2. cbn [fr_name] in G2.
  destruct (wf_frames _ W1) as [Lf1 _].
  destruct (append_ok m2 _ L (J ++ [jn]) (m_nframes m1) (mkFrame jn (m_njoints m) pf se3_Identity JOINT inertia_Zero) Y body H2 G2 Nb
    ltac:(rewrite F2, Lf1; apply snoc_new) eq_refl) as (m3 & l3 & f & E3 & X3 & N3 & H3 & F3 & Bd & Pj & Pp & At).
  exists m3, l3, f. rewrite E1. cbn [bind]. rewrite A2. cbn [bind]. split; [exact E3|].
  pose proof (ext_trans _ _ _ X2 X3) as X13. split; [exact (ext_trans _ _ _ X1 X13)|]. split; [exact H3|]. split; [exact F3|].
  split; [eexists; exact Bd|]. split; [exact Pj|]. split; [exact Pp|]. split; [lia|].
  destruct X13 as (_ & _ & X13). destruct (X13 (m_njoints m) ltac:(lia)) as (O1 & O2 & O3 & O4). rewrite O1, O2, O3, O4.
  repeat (split; [assumption|]). intros P A. apply At. cbn [fr_parentJoint fr_placement fr_inertia]. apply attached_zero.
  exact (attached_ext _ _ _ _ (ext_trans _ _ _ X1 X2) A).
Qed.

Definition Inv (m : Model) (L J : list string) (E : list Edge) (P : list (string * Inertia)) : Prop :=
  exists l, History eps m l /\ Fr m L J /\ (forall e, In e E -> linked m e) /\ attached m P l.

Definition pairOf (e : Edge) : string * Inertia := (e_name e, e_Y e).
Lemma link_ok m L J E P e : Inv m L J E P -> In (e_parent e) L -> ~ In (e_name e) L -> ~ In (c_name (e_conn e)) J -> goodJoint (c_joint (e_conn e)) ->
  exists m', parseLink eps m (e_parent e) (e_conn e) (e_name e) (e_Y e) = Ok m' tt /\
    Inv m' (L ++ [e_name e]) (J ++ [c_name (e_conn e)]) (E ++ [e]) (P ++ [pairOf e]) /\ ext m m' /\ m_njoints m' = m_njoints m + moving [e].
Proof.
  intros (l & H & F & Lk & At) Hpar Nb Nj G. assert (W : wellFormed m) by (apply (Built_wf eps); exists l; exact H).
  destruct (Fr_find m L J (e_parent e) W F Hpar) as (kg & g & Eb & Kg & Fg & Ng & Tg & Hg).
  unfold parseLink. rewrite Eb. cbn [bind].
  assert (Bg : isBody m kg (e_parent e) g) by (repeat split; assumption).
  destruct (c_joint (e_conn e)) as [[j lim]|] eqn:Ec.
  - destruct G as [G1 G2]. unfold visitorJoint. rewrite Fg.
    destruct (joint_ok m l L J (fr_parentJoint g) j lim (se3_mul (fr_placement g) (c_origin (e_conn e))) (c_name (e_conn e)) kg (e_Y e) (e_name e)
      H F Nb Nj Hg G1 G2) as (m' & l' & f & E1 & X & H' & F' & (kf & Bf) & Pj & Pp & N' & Q1 & Q2 & Q3 & Q4 & At').
    exists m'. split; [exact E1|]. split; [|split; [exact X | unfold moving; cbn; rewrite Ec; cbn; lia]]. exists l'. split; [exact H'|]. split; [exact F'|]. split; [|exact (At' P At)].
    intros e' He. apply in_app_or in He. destruct He as [He|[<-|[]]]; [exact (linked_ext _ _ _ X (Lk _ He))|].
    exists kf, f, kg, g. split; [exact Bf|]. split; [exact (isBody_ext _ _ _ _ _ X Bg)|]. rewrite Ec, Pj. pose proof (wf_n _ W).
    repeat (split; [first [assumption | lia]|]). exact Q4.
  - unfold visitorFixed. rewrite Fg. set (p := se3_mul (fr_placement g) (c_origin (e_conn e))).
    destruct (push eps m l (mkFrame (c_name (e_conn e)) (fr_parentJoint g) kg p FIXED_JOINT (e_Y e)) H Hg
      (Fr_freshJoint m L J _ FIXED_JOINT (or_intror eq_refl) F Nj)) as (m1 & E1 & F1 & X1 & N1 & H1).
    pose proof (Fr_joint m m1 L J _ F1 (or_intror eq_refl) F) as G1. cbn [fr_name] in G1.
    assert (W1 : wellFormed m1) by (apply (Built_wf eps); eexists; exact H1).
    destruct (wf_frames _ W) as [Lf _]. destruct (wf_frames _ W1) as [Lf1 _].
    assert (Hk : m_nframes m < m_nframes m1) by (rewrite Lf, Lf1, F1, app_length; cbn; lia).
    destruct (pushBody m1 _ L (J ++ [c_name (e_conn e)]) (e_name e) (fr_parentJoint g) p (m_nframes m) H1 G1 Nb ltac:(lia) Hk) as (m2 & E2 & F2 & X2 & N2 & H2 & G2).
    exists m2. rewrite E1. cbn [bind]. rewrite E2. split; [reflexivity|]. pose proof (ext_trans _ _ _ X1 X2) as X.
    assert (Bf : isBody m2 (m_nframes m1) (e_name e) (mkFrame (e_name e) (fr_parentJoint g) (m_nframes m) p BODY inertia_Zero)).
    { split; [rewrite F2, Lf1; apply snoc_new | split; reflexivity]. }
    split; [|split; [exact X | unfold moving; cbn; rewrite Ec; cbn; lia]]. eexists. split; [exact H2|]. split; [exact G2|]. split.
    + intros e' He. apply in_app_or in He. destruct He as [He|[<-|[]]]; [exact (linked_ext _ _ _ X (Lk _ He))|].
      eexists _, _, kg, g. split; [exact Bf|]. split; [exact (isBody_ext _ _ _ _ _ X Bg)|]. rewrite Ec. split; reflexivity.
    + cbn [fr_parentJoint fr_placement fr_inertia]. apply attached_zero. exact (attached_add m2 P l _ (e_Y e) _ _ Bf (attached_ext _ _ _ _ X At)).
Qed.

(* ---- the traversal ---- *)
Definition jn (e : Edge) : string := c_name (e_conn e).
(* the edges can be processed in this order *)
Fixpoint ready (L J : list string) (es : list Edge) : Prop :=
  match es with
  | [] => True
  | e :: r => In (e_parent e) L /\ ~ In (e_name e) L /\ ~ In (jn e) J /\ goodJoint (c_joint (e_conn e)) /\ ready (L ++ [e_name e]) (J ++ [jn e]) r
  end.
Definition runEdge (m : Model) (e : Edge) : Res Model unit := parseLink eps m (e_parent e) (e_conn e) (e_name e) (e_Y e).
Definition runEdges (m : Model) (es : list Edge) : Res Model unit := fold_left (fun r e => bind r (fun m _ => runEdge m e)) es (Ok m tt).

Lemma runEdges_ok es : forall m L J E P, Inv m L J E P -> ready L J es ->
  exists m', runEdges m es = Ok m' tt /\ Inv m' (L ++ map e_name es) (J ++ map jn es) (E ++ es) (P ++ map pairOf es) /\ m_njoints m' = m_njoints m + moving es.
Proof.
  induction es as [|e r IH]; intros m L J E P I R.
  - exists m. cbn. rewrite !app_nil_r, Nat.add_0_r. auto.
  - destruct R as (R1 & R2 & R3 & R4 & R5). destruct (link_ok m L J E P e I R1 R2 R3 R4) as (m1 & E1 & I1 & _ & C1).
    destruct (IH _ _ _ _ _ I1 R5) as (m' & E' & I' & C'). exists m'. split; [|split].
    + unfold runEdges. cbn [fold_left bind]. unfold runEdge at 2. rewrite E1. exact E'.
    + cbn [map]. rewrite <- !app_assoc in I'. exact I'.
    + rewrite C', C1. unfold moving. cbn [map fold_right]. lia.
Qed.

Lemma link_ind' (P : Link -> Prop) : (forall n Y ks, Forall (fun k => P (snd k)) ks -> P (mkLink n Y ks)) -> forall l, P l.
Proof.
  intros H. fix IH 1. intros [n Y ks]. apply H. induction ks as [|[c k] r IHr]; constructor; [apply IH | exact IHr].
Qed.
Lemma fold_bind_app (es fs : list Edge) r : fold_left (fun r e => bind r (fun m _ => runEdge m e)) (es ++ fs) r =
  fold_left (fun r e => bind r (fun m _ => runEdge m e)) fs (fold_left (fun r e => bind r (fun m _ => runEdge m e)) es r).
Proof. apply fold_left_app. Qed.
Lemma fold_bind_err es (r : Res Model unit) : (forall m u, r <> Ok m u) -> fold_left (fun r e => bind r (fun m _ => runEdge m e)) es r = r.
Proof.
  intros H. induction es as [|e es IH]; [reflexivity|]. cbn [fold_left].
  replace (bind r (fun m _ => runEdge m e)) with r; [exact IH|]. destruct r; [exfalso; eapply H; reflexivity | reflexivity | reflexivity].
Qed.
Lemma runEdges_app m es fs : runEdges m (es ++ fs) = bind (runEdges m es) (fun m1 _ => runEdges m1 fs).
Proof.
  unfold runEdges. rewrite fold_bind_app. destruct (fold_left _ es _) as [m1 []|m1|] eqn:E; cbn [bind]; [reflexivity| |]; apply fold_bind_err; discriminate.
Qed.
Lemma parseTree_edges l : forall pn c m, parseTree eps pn c l m = runEdges m (edges pn c l).
Proof.
  induction l as [n Y ks IH] using link_ind'. intros pn c m. cbn [parseTree edges].
  change (mkEdge pn c n Y :: flat_map (fun k => edges n (fst k) (snd k)) ks) with ([mkEdge pn c n Y] ++ flat_map (fun k => edges n (fst k) (snd k)) ks).
  rewrite runEdges_app. unfold runEdges at 1. cbn [fold_left bind]. unfold runEdge. cbn [e_parent e_conn e_name e_Y].
  destruct (parseLink eps m pn c n Y) as [m1 []|m1|]; cbn [bind]; try reflexivity. revert m1.
  induction IH as [|[c' l'] r Hk Hr IHr]; intros m1; [reflexivity|]. cbn [flat_map fst snd]. rewrite runEdges_app. cbn [fst snd] in Hk. rewrite Hk.
  destruct (runEdges m1 (edges n c' l')) as [m2 []|m2|]; cbn [bind]; [apply IHr | reflexivity | reflexivity].
Qed.
Lemma kids_edges n ks : forall r, fold_left (fun r k => bind r (fun m2 _ => parseTree eps n (fst k) (snd k) m2)) ks r =
  bind r (fun m _ => runEdges m (flat_map (fun k => edges n (fst k) (snd k)) ks)).
Proof.
  induction ks as [|k ks IH]; intros r; [destruct r as [m []|m|]; reflexivity|]. cbn [fold_left flat_map]. rewrite IH.
  destruct r as [m []|m|]; cbn [bind]; [|reflexivity|reflexivity]. rewrite parseTree_edges, runEdges_app. reflexivity.
Qed.

(* parents come first *)
Lemma ready_flat es : forall L J, NoDup (L ++ map e_name es) -> NoDup (J ++ map jn es) -> (forall e, In e es -> goodJoint (c_joint (e_conn e))) ->
  (forall a e b, es = a ++ e :: b -> In (e_parent e) (L ++ map e_name a)) -> ready L J es.
Proof.
  induction es as [|e r IH]; intros L J NL NJ G Par; [exact I|]. cbn [ready]. split; [specialize (Par [] e r eq_refl); now rewrite app_nil_r in Par|].
  cbn [map] in NL, NJ. split; [apply NoDup_remove_2 in NL; intros h; apply NL, in_or_app; auto|].
  split; [apply NoDup_remove_2 in NJ; intros h; apply NJ, in_or_app; auto|]. split; [apply G; left; reflexivity|].
  apply IH; rewrite <- ?app_assoc; [exact NL | exact NJ | intros; apply G; right; assumption|].
  intros a x b ->. specialize (Par (e :: a) x b eq_refl). cbn [map] in Par. rewrite <- app_assoc. exact Par.
Qed.
(* in a traversal every edge's parent is the given one or an earlier link *)
Definition closed (pn : string) (es : list Edge) : Prop := forall a e b, es = a ++ e :: b -> e_parent e = pn \/ In (e_parent e) (map e_name a).
Lemma app_split {A} (x y a b : list A) e : x ++ y = a ++ e :: b -> (exists b', x = a ++ e :: b') \/ (exists a', a = x ++ a' /\ y = a' ++ e :: b).
Proof.
  revert a. induction x as [|h x IH]; intros a H; cbn in H; [right; exists a; auto|]. destruct a as [|h' a]; cbn in H; injection H as -> H.
  - left. exists x. reflexivity.
  - destruct (IH a H) as [(b' & ->)|(a' & -> & ->)]; [left; exists b'; reflexivity | right; exists a'; auto].
Qed.
Lemma closed_app pn x y : closed pn x -> closed pn y -> closed pn (x ++ y).
Proof.
  intros Cx Cy a e b H. destruct (app_split _ _ _ _ _ H) as [(b' & E)|(a' & -> & E)]; [exact (Cx _ _ _ E)|].
  destruct (Cy _ _ _ E) as [?|Hin]; [auto|]. right. rewrite map_app. apply in_or_app; auto.
Qed.
Lemma edges_closed l : forall pn c, closed pn (edges pn c l).
Proof.
  induction l as [n Y ks IH] using link_ind'. intros pn c. cbn [edges].
  assert (C : closed n (flat_map (fun k => edges n (fst k) (snd k)) ks)).
  { induction IH as [|k r Hk Hr IHr]; [intros [|] ? ? E; discriminate|]. cbn [flat_map]. apply closed_app; [apply Hk | exact IHr]. }
  intros [|h a] e b E; cbn in E; injection E as <- E; [left; reflexivity|]. cbn [map].
  destruct (C _ _ _ E) as [Hp|Hp]; [right; left; cbn; congruence | right; right; exact Hp].
Qed.
Lemma tree_closed l : closed (rootName l) (treeEdges l).
Proof.
  destruct l as [n Y ks]. cbn [treeEdges rootName]. induction ks as [|k ks IH]; [intros [|] ? ? E; discriminate|]. cbn [flat_map].
  apply closed_app; [apply edges_closed | exact IH].
Qed.
End Loading.
