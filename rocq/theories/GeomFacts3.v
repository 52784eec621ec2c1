(* Histories of edits, removal of objects, concatenation, geometry data, placements. *)
Require Import Reals String List Arith ZArith Bool Lia.
From Verif Require Import Vec3 Spatial Joints Model Spec_Model Data Kinematics Spec_Kin KinFacts2 KinFacts3 Geometry Spec_Geom GeomFacts GeomFacts2.
Import ListNotations.
Local Open Scope nat_scope.

Lemma addObject_spec g o : gInv g -> exists g', addGeometryObject g o = Ok g' (g_ngeoms g) /\ gInv g' /\ g_objs g' = g_objs g ++ [o] /\ g_ngeoms g' = g_ngeoms g + 1 /\ g_pairs g' = g_pairs g.
Proof.
  intros I. unfold addGeometryObject. eexists. split; [reflexivity|]. split; [|cbn; split; [reflexivity|]; split; [lia | reflexivity]].
  split; cbn [g_objs g_ngeoms g_pairs g_map gm_size gm_at mapFillCross mapResize].
  - rewrite app_length, (gi_objs _ I). cbn. lia.
  - lia.
  - intros r Hr. destruct (gi_proper _ I r Hr) as (X & Y & Z). repeat split; cbn; [exact X|lia|lia].
  - apply (gi_unique _ I).
  - intros a b Ha Hb. rewrite (gi_size _ I). destruct ((a =? g_ngeoms g) || (b =? g_ngeoms g)) eqn:E.
    + exists (-1)%Z. split; [reflexivity|]. left. split; [reflexivity|]. intros k r Hk Hs. apply nth_error_In in Hk. destruct (gi_proper _ I r Hk) as (X & Y & Z).
      apply orb_true_iff in E. rewrite !Nat.eqb_eq in E. destruct Hs as [E0|E0]; rewrite E0 in Y, Z; cbn in Y, Z; lia.
    + apply orb_false_iff in E. rewrite !Nat.eqb_neq in E. destruct (Nat.ltb_spec a (g_ngeoms g)), (Nat.ltb_spec b (g_ngeoms g)); try lia. cbn [andb]. apply (gi_map _ I); assumption.
Qed.
Lemma addObjectTo_inv m g g' o k : gInv g -> addGeometryObjectTo m g o = Ok g' k -> gInv g' /\ k = g_ngeoms g /\ g_pairs g' = g_pairs g /\ g_ngeoms g' = g_ngeoms g + 1 /\
  exists f, nth_error (m_frames m) (go_parentFrame o) = Some f /\ g_objs g' = g_objs g ++ [go_setJoint o (fr_parentJoint f)].
Proof.
  intros I E. unfold addGeometryObjectTo in E. destruct (nth_error _ _) as [f|] eqn:Ef; [|discriminate]. destruct (_ && _); [discriminate|].
  destruct (addObject_spec g (go_setJoint o (fr_parentJoint f)) I) as (h & E' & I' & X1 & X2 & X3). rewrite E' in E. inversion E; subst. split; [exact I'|]. split; [reflexivity|]. split; [exact X3|]. split; [exact X2|]. exists f. split; [reflexivity | exact X1].
Qed.
Lemma addAll_spec g : gInv g -> exists g', addAllCollisionPairs g = Ok g' tt /\ gInv g' /\ g_objs g' = g_objs g /\ g_ngeoms g' = g_ngeoms g /\
  forall i j, hasPair g' (i, j) <-> exists a b, nth_error (g_objs g) i = Some a /\ nth_error (g_objs g) j = Some b /\ go_parentJoint a <> go_parentJoint b.
Proof.
  intros I. destruct (removeAll_inv g I) as [I0 N0]. set (g0 := removeAllCollisionPairs g) in *.
  pose (jo := fun i => match nth_error (g_objs g) i with Some a => go_parentJoint a | None => 0 end).
  destruct (pairLoop_spec (fun h i j => match jointOf h i, jointOf h j with Some a, Some b => Some (negb (a =? b)) | _, _ => None end) (fun i j => negb (jo i =? jo j)) g0 I0 N0) as (g' & E & I' & X1 & X2 & X3).
  - intros h i j Ho Hi Hj. change (g_ngeoms g0) with (g_ngeoms g) in *. unfold jointOf, jo. rewrite Ho. change (g_objs g0) with (g_objs g).
    destruct (nth_error (g_objs g) i) eqn:E1; [|apply nth_error_None in E1; rewrite (gi_objs _ I) in E1; lia].
    destruct (nth_error (g_objs g) j) eqn:E2; [|apply nth_error_None in E2; rewrite (gi_objs _ I) in E2; lia]. reflexivity.
  - exists g'. split; [|split; [exact I'|split; [exact X1|split; [exact X2|]]]].
    + rewrite <- E. unfold addAllCollisionPairs, pairLoop. fold g0. change (g_ngeoms g0) with (g_ngeoms g).
      assert (Ext : forall l f f' x, (forall h i, f h i = f' h i) -> gFor l f x = gFor l f' x).
      { intros l f f' x H. revert x. induction l as [|i l IH]; intros x; cbn [gFor]; [reflexivity|]. rewrite H. destruct (f' x i); cbn; auto. }
      apply Ext. intros h i. apply Ext. intros h' j. destruct (jointOf h' i) as [x|]; [|reflexivity]. destruct (jointOf h' j) as [y|]; [|reflexivity]. destruct (Nat.eqb x y); reflexivity.
    + intros i j. rewrite X3. change (g_ngeoms g0) with (g_ngeoms g). rewrite <- (gi_objs _ I). unfold jo. rewrite !negb_true_iff, !Nat.eqb_neq. split.
      * intros (Hi & Hj & H). destruct (nth_error (g_objs g) i) as [a|] eqn:E1; [|apply nth_error_None in E1; lia]. destruct (nth_error (g_objs g) j) as [b|] eqn:E2; [|apply nth_error_None in E2; lia].
        exists a, b. split; [reflexivity|]. split; [reflexivity|]. destruct H as [[_ H]|[_ H]]; congruence.
      * intros (a & b & E1 & E2 & H). rewrite E1, E2. assert (i < length (g_objs g)) by (apply nth_error_Some; congruence). assert (j < length (g_objs g)) by (apply nth_error_Some; congruence).
        split; [assumption|]. split; [assumption|]. destruct (Nat.lt_trichotomy i j) as [Hl|[->|Hg]]; [left; auto | rewrite E1 in E2; inversion E2; subst; congruence | right; auto].
Qed.
Lemma set_spec g r c f u : gInv g -> r = g_ngeoms g -> c = g_ngeoms g -> exists g', setCollisionPairs g r c f u = Ok g' tt /\ gInv g' /\ g_objs g' = g_objs g /\ g_ngeoms g' = g_ngeoms g /\
  forall i j, i < j -> (hasPair g' (i, j) <-> j < g_ngeoms g /\ (if u then f i j else f j i) = true).
Proof.
  intros I -> ->. unfold setCollisionPairs. rewrite !Nat.eqb_refl. cbn [negb]. destruct (removeAll_inv g I) as [I0 N0]. set (g0 := removeAllCollisionPairs g) in *.
  destruct (pairLoop_spec (fun h i j => Some (if u then f i j else f j i)) (fun i j => if u then f i j else f j i) g0 I0 N0) as (g' & E & I' & X1 & X2 & X3); [auto|].
  exists g'. split; [|split; [exact I'|split; [exact X1|split; [exact X2|]]]].
  - rewrite <- E. unfold pairLoop. change (g_ngeoms g0) with (g_ngeoms g).
    assert (Ext : forall l f f' x, (forall h i, f h i = f' h i) -> gFor l f x = gFor l f' x).
    { intros l f0 f' x H. revert x. induction l as [|i l IH]; intros x; cbn [gFor]; [reflexivity|]. rewrite H. destruct (f' x i); cbn; auto. }
    apply Ext. intros h i. apply Ext. intros h' j. destruct (if u then f i j else f j i); reflexivity.
  - intros i j Hij. rewrite X3. change (g_ngeoms g0) with (g_ngeoms g). split; [intros (A & B & [C|C]); [tauto|lia] | intros (A & B); split; [lia|]; split; [lia|]; left; auto].
Qed.
Lemma set_size g r c f u : r <> g_ngeoms g \/ c <> g_ngeoms g -> setCollisionPairs g r c f u = Throw g.
Proof. intros H. unfold setCollisionPairs. destruct (Nat.eqb_spec r (g_ngeoms g)); [|reflexivity]. destruct (Nat.eqb_spec c (g_ngeoms g)); [lia | reflexivity]. Qed.
Lemma range_throw g p : ~ (fst p < g_ngeoms g /\ snd p < g_ngeoms g) -> addCollisionPair g p = Throw g /\ removeCollisionPair g p = Throw g.
Proof.
  intros H. unfold addCollisionPair, removeCollisionPair. destruct (Nat.ltb_spec (fst p) (g_ngeoms g)); [|split; reflexivity]. destruct (Nat.ltb_spec (snd p) (g_ngeoms g)); [lia|split; reflexivity].
Qed.
Lemma ctor_spec g a b p : CollisionPair g a b = Ok g p -> a <> b /\ p = (a, b).
Proof. unfold CollisionPair. destruct (Nat.eqb_spec a b); [discriminate|]. intros E; inversion E; auto. Qed.
Lemma built_inv g : GBuilt g -> gInv g.
Proof.
  induction 1 as [|g g' _ I St].
  - constructor; cbn.
    + reflexivity.
    + reflexivity.
    + intros ? [].
    + intros k l r0 s0 Hk. destruct k; discriminate.
    + intros a b Ha. lia.
  - destruct St as [o k E|m o k E|a b p E E2|E|r c f u E|a b p E E2|E].
    + destruct (addObject_spec g o I) as (h & E' & I' & _). rewrite E' in E. now inversion E; subst.
    + apply (addObjectTo_inv m g g' o k I E).
    + apply ctor_spec in E. destruct E as [Hn ->].
      destruct (Nat.lt_ge_cases a (g_ngeoms g)) as [Ha|Ha]; [destruct (Nat.lt_ge_cases b (g_ngeoms g)) as [Hb|Hb]|].
      * destruct (add_spec g (a, b) I ltac:(repeat split; assumption)) as (h & E' & I' & _). rewrite E' in E2. now inversion E2; subst.
      * rewrite (proj1 (range_throw g (a, b) ltac:(cbn; lia))) in E2. discriminate.
      * rewrite (proj1 (range_throw g (a, b) ltac:(cbn; lia))) in E2. discriminate.
    + destruct (addAll_spec g I) as (h & E' & I' & _). rewrite E' in E. now inversion E; subst.
    + destruct (Nat.eq_dec r (g_ngeoms g)) as [Hr|Hr]; [destruct (Nat.eq_dec c (g_ngeoms g)) as [Hc|Hc]|]; try (rewrite set_size in E by auto; discriminate).
      destruct (set_spec g r c f u I Hr Hc) as (h & E' & I' & _). rewrite E' in E. now inversion E; subst.
    + apply ctor_spec in E. destruct E as [Hn ->].
      destruct (Nat.lt_ge_cases a (g_ngeoms g)) as [Ha|Ha]; [destruct (Nat.lt_ge_cases b (g_ngeoms g)) as [Hb|Hb]|].
      * destruct (remove_spec g (a, b) I ltac:(repeat split; assumption)) as (h & E' & I' & _). rewrite E' in E2. now inversion E2; subst.
      * rewrite (proj2 (range_throw g (a, b) ltac:(cbn; lia))) in E2. discriminate.
      * rewrite (proj2 (range_throw g (a, b) ltac:(cbn; lia))) in E2. discriminate.
    + subst g'. apply (removeAll_inv g I).
Qed.
Lemma remove_has g g' p : gInv g -> ((~ hasPair g p /\ g' = g) \/ (exists k r, nth_error (g_pairs g) k = Some r /\ same r p /\ g_pairs g' = removeNth k (g_pairs g))) ->
  forall q, hasPair g' q <-> hasPair g q /\ ~ same p q.
Proof.
  intros I [[N ->]|(k & r & Hk & Hr & E)] q.
  - split; [|tauto]. intros H. split; [exact H|]. intros Hs. apply N. destruct H as (s & Hs1 & Hs2). exists s. split; [exact Hs1|]. eapply same_trans; [exact Hs2 | apply same_sym, Hs].
  - assert (Hl : k < length (g_pairs g)) by (apply nth_error_Some; congruence). rewrite !hasPair_nth, E. split.
    + intros (i & s & Hi & Hs). rewrite nth_error_removeNth in Hi by exact Hl. set (i' := if i <? k then i else i + 1).
      assert (Hi' : nth_error (g_pairs g) i' = Some s) by (unfold i'; destruct (i <? k); exact Hi).
      split; [eauto|]. intros Hpq. assert (X : i' = k). { apply (gi_unique _ I i' k s r Hi' Hk). eapply same_trans; [exact Hs|]. eapply same_trans; [apply same_sym, Hpq | apply same_sym, Hr]. }
      unfold i' in X. destruct (Nat.ltb_spec i k); lia.
    + intros [(i & s & Hi & Hs) N]. assert (Hik : i <> k). { intros ->. apply N. assert (s = r) by congruence. subst s. eapply same_trans; [apply same_sym, Hr | exact Hs]. }
      exists (if i <? k then i else i - 1), s. split; [|exact Hs]. rewrite nth_error_removeNth by exact Hl. destruct (Nat.ltb_spec i k).
      * destruct (Nat.ltb_spec i k); [exact Hi | lia].
      * destruct (Nat.ltb_spec (i - 1) k); [lia|]. replace (i - 1 + 1) with i by lia. exact Hi.
Qed.

(* ---- removing an object ---- *)
Lemma findName_le n l : findName n l <= length l.
Proof. induction l as [|o l IH]; cbn; [lia|]. destruct (String.eqb _ _); lia. Qed.
Lemma findName_spec n l : (findName n l < length l -> exists o, nth_error l (findName n l) = Some o /\ go_name o = n) /\ (forall k o, nth_error l k = Some o -> go_name o = n -> findName n l <= k).
Proof.
  induction l as [|o l [IH1 IH2]]; cbn [findName length]; [split; [lia | intros k x Hk; destruct k; discriminate]|].
  destruct (String.eqb_spec (go_name o) n) as [E|E].
  - split; [intros _; exists o; auto | lia].
  - split; [intros H; apply IH1; lia|]. intros k x Hk Hx. destruct k; [cbn in Hk; congruence|]. cbn in Hk. specialize (IH2 k x Hk Hx). lia.
Qed.
Lemma erasePairs_go i fuel : forall pre rest, length rest <= fuel -> (pre <> [] \/ match rest with p :: _ => mentions i p = false | [] => True end) ->
  erasePairs fuel i (length pre) (pre ++ rest) = Some (pre ++ map (reindex i) (filter (fun p => negb (mentions i p)) rest)).
Proof.
  induction fuel as [|fuel IH]; intros pre rest Hf Hh; cbn [erasePairs].
  - destruct rest; [|cbn in Hf; lia]. reflexivity.
  - rewrite nth_error_app2, Nat.sub_diag by lia. destruct rest as [|p rest]; [reflexivity|]. cbn [nth_error filter].
    assert (E1 : firstn (length pre) (pre ++ p :: rest) = pre) by (rewrite firstn_app, Nat.sub_diag, firstn_all; cbn; apply app_nil_r).
    assert (E2 : skipn (S (length pre)) (pre ++ p :: rest) = rest).
    { rewrite skipn_app, skipn_all2 by lia. replace (S (length pre) - length pre) with 1 by lia. reflexivity. }
    destruct (mentions i p) eqn:Em; cbn [negb].
    + unfold removeNth. rewrite E1, E2. destruct Hh as [Hp|Hp]; [|congruence]. destruct pre as [|x pre]; [congruence|]. destruct (Nat.eqb_spec (length (x :: pre)) 0) as [X|]; [discriminate X|].
      replace (length (x :: pre) - 1 + 1) with (length (x :: pre)) by (cbn; lia). apply IH; [cbn in Hf; lia | left; discriminate].
    + rewrite E1, E2. replace (length pre + 1) with (length (pre ++ [reindex i p])) by (rewrite app_length; reflexivity).
      replace (pre ++ reindex i p :: rest) with ((pre ++ [reindex i p]) ++ rest) by (rewrite <- app_assoc; reflexivity).
      rewrite IH; [|cbn in Hf; lia | left; destruct pre; discriminate]. rewrite <- app_assoc. reflexivity.
Qed.
Lemma erasePairs_head i p l : mentions i p = true -> erasePairs (length (p :: l)) i 0 (p :: l) = None.
Proof. intros H. cbn. rewrite H. reflexivity. Qed.
Lemma removeObject_spec g name : existGeometryName g name = true -> let i := getGeometryId g name in
  (forall p l, g_pairs g = p :: l -> fst p <> i /\ snd p <> i) ->
  exists g' f, removeGeometryObject g name = Ok g' tt /\ g_objs g' = removeNth i (g_objs g) /\ g_ngeoms g' = g_ngeoms g - 1 /\
    (forall x, x <> i -> nth_error (g_objs g') (f x) = nth_error (g_objs g) x) /\
    g_pairs g' = map (fun p => (f (fst p), f (snd p))) (filter (fun p => negb (mentions i p)) (g_pairs g)).
Proof.
  intros Hn i Hh. unfold existGeometryName in Hn. apply Nat.ltb_lt in Hn. unfold removeGeometryObject. fold (getGeometryId g name). fold i. change (findName name (g_objs g)) with i in Hn.
  destruct (Nat.eqb_spec i (length (g_objs g))); [lia|].
  pose proof (erasePairs_go i (length (g_pairs g)) [] (g_pairs g) (le_n _)) as EP. cbn [length app] in EP. rewrite EP by ( right; destruct (g_pairs g) as [|p l]; [exact I|]; destruct (Hh p l eq_refl) as [A B]; unfold mentions; destruct (Nat.eqb_spec (fst p) i), (Nat.eqb_spec (snd p) i); try congruence; reflexivity).
  eexists. exists (fun x => if i <? x then x - 1 else x). split; [reflexivity|]. cbn [g_objs g_ngeoms g_pairs app]. split; [reflexivity|]. split; [reflexivity|]. split; [|reflexivity].
  intros x Hx. rewrite nth_error_removeNth by exact Hn. destruct (Nat.ltb_spec i x).
  - destruct (Nat.ltb_spec (x - 1) i); [lia|]. now replace (x - 1 + 1) with x by lia.
  - destruct (Nat.ltb_spec x i); [reflexivity|lia].
Qed.
Lemma removeObject_undefined g name p l : existGeometryName g name = true -> g_pairs g = p :: l -> fst p = getGeometryId g name \/ snd p = getGeometryId g name -> removeGeometryObject g name = Undef.
Proof.
  intros Hn Hp Hi. unfold existGeometryName in Hn. apply Nat.ltb_lt in Hn. unfold removeGeometryObject. fold (getGeometryId g name). unfold getGeometryId in *. destruct (Nat.eqb_spec (findName name (g_objs g)) (length (g_objs g))); [lia|].
  rewrite Hp, erasePairs_head; [reflexivity|]. unfold mentions. apply orb_true_iff. rewrite !Nat.eqb_eq. exact Hi.
Qed.
Lemma removeObject_unknown g name : existGeometryName g name = false -> removeGeometryObject g name = Throw g.
Proof.
  intros Hn. unfold existGeometryName in Hn. apply Nat.ltb_ge in Hn. pose proof (findName_le name (g_objs g)). unfold removeGeometryObject. destruct (Nat.eqb_spec (findName name (g_objs g)) (length (g_objs g))); [reflexivity|lia].
Qed.
Lemma name_spec g name : (existGeometryName g name = true <-> exists o, In o (g_objs g) /\ go_name o = name) /\
  (existGeometryName g name = true -> exists o, nth_error (g_objs g) (getGeometryId g name) = Some o /\ go_name o = name) /\
  (existGeometryName g name = false -> getGeometryId g name = length (g_objs g)).
Proof.
  unfold existGeometryName, getGeometryId. destruct (findName_spec name (g_objs g)) as [A B]. pose proof (findName_le name (g_objs g)). rewrite Nat.ltb_lt, Nat.ltb_ge. repeat split; [| |exact A|lia].
  - intros H1. destruct (A H1) as (o & E & E2). exists o. split; [eapply nth_error_In; exact E | exact E2].
  - intros (o & Ho & E). apply In_nth_error in Ho. destruct Ho as [k Hk]. specialize (B k o Hk E). assert (k < length (g_objs g)) by (apply nth_error_Some; congruence). lia.
Qed.

(* ---- concatenation ---- *)
Lemma append_undefined g h g' p : gInv g -> appendGeometryModel g h = Ok g' tt -> g_ngeoms g <= snd p -> existCollisionPair g' p = Undef.
Proof.
  intros I E Hp. unfold appendGeometryModel in E. cbv zeta in E. destruct (existsb _ _); [discriminate|]. inversion E; subst. unfold existCollisionPair, mapRead. cbn [g_map]. rewrite (gi_size _ I).
  destruct (Nat.ltb_spec (snd p) (g_ngeoms g)); [lia|]. now rewrite andb_false_r.
Qed.
Lemma append_spec g h : gInv g -> gInv h -> exists g', appendGeometryModel g h = Ok g' tt /\ g_objs g' = g_objs g ++ g_objs h /\ g_ngeoms g' = length (g_objs g') /\
  forall i j, i < j -> (hasPair g' (i, j) <-> (hasPair g (i, j) /\ j < g_ngeoms g) \/ (g_ngeoms g <= i /\ hasPair h (i - g_ngeoms g, j - g_ngeoms g)) \/
    (i < g_ngeoms g <= j /\ exists a b, nth_error (g_objs g) i = Some a /\ nth_error (g_objs h) (j - g_ngeoms g) = Some b /\ go_parentJoint a <> go_parentJoint b)).
Proof.
  intros I J. unfold appendGeometryModel. cbv zeta. rewrite (gi_objs _ I). set (n1 := g_ngeoms g). set (n2 := length (g_objs h)).
  assert (Hn2 : n2 = g_ngeoms h) by apply (gi_objs _ J). assert (Hn1 : length (g_objs g) = n1) by apply (gi_objs _ I).
  match goal with |- context [existsb ?f ?l] => assert (EB : existsb f l = false) end.
  { rewrite <- not_true_iff_false, existsb_exists. intros (q & Hq & E). apply in_map_iff in Hq. destruct Hq as (r & <- & Hr). cbn in E. apply Nat.eqb_eq in E. destruct (gi_proper _ J r Hr) as (X & _). lia. }
  rewrite EB. eexists. split; [reflexivity|]. cbn [g_objs g_ngeoms g_pairs]. split; [reflexivity|]. split; [rewrite app_length; fold n2; lia|].
  intros i j Hij. unfold hasPair at 1. cbn [g_pairs]. split.
  - intros (r & Hr & Hs). apply in_app_or in Hr. destruct Hr as [Hr|Hr]; [left|right; apply in_app_or in Hr; destruct Hr as [Hr|Hr]; [left|right]].
    + split; [exists r; auto|]. destruct (gi_proper _ I r Hr) as (_ & X & Y). destruct Hs as [E0|E0]; rewrite E0 in X, Y; cbn in X, Y; fold n1 in X, Y; lia.
    + apply in_map_iff in Hr. destruct Hr as (s & <- & Hr). destruct Hs as [E0|E0]; inversion E0; subst; (split; [lia|]); exists s; (split; [exact Hr|]); [left | right]; destruct s; cbn; f_equal; lia.
    + apply in_flat_map in Hr. destruct Hr as (a & Ha & Hr). apply in_flat_map in Hr. destruct Hr as (b & Hb & Hr). apply in_seq in Ha, Hb.
      destruct (nth_error (g_objs g ++ g_objs h) a) as [oa|] eqn:Ea; [|destruct Hr]. destruct (nth_error (g_objs g ++ g_objs h) b) as [ob|] eqn:Eb; [|destruct Hr].
      destruct (Nat.eqb_spec (go_parentJoint oa) (go_parentJoint ob)) as [|Hj]; [destruct Hr|]. cbn in Hr. destruct Hr as [<-|[]].
      assert (a = i /\ b = j) as [-> ->] by (destruct Hs as [E0|E0]; inversion E0; subst; [auto | lia]).
      split; [lia|]. exists oa, ob. rewrite nth_error_app1 in Ea by lia. rewrite nth_error_app2 in Eb by lia. rewrite Hn1 in Eb. auto.
  - intros [[(r & Hr & Hs) _]|[[Hi (r & Hr & Hs)]|[Hi (a & b & Ea & Eb & Hj)]]].
    + exists r. split; [apply in_or_app; auto | exact Hs].
    + exists (fst r + n1, snd r + n1). split; [apply in_or_app; right; apply in_or_app; left; apply in_map_iff; exists r; auto|].
      destruct Hs as [E0|E0]; rewrite E0; cbn; [left | right]; cbn; f_equal; lia.
    + exists (i, j). split; [|now left]. apply in_or_app; right. apply in_or_app; right. apply in_flat_map. exists i. split; [apply in_seq; lia|]. apply in_flat_map.
      assert (Hb : j - n1 < n2) by (apply nth_error_Some; congruence).
      exists j. split; [apply in_seq; lia|]. rewrite nth_error_app1, Ea by lia. rewrite nth_error_app2, Hn1, Eb by lia. destruct (Nat.eqb_spec (go_parentJoint a) (go_parentJoint b)); [congruence|]. now left.
Qed.

(* ---- geometry data ---- *)
Lemma putNth_spec {A} k (x : A) l j : nth_error (putNth k x l) j = if (j =? k) && (k <? length l) then Some x else nth_error l j.
Proof.
  revert l j. induction k as [|k IH]; intros l j; destruct l as [|y l]; unfold putNth; cbn [firstn skipn nth_error app length].
  - destruct j; reflexivity.
  - destruct j; reflexivity.
  - cbn. rewrite andb_false_r. reflexivity.
  - destruct j as [|j]; cbn [nth_error]; [reflexivity|]. etransitivity; [exact (IH l j) | reflexivity].
Qed.
Lemma putNth_length {A} k (x : A) l : length (putNth k x l) = length l.
Proof.
  unfold putNth. destruct (Nat.lt_ge_cases k (length l)) as [H|H].
  - destruct (nth_error l k) eqn:E; [|apply nth_error_None in E; lia]. rewrite !app_length, firstn_length, skipn_length. cbn. lia.
  - rewrite (proj2 (nth_error_None l k) H). cbn [app]. rewrite app_length, firstn_length, skipn_length. lia.
Qed.
Lemma onPairs_spec f g d : length (g_pairs g) = length (gd_active d) -> let d' := onPairs f g d in gd_oMg d' = gd_oMg d /\ length (gd_active d') = length (gd_active d) /\
  forall k, nth_error (gd_active d') k = match nth_error (g_pairs g) k, nth_error (gd_active d) k with Some p, Some b => Some (f p b) | _, _ => None end.
Proof.
  intros HL. cbv zeta. unfold onPairs. set (step := fun d k => _).
  assert (G : forall n, n <= length (g_pairs g) -> let d' := fold_left step (seq 0 n) d in gd_oMg d' = gd_oMg d /\ length (gd_active d') = length (gd_active d) /\
    forall k, nth_error (gd_active d') k = if k <? n then match nth_error (g_pairs g) k, nth_error (gd_active d) k with Some p, Some b => Some (f p b) | _, _ => None end else nth_error (gd_active d) k).
  { induction n as [|n IH]; intros Hn; [cbn; auto|]. rewrite seq_S, fold_left_app. cbn [fold_left]. cbv zeta. destruct (IH ltac:(lia)) as (A1 & A2 & A3). set (e := fold_left step (seq 0 n) d) in *. clearbody e.
    unfold step. cbn [Nat.add]. destruct (nth_error (g_pairs g) n) as [p|] eqn:Ep; [|apply nth_error_None in Ep; lia].
    rewrite (A3 n), Nat.ltb_irrefl. destruct (nth_error (gd_active d) n) as [b|] eqn:Eb; [|apply nth_error_None in Eb; lia].
    cbn [gd_oMg gd_active setActive]. split; [exact A1|]. split; [rewrite putNth_length; exact A2|]. intros k. rewrite putNth_spec, A2, A3.
    destruct (Nat.eqb_spec k n) as [->|].
    - destruct (Nat.ltb_spec n (length (gd_active d))); [|lia]. destruct (Nat.ltb_spec n (S n)); [|lia]. cbn [andb]. now rewrite Ep, Eb.
    - cbn [andb]. destruct (Nat.ltb_spec k n), (Nat.ltb_spec k (S n)); try lia; reflexivity. }
  destruct (G (length (g_pairs g)) (le_n _)) as (A1 & A2 & A3). split; [exact A1|]. split; [exact A2|]. intros k. rewrite A3. destruct (Nat.ltb_spec k (length (g_pairs g))) as [|H]; [reflexivity|].
  rewrite (proj2 (nth_error_None (g_pairs g) k) H). apply nth_error_None. lia.
Qed.
Lemma switch_spec b d k : k < length (gd_active d) -> exists d', switchPair b d k = Ok d' tt /\ gd_oMg d' = gd_oMg d /\ length (gd_active d') = length (gd_active d) /\
  forall j, nth_error (gd_active d') j = if j =? k then Some b else nth_error (gd_active d) j.
Proof.
  intros H. unfold switchPair. destruct (Nat.ltb_spec k (length (gd_active d))); [|lia]. cbn [negb]. eexists. split; [reflexivity|]. cbn. split; [reflexivity|]. split; [apply putNth_length|].
  intros j. rewrite putNth_spec. destruct (Nat.ltb_spec k (length (gd_active d))); [|lia]. now rewrite andb_true_r.
Qed.
Lemma switch_throw b d k : length (gd_active d) <= k -> switchPair b d k = Throw d.
Proof. intros H. unfold switchPair. destruct (Nat.ltb_spec k (length (gd_active d))); [lia|reflexivity]. Qed.
Lemma nth_error_repeat {A} (x : A) n k : nth_error (repeat x n) k = if k <? n then Some x else None.
Proof. revert k. induction n as [|n IH]; intros k; cbn; [destruct k; reflexivity|]. destruct k; cbn; [reflexivity|]. apply IH. Qed.

(* ---- placements ---- *)
Lemma placements_loop d g gd : length (g_objs g) = g_ngeoms g -> let gd' := updateGeometryPlacements d g gd in gd_active gd' = gd_active gd /\
  forall k, gd_oMg gd' k = match nth_error (g_objs g) k with None => gd_oMg gd k
    | Some o => if 0 <? go_parentJoint o then se3_mul (pl (rows d (go_parentJoint o)) F_oMi) (go_placement o) else go_placement o end.
Proof.
  intros HL. cbv zeta. unfold updateGeometryPlacements. rewrite <- HL. set (step := fun gd i => _).
  assert (G : forall n, n <= length (g_objs g) -> let gd' := fold_left step (seq 0 n) gd in gd_active gd' = gd_active gd /\
     forall k, gd_oMg gd' k = if k <? n then match nth_error (g_objs g) k with None => gd_oMg gd k
       | Some o => if 0 <? go_parentJoint o then se3_mul (pl (rows d (go_parentJoint o)) F_oMi) (go_placement o) else go_placement o end else gd_oMg gd k).
  { induction n as [|n IH]; intros Hn; [cbn; auto|]. rewrite seq_S, fold_left_app. cbn [fold_left]. cbv zeta. destruct (IH ltac:(lia)) as (A1 & A2). set (e := fold_left step (seq 0 n) gd) in *. clearbody e.
    unfold step. cbn [Nat.add]. destruct (nth_error (g_objs g) n) as [o|] eqn:Eo; [|apply nth_error_None in Eo; lia]. cbn [gd_oMg gd_active]. split; [exact A1|]. intros k.
    destruct (Nat.eqb_spec k n) as [->|]; [destruct (Nat.ltb_spec n (S n)); [|lia]; now rewrite Eo|]. rewrite A2. destruct (Nat.ltb_spec k n), (Nat.ltb_spec k (S n)); try lia; reflexivity. }
  destruct (G _ (le_n _)) as [A1 A2]. split; [exact A1|]. intros k. rewrite A2. destruct (Nat.ltb_spec k (length (g_objs g))) as [|H]; [reflexivity|]. now rewrite (proj2 (nth_error_None (g_objs g) k) H).
Qed.
Lemma placements_fk eps m d q g gd k o : Built eps m -> GBuilt g -> nth_error (g_objs g) k = Some o -> go_parentJoint o < m_njoints m ->
  gd_oMg (updateGeometryPlacements (forwardKinematics0 m d q) g gd) k = (if 0 <? go_parentJoint o then se3_mul (worldPl m q (go_parentJoint o)) (go_placement o) else go_placement o).
Proof.
  intros B G Hk Hj. destruct (placements_loop (forwardKinematics0 m d q) g gd (gi_objs _ (built_inv g G))) as [_ E]. rewrite E, Hk. destruct (Nat.ltb_spec 0 (go_parentJoint o)); [|reflexivity].
  pose proof (fk_placement eps m B d q q q (go_parentJoint o) ltac:(lia)) as (X & _). unfold oMiOf in X. now rewrite X.
Qed.
