(* A geometry model with three objects and two pairs, and what removing its objects does. *)
Require Import Reals String List Arith ZArith Bool Lia.
From Verif Require Import Vec3 Spatial Model Data Geometry Spec_Geom GeomFacts GeomFacts2 GeomFacts3.
Import ListNotations.
Local Open Scope nat_scope.

Definition exObj (s : string) (j : nat) : GObj := mkGObj s 0 j se3_Identity false.
Definition okG (r : Res GModel unit) : GModel := match r with Ok g _ => g | _ => gEmpty end.
Definition okN (r : Res GModel nat) : GModel := match r with Ok g _ => g | _ => gEmpty end.
Definition exG3 : GModel := okN (addGeometryObject (okN (addGeometryObject (okN (addGeometryObject gEmpty (exObj "a" 1))) (exObj "b" 2))) (exObj "c" 3)).
Definition exG : GModel := okG (addCollisionPair exG3 (1, 2)).
Definition exG2 : GModel := okG (addCollisionPair exG (0, 2)).
Lemma exG_built : GBuilt exG3 /\ GBuilt exG /\ GBuilt exG2.
Proof.
  assert (B3 : GBuilt exG3).
  { eapply GB_step; [|eapply G_object; reflexivity]. eapply GB_step; [|eapply G_object; reflexivity]. eapply GB_step; [|eapply G_object; reflexivity]. constructor. }
  assert (B : GBuilt exG). { eapply GB_step; [exact B3|]. eapply (G_pair _ _ 1 2); reflexivity. }
  split; [exact B3|]. split; [exact B|]. eapply GB_step; [exact B|]. eapply (G_pair _ _ 0 2); reflexivity.
Qed.
Lemma exG2_met : GBuilt exG2 /\ g_pairs exG2 = [(1, 2); (0, 2)] /\ properPair exG2 (2, 1) /\ properPair exG2 (0, 1) /\ existGeometryName exG2 "a" = true /\ getGeometryId exG2 "a" = 0.
Proof. split; [apply exG_built|]. repeat split; cbn; lia. Qed.
Definition exG' : GModel := okG (removeGeometryObject exG "a").
Lemma exG_stale : GBuilt exG /\ removeGeometryObject exG "a" = Ok exG' tt /\ hasPair exG' (0, 1) /\ properPair exG' (0, 1) /\ existCollisionPair exG' (0, 1) = Ok exG' false /\
  exists g'', addCollisionPair exG' (0, 1) = Ok g'' tt /\ g_pairs g'' = [(0, 1); (0, 1)].
Proof.
  split; [apply exG_built|]. split; [reflexivity|]. split; [exists (0, 1); split; [now left | now left]|]. split; [repeat split; cbn; lia|]. split; [reflexivity|]. eexists. split; reflexivity.
Qed.

Lemma add_throw g p : ~ (fst p < g_ngeoms g /\ snd p < g_ngeoms g) -> addCollisionPair g p = Throw g /\ removeCollisionPair g p = Throw g.
Proof. exact (range_throw g p). Qed.
Lemma built_pairs g : GBuilt g -> (forall p, In p (g_pairs g) -> properPair g p) /\ (forall k l p q, nth_error (g_pairs g) k = Some p -> nth_error (g_pairs g) l = Some q -> same p q -> k = l).
Proof. intros B. destruct (built_inv g B) as [_ _ A C _]. split; assumption. Qed.
Lemma built_exist g p : GBuilt g -> fst p < g_ngeoms g -> snd p < g_ngeoms g -> exists b, existCollisionPair g p = Ok g b /\ (b = true <-> hasPair g p).
Proof. intros B. apply (exist_spec g p (built_inv g B)). Qed.
Lemma built_find g p : GBuilt g -> fst p < g_ngeoms g -> snd p < g_ngeoms g -> exists k, findCollisionPair g p = Ok g k /\
  ((exists r, nth_error (g_pairs g) k = Some r /\ same r p) \/ (k = length (g_pairs g) /\ ~ hasPair g p)).
Proof. intros B. apply (find_spec g p (built_inv g B)). Qed.
Lemma built_add g p : GBuilt g -> properPair g p -> exists g', addCollisionPair g p = Ok g' tt /\ g_objs g' = g_objs g /\ (forall q, hasPair g' q <-> hasPair g q \/ same p q) /\
  (hasPair g p -> g' = g) /\ (~ hasPair g p -> g_pairs g' = g_pairs g ++ [p]).
Proof.
  intros B P. destruct (add_spec g p (built_inv g B) P) as (g' & E & _ & A1 & A2 & A3). exists g'. split; [exact E|]. split; [exact A1|]. split; [apply (add_has g g' p A3)|].
  destruct A3 as [[X Y]|[X Y]]; split; intros; tauto || assumption.
Qed.
Lemma built_remove g p : GBuilt g -> properPair g p -> exists g', removeCollisionPair g p = Ok g' tt /\ g_objs g' = g_objs g /\ (forall q, hasPair g' q <-> hasPair g q /\ ~ same p q) /\
  (~ hasPair g p -> g' = g) /\ (hasPair g p -> exists a r b, g_pairs g = a ++ r :: b /\ same r p /\ g_pairs g' = a ++ b).
Proof.
  intros B P. pose proof (built_inv g B) as I. destruct (remove_spec g p I P) as (g' & E & _ & A1 & A2 & A3). exists g'. split; [exact E|]. split; [exact A1|]. split; [apply (remove_has g g' p I A3)|].
  destruct A3 as [[X Y]|(k & r & X & Y & Z)].
  - split; [auto | tauto].
  - split.
    + intros N. destruct N. exists r. split; [eapply nth_error_In; exact X | exact Y].
    + intros _. exists (firstn k (g_pairs g)), r, (skipn (S k) (g_pairs g)). split; [|split; [exact Y | exact Z]].
      clear -X. revert k X. induction (g_pairs g) as [|x l IH]; intros k X; [destruct k; discriminate|]. destruct k; cbn in *; [now inversion X|]. f_equal. apply IH, X.
Qed.
Lemma built_all g : GBuilt g -> exists g', addAllCollisionPairs g = Ok g' tt /\ g_objs g' = g_objs g /\
  forall i j, hasPair g' (i, j) <-> exists a b, nth_error (g_objs g) i = Some a /\ nth_error (g_objs g) j = Some b /\ go_parentJoint a <> go_parentJoint b.
Proof. intros B. destruct (addAll_spec g (built_inv g B)) as (g' & E & _ & A & _ & C). exists g'. auto. Qed.
Lemma built_set g f u : GBuilt g -> exists g', setCollisionPairs g (g_ngeoms g) (g_ngeoms g) f u = Ok g' tt /\ g_objs g' = g_objs g /\
  forall i j, i < j -> (hasPair g' (i, j) <-> j < g_ngeoms g /\ (if u then f i j else f j i) = true).
Proof. intros B. destruct (set_spec g _ _ f u (built_inv g B) eq_refl eq_refl) as (g' & E & _ & A & _ & C). exists g'. auto. Qed.
Lemma built_object g o : GBuilt g -> exists g' k, addGeometryObject g o = Ok g' k /\ g_objs g' = g_objs g ++ [o] /\ nth_error (g_objs g') k = Some o /\ g_pairs g' = g_pairs g /\ g_ngeoms g' = length (g_objs g').
Proof.
  intros B. pose proof (built_inv g B) as I. destruct (addObject_spec g o I) as (g' & E & I' & A1 & A2 & A3). exists g', (g_ngeoms g). split; [exact E|]. split; [exact A1|]. split; [|split; [exact A3 | symmetry; apply (gi_objs _ I')]].
  rewrite A1, nth_error_app2 by (rewrite (gi_objs _ I); lia). now rewrite (gi_objs _ I), Nat.sub_diag.
Qed.
Lemma built_objectTo m g g' o k : GBuilt g -> addGeometryObjectTo m g o = Ok g' k -> g_pairs g' = g_pairs g /\ g_ngeoms g' = length (g_objs g') /\
  exists f o', nth_error (m_frames m) (go_parentFrame o) = Some f /\ nth_error (g_objs g') k = Some o' /\ g_objs g' = g_objs g ++ [o'] /\
    go_name o' = go_name o /\ go_parentFrame o' = go_parentFrame o /\ go_placement o' = go_placement o /\ go_parentJoint o' = fr_parentJoint f.
Proof.
  intros B E. pose proof (built_inv g B) as I. destruct (addObjectTo_inv m g g' o k I E) as (I' & -> & A1 & A2 & f & Ef & A3). split; [exact A1|]. split; [symmetry; apply (gi_objs _ I')|].
  exists f, (go_setJoint o (fr_parentJoint f)). split; [exact Ef|]. split; [|repeat split; exact A3]. rewrite A3, nth_error_app2 by (rewrite (gi_objs _ I); lia). now rewrite (gi_objs _ I), Nat.sub_diag.
Qed.
Lemma objectTo_frame_range m g o : length (m_frames m) <= go_parentFrame o -> addGeometryObjectTo m g o = Undef.
Proof. intros H. unfold addGeometryObjectTo. now rewrite (proj2 (nth_error_None _ _) H). Qed.
Lemma appended_refuted : exists g h g' p, GBuilt g /\ GBuilt h /\ appendGeometryModel g h = Ok g' tt /\ hasPair g' p /\ properPair g' p /\ existCollisionPair g' p = Undef.
Proof.
  exists exG, exG, (okG (appendGeometryModel exG exG)), (4, 5). split; [apply exG_built|]. split; [apply exG_built|]. split; [reflexivity|]. split; [|split; [repeat split; cbn; lia | reflexivity]].
  exists (4, 5). split; [right; left; reflexivity | now left].
Qed.
Lemma data_create u g : length (gd_active (createGData u g)) = length (g_pairs g) /\ forall k, k < length (g_pairs g) -> nth_error (gd_active (createGData u g)) k = Some true.
Proof. unfold createGData. cbn. split; [apply repeat_length|]. intros k Hk. rewrite nth_error_repeat. destruct (Nat.ltb_spec k (length (g_pairs g))); [reflexivity|lia]. Qed.
Lemma data_all (d : GData) (b : bool) : let d' := if b then activateAllCollisionPairs d else deactivateAllCollisionPairs d in gd_oMg d' = gd_oMg d /\ length (gd_active d') = length (gd_active d) /\ forall k : nat, k < length (gd_active d) -> nth_error (gd_active d') k = Some b.
Proof.
  destruct b; cbn; (split; [reflexivity|]); (split; [apply repeat_length|]); intros k Hk; rewrite nth_error_repeat; destruct (Nat.ltb_spec k (length (gd_active d))); reflexivity || lia.
Qed.
Lemma data_status g d i b : i < g_ngeoms g -> length (g_pairs g) = length (gd_active d) -> exists d', setGeometryCollisionStatus g d i b = Ok d' tt /\ gd_oMg d' = gd_oMg d /\ length (gd_active d') = length (gd_active d) /\
  forall k p, nth_error (g_pairs g) k = Some p -> ((fst p = i \/ snd p = i) -> nth_error (gd_active d') k = Some b) /\ (~ (fst p = i \/ snd p = i) -> nth_error (gd_active d') k = nth_error (gd_active d) k).
Proof.
  intros Hi HL. unfold setGeometryCollisionStatus. destruct (Nat.ltb_spec i (g_ngeoms g)); [|lia]. destruct (Nat.eqb_spec (length (g_pairs g)) (length (gd_active d))); [|lia]. cbn [negb].
  match goal with |- context [onPairs ?f g d] => destruct (onPairs_spec f g d HL) as (A1 & A2 & A3) end. eexists. split; [reflexivity|]. split; [exact A1|]. split; [exact A2|]. intros k p Hk. rewrite A3, Hk.
  assert (Hl : k < length (g_pairs g)) by (apply nth_error_Some; congruence). destruct (nth_error (gd_active d) k) as [x|] eqn:Ex; [|apply nth_error_None in Ex; lia].
  destruct (Nat.eqb_spec (fst p) i), (Nat.eqb_spec (snd p) i); cbn [orb]; split; intros; tauto || reflexivity.
Qed.
Lemma data_map g d f u : length (g_pairs g) = length (gd_active d) -> exists d', setActiveCollisionPairs g d (g_ngeoms g) (g_ngeoms g) f u = Ok d' tt /\ gd_oMg d' = gd_oMg d /\ length (gd_active d') = length (gd_active d) /\
  forall k i j, nth_error (g_pairs g) k = Some (i, j) \/ nth_error (g_pairs g) k = Some (j, i) -> i < j -> nth_error (gd_active d') k = Some (if u then f i j else f j i).
Proof.
  intros HL. unfold setActiveCollisionPairs. rewrite !Nat.eqb_refl. destruct (Nat.eqb_spec (length (g_pairs g)) (length (gd_active d))); [|lia]. cbn [negb].
  match goal with |- context [onPairs ?f g d] => destruct (onPairs_spec f g d HL) as (A1 & A2 & A3) end. eexists. split; [reflexivity|]. split; [exact A1|]. split; [exact A2|]. intros k i j Hk Hij. rewrite A3.
  assert (Hl : k < length (g_pairs g)) by (apply nth_error_Some; destruct Hk; congruence). destruct (nth_error (gd_active d) k) as [x|] eqn:Ex; [|apply nth_error_None in Ex; lia].
  destruct Hk as [-> | ->]; cbv zeta; cbn [fst snd]; [rewrite Nat.max_r, Nat.min_l by lia | rewrite Nat.max_l, Nat.min_r by lia]; reflexivity.
Qed.
