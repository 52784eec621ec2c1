(** Property theorems C42 (collision pairs), C43 (removing objects), C56 (placements of the objects), C57 (activation flags)
    and C58 (concatenation of geometry models). Statements only. *)
From Coq Require Import Reals String List Arith ZArith.
From Verif Require Import Vec3 Spatial Model Spec_Model Data Kinematics Spec_Kin Geometry Spec_Geom GeomFacts GeomFacts2 GeomFacts3 GeomFacts4.
Import ListNotations.
Local Open Scope nat_scope.

(** after any history of edits every pair joins two existing distinct objects, and no unordered pair is listed twice *)
Theorem C42_pairs (g : GModel) : GBuilt g ->
  (forall p, In p (g_pairs g) -> fst p <> snd p /\ fst p < g_ngeoms g /\ snd p < g_ngeoms g) /\
  (forall k l p q, nth_error (g_pairs g) k = Some p -> nth_error (g_pairs g) l = Some q -> same p q -> k = l).
Proof. exact (built_pairs g). Qed.
Example C42_ex : GBuilt exG2 /\ g_pairs exG2 = [(1, 2); (0, 2)] /\ properPair exG2 (2, 1) /\ properPair exG2 (0, 1) /\ existGeometryName exG2 "a" = true /\ getGeometryId exG2 "a" = 0.
Proof. exact exG2_met. Qed.
Print Assumptions C42_pairs.
(** the lookups agree with the list, whatever the order of the two indexes *)
Theorem C42_exist (g : GModel) (p : nat * nat) : GBuilt g -> fst p < g_ngeoms g -> snd p < g_ngeoms g ->
  exists b, existCollisionPair g p = Ok g b /\ (b = true <-> hasPair g p).
Proof. exact (built_exist g p). Qed.
(* hypotheses met: C42_ex *)
Print Assumptions C42_exist.
Theorem C42_find (g : GModel) (p : nat * nat) : GBuilt g -> fst p < g_ngeoms g -> snd p < g_ngeoms g ->
  exists k, findCollisionPair g p = Ok g k /\ ((exists r, nth_error (g_pairs g) k = Some r /\ same r p) \/ (k = length (g_pairs g) /\ ~ hasPair g p)).
Proof. exact (built_find g p). Qed.
(* hypotheses met: C42_ex *)
Print Assumptions C42_find.
Theorem C42_add (g : GModel) (p : nat * nat) : GBuilt g -> properPair g p ->
  exists g', addCollisionPair g p = Ok g' tt /\ g_objs g' = g_objs g /\ (forall q, hasPair g' q <-> hasPair g q \/ same p q) /\
    (hasPair g p -> g' = g) /\ (~ hasPair g p -> g_pairs g' = g_pairs g ++ [p]).
Proof. exact (built_add g p). Qed.
(* hypotheses met: C42_ex *)
Print Assumptions C42_add.
(** the other pairs keep their order *)
Theorem C42_remove (g : GModel) (p : nat * nat) : GBuilt g -> properPair g p ->
  exists g', removeCollisionPair g p = Ok g' tt /\ g_objs g' = g_objs g /\ (forall q, hasPair g' q <-> hasPair g q /\ ~ same p q) /\
    (~ hasPair g p -> g' = g) /\ (hasPair g p -> exists a r b, g_pairs g = a ++ r :: b /\ same r p /\ g_pairs g' = a ++ b).
Proof. exact (built_remove g p). Qed.
(* hypotheses met: C42_ex *)
Print Assumptions C42_remove.
(** wrong indexes: the calls throw and the model is unchanged; self pairs cannot be constructed *)
Theorem C42_out_of_range (g : GModel) (p : nat * nat) : ~ (fst p < g_ngeoms g /\ snd p < g_ngeoms g) ->
  addCollisionPair g p = Throw g /\ removeCollisionPair g p = Throw g.
Proof. exact (add_throw g p). Qed.
Example C42_out_of_range_ex : ~ (fst (0, 7) < g_ngeoms exG2 /\ snd (0, 7) < g_ngeoms exG2).
Proof. intros [_ H]. apply Nat.ltb_lt in H. discriminate H. Qed.
Print Assumptions C42_out_of_range.
Theorem C42_self (g : GModel) (a b : nat) : (a = b -> CollisionPair g a b = Throw g) /\ (a <> b -> CollisionPair g a b = Ok g (a, b)).
Proof. exact (conj (fun E => match E with eq_refl => eq_trans (f_equal (fun x : bool => if x then Throw g else Ok g (a, a)) (Nat.eqb_refl a)) eq_refl end)
  (fun N => f_equal (fun x : bool => if x then Throw g else Ok g (a, b)) (proj2 (Nat.eqb_neq a b) N))). Qed.
Print Assumptions C42_self.
Theorem C42_add_all (g : GModel) : GBuilt g -> exists g', addAllCollisionPairs g = Ok g' tt /\ g_objs g' = g_objs g /\
  forall i j, hasPair g' (i, j) <-> exists a b, nth_error (g_objs g) i = Some a /\ nth_error (g_objs g) j = Some b /\ go_parentJoint a <> go_parentJoint b.
Proof. exact (built_all g). Qed.
(* hypotheses met: C42_ex *)
Print Assumptions C42_add_all.
Theorem C42_set (g : GModel) (f : nat -> nat -> bool) (upper : bool) : GBuilt g ->
  exists g', setCollisionPairs g (g_ngeoms g) (g_ngeoms g) f upper = Ok g' tt /\ g_objs g' = g_objs g /\
    forall i j, i < j -> (hasPair g' (i, j) <-> j < g_ngeoms g /\ (if upper then f i j else f j i) = true).
Proof. exact (built_set g f upper). Qed.
(* hypotheses met: C42_ex *)
Print Assumptions C42_set.
Theorem C42_set_size (g : GModel) (r c : nat) (f : nat -> nat -> bool) (upper : bool) : r <> g_ngeoms g \/ c <> g_ngeoms g -> setCollisionPairs g r c f upper = Throw g.
Proof. exact (set_size g r c f upper). Qed.
Print Assumptions C42_set_size.
Theorem C42_clear (g : GModel) : GBuilt g -> g_objs (removeAllCollisionPairs g) = g_objs g /\ forall p, ~ hasPair (removeAllCollisionPairs g) p.
Proof. exact (fun B => conj eq_refl (proj2 (removeAll_inv g (built_inv g B)))). Qed.
(* hypotheses met: C42_ex *)
Print Assumptions C42_clear.
(** adding an object: it gets the returned index, the pairs are kept *)
Theorem C42_object (g : GModel) (o : GObj) : GBuilt g -> exists g' k, addGeometryObject g o = Ok g' k /\ g_objs g' = g_objs g ++ [o] /\
  nth_error (g_objs g') k = Some o /\ g_pairs g' = g_pairs g /\ g_ngeoms g' = length (g_objs g').
Proof. exact (built_object g o). Qed.
(* hypotheses met: C42_ex *)
Print Assumptions C42_object.
Theorem C42_object_frame (m : Model) (g g' : GModel) (o : GObj) (k : nat) : GBuilt g -> addGeometryObjectTo m g o = Ok g' k ->
  g_pairs g' = g_pairs g /\ g_ngeoms g' = length (g_objs g') /\
  exists f o', nth_error (m_frames m) (go_parentFrame o) = Some f /\ nth_error (g_objs g') k = Some o' /\ g_objs g' = g_objs g ++ [o'] /\
    go_name o' = go_name o /\ go_parentFrame o' = go_parentFrame o /\ go_placement o' = go_placement o /\ go_parentJoint o' = fr_parentJoint f.
Proof. exact (built_objectTo m g g' o k). Qed.
(* hypotheses met: C42_ex *)
Print Assumptions C42_object_frame.
(** a parent frame the model does not have is read all the same *)
Theorem C42_object_frame_undefined (m : Model) (g : GModel) (o : GObj) : length (m_frames m) <= go_parentFrame o -> addGeometryObjectTo m g o = Undef.
Proof. exact (objectTo_frame_range m g o). Qed.
Print Assumptions C42_object_frame_undefined.
Theorem C42_names (g : GModel) (name : string) : (existGeometryName g name = true <-> exists o, In o (g_objs g) /\ go_name o = name) /\
  (existGeometryName g name = true -> exists o, nth_error (g_objs g) (getGeometryId g name) = Some o /\ go_name o = name) /\
  (existGeometryName g name = false -> getGeometryId g name = length (g_objs g)).
Proof. exact (name_spec g name). Qed.
Print Assumptions C42_names.

(** removing an object: the list of objects loses exactly that one, the surviving pairs still refer to the same two objects.
    Only when the first pair of the list does not mention the object. *)
Theorem C43_remove_partial (g : GModel) (name : string) : existGeometryName g name = true ->
  let i := getGeometryId g name in
  (forall p l, g_pairs g = p :: l -> fst p <> i /\ snd p <> i) ->
  exists g' f, removeGeometryObject g name = Ok g' tt /\ g_objs g' = removeNth i (g_objs g) /\ g_ngeoms g' = g_ngeoms g - 1 /\
    (forall x, x <> i -> nth_error (g_objs g') (f x) = nth_error (g_objs g) x) /\
    g_pairs g' = map (fun p => (f (fst p), f (snd p))) (filter (fun p => negb (mentions i p)) (g_pairs g)).
Proof. exact (removeObject_spec g name). Qed.
(* hypotheses met: C42_ex, the first pair there is (1, 2) *)
Print Assumptions C43_remove_partial.
(** otherwise the loop decrements begin() *)
Theorem C43_first_pair_undefined (g : GModel) (name : string) (p : nat * nat) (l : list (nat * nat)) : existGeometryName g name = true -> g_pairs g = p :: l ->
  fst p = getGeometryId g name \/ snd p = getGeometryId g name -> removeGeometryObject g name = Undef.
Proof. exact (removeObject_undefined g name p l). Qed.
Example C43_first_pair_ex : existGeometryName exG2 "b" = true /\ g_pairs exG2 = (1, 2) :: [(0, 2)] /\ getGeometryId exG2 "b" = 1.
Proof. repeat split. Qed.
Print Assumptions C43_first_pair_undefined.
Theorem C43_unknown (g : GModel) (name : string) : existGeometryName g name = false -> removeGeometryObject g name = Throw g.
Proof. exact (removeObject_unknown g name). Qed.
Example C43_unknown_ex : existGeometryName exG2 "z" = false.
Proof. reflexivity. Qed.
Print Assumptions C43_unknown.
(** the pair table is not re-indexed: a surviving pair is reported missing, and can then be added twice *)
Theorem C43_lookup_refuted : exists g g' name p, GBuilt g /\ removeGeometryObject g name = Ok g' tt /\ hasPair g' p /\ properPair g' p /\
  existCollisionPair g' p = Ok g' false /\ exists g'', addCollisionPair g' p = Ok g'' tt /\ g_pairs g'' = [p; p].
Proof. exact (ex_intro _ exG (ex_intro _ exG' (ex_intro _ "a"%string (ex_intro _ (0, 1) exG_stale)))). Qed.
Print Assumptions C43_lookup_refuted.

(** placements of the objects follow the joints; objects attached to the universe keep their own placement *)
Theorem C56_placements (eps : R) (m : Model) (d : Data) (q : vec) (g : GModel) (gd : GData) (k : nat) (o : GObj) : Built eps m -> GBuilt g ->
  nth_error (g_objs g) k = Some o -> go_parentJoint o < m_njoints m ->
  gd_oMg (updateGeometryPlacements (forwardKinematics0 m d q) g gd) k =
    (if 0 <? go_parentJoint o then se3_mul (worldPl m q (go_parentJoint o)) (go_placement o) else go_placement o).
Proof. exact (placements_fk eps m d q g gd k o). Qed.
Example C56_ex (eps : R) : Built eps (ModelFacts3.exTree eps) /\ GBuilt exG2 /\ nth_error (g_objs exG2) 1 = Some (exObj "b" 2) /\ go_parentJoint (exObj "b" 2) < m_njoints (ModelFacts3.exTree eps).
Proof. exact (conj (ModelFacts3.exTree_built eps) (conj (proj1 exG2_met) (conj eq_refl (proj1 (Nat.ltb_lt (go_parentJoint (exObj "b" 2)) (m_njoints (ModelFacts3.exTree eps))) eq_refl)))). Qed.
Print Assumptions C56_placements.

(** one flag per pair, all set at first; the calls change the flags they name and nothing else *)
Theorem C57_create (u : nat -> SE3) (g : GModel) : length (gd_active (createGData u g)) = length (g_pairs g) /\
  forall k, k < length (g_pairs g) -> nth_error (gd_active (createGData u g)) k = Some true.
Proof. exact (data_create u g). Qed.
Print Assumptions C57_create.
Theorem C57_one (d : GData) (k : nat) (b : bool) : k < length (gd_active d) ->
  exists d', (if b then activateCollisionPair d k else deactivateCollisionPair d k) = Ok d' tt /\ gd_oMg d' = gd_oMg d /\ length (gd_active d') = length (gd_active d) /\
    forall j, nth_error (gd_active d') j = if j =? k then Some b else nth_error (gd_active d) j.
Proof. exact (fun H => match b with true => switch_spec true d k H | false => switch_spec false d k H end). Qed.
Example C57_ex : 1 < length (gd_active (createGData (fun _ => se3_Identity) exG2)) /\ length (g_pairs exG2) = length (gd_active (createGData (fun _ => se3_Identity) exG2)) /\ 2 < g_ngeoms exG2.
Proof. exact (conj (le_n 2) (conj eq_refl (le_n 3))). Qed.
Print Assumptions C57_one.
Theorem C57_one_range (d : GData) (k : nat) : length (gd_active d) <= k -> activateCollisionPair d k = Throw d /\ deactivateCollisionPair d k = Throw d.
Proof. exact (fun H => conj (switch_throw true d k H) (switch_throw false d k H)). Qed.
Print Assumptions C57_one_range.
Theorem C57_all (d : GData) (b : bool) : let d' := if b then activateAllCollisionPairs d else deactivateAllCollisionPairs d in
  gd_oMg d' = gd_oMg d /\ length (gd_active d') = length (gd_active d) /\ forall k, k < length (gd_active d) -> nth_error (gd_active d') k = Some b.
Proof. exact (data_all d b). Qed.
Print Assumptions C57_all.
Theorem C57_object (g : GModel) (d : GData) (i : nat) (b : bool) : i < g_ngeoms g -> length (g_pairs g) = length (gd_active d) ->
  exists d', setGeometryCollisionStatus g d i b = Ok d' tt /\ gd_oMg d' = gd_oMg d /\ length (gd_active d') = length (gd_active d) /\
    forall k p, nth_error (g_pairs g) k = Some p ->
      ((fst p = i \/ snd p = i) -> nth_error (gd_active d') k = Some b) /\ (~ (fst p = i \/ snd p = i) -> nth_error (gd_active d') k = nth_error (gd_active d) k).
Proof. exact (data_status g d i b). Qed.
(* hypotheses met: C57_ex *)
Print Assumptions C57_object.
Theorem C57_map (g : GModel) (d : GData) (f : nat -> nat -> bool) (upper : bool) : length (g_pairs g) = length (gd_active d) ->
  exists d', setActiveCollisionPairs g d (g_ngeoms g) (g_ngeoms g) f upper = Ok d' tt /\ gd_oMg d' = gd_oMg d /\ length (gd_active d') = length (gd_active d) /\
    forall k i j, nth_error (g_pairs g) k = Some (i, j) \/ nth_error (g_pairs g) k = Some (j, i) -> i < j -> nth_error (gd_active d') k = Some (if upper then f i j else f j i).
Proof. exact (data_map g d f upper). Qed.
(* hypotheses met: C57_ex *)
Print Assumptions C57_map.

(** concatenation: the objects of both, the pairs of both, and the pairs across them on different joints *)
Theorem C58_append (g h : GModel) : GBuilt g -> GBuilt h ->
  exists g', appendGeometryModel g h = Ok g' tt /\ g_objs g' = g_objs g ++ g_objs h /\ g_ngeoms g' = length (g_objs g') /\
  forall i j, i < j -> (hasPair g' (i, j) <-> (hasPair g (i, j) /\ j < g_ngeoms g) \/ (g_ngeoms g <= i /\ hasPair h (i - g_ngeoms g, j - g_ngeoms g)) \/
    (i < g_ngeoms g <= j /\ exists a b, nth_error (g_objs g) i = Some a /\ nth_error (g_objs h) (j - g_ngeoms g) = Some b /\ go_parentJoint a <> go_parentJoint b)).
Proof. exact (fun G H => append_spec g h (built_inv g G) (built_inv h H)). Qed.
Example C58_ex : GBuilt exG2 /\ GBuilt exG3.
Proof. exact (conj (proj1 exG2_met) (proj1 exG_built)). Qed.
Print Assumptions C58_append.
(** but the pair table is not extended: every lookup of an appended object is out of range *)
Theorem C58_lookup_undefined (g h g' : GModel) (p : nat * nat) : GBuilt g -> appendGeometryModel g h = Ok g' tt -> g_ngeoms g <= snd p -> existCollisionPair g' p = Undef.
Proof. exact (fun B => append_undefined g h g' p (built_inv g B)). Qed.
(* hypotheses met: C58_lookup_refuted *)
Print Assumptions C58_lookup_undefined.
Theorem C58_lookup_refuted : exists g h g' p, GBuilt g /\ GBuilt h /\ appendGeometryModel g h = Ok g' tt /\ hasPair g' p /\ properPair g' p /\ existCollisionPair g' p = Undef.
Proof. exact appended_refuted. Qed.
Print Assumptions C58_lookup_refuted.
