(* Removing pairs, histories of edits, removing objects, geometry data. *)
Require Import Reals String List Arith ZArith Bool Lia.
From Verif Require Import Vec3 Spatial Model Geometry Spec_Geom GeomFacts.
Import ListNotations.
Local Open Scope nat_scope.

Lemma nth_error_removeNth {A} k (l : list A) i : k < length l -> nth_error (removeNth k l) i = if i <? k then nth_error l i else nth_error l (i + 1).
Proof.
  intros Hk. unfold removeNth. destruct (Nat.ltb_spec i k) as [H|H].
  - rewrite nth_error_app1 by (rewrite firstn_length; lia). revert l i Hk H. induction k as [|k IH]; intros l i Hk H; [lia|]. destruct l; [cbn in Hk; lia|]. destruct i; [reflexivity|]. cbn. apply IH; cbn in Hk; lia.
  - rewrite nth_error_app2 by (rewrite firstn_length; lia). rewrite firstn_length, Nat.min_l by lia.
    replace (i + 1) with (S k + (i - k)) by lia. generalize (i - k) (S k). clear. intros x n. revert l. induction n as [|n IH]; intros l; [reflexivity|]. destruct l; [now destruct x|]. cbn. apply IH.
Qed.
Lemma length_removeNth {A} k (l : list A) : k < length l -> length (removeNth k l) = length l - 1.
Proof. intros H. unfold removeNth. rewrite app_length, firstn_length, skipn_length. lia. Qed.

Definition dec (index z : Z) : Z := if (index <? z)%Z then (z - 1)%Z else z.
Lemma shift_spec index g (M : nat -> nat -> Z) : (forall a b, M a b = M b a) ->
  (forall a b, a < gm_size (g_map g) -> b < gm_size (g_map g) -> gm_at (g_map g) a b = Some (M a b)) ->
  exists g', shiftMapping index g = Ok g' tt /\ g_pairs g' = g_pairs g /\ g_objs g' = g_objs g /\ g_ngeoms g' = g_ngeoms g /\ gm_size (g_map g') = gm_size (g_map g) /\
  forall a b, a < gm_size (g_map g) -> b < gm_size (g_map g) -> gm_at (g_map g') a b = Some (if a =? b then M a b else dec index (M a b)).
Proof.
  intros Sy HM. set (n := gm_size (g_map g)) in *.
  pose (done := fun i j a b => let lo := Nat.min a b in let hi := Nat.max a b in (lo <? hi) && ((lo <? i) || ((lo =? i) && (hi <? j)))).
  pose (P := fun i j h => g_pairs h = g_pairs g /\ g_objs h = g_objs g /\ g_ngeoms h = g_ngeoms g /\ gm_size (g_map h) = n /\
    forall a b, a < n -> b < n -> gm_at (g_map h) a b = Some (if done i j a b then dec index (M a b) else M a b)).
  assert (Pext : forall i j i' j' h, P i j h -> (forall a b, a < n -> b < n -> done i j a b = done i' j' a b) -> P i' j' h).
  { intros i j i' j' h (P1 & P2 & P3 & P4 & P5) H. repeat split; auto. intros a b Ha Hb. rewrite (P5 a b Ha Hb), (H a b Ha Hb). reflexivity. }
  assert (L : exists g', shiftMapping index g = Ok g' tt /\ P n 0 g').
  { unfold shiftMapping. fold n. change n with (0 + n) at 2. apply (gFor_inv (fun i h => P i 0 h)).
    - repeat split; auto. intros a b Ha Hb. rewrite (HM a b Ha Hb). unfold done. destruct (Nat.ltb_spec (Nat.min a b) 0), (Nat.eqb_spec (Nat.min a b) 0), (Nat.ltb_spec (Nat.max a b) 0); try lia; now rewrite andb_false_r.
    - intros i h Hi HP0. assert (Hs : gm_size (g_map h) = n) by apply HP0. rewrite Hs.
      assert (HP1 : P i (i + 1) h).
      { apply (Pext i 0); [exact HP0|]. intros a b Ha Hb. unfold done. destruct (Nat.ltb_spec (Nat.min a b) (Nat.max a b)), (Nat.ltb_spec (Nat.min a b) i), (Nat.eqb_spec (Nat.min a b) i), (Nat.ltb_spec (Nat.max a b) 0), (Nat.ltb_spec (Nat.max a b) (i+1)); cbn; lia. }
      clear HP0 Hs.
      destruct (gFor_inv (fun j h => P i j h) (fun g0 j => match mapRead (g_map g0) i j with None => Undef | Some z => if (index <? z)%Z then mapWrite2 g0 i j (z - 1) else Ok g0 tt end) (n - (i + 1)) (i + 1) h HP1) as (h' & E & HP2).
      + intros j k Hj HPk. pose proof HPk as (P1 & P2 & P3 & P4 & P5). unfold mapRead. rewrite P4. destruct (Nat.ltb_spec i n); [|lia]. destruct (Nat.ltb_spec j n); [|lia]. cbn [andb].
        rewrite (P5 i j) by lia. assert (E0 : done i j i j = false).
        { unfold done. rewrite Nat.min_l, Nat.max_r by lia. destruct (Nat.ltb_spec i i); [lia|]. destruct (Nat.ltb_spec j j); [lia|]. now rewrite !andb_false_r. }
        rewrite E0.
        assert (Hd : forall a b, a < n -> b < n -> done i (j + 1) a b = done i j a b || ((a =? i) && (b =? j)) || ((a =? j) && (b =? i))).
        { intros a b Ha Hb. unfold done. destruct (Nat.ltb_spec (Nat.min a b) (Nat.max a b)), (Nat.ltb_spec (Nat.min a b) i), (Nat.eqb_spec (Nat.min a b) i), (Nat.ltb_spec (Nat.max a b) j), (Nat.ltb_spec (Nat.max a b) (j + 1)), (Nat.eqb_spec a i), (Nat.eqb_spec b j), (Nat.eqb_spec a j), (Nat.eqb_spec b i); cbn; try reflexivity; lia. }
        destruct (Z.ltb_spec index (M i j)) as [Hl|Hl].
        * unfold mapWrite2. rewrite P4. destruct (Nat.ltb_spec i n); [|lia]. destruct (Nat.ltb_spec j n); [|lia]. cbn [andb]. eexists. split; [reflexivity|].
          split; [exact P1|]. split; [exact P2|]. split; [exact P3|]. split; [exact P4|]. intros a b Ha Hb. cbn [g_map gSetMap gm_at mapPut]. rewrite (Hd a b Ha Hb).
          destruct (Nat.eqb_spec a i), (Nat.eqb_spec b j), (Nat.eqb_spec a j), (Nat.eqb_spec b i); subst; cbn [andb orb]; try lia; rewrite ?orb_true_r, ?orb_false_r;
            try (apply P5; assumption); f_equal; unfold dec; rewrite ?(Sy j i); destruct (Z.ltb_spec index (M i j)); lia.
        * exists k. split; [reflexivity|]. split; [exact P1|]. split; [exact P2|]. split; [exact P3|]. split; [exact P4|]. intros a b Ha Hb. rewrite (Hd a b Ha Hb), (P5 a b Ha Hb).
          destruct (Nat.eqb_spec a i), (Nat.eqb_spec b j), (Nat.eqb_spec a j), (Nat.eqb_spec b i); subst; cbn [andb orb]; try lia; rewrite ?orb_true_r, ?orb_false_r; try reflexivity;
          f_equal; unfold dec; rewrite ?(Sy j i); destruct (Z.ltb_spec index (M i j)); try lia; match goal with |- (if ?c then _ else _) = _ => destruct c end; reflexivity.
      + exists h'. split; [exact E|]. apply (Pext i (i + 1 + (n - (i + 1)))); [exact HP2|]. intros a b Ha Hb. unfold done. replace (i + 1 + (n - (i + 1))) with n by lia.
        destruct (Nat.ltb_spec (Nat.min a b) (Nat.max a b)), (Nat.ltb_spec (Nat.min a b) i), (Nat.ltb_spec (Nat.min a b) (i + 1)), (Nat.eqb_spec (Nat.min a b) i), (Nat.eqb_spec (Nat.min a b) (i+1)), (Nat.ltb_spec (Nat.max a b) n), (Nat.ltb_spec (Nat.max a b) 0); cbn; try reflexivity; lia. }
  destruct L as (g' & E & P1 & P2 & P3 & P4 & P5). exists g'. repeat split; auto. intros a b Ha Hb. rewrite (P5 a b Ha Hb). unfold done.
  destruct (Nat.eqb_spec a b) as [->|]; [rewrite Nat.min_id, Nat.max_id, Nat.ltb_irrefl; reflexivity|].
  destruct (Nat.ltb_spec (Nat.min a b) (Nat.max a b)), (Nat.ltb_spec (Nat.min a b) n); try lia. reflexivity.
Qed.

Definition entryOf (l : list (nat * nat)) (p : nat * nat) (z : Z) := entry l p z.
Lemma entry_same l p q z : same p q -> entry l p z -> entry l q z.
Proof.
  intros Hs [[-> N]|(k & r & -> & Hk & Hr)]; [left; split; [reflexivity|]; intros k r Hk Hr; apply (N k r Hk); eapply same_trans; [exact Hr | apply same_sym, Hs] | right; exists k, r; repeat split; auto; eapply same_trans; eauto].
Qed.
Lemma entry_unique g p z z' : gInv g -> entry (g_pairs g) p z -> entry (g_pairs g) p z' -> z = z'.
Proof.
  intros I [[-> N]|(k & r & -> & Hk & Hr)] [[-> N']|(k' & r' & -> & Hk' & Hr')]; auto.
  - destruct (N _ _ Hk' Hr').
  - destruct (N' _ _ Hk Hr).
  - f_equal. apply (gi_unique _ I k k' r r' Hk Hk'). eapply same_trans; [exact Hr | apply same_sym, Hr'].
Qed.
Lemma remove_spec g p : gInv g -> properPair g p -> exists g', removeCollisionPair g p = Ok g' tt /\ gInv g' /\ g_objs g' = g_objs g /\ g_ngeoms g' = g_ngeoms g /\
  ((~ hasPair g p /\ g' = g) \/ (exists k r, nth_error (g_pairs g) k = Some r /\ same r p /\ g_pairs g' = removeNth k (g_pairs g))).
Proof.
  intros I (Hne & Ha & Hb). unfold removeCollisionPair. destruct (Nat.ltb_spec (fst p) (g_ngeoms g)); [|lia]. destruct (Nat.ltb_spec (snd p) (g_ngeoms g)); [|lia]. cbn [negb].
  destruct (find_spec g p I Ha Hb) as (k & -> & Hk). cbn [gBind]. destruct Hk as [(r & Hk & Hr)|[-> N]].
  2: { rewrite Nat.eqb_refl. exists g. auto 10. }
  assert (Hl : k < length (g_pairs g)) by (apply nth_error_Some; congruence).
  destruct (Nat.eqb_spec k (length (g_pairs g))); [lia|]. unfold mapWrite2. rewrite (gi_size _ I). destruct (Nat.ltb_spec (fst p) (g_ngeoms g)); [|lia]. destruct (Nat.ltb_spec (snd p) (g_ngeoms g)); [|lia]. cbn [andb gBind].
  cbn [g_pairs gSetMap]. destruct (Nat.ltb_spec k (length (g_pairs g))); [|lia].
  pose (M0 := fun a b => match gm_at (g_map g) a b with Some z => z | None => 0%Z end).
  pose (lo := fun a b : nat => (Nat.min a b, Nat.max a b)).
  pose (M := fun a b => if pairEq (a, b) p then (-1)%Z else M0 (Nat.min a b) (Nat.max a b)).
  assert (HM0 : forall a b, a < g_ngeoms g -> b < g_ngeoms g -> gm_at (g_map g) a b = Some (M0 (Nat.min a b) (Nat.max a b)) /\ entry (g_pairs g) (a, b) (M0 (Nat.min a b) (Nat.max a b))).
  { intros a b Ha' Hb'. destruct (gi_map _ I a b Ha' Hb') as (z & Hz & E). destruct (gi_map _ I (Nat.min a b) (Nat.max a b) ltac:(lia) ltac:(lia)) as (z' & Hz' & E').
    assert (Es : same (Nat.min a b, Nat.max a b) (a, b)).
    { destruct (Nat.le_ge_cases a b); [rewrite Nat.min_l, Nat.max_r by lia; now left | rewrite Nat.min_r, Nat.max_l by lia; now right]. }
    apply (entry_same _ _ _ _ Es) in E'. pose proof (entry_unique g _ _ _ I E E'). subst z'. unfold M0. rewrite Hz'. auto. }
  match goal with |- exists g', shiftMapping _ ?h = _ /\ _ => set (g1 := h) end.
  destruct (shift_spec (Z.of_nat k) g1 M) as (g' & E & Q1 & Q2 & Q3 & Q4 & Q5).
  - intros a b. unfold M. rewrite (Nat.min_comm a b), (Nat.max_comm a b).
    assert (Ep : pairEq (a, b) p = pairEq (b, a) p) by (unfold pairEq; cbn [fst snd]; destruct (a =? fst p), (b =? snd p), (a =? snd p), (b =? fst p); reflexivity). now rewrite Ep.
  - intros a b Ha' Hb'. change (gm_size (g_map g1)) with (gm_size (g_map g)) in Ha', Hb'. rewrite (gi_size _ I) in Ha', Hb'. unfold g1. cbn [g_map gSetPairs gSetMap gm_at mapPut]. unfold M.
    destruct (HM0 a b Ha' Hb') as [-> _]. unfold pairEq; cbn [fst snd].
    destruct (a =? fst p), (b =? snd p), (a =? snd p), (b =? fst p); reflexivity.
  - exists g'. split; [exact E|]. change (gm_size (g_map g1)) with (gm_size (g_map g)) in *. rewrite (gi_size _ I) in *.
    change (g_pairs g1) with (removeNth k (g_pairs g)) in Q1. change (g_objs g1) with (g_objs g) in Q2. change (g_ngeoms g1) with (g_ngeoms g) in Q3.
    split; [|split; [exact Q2|split; [exact Q3|right; eauto]]].
    assert (HR : forall i s, nth_error (g_pairs g') i = Some s -> exists i', nth_error (g_pairs g) i' = Some s /\ i' <> k /\ i = if i' <? k then i' else i' - 1).
    { intros i s Hi. rewrite Q1, nth_error_removeNth in Hi by exact Hl. destruct (Nat.ltb_spec i k); [exists i | exists (i + 1)]; (split; [exact Hi|]; split; [lia|]).
      - destruct (Nat.ltb_spec i k); lia. - destruct (Nat.ltb_spec (i + 1) k); lia. }
    assert (HF : forall i' s, nth_error (g_pairs g) i' = Some s -> i' <> k -> nth_error (g_pairs g') (if i' <? k then i' else i' - 1) = Some s).
    { intros i' s Hi Hn. rewrite Q1, nth_error_removeNth by exact Hl. destruct (Nat.ltb_spec i' k).
      - destruct (Nat.ltb_spec i' k); [exact Hi|lia]. - destruct (Nat.ltb_spec (i' - 1) k); [lia|]. replace (i' - 1 + 1) with i' by lia. exact Hi. }
    split.
    + rewrite Q2, Q3. apply (gi_objs _ I).
    + rewrite Q4, Q3. reflexivity.
    + intros s Hs. apply In_nth_error in Hs. destruct Hs as [i Hi]. apply HR in Hi. destruct Hi as (i' & Hi & _). apply nth_error_In in Hi. pose proof (gi_proper _ I s Hi) as P. unfold properPair in *. rewrite Q3. exact P.
    + intros i j s t Hi Hj Hs. apply HR in Hi, Hj. destruct Hi as (i' & Hi & _ & ->), Hj as (j' & Hj & _ & ->). rewrite (gi_unique _ I i' j' s t Hi Hj Hs). reflexivity.
    + intros a b Ha' Hb'. rewrite Q3 in Ha', Hb'. eexists. split; [apply Q5; assumption|]. destruct (HM0 a b Ha' Hb') as [_ En].
      destruct (Nat.eqb_spec a b) as [<-|Hab].
      * left. assert (Nd : forall i s, nth_error (g_pairs g) i = Some s -> ~ same s (a, a)).
        { intros i s Hi Hs. apply nth_error_In in Hi. destruct (gi_proper _ I s Hi) as (X & _). destruct Hs as [E0|E0]; rewrite E0 in X; cbn in X; congruence. }
        split.
        -- unfold M. destruct (pairEq (a, a) p) eqn:Ep; [reflexivity|]. rewrite Nat.min_id, Nat.max_id in *. destruct En as [[-> _]|(i & s & _ & Hi & Hs)]; [reflexivity | destruct (Nd i s Hi Hs)].
        -- intros i s Hi. apply HR in Hi. destruct Hi as (i' & Hi & _). eauto.
      * unfold M. destruct (pairEq (a, b) p) eqn:Ep.
        -- left. split; [unfold dec; destruct (Z.ltb_spec (Z.of_nat k) (-1)); lia|]. intros i s Hi Hs. apply HR in Hi. destruct Hi as (i' & Hi & Hn & _). apply Hn.
           apply (gi_unique _ I i' k s r Hi Hk). eapply same_trans; [exact Hs|]. apply pairEq_same in Ep. eapply same_trans; [exact Ep | apply same_sym, Hr].
        -- destruct En as [[-> N]|(i & s & -> & Hi & Hs)].
           ++ left. split; [unfold dec; destruct (Z.ltb_spec (Z.of_nat k) (-1)); lia|]. intros i s Hi. apply HR in Hi. destruct Hi as (i' & Hi & _). eauto.
           ++ assert (Hik : i <> k). { intros ->. assert (s = r) by congruence. subst s. assert (same (a, b) p) by (eapply same_trans; [apply same_sym, Hs | exact Hr]). apply pairEq_same in H4. congruence. }
              right. exists (if i <? k then i else i - 1), s. split; [|split; [apply HF; assumption | exact Hs]].
              unfold dec. destruct (Z.ltb_spec (Z.of_nat k) (Z.of_nat i)), (Nat.ltb_spec i k); lia.
Qed.
