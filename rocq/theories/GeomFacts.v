(* Collision pairs: the list of pairs and the mapping matrix agree. *)
Require Import Reals String List Arith ZArith Bool Lia.
From Verif Require Import Vec3 Spatial Model Geometry Spec_Geom.
Import ListNotations.
Local Open Scope nat_scope.

Lemma same_sym p q : same p q -> same q p.
Proof. destruct p, q. unfold same; cbn. intros [E|E]; inversion E; auto. Qed.
Lemma same_trans p q r : same p q -> same q r -> same p r.
Proof. destruct p, q, r. unfold same; cbn. intros [E|E] [F|F]; inversion E; inversion F; auto. Qed.
Lemma same_refl p : same p p. Proof. now left. Qed.
Lemma same_swap a b : same (a, b) (b, a). Proof. right. reflexivity. Qed.
Lemma same_dec p q : {same p q} + {~ same p q}.
Proof.
  destruct p as [a b], q as [c d]. unfold same; cbn.
  destruct (Nat.eq_dec a c), (Nat.eq_dec b d); [left; left; congruence| | |];
  (destruct (Nat.eq_dec a d), (Nat.eq_dec b c); [left; right; congruence| | |]); right; intros [E|E]; inversion E; auto.
Qed.
Lemma pairEq_same p q : pairEq p q = true <-> same p q.
Proof.
  destruct p as [a b], q as [c d]. unfold pairEq, same; cbn. rewrite orb_true_iff, !andb_true_iff, !Nat.eqb_eq. split.
  - intros [[-> ->]|[-> ->]]; auto.
  - intros [E|E]; inversion E; auto.
Qed.

(* entry of the mapping for the pair p, given the list *)
Definition entry (l : list (nat * nat)) (p : nat * nat) (z : Z) : Prop :=
  (z = (-1)%Z /\ forall k r, nth_error l k = Some r -> ~ same r p) \/ (exists k r, z = Z.of_nat k /\ nth_error l k = Some r /\ same r p).
Record gInv (g : GModel) : Prop := {
  gi_objs : length (g_objs g) = g_ngeoms g;
  gi_size : gm_size (g_map g) = g_ngeoms g;
  gi_proper : forall r, In r (g_pairs g) -> properPair g r;
  gi_unique : forall k l r s, nth_error (g_pairs g) k = Some r -> nth_error (g_pairs g) l = Some s -> same r s -> k = l;
  gi_map : forall a b, a < g_ngeoms g -> b < g_ngeoms g -> exists z, gm_at (g_map g) a b = Some z /\ entry (g_pairs g) (a, b) z }.

Lemma mapRead_in g a b : gInv g -> a < g_ngeoms g -> b < g_ngeoms g -> exists z, mapRead (g_map g) a b = Some z /\ entry (g_pairs g) (a, b) z.
Proof.
  intros I Ha Hb. unfold mapRead. rewrite (gi_size _ I). destruct (Nat.ltb_spec a (g_ngeoms g)), (Nat.ltb_spec b (g_ngeoms g)); try lia. cbn [andb].
  apply (gi_map _ I); assumption.
Qed.
Lemma hasPair_nth g p : hasPair g p <-> exists k r, nth_error (g_pairs g) k = Some r /\ same r p.
Proof.
  split.
  - intros (r & Hi & Hs). apply In_nth_error in Hi. destruct Hi as [k Hk]. eauto.
  - intros (k & r & Hk & Hs). exists r. split; [eapply nth_error_In; exact Hk | exact Hs].
Qed.
Lemma exist_spec g p : gInv g -> fst p < g_ngeoms g -> snd p < g_ngeoms g -> exists b, existCollisionPair g p = Ok g b /\ (b = true <-> hasPair g p).
Proof.
  intros I Ha Hb. destruct p as [a b]. cbn in Ha, Hb. destruct (mapRead_in g a b I Ha Hb) as (z & Hz & E). unfold existCollisionPair; cbn [fst snd]. rewrite Hz.
  eexists. split; [reflexivity|]. rewrite hasPair_nth, negb_true_iff, Z.eqb_neq. destruct E as [[-> N]|(k & r & -> & Hk & Hs)].
  - split; [congruence|]. intros (k & r & Hk & Hs). destruct (N k r Hk Hs).
  - split; [eauto | intros _; lia].
Qed.
Lemma find_spec g p : gInv g -> fst p < g_ngeoms g -> snd p < g_ngeoms g -> exists k, findCollisionPair g p = Ok g k /\
  ((exists r, nth_error (g_pairs g) k = Some r /\ same r p) \/ (k = length (g_pairs g) /\ ~ hasPair g p)).
Proof.
  intros I Ha Hb. destruct p as [a b]. cbn in Ha, Hb. destruct (mapRead_in g a b I Ha Hb) as (z & Hz & E). unfold findCollisionPair; cbn [fst snd]. rewrite Hz.
  destruct E as [[-> N]|(k & r & -> & Hk & Hs)].
  - exists (length (g_pairs g)). split; [reflexivity|]. right. split; [reflexivity|]. rewrite hasPair_nth. intros (k & r & Hk & Hs). destruct (N k r Hk Hs).
  - exists k. destruct (Z.eqb_spec (Z.of_nat k) (-1)); [lia|]. rewrite Nat2Z.id. split; [reflexivity|]. left. eauto.
Qed.

(* ---- adding ---- *)
Lemma add_fresh g p : gInv g -> properPair g p -> ~ hasPair g p ->
  exists g', addCollisionPair g p = Ok g' tt /\ gInv g' /\ g_pairs g' = g_pairs g ++ [p] /\ g_objs g' = g_objs g /\ g_ngeoms g' = g_ngeoms g.
Proof.
  intros I (Hne & Ha & Hb) N. unfold addCollisionPair. destruct (Nat.ltb_spec (fst p) (g_ngeoms g)); [|lia]. destruct (Nat.ltb_spec (snd p) (g_ngeoms g)); [|lia]. cbn [negb].
  destruct (exist_spec g p I Ha Hb) as (b & -> & Hbb). cbn [gBind]. destruct b; [destruct N; tauto|].
  unfold mapWrite2. cbn [g_map gSetPairs]. rewrite (gi_size _ I). destruct (Nat.ltb_spec (fst p) (g_ngeoms g)); [|lia]. destruct (Nat.ltb_spec (snd p) (g_ngeoms g)); [|lia]. cbn [andb].
  eexists. split; [reflexivity|]. cbn [g_pairs g_objs g_ngeoms gSetMap gSetPairs]. split; [|auto].
  assert (HN : forall k r, nth_error (g_pairs g) k = Some r -> ~ same r p).
  { intros k r Hk Hs. apply N. apply hasPair_nth. eauto. }
  assert (Hlast : nth_error (g_pairs g ++ [p]) (length (g_pairs g)) = Some p) by (rewrite nth_error_app2, Nat.sub_diag by lia; reflexivity).
  assert (Hcase : forall k r, nth_error (g_pairs g ++ [p]) k = Some r -> nth_error (g_pairs g) k = Some r \/ (k = length (g_pairs g) /\ r = p)).
  { intros k r Hk. destruct (Nat.lt_ge_cases k (length (g_pairs g))) as [Hl|Hg]; [rewrite nth_error_app1 in Hk by lia; auto|].
    rewrite nth_error_app2 in Hk by lia. destruct (k - length (g_pairs g)) as [|n] eqn:Ek; [|destruct n; discriminate Hk]. inversion Hk. right. split; [lia | reflexivity]. }
  split; cbn [g_pairs g_objs g_ngeoms g_map gSetMap gSetPairs gm_size gm_at mapPut].
  - apply (gi_objs _ I).
  - apply (gi_size _ I).
  - intros r Hr. apply in_app_or in Hr. destruct Hr as [Hr|[<-|[]]]; [exact (gi_proper _ I r Hr) | repeat split; assumption].
  - intros k l r s Hk Hl Hs. apply Hcase in Hk, Hl. destruct Hk as [Hk|[-> ->]], Hl as [Hl|[-> ->]]; [eapply (gi_unique _ I); eauto| | |reflexivity].
    + destruct (HN k r Hk Hs).
    + destruct (HN l s Hl (same_sym _ _ Hs)).
  - intros a b' Ha' Hb'. rewrite app_length; cbn [length].
    destruct (same_dec p (a, b')) as [Hs|Hs].
    + exists (Z.of_nat (length (g_pairs g))). split.
      * replace (Z.of_nat (length (g_pairs g) + 1) - 1)%Z with (Z.of_nat (length (g_pairs g))) by lia.
        destruct Hs as [->|Hs]; cbn [fst snd] in *.
        -- now rewrite !Nat.eqb_refl.
        -- rewrite Hs. cbn [fst snd]. rewrite !Nat.eqb_refl. cbn [andb]. destruct ((a =? b') && (b' =? a)); reflexivity.
      * right. exists (length (g_pairs g)), p. auto.
    + destruct (gi_map _ I a b' Ha' Hb') as (z & Hz & E). exists z. split.
      * destruct p as [x y]. cbn [fst snd] in *.
        destruct ((a =? x) && (b' =? y)) eqn:E1; [apply andb_true_iff in E1; rewrite !Nat.eqb_eq in E1; destruct E1; subst; destruct Hs; now left|].
        destruct ((a =? y) && (b' =? x)) eqn:E2; [apply andb_true_iff in E2; rewrite !Nat.eqb_eq in E2; destruct E2; subst; destruct Hs; now right|]. exact Hz.
      * destruct E as [[-> Nn]|(k & r & -> & Hk & Hsr)]; [left|right].
        -- split; [reflexivity|]. intros k r Hk. apply Hcase in Hk. destruct Hk as [Hk|[_ ->]]; [eauto | exact Hs].
        -- exists k, r. split; [reflexivity|]. split; [|exact Hsr]. rewrite nth_error_app1; [exact Hk|]. apply nth_error_Some. congruence.
Qed.
Lemma add_spec g p : gInv g -> properPair g p -> exists g', addCollisionPair g p = Ok g' tt /\ gInv g' /\ g_objs g' = g_objs g /\ g_ngeoms g' = g_ngeoms g /\
  ((hasPair g p /\ g' = g) \/ (~ hasPair g p /\ g_pairs g' = g_pairs g ++ [p])).
Proof.
  intros I P. destruct (exist_spec g p I (proj1 (proj2 P)) (proj2 (proj2 P))) as (b & E & Hb). destruct b.
  - exists g. unfold addCollisionPair. destruct P as (_ & Ha & Hb'). destruct (Nat.ltb_spec (fst p) (g_ngeoms g)); [|lia]. destruct (Nat.ltb_spec (snd p) (g_ngeoms g)); [|lia]. cbn [negb].
    rewrite E. cbn [gBind]. split; [reflexivity|]. split; [exact I|]. split; [reflexivity|]. split; [reflexivity|]. left. split; [tauto | reflexivity].
  - assert (N : ~ hasPair g p) by (intros H; apply Hb in H; discriminate). destruct (add_fresh g p I P N) as (g' & A & B & C & D & F). exists g'. auto 10.
Qed.
Lemma add_has g g' p : (hasPair g p /\ g' = g) \/ (~ hasPair g p /\ g_pairs g' = g_pairs g ++ [p]) -> forall q, hasPair g' q <-> hasPair g q \/ same p q.
Proof.
  intros [[H ->]|[_ E]] q.
  - split; [auto|]. intros [Hq|Hs]; [exact Hq|]. destruct H as (r & Hr & Hs'). exists r. split; [exact Hr | eapply same_trans; eauto].
  - unfold hasPair. rewrite E. split.
    + intros (r & Hr & Hs). apply in_app_or in Hr. destruct Hr as [Hr|[<-|[]]]; [left; eauto | now right].
    + intros [(r & Hr & Hs)|Hs]; [exists r | exists p]; (split; [apply in_or_app; cbn; auto | exact Hs]).
Qed.

(* ---- loops ---- *)
Lemma gFor_inv (Inv : nat -> GModel -> Prop) f n : forall b g, Inv b g ->
  (forall i h, b <= i < b + n -> Inv i h -> exists h', f h i = Ok h' tt /\ Inv (i + 1) h') -> exists g', gFor (seq b n) f g = Ok g' tt /\ Inv (b + n) g'.
Proof.
  induction n as [|n IH]; intros b g H0 Hs; cbn [seq gFor].
  - exists g. rewrite Nat.add_0_r. auto.
  - destruct (Hs b g ltac:(lia) H0) as (h & -> & H1). cbn [gBind]. destruct (IH (S b) h) as (g' & E & H2).
    + now replace (S b) with (b + 1) by lia.
    + intros i h' Hi. apply Hs. lia.
    + exists g'. split; [exact E|]. now replace (b + S n) with (S b + n) by lia.
Qed.
Lemma removeAll_inv g : gInv g -> gInv (removeAllCollisionPairs g) /\ forall p, ~ hasPair (removeAllCollisionPairs g) p.
Proof.
  intros I. split.
  - split; cbn; try apply I.
    + intros r [].
    + intros k l r s Hk. destruct k; discriminate.
    + intros a b Ha Hb. exists (-1)%Z. split; [reflexivity|]. left. split; [reflexivity|]. intros k r Hk. destruct k; discriminate.
  - intros p (r & [] & _).
Qed.
(* the double loop over i < j that adds the pairs selected by sel *)
Definition pairLoop (sel : GModel -> nat -> nat -> option bool) (g : GModel) : Res GModel unit :=
  gFor (seq 0 (g_ngeoms g)) (fun g i => gFor (seq (i + 1) (g_ngeoms g - (i + 1))) (fun g j =>
    match sel g i j with Some true => gBind (CollisionPair g i j) addCollisionPair | Some false => Ok g tt | None => Undef end) g) g.
Lemma pairLoop_spec sel (S : nat -> nat -> bool) g : gInv g -> (forall p, ~ hasPair g p) ->
  (forall h i j, g_objs h = g_objs g -> i < g_ngeoms g -> j < g_ngeoms g -> sel h i j = Some (S i j)) ->
  exists g', pairLoop sel g = Ok g' tt /\ gInv g' /\ g_objs g' = g_objs g /\ g_ngeoms g' = g_ngeoms g /\
  forall i j, hasPair g' (i, j) <-> i < g_ngeoms g /\ j < g_ngeoms g /\ ((i < j /\ S i j = true) \/ (j < i /\ S j i = true)).
Proof.
  intros I N HS.
  pose (P := fun i j h => gInv h /\ g_objs h = g_objs g /\ g_ngeoms h = g_ngeoms g /\
    forall a b, a < b -> (hasPair h (a, b) <-> b < g_ngeoms g /\ (a < i \/ (a = i /\ b < j)) /\ S a b = true)).
  assert (L : exists g', pairLoop sel g = Ok g' tt /\ P (g_ngeoms g) 0 g').
  { unfold pairLoop. change (g_ngeoms g) with (0 + g_ngeoms g) at 2. apply (gFor_inv (fun i h => P i 0 h)).
    - split; [exact I|]. split; [reflexivity|]. split; [reflexivity|]. intros a b _. split; [intros H; destruct (N _ H)|lia].
    - intros i h Hi HP0. 
      assert (Hn : g_ngeoms h = g_ngeoms g) by apply HP0. rewrite Hn.
      assert (HP1 : P i (i + 1) h).
      { destruct HP0 as (P1 & P2 & P3 & P4). split; [exact P1|]. split; [exact P2|]. split; [exact P3|]. intros a b Hab. rewrite (P4 a b Hab). split; intros (X1 & X2 & X3); (split; [exact X1|]; split; [lia | exact X3]). }
      clear HP0 Hn. destruct (gFor_inv (fun j h => P i j h) (fun g0 j => match sel g0 i j with Some true => gBind (CollisionPair g0 i j) addCollisionPair | Some false => Ok g0 tt | None => Undef end) (g_ngeoms g - (i + 1)) (i + 1) h HP1) as (h' & E & HP2).
      + intros j k Hj (P1 & P2 & P3 & P4). rewrite (HS k i j P2) by lia. destruct (S i j) eqn:ES.
        * unfold CollisionPair. destruct (Nat.eqb_spec i j); [lia|]. cbn [gBind].
          destruct (add_spec k (i, j) P1) as (k' & E & Q1 & Q2 & Q3 & Q4); [repeat split; cbn; lia|]. exists k'. split; [exact E|].
          split; [exact Q1|]. split; [congruence|]. split; [congruence|]. intros a b Hab. rewrite (add_has _ _ _ Q4), (P4 a b Hab). unfold same; cbn [fst snd]. split.
          -- intros [(X1 & X2 & X3)|[X|X]]; [split; [exact X1|]; split; [lia | exact X3] | inversion X; subst; split; [lia|]; split; [lia | exact ES] | inversion X; subst; lia].
          -- intros (X1 & X2 & X3). destruct (Nat.eq_dec a i) as [->|]; [destruct (Nat.eq_dec b j) as [->|]|]; [right; now left | left; split; [exact X1|]; split; [lia | exact X3]..].
        * exists k. split; [reflexivity|]. split; [exact P1|]. split; [exact P2|]. split; [exact P3|]. intros a b Hab. rewrite (P4 a b Hab). split; intros (X1 & X2 & X3); (split; [exact X1|]); split; try exact X3; [lia|].
          destruct (Nat.eq_dec a i) as [->|]; [destruct (Nat.eq_dec b j) as [->|]; [congruence|lia]|lia].
      + exists h'. split; [exact E|]. destruct HP2 as (P1 & P2 & P3 & P4). split; [exact P1|]. split; [exact P2|]. split; [exact P3|]. intros a b Hab. rewrite (P4 a b Hab). split; intros (X1 & X2 & X3); (split; [exact X1|]); split; try exact X3; lia. }
  destruct L as (g' & E & P1 & P2 & P3 & P4). exists g'. split; [exact E|]. split; [exact P1|]. split; [exact P2|]. split; [exact P3|].
  assert (Hsw : forall a b, hasPair g' (a, b) <-> hasPair g' (b, a)).
  { intros a b. split; intros (r & Hr & Hs); exists r; (split; [exact Hr|]); eapply same_trans; eauto; right; reflexivity. }
  intros i j. destruct (Nat.lt_trichotomy i j) as [Hl|[->|Hg]].
  - rewrite (P4 i j Hl). split; [intros (X1 & X2 & X3) | intros (X1 & X2 & [X|X])]; [repeat split; try lia; left; auto | |lia]. repeat split; try lia. tauto.
  - split; [|lia]. intros (r & Hr & Hs). pose proof (gi_proper _ P1 r Hr) as (Hne & _). destruct Hs as [->|Hs]; [|rewrite Hs in Hne]; cbn in Hne; congruence.
  - rewrite Hsw, (P4 j i Hg). split; [intros (X1 & X2 & X3) | intros (X1 & X2 & [X|X])]; [repeat split; try lia; right; auto | lia|]. repeat split; try lia. tauto.
Qed.
