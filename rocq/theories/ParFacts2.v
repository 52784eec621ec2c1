(* The pairs of one configuration checked by several threads. *)
Require Import List Arith Bool Lia Permutation.
From Verif Require Import Parallel Spec_Par ParFacts.
Import ListNotations.
Local Open Scope nat_scope.

(* the sequential loop *)
Lemma seq_true act col l hit r : hit = true -> forall stop, let x := computeCollisions act col stop l hit r in fst x = true /\ cr_index (snd x) = cr_index r.
Proof.
  revert hit r. induction l as [|i l IH]; intros hit r H stop; cbn [computeCollisions]; [auto|]. subst hit. destruct (act i); [cbn [negb andb]; match goal with |- context [computeCollisions _ _ _ _ _ ?r'] => destruct (IH true r' eq_refl stop) as [A B] end; split; [exact A | exact B] | apply (IH true r eq_refl stop)].
Qed.
Lemma seq_spec act col stop l r : let x := computeCollisions act col stop l false r in
  (fst x = existsb (fun i => act i && col i) l) /\
  (fst x = true -> exists a b, l = a ++ cr_index (snd x) :: b /\ act (cr_index (snd x)) && col (cr_index (snd x)) = true /\ forall j, In j a -> act j && col j = false).
Proof.
  revert r. induction l as [|i l IH]; intros r; cbn [computeCollisions existsb]; [split; [reflexivity | discriminate]|].
  destruct (act i) eqn:Ea; [destruct (col i) eqn:Ec|]; cbn [negb andb orb].
  - destruct stop; cbn [fst snd cr_index].
    + split; [reflexivity|]. intros _. exists [], l. rewrite Ea, Ec. split; [reflexivity|]. split; [reflexivity | intros j []].
    + set (r' := mkCRes _ i). destruct (seq_true act col l true r' eq_refl false) as [A B]. split; [exact A|]. intros _. rewrite B. cbn [r' cr_index]. exists [], l. rewrite Ea, Ec. split; [reflexivity|]. split; [reflexivity | intros j []].
  - set (r' := mkCRes _ (cr_index r)). destruct (IH r') as [A B]. split; [exact A|]. intros H. destruct (B H) as (a & b & E1 & E2 & E3). exists (i :: a), b. rewrite E1 at 1. split; [reflexivity|]. split; [exact E2|]. intros j [<-|Hj]; [now rewrite Ea, Ec | apply E3, Hj].
  - destruct (IH r) as [A B]. split; [exact A|]. intros H. destruct (B H) as (a & b & E1 & E2 & E3). exists (i :: a), b. rewrite E1 at 1. split; [reflexivity|]. split; [exact E2|]. intros j [<-|Hj]; [now rewrite Ea | apply E3, Hj].
Qed.

Section Pairs.
Variables (act col : nat -> bool) (stop : bool) (batch : nat).
Notation exec := (cExec act col stop).
Definition hp i := act i && col i = true.
Definition actOf (a : CAct) : nat * nat := match a with CCheck t i | CCompute t i | CRead t i | CSet t i | CIndex t i => (t, i) end.
Inductive cwf (t : nat) : list CAct -> Prop :=
| w0 : cwf t []
| w1 i r : i < batch -> cwf t (CCompute t i :: r) -> cwf t (CCheck t i :: CCompute t i :: r)
| w2 i r : i < batch -> cwf t (CRead t i :: r) -> cwf t (CCompute t i :: CRead t i :: r)
| w3 i r : i < batch -> cwf t (CSet t i :: r) -> cwf t (CRead t i :: CSet t i :: r)
| w4 i r : i < batch -> cwf t (CIndex t i :: r) -> cwf t (CSet t i :: CIndex t i :: r)
| w5 i r : i < batch -> cwf t r -> (forall j q, r <> CCompute t j :: q) -> (forall j q, r <> CRead t j :: q) -> (forall j q, r <> CSet t j :: q) -> (forall j q, r <> CIndex t j :: q) -> cwf t (CIndex t i :: r).
Definition asrt (t : nat) (p : list CAct) (s : CMem) : Prop :=
  match p with
  | CCompute _ i :: _ => cm_skip s t = true -> stop = true /\ cm_hit s = true
  | CRead _ i :: _ => (cm_skip s t = true -> cm_hit s = true) /\ (cm_skip s t = false -> act i = true -> cm_res s t = col i)
  | CSet _ i :: _ => (cm_skip s t = true -> cm_hit s = true) /\ (cm_skip s t = false -> act i = true -> cm_res s t = col i) /\ (cm_skip s t = false -> act i = true -> cm_seen s t = true -> cm_hit s = true)
  | CIndex _ i :: _ => (cm_skip s t = true -> cm_hit s = true) /\ (cm_skip s t = false -> act i = true -> cm_res s t = col i) /\ (cm_skip s t = false -> act i = true -> cm_seen s t = true -> cm_hit s = true) /\
      (cm_skip s t = false -> act i = true -> cm_seen s t = false -> cm_res s t = true -> cm_hit s = true)
  | _ => True
  end.
Definition pending (s : CMem) t i : Prop := cm_skip s t = false /\ act i = true /\ cm_seen s t = false /\ cm_res s t = true.
Record G (ls : list (list CAct)) (s : CMem) : Prop := {
  g1 : forall t p, nth_error ls t = Some p -> cwf t p /\ asrt t p s;
  g2 : forall i, i < batch -> (exists t p, nth_error ls t = Some p /\ In (CIndex t i) p) \/ (hp i -> cm_hit s = true);
  g3 : cm_hit s = true -> exists i, i < batch /\ hp i;
  g4 : cm_hit s = true -> (cm_index s < batch /\ hp (cm_index s)) \/ exists t i r, nth_error ls t = Some (CIndex t i :: r) /\ pending s t i;
  g5 : stop = false -> forall i, i < batch -> (exists t p, nth_error ls t = Some p /\ In (CCompute t i) p) \/ (act i = true -> cm_found s i = Some (col i)) }.

Lemma exec_other a s u : fst (actOf a) <> u -> cm_skip (exec a s) u = cm_skip s u /\ cm_res (exec a s) u = cm_res s u /\ cm_seen (exec a s) u = cm_seen s u.
Proof.
  intros H. destruct a as [t i|t i|t i|t i|t i]; cbn in H; cbn [cExec]; try (destruct (_ && _)); cbn; unfold setAt; repeat split; destruct (Nat.eqb_spec u t); congruence.
Qed.
Lemma exec_hit a s : cm_hit s = true -> cm_hit (exec a s) = true.
Proof. intros H. destruct a; cbn [cExec]; try (destruct (_ && _)); cbn; auto. Qed.
Lemma exec_found a s i : cm_found s i = Some (col i) -> cm_found (exec a s) i = Some (col i).
Proof. intros H. destruct a as [t j|t j|t j|t j|t j]; cbn [cExec]; try (destruct (_ && _)); cbn; auto. unfold setAt. destruct (Nat.eqb_spec i j); congruence. Qed.
Lemma asrt_other a s u p : fst (actOf a) <> u -> asrt u p s -> asrt u p (exec a s).
Proof.
  intros H A. destruct (exec_other a s u H) as (E1 & E2 & E3). pose proof (exec_hit a s) as M. unfold asrt in *. destruct p as [|[t i|t i|t i|t i|t i] p]; auto; rewrite ?E1, ?E2, ?E3; intuition.
Qed.
Lemma cwf_fst t a p : cwf t (a :: p) -> fst (actOf a) = t /\ snd (actOf a) < batch /\ cwf t p.
Proof. intros H. inversion H; subst; auto. Qed.
Lemma step ls t a p s : G ls s -> nth_error ls t = Some (a :: p) -> G (firstn t ls ++ p :: skipn (S t) ls) (exec a s).
Proof.
  intros I Ht. pose proof (fun u => nth_upd ls t p (a :: p) u Ht) as N. destruct (g1 _ _ I t _ Ht) as [W A]. destruct (cwf_fst _ _ _ W) as (Fa & Ra & Wp).
  assert (Keep : forall u q x, nth_error ls u = Some q -> In x q -> (u = t -> x <> a) -> exists q', nth_error (firstn t ls ++ p :: skipn (S t) ls) u = Some q' /\ In x q').
  { intros u q x Hu Hx Hne. rewrite N. destruct (Nat.eqb_spec u t) as [->|]; [|eauto]. rewrite Ht in Hu. inversion Hu; subst q. destruct Hx as [<-|Hx]; [destruct (Hne eq_refl eq_refl) | eauto]. }
  assert (Own : asrt t p (exec a s)).
  { destruct a as [u i|u i|u i|u i|u i]; cbn in Fa; subst u; inversion W; subst; cbn [asrt] in *; cbn [cExec].
    - cbn. unfold setAt. rewrite Nat.eqb_refl. intros X. apply andb_true_iff in X. exact X.
    - destruct (cm_skip s t) eqn:Es; cbn [negb andb]; [|destruct (act i) eqn:Ea]; cbn; unfold setAt; rewrite ?Nat.eqb_refl, ?Es; split; try congruence; try tauto.
    - destruct A as [A1 A2]. destruct (cm_skip s t) eqn:Es; cbn [negb andb]; [|destruct (act i) eqn:Ea]; cbn; unfold setAt; rewrite ?Nat.eqb_refl, ?Es; repeat split; try congruence; tauto.
    - destruct A as (A1 & A2 & A3). destruct (cm_skip s t) eqn:Es; cbn [negb andb]; [rewrite ?Es; repeat split; try congruence; tauto|]. destruct (act i) eqn:Ea; cbn [andb]; [|rewrite ?Es; repeat split; congruence].
      destruct (cm_seen s t) eqn:Ee; cbn [negb andb]; [rewrite ?Es, ?Ee; repeat split; try congruence; tauto|]. destruct (cm_res s t) eqn:Er; cbn; rewrite ?Es, ?Ee, ?Er; repeat split; try congruence; tauto.
    - destruct p as [|[u j|u j|u j|u j|u j] q]; cbn; auto; pose proof (cwf_fst _ _ _ Wp) as (X & _); cbn in X; subst u; exfalso;
        match goal with H : forall j q, _ <> _ |- _ => eapply H; reflexivity end. }
  split.
  - intros u q Hu. rewrite N in Hu. destruct (Nat.eqb_spec u t) as [->|Hne]; [inversion Hu; subst; auto|]. destruct (g1 _ _ I u q Hu) as [X Y]. split; [exact X|]. apply asrt_other; [congruence | exact Y].
  - intros i Hi. destruct (g2 _ _ I i Hi) as [(u & q & Hu & Hq)|H].
    + destruct (Nat.eq_dec u t) as [->|Hne].
      * rewrite Ht in Hu. inversion Hu; subst q. destruct Hq as [->|Hq]; [|left; exists t, p; rewrite N, Nat.eqb_refl; auto].
        right. intros Hp. cbn [asrt] in A. destruct A as (A1 & A2 & A3 & A4). apply exec_hit. unfold hp in Hp. apply andb_true_iff in Hp. destruct Hp as [P1 P2].
        destruct (cm_skip s t) eqn:Es; [apply A1; reflexivity|]. destruct (cm_seen s t) eqn:Ee; [apply A3; auto|]. apply A4; auto. rewrite A2; auto.
      * left. destruct (Keep u q _ Hu Hq) as (q' & E & E'); [congruence|]. eauto.
    + right. intros Hp. apply exec_hit. auto.
  - intros Hh. destruct (cm_hit s) eqn:Eh; [apply (g3 _ _ I Eh)|]. destruct a as [u i|u i|u i|u i|u i]; cbn in Fa; subst u; cbn [cExec] in Hh; try (destruct (_ && _); cbn in Hh; congruence).
    destruct (negb (cm_skip s t) && act i && negb (cm_seen s t) && cm_res s t) eqn:E; [|congruence]. rewrite !andb_true_iff, !negb_true_iff in E. destruct E as [[[E1 E2] E3] E4]. cbn [asrt] in A. destruct A as (A1 & A2 & A3).
    exists i. split; [exact Ra|]. unfold hp. rewrite E2, <- (A2 E1 E2), E4. reflexivity.
  - intros Hh.
    assert (Old : cm_hit s = true -> (forall i, a = CIndex t i -> ~ pending s t i) -> (cm_index (exec a s) < batch /\ hp (cm_index (exec a s))) \/ exists u i r, nth_error (firstn t ls ++ p :: skipn (S t) ls) u = Some (CIndex u i :: r) /\ pending (exec a s) u i).
    { intros Eh Na. assert (Ei : cm_index (exec a s) = cm_index s).
      { destruct a as [u i|u i|u i|u i|u i]; cbn in Fa; subst u; cbn [cExec]; try reflexivity; try (destruct (_ && _); reflexivity).
        destruct (negb (cm_skip s t) && act i && negb (cm_seen s t) && cm_res s t) eqn:E; [|reflexivity]. rewrite !andb_true_iff, !negb_true_iff in E. destruct (Na i eq_refl). unfold pending. tauto. }
      rewrite Ei. destruct (g4 _ _ I Eh) as [X|(u & i & r & Hu & Hp)]; [now left|]. destruct (Nat.eq_dec u t) as [->|Hne].
      + rewrite Ht in Hu. injection Hu as Ea Er. destruct (Na i Ea Hp).
      + right. exists u, i, r. rewrite N. destruct (Nat.eqb_spec u t); [congruence|]. split; [exact Hu|]. destruct (exec_other a s u ltac:(congruence)) as (E1 & E2 & E3). unfold pending. now rewrite E1, E2, E3. }
    destruct a as [u i|u i|u i|u i|u i]; cbn in Fa; subst u; cbn in Ra.
    + apply Old; [exact Hh | discriminate].
    + apply Old; [|discriminate]. cbn [cExec] in Hh. destruct (_ && _); exact Hh.
    + apply Old; [|discriminate]. cbn [cExec] in Hh. destruct (_ && _); exact Hh.
    + destruct (cm_hit s) eqn:Eh; [apply Old; [reflexivity | discriminate]|]. right. inversion W; subst. exists t, i. eexists. rewrite N, Nat.eqb_refl. split; [reflexivity|].
      cbn [cExec] in *. destruct (negb (cm_skip s t) && act i && negb (cm_seen s t) && cm_res s t) eqn:E; [|congruence]. rewrite !andb_true_iff, !negb_true_iff in E. unfold pending. cbn. tauto.
    + destruct (negb (cm_skip s t) && act i && negb (cm_seen s t) && cm_res s t) eqn:E.
      * left. cbn [cExec]. rewrite E. cbn. split; [exact Ra|]. rewrite !andb_true_iff, !negb_true_iff in E. destruct E as [[[E1 E2] E3] E4]. cbn [asrt] in A. destruct A as (A1 & A2 & _). unfold hp. rewrite E2, <- (A2 E1 E2), E4. reflexivity.
      * apply Old.
        -- cbn [cExec] in Hh. rewrite E in Hh. exact Hh.
        -- intros j Ej (P1 & P2 & P3 & P4). inversion Ej; subst j. rewrite P1, P2, P3, P4 in E. discriminate.
  - intros Hs i Hi. destruct (g5 _ _ I Hs i Hi) as [(u & q & Hu & Hq)|H].
    + destruct (Nat.eq_dec u t) as [->|Hne].
      * rewrite Ht in Hu. inversion Hu; subst q. destruct Hq as [->|Hq]; [|left; exists t, p; rewrite N, Nat.eqb_refl; auto].
        right. intros Ha. cbn [asrt] in A. cbn [cExec]. destruct (cm_skip s t) eqn:Es; [destruct (A eq_refl); congruence|]. rewrite Ha. cbn. unfold setAt. now rewrite Nat.eqb_refl.
      * left. destruct (Keep u q _ Hu Hq) as (q' & E & E'); [congruence|]. eauto.
    + right. intros Ha. apply exec_found. auto.
Qed.
Lemma merge_G ls l : Merge ls l -> forall s, G ls s -> exists ls', (forall p, In p ls' -> p = []) /\ G ls' (runActs exec l s).
Proof.
  induction 1 as [ls H|ls rs t a p rest Ht Er Hm IH]; intros s I; [exists ls; auto|]. subst rs. apply (IH (exec a s)). apply step; assumption.
Qed.
Lemma cwf_body t l : (forall i, In i l -> i < batch) -> cwf t (flat_map (cBody t) l) /\ forall s, asrt t (flat_map (cBody t) l) s.
Proof.
  intros H. induction l as [|i l IH]; [split; [constructor | cbn; auto]|]. destruct (IH (fun j Hj => H j (or_intror Hj))) as [W _]. assert (Hi : i < batch) by (apply H; now left).
  split; [|cbn; auto]. cbn [flat_map cBody app]. repeat (constructor; [exact Hi|]). constructor; [exact Hi | exact W | | | |]; intros j q; destruct l; cbn; discriminate.
Qed.
Lemma cThreads_nth sched t p : nth_error (cThreads sched) t = Some p -> t < length sched /\ p = flat_map (cBody t) (nth t sched []).
Proof.
  unfold cThreads. intros H. assert (Ht : t < length sched). { assert (t < length (map (fun t => flat_map (cBody t) (nth t sched [])) (seq 0 (length sched)))) by (apply nth_error_Some; congruence). rewrite map_length, seq_length in H0. exact H0. }
  split; [exact Ht|]. rewrite (map_nth_error (fun t => flat_map (cBody t) (nth t sched [])) t (seq 0 (length sched)) (d := t)) in H by (rewrite (nth_error_nth' _ 0) by (rewrite seq_length; exact Ht); now rewrite seq_nth). now inversion H.
Qed.
Lemma cThreads_get sched t : t < length sched -> nth_error (cThreads sched) t = Some (flat_map (cBody t) (nth t sched [])).
Proof.
  intros Ht. unfold cThreads. apply (map_nth_error (fun t => flat_map (cBody t) (nth t sched [])) t (seq 0 (length sched)) (d := t)). rewrite (nth_error_nth' _ 0) by (rewrite seq_length; exact Ht). now rewrite seq_nth.
Qed.
Lemma collisions_merge n sched l s : distributes n batch sched -> Merge (cThreads sched) l -> cm_hit s = false -> let s' := runActs exec l s in
  cm_hit s' = existsb (fun i => act i && col i) (seq 0 batch) /\ (cm_hit s' = true -> cm_index s' < batch /\ act (cm_index s') && col (cm_index s') = true) /\
  (stop = false -> forall i, i < batch -> act i = true -> cm_found s' i = Some (col i)).
Proof.
  intros HD HM H0. cbv zeta. pose proof HD as [HL HP].
  assert (I : G (cThreads sched) s).
  { split.
    - intros t p Hp. apply cThreads_nth in Hp. destruct Hp as [Ht ->]. destruct (cwf_body t (nth t sched [])) as [W A]; [intros i Hi; apply (dist_range n batch sched t i HD Hi) | auto].
    - intros i Hi. left. destruct (dist_thread n batch sched i HD Hi) as (t & Ht & Hin). exists t, (flat_map (cBody t) (nth t sched [])). split; [apply cThreads_get; lia|]. apply in_flat_map. exists i. split; [exact Hin|]. cbn. auto 6.
    - congruence.
    - congruence.
    - intros _ i Hi. left. destruct (dist_thread n batch sched i HD Hi) as (t & Ht & Hin). exists t, (flat_map (cBody t) (nth t sched [])). split; [apply cThreads_get; lia|]. apply in_flat_map. exists i. split; [exact Hin|]. cbn. auto. }
  destruct (merge_G _ _ HM s I) as (ls' & Hn & F). split; [|split].
  - apply eq_true_iff_eq. rewrite existsb_exists. split.
    + intros Hh. destruct (g3 _ _ F Hh) as (i & Hi & Hp). exists i. split; [apply in_seq; lia | exact Hp].
    + intros (i & Hi & Hp). apply in_seq in Hi. destruct (g2 _ _ F i ltac:(lia)) as [(t & p & Ht & Hin)|X]; [|apply X, Hp]. rewrite (Hn p (nth_error_In _ _ Ht)) in Hin. destruct Hin.
  - intros Hh. destruct (g4 _ _ F Hh) as [X|(t & i & r & Ht & _)]; [exact X|]. pose proof (Hn _ (nth_error_In _ _ Ht)). discriminate.
  - intros Hs i Hi Ha. destruct (g5 _ _ F Hs i Hi) as [(t & p & Ht & Hin)|X]; [|apply X, Ha]. rewrite (Hn p (nth_error_In _ _ Ht)) in Hin. destruct Hin.
Qed.
End Pairs.
Section Stop.
  Variable col : nat -> bool.
  Local Notation exec := (cExec (fun _ => true) col true).
  Definition J (s : CMem) : Prop := (forall i b, cm_found s i = Some b -> b = col i) /\ (forall t, cm_res s t = true -> exists i, cm_found s i = Some true) /\ (cm_hit s = true -> exists i, cm_found s i = Some true).
  Lemma J_step a s : J s -> J (exec a s).
  Proof.
    intros (A & B & C). destruct a as [t i|t i|t i|t i|t i]; cbn [cExec].
    - split; [|split]; cbn; auto.
    - destruct (_ && _); [|split; auto]. assert (K : (exists j, cm_found s j = Some true) -> exists j, setAt (cm_found s) i (Some (col i)) j = Some true).
      { intros [j Hj]. exists j. unfold setAt. destruct (Nat.eqb_spec j i) as [->|]; [|exact Hj]. now rewrite <- (A _ _ Hj). }
      split; [|split]; cbn.
      + intros j b. unfold setAt. destruct (Nat.eqb_spec j i) as [->|]; [congruence | apply A].
      + intros u. unfold setAt at 1. destruct (Nat.eqb_spec u t); [|intros H; apply K, (B _ H)]. intros H. exists i. unfold setAt. now rewrite Nat.eqb_refl, H.
      + intros H. apply K, C, H.
    - destruct (_ && _); split; auto.
    - destruct (negb (cm_skip s t) && true && negb (cm_seen s t) && cm_res s t) eqn:E; [|split; auto]. rewrite !andb_true_iff in E. destruct E as [_ E]. split; [|split]; cbn; auto. intros _. apply (B _ E).
    - destruct (_ && _); split; auto.
  Qed.
  Lemma J_run l : forall s, J s -> J (runActs exec l s).
  Proof. induction l as [|a l IH]; intros s H; [exact H|]. apply (IH (exec a s)), J_step, H. Qed.
  Lemma merge_in {A} ls (l : list A) a : Merge ls l -> In a l -> exists p, In p ls /\ In a p.
  Proof.
    induction 1 as [ls H|ls rs t b p rest Ht Er Hm IH]; [intros []|]. intros [<-|Hi]; [exists (b :: p); split; [exact (nth_error_In _ _ Ht) | now left]|].
    destruct (IH Hi) as (q & Hq & Ha). subst rs. apply in_app_iff in Hq. destruct Hq as [Hq|[<-|Hq]].
    - exists q. split; [|exact Ha]. rewrite <- (firstn_skipn t ls). apply in_app_iff. now left.
    - exists (b :: p). split; [exact (nth_error_In _ _ Ht) | now right].
    - exists q. split; [|exact Ha]. rewrite <- (firstn_skipn (S t) ls). apply in_app_iff. now right.
  Qed.
  Lemma found_in l i : forall s, cm_found (runActs exec l s) i <> None -> cm_found s i <> None \/ exists t, In (CCompute t i) l.
  Proof.
    induction l as [|a l IH]; intros s H; [now left|]. destruct (IH (exec a s) H) as [X|(t & Ht)]; [|right; exists t; now right].
    destruct a as [t j|t j|t j|t j|t j]; cbn [cExec] in X; try (destruct (_ && _); cbn in X; now left). destruct (_ && _); [|now left]. cbn in X. unfold setAt in X. destruct (Nat.eqb_spec i j) as [->|]; [right; exists t; now left | now left].
  Qed.
  Lemma batchStop_merge batch n sched l s : distributes n batch sched -> Merge (cThreads sched) l -> cm_hit s = false -> (forall i, cm_found s i = None) -> (forall t, cm_res s t = false) ->
    (forall i, batchStop col l s i = true -> col i = true) /\ ((exists i, i < batch /\ batchStop col l s i = true) <-> exists i, i < batch /\ col i = true).
  Proof.
    intros HD HM H0 HF HR. destruct (collisions_merge (fun _ => true) col true batch n sched l s HD HM H0) as (E1 & E2 & _).
    assert (Js : J (runActs exec l s)) by (apply J_run; split; [|split]; intros; rewrite ?HF, ?HR in *; congruence).
    destruct Js as (A & B & C). assert (T : forall i, batchStop col l s i = true -> col i = true).
    { intros i. unfold batchStop. destruct (cm_found _ i) as [b|] eqn:E; [|discriminate]. intros ->. symmetry. apply (A _ _ E). }
    split; [exact T|]. split.
    - intros (i & Hi & Hb). exists i. split; [exact Hi | apply T, Hb].
    - intros (i & Hi & Hc). assert (Hh : cm_hit (runActs exec l s) = true) by (rewrite E1; apply existsb_exists; exists i; split; [apply in_seq; lia | exact Hc]). destruct (C Hh) as [j Hj]. exists j. unfold batchStop. rewrite Hj. split; [|reflexivity].
      destruct (found_in l j s ltac:(congruence)) as [X|(t & Ht)]; [rewrite HF in X; congruence|]. destruct (merge_in _ _ _ HM Ht) as (p & Hp & Hin). apply In_nth_error in Hp. destruct Hp as [u Hu]. apply cThreads_nth in Hu. destruct Hu as [_ ->].
      apply in_flat_map in Hin. destruct Hin as (k & Hk & Hc'). cbn in Hc'. assert (k = j) by (destruct Hc' as [X|[X|[X|[X|[X|[]]]]]]; congruence). subst k. apply (dist_range n batch sched u j HD Hk).
  Qed.
End Stop.
