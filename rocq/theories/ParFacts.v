(* Threads that own disjoint parts of the memory: every interleaving gives what each thread computes alone. *)
Require Import Reals List Arith Bool Lia Permutation.
From Verif Require Import Data Parallel Spec_Par.
Import ListNotations.
Local Open Scope nat_scope.

Lemma nth_upd {A} (ls : list A) t x y u : nth_error ls t = Some y -> nth_error (firstn t ls ++ x :: skipn (S t) ls) u = if u =? t then Some x else nth_error ls u.
Proof.
  revert t u. induction ls as [|z ls IH]; intros t u H; [destruct t; discriminate|]. destruct t.
  - cbn in *. destruct u; reflexivity.
  - cbn [firstn app nth_error skipn] in *. destruct u; [reflexivity|]. cbn [nth_error]. rewrite (IH t u H). reflexivity.
Qed.
Lemma run_app {A S} (exec : A -> S -> S) l l' s : runActs exec (l ++ l') s = runActs exec l' (runActs exec l s).
Proof. unfold runActs. apply fold_left_app. Qed.
Section Own.
Variables A S : Type.
Variable exec : A -> S -> S.
Variable own : nat -> A -> Prop.
Variable agree : nat -> S -> S -> Prop.
Hypothesis agree_refl : forall t s, agree t s s.
Hypothesis agree_trans : forall t s1 s2 s3, agree t s1 s2 -> agree t s2 s3 -> agree t s1 s3.
Hypothesis own_step : forall t a s s', own t a -> agree t s s' -> agree t (exec a s) (exec a s').
Hypothesis other_step : forall t u a s, own u a -> u <> t -> agree t (exec a s) s.
Notation run := (runActs exec).
Lemma run_agree t p s s' : Forall (own t) p -> agree t s s' -> agree t (run p s) (run p s').
Proof. unfold runActs. revert s s'. induction p as [|a p IH]; intros s s' F H; [exact H|]. inversion F; subst. cbn [fold_left]. apply IH; auto. Qed.
Lemma merge_own ls l : Merge ls l -> (forall t p, nth_error ls t = Some p -> Forall (own t) p) -> forall s t p, nth_error ls t = Some p -> agree t (run l s) (run p s).
Proof.
  induction 1 as [ls H|ls rs u a l rest Hu Ers Hm IH]; intros F s t p Hp.
  - rewrite (H p (nth_error_In _ _ Hp)). apply agree_refl.
  - subst rs. pose proof (fun x => nth_upd ls u l (a :: l) x Hu) as N.
    assert (F' : forall t p, nth_error (firstn u ls ++ l :: skipn (Datatypes.S u) ls) t = Some p -> Forall (own t) p).
    { intros t' p' H'. rewrite N in H'. destruct (Nat.eqb_spec t' u) as [->|]; [inversion H'; subst; pose proof (F _ _ Hu) as Q; inversion Q; assumption | eapply F, H']. }
    pose proof (F _ _ Hu) as Q. inversion Q as [|a0 l0 Oa Ol]; subst.
    specialize (IH F' (exec a s)). change (run (a :: rest) s) with (run rest (exec a s)). destruct (Nat.eq_dec t u) as [->|Hne].
    + rewrite Hu in Hp. inversion Hp; subst p. apply IH. now rewrite N, Nat.eqb_refl.
    + eapply agree_trans; [apply (IH t p); rewrite N; destruct (Nat.eqb_spec t u); [congruence|exact Hp]|]. apply run_agree; [apply (F t p Hp)|]. apply (other_step t u a s Oa). congruence.
Qed.
End Own.

Lemma nth_in_concat (sched : list (list nat)) t i : In i (nth t sched []) -> In i (concat sched).
Proof.
  intros H. apply in_concat. exists (nth t sched []). split; [|exact H]. destruct (Nat.lt_ge_cases t (length sched)); [apply nth_In; assumption | rewrite nth_overflow in H by assumption; destruct H].
Qed.
Lemma nodup_app (l l' : list nat) : NoDup (l ++ l') -> NoDup l /\ NoDup l' /\ forall i, In i l -> ~ In i l'.
Proof.
  induction l as [|x l IH]; cbn; intros H; [repeat split; auto; constructor|]. inversion H; subst. destruct (IH H3) as (A & B & C). split; [constructor; [intros X; apply H2, in_or_app; auto | exact A]|]. split; [exact B|].
  intros i [->|Hi]; [intros X; apply H2, in_or_app; auto | apply C, Hi].
Qed.
Lemma nodup_threads (sched : list (list nat)) : NoDup (concat sched) -> (forall t, NoDup (nth t sched [])) /\ (forall t u i, In i (nth t sched []) -> In i (nth u sched []) -> t = u).
Proof.
  induction sched as [|l sched IH]; intros H.
  - split; [intros [|t]; constructor | intros [|t] u i []].
  - cbn [concat] in H. destruct (nodup_app _ _ H) as (H0 & H1 & Dj). destruct (IH H1) as [A B].
    split.
    + intros [|t]; cbn; [exact H0 | apply A].
    + intros [|t] [|u] i Hi Hj; cbn in Hi, Hj; [reflexivity | destruct (Dj i Hi (nth_in_concat _ _ _ Hj)) | destruct (Dj i Hj (nth_in_concat _ _ _ Hi)) | f_equal; apply (B t u i Hi Hj)].
Qed.
Lemma dist_thread n batch sched i : distributes n batch sched -> i < batch -> exists t, t < n /\ In i (nth t sched []).
Proof.
  intros [HL HP] Hi. assert (In i (concat sched)) by (apply (Permutation_in (l := seq 0 batch)); [apply Permutation_sym, HP | apply in_seq; lia]).
  apply in_concat in H. destruct H as (l & Hl & Hi'). destruct (In_nth _ _ [] Hl) as (t & Ht & E). exists t. rewrite E. split; [lia | exact Hi'].
Qed.
Lemma dist_nodup n batch sched : distributes n batch sched -> NoDup (concat sched).
Proof. intros [_ HP]. eapply Permutation_NoDup; [apply Permutation_sym, HP | apply seq_NoDup]. Qed.
Lemma dist_range n batch sched t i : distributes n batch sched -> In i (nth t sched []) -> i < batch.
Proof. intros [_ HP] H. apply nth_in_concat in H. apply (Permutation_in _ HP) in H. apply in_seq in H. lia. Qed.

Section Batch.
Variables (D V : Type) (out : D -> nat -> V) (nk : nat) (steps : nat -> nat -> list (D -> D)) (sched : list (list nat)).
Hypothesis ND : NoDup (concat sched).
Definition bOwn (t : nat) (a : BAct D) : Prop := match a with BStep u _ => u = t | BPut u i _ => u = t /\ In i (nth t sched []) end.
Definition bAgree (t : nat) (s s' : BMem D V) : Prop := bm_data s t = bm_data s' t /\ forall i k, In i (nth t sched []) -> bm_res s i k = bm_res s' i k.
Lemma bBody_own t i : In i (nth t sched []) -> Forall (bOwn t) (bBody nk steps t i).
Proof.
  intros Hi. unfold bBody. apply Forall_app. split; apply Forall_forall; intros a Ha; apply in_map_iff in Ha; destruct Ha as (x & <- & _); cbn; auto.
Qed.
Lemma bThreads_own t p : nth_error (bThreads nk steps sched) t = Some p -> p = flat_map (bBody nk steps t) (nth t sched []) /\ Forall (bOwn t) p.
Proof.
  unfold bThreads. intros H. assert (Ht : t < length sched). { assert (t < length (map (fun t => flat_map (bBody nk steps t) (nth t sched [])) (seq 0 (length sched)))) by (apply nth_error_Some; congruence). rewrite map_length, seq_length in H0. exact H0. }
  rewrite (map_nth_error _ t (seq 0 (length sched)) (d := t)) in H by (rewrite (nth_error_nth' _ 0) by (rewrite seq_length; exact Ht); now rewrite seq_nth).
  inversion H; subst. split; [reflexivity|]. apply Forall_flat_map. apply Forall_forall. intros i Hi. apply bBody_own, Hi.
Qed.
Lemma bThreads_nth t : t < length sched -> nth_error (bThreads nk steps sched) t = Some (flat_map (bBody nk steps t) (nth t sched [])).
Proof.
  intros Ht. unfold bThreads. apply (map_nth_error (fun t => flat_map (bBody nk steps t) (nth t sched [])) t (seq 0 (length sched)) (d := t)). rewrite (nth_error_nth' _ 0) by (rewrite seq_length; exact Ht). now rewrite seq_nth.
Qed.
Lemma run_steps_data t l (s : BMem D V) : bm_data (runActs (bExec out) (map (BStep t) l) s) t = fold_left (fun d g => g d) l (bm_data s t) /\ bm_res (runActs (bExec out) (map (BStep t) l) s) = bm_res s.
Proof.
  revert s. induction l as [|f l IH]; intros s; [auto|]. change (runActs (bExec out) (map (BStep t) (f :: l)) s) with (runActs (bExec out) (map (BStep t) l) (bExec out (BStep t f) s)).
  destruct (IH (bExec out (BStep t f) s)) as [A B]. rewrite A, B. cbn. now rewrite Nat.eqb_refl.
Qed.
Lemma run_puts t i n (s : BMem D V) : let s' := runActs (bExec out) (map (BPut t i) (seq 0 n)) s in
  bm_data s' = bm_data s /\ forall j k, bm_res s' j k = if (j =? i) && (k <? n) then out (bm_data s t) k else bm_res s j k.
Proof.
  induction n as [|n IH]; cbv zeta in *; [split; [reflexivity|]; intros; now rewrite andb_false_r|].
  rewrite seq_S, map_app. unfold runActs in *. rewrite fold_left_app. cbn [map fold_left Nat.add]. destruct IH as [A B]. set (e := fold_left _ _ s) in *. cbn [bExec bm_data bm_res]. split; [exact A|].
  intros j k. rewrite A, B. destruct (Nat.eqb_spec j i) as [->|]; cbn [andb]; [|reflexivity]. destruct (Nat.eqb_spec k n) as [->|]; [destruct (Nat.ltb_spec n (S n)); [reflexivity|lia]|].
  destruct (Nat.ltb_spec k n), (Nat.ltb_spec k (S n)); try lia; reflexivity.
Qed.
Variables (Inv : D -> Prop) (spec : nat -> nat -> V) (batch : nat).
Hypothesis alg : forall t i d, t < length sched -> i < batch -> Inv d -> Inv (fold_left (fun d g => g d) (steps t i) d) /\ forall k, k < nk -> out (fold_left (fun d g => g d) (steps t i) d) k = spec i k.
Lemma run_thread t l (s : BMem D V) : t < length sched -> (forall i, In i l -> i < batch) -> NoDup l -> Inv (bm_data s t) ->
  forall k, k < nk -> (forall i, In i l -> bm_res (runActs (bExec out) (flat_map (bBody nk steps t) l) s) i k = spec i k) /\
    (forall i, ~ In i l -> bm_res (runActs (bExec out) (flat_map (bBody nk steps t) l) s) i k = bm_res s i k).
Proof.
  intros Ht. revert s. induction l as [|x l IH]; intros s Hb Hn Hi k Hk; [split; [intros i [] | reflexivity]|].
  cbn [flat_map]. rewrite run_app.
  set (s1 := runActs (bExec out) (bBody nk steps t x) s).
  assert (E1 : bm_data s1 t = fold_left (fun d g => g d) (steps t x) (bm_data s t) /\ forall j l, bm_res s1 j l = if (j =? x) && (l <? nk) then out (bm_data s1 t) l else bm_res s j l).
  { unfold s1, bBody. rewrite run_app. destruct (run_steps_data t (steps t x) s) as [A B]. set (s2 := runActs (bExec out) (map (BStep t) (steps t x)) s) in *. destruct (run_puts t x nk s2) as [C E]. rewrite C. split; [exact A|]. intros j l0. rewrite E, B. reflexivity. }
  destruct E1 as [E1 E2]. destruct (alg t x (bm_data s t) Ht (Hb x (or_introl eq_refl)) Hi) as [J1 J2]. inversion Hn; subst.
  destruct (IH s1 (fun i Hx => Hb i (or_intror Hx)) H2 ltac:(rewrite E1; exact J1) k Hk) as [K1 K2]. split.
  - intros i [<-|Hx]; [|apply K1, Hx]. rewrite K2 by assumption. rewrite E2, Nat.eqb_refl. destruct (Nat.ltb_spec k nk); [|lia]. cbn [andb]. rewrite E1. apply J2, Hk.
  - intros i Hni. rewrite K2 by (intros C; apply Hni; now right). rewrite E2. destruct (Nat.eqb_spec i x) as [->|]; [destruct Hni; now left | reflexivity].
Qed.
Lemma batch_merge l (s : BMem D V) : Permutation (concat sched) (seq 0 batch) -> Merge (bThreads nk steps sched) l -> (forall t, t < length sched -> Inv (bm_data s t)) ->
  forall i k, i < batch -> k < nk -> bm_res (runActs (bExec out) l s) i k = spec i k.
Proof.
  intros HP HM HI i k Hi Hk. destruct (dist_thread (length sched) batch sched i (conj eq_refl HP) Hi) as (t & Ht & Hin). destruct (nodup_threads sched ND) as [N1 N2].
  pose proof (bThreads_nth t Ht) as Et.
  assert (G : bAgree t (runActs (bExec out) l s) (runActs (bExec out) (flat_map (bBody nk steps t) (nth t sched [])) s)).
  { apply (merge_own _ _ (bExec out) bOwn bAgree) with (ls := bThreads nk steps sched); auto.
    - intros u x. split; auto.
    - intros u s1 s2 s3 [A B] [C E]. split; [congruence|]. intros j k' Hj. rewrite B, E by assumption. reflexivity.
    - intros u a s1 s2 Ho [A B]. destruct a as [v f|v j k']; cbn in Ho.
      + subst v. split; cbn; [rewrite Nat.eqb_refl; congruence | exact B].
      + destruct Ho as [-> Ho]. split; cbn; [exact A|]. intros j' k'' Hj'. rewrite A. destruct (_ && _); [reflexivity | apply B, Hj'].
    - intros u v a s1 Ho Hne. destruct a as [w f|w j k']; cbn in Ho.
      + subst w. split; cbn; [destruct (Nat.eqb_spec u v); [congruence|reflexivity] | reflexivity].
      + destruct Ho as [-> Ho]. split; cbn; [reflexivity|]. intros j' k'' Hj'. destruct (Nat.eqb_spec j' j) as [->|]; [|reflexivity]. exfalso. apply Hne. apply (N2 v u j Ho Hj').
    - intros u p Hp. apply (bThreads_own u p Hp). }
  destruct G as [_ G]. rewrite (G i k Hin). apply (run_thread t (nth t sched []) s Ht); auto.
  intros j Hj. apply (dist_range (length sched) batch sched t j (conj eq_refl HP) Hj).
Qed.
End Batch.
