(* Pools, and the examples of the parallel layer. *)
Require Import String Reals List Arith Bool Lia Lra Permutation.
From Verif Require Import Vec3 Spatial Inertia Joints Model Spec_Model ModelFacts3 Data Kinematics Spec_Kin Sums Rnea Spec_Mass MassFacts CrbaFacts3 CrbaFacts4 Spec_Aba Aba AbaFacts4 Geometry Spec_Geom GeomFacts4 Parallel Spec_Par ParFacts ParFacts2 ParFacts3.
Import ListNotations. Local Open Scope string_scope. Local Open Scope list_scope.
Local Open Scope nat_scope.

Lemma vresize_len {A} (d : A) n l : length (vresize d n l) = n.
Proof. unfold vresize. rewrite app_length, firstn_length, repeat_length. lia. Qed.
Lemma nth_repeat_some {A} (x : A) n k : k < n -> nth_error (repeat x n) k = Some x.
Proof. revert k. induction n as [|n IH]; intros [|k] H; try lia; [reflexivity|]. cbn. apply IH. lia. Qed.
Lemma nth_firstn {A} (l : list A) n k : k < n -> nth_error (firstn n l) k = nth_error l k.
Proof. revert l k. induction n as [|n IH]; intros l k H; [lia|]. destruct l as [|a l]; [reflexivity|]. destruct k as [|k]; [reflexivity|]. cbn. apply IH. lia. Qed.
Lemma vresize_nth {A} (d : A) n l k : k < n -> nth_error (vresize d n l) k = if k <? length l then nth_error l k else Some d.
Proof.
  intros H. unfold vresize. destruct (Nat.ltb_spec k (length l)) as [L|L].
  - rewrite nth_error_app1 by (rewrite firstn_length; lia). apply nth_firstn, H.
  - rewrite nth_error_app2 by (rewrite firstn_length; lia). rewrite firstn_length. apply nth_repeat_some. lia.
Qed.
Lemma fill_len {A} k (x : A) l : k <= length l -> length (fillFrom k x l) = length l.
Proof. intros H. unfold fillFrom. rewrite app_length, firstn_length, repeat_length. lia. Qed.
Lemma fill_nth {A} k (x : A) l j : k <= length l -> j < length l -> nth_error (fillFrom k x l) j = if j <? k then nth_error l j else Some x.
Proof.
  intros H Hj. unfold fillFrom. destruct (Nat.ltb_spec j k) as [L|L].
  - rewrite nth_error_app1 by (rewrite firstn_length; lia). apply nth_firstn, L.
  - rewrite nth_error_app2 by (rewrite firstn_length; lia). rewrite firstn_length. apply nth_repeat_some. lia.
Qed.
Lemma nth0_vresize {A} (d : A) n l a : 0 < n -> nth_error l 0 = Some a -> nth 0 (vresize d n l) d = a.
Proof. intros Hn H. apply nth_error_nth. rewrite vresize_nth by exact Hn. destruct l; [discriminate|]. exact H. Qed.

Lemma new_pool {M D} (mk : M -> D) (m : M) n : length (po_models (newPool mk m n)) = n /\ length (po_datas (newPool mk m n)) = n /\
  forall k, k < n -> nth_error (po_models (newPool mk m n)) k = Some m /\ nth_error (po_datas (newPool mk m n)) k = Some (mk m).
Proof. cbn. rewrite !repeat_length. split; [reflexivity|]. split; [reflexivity|]. intros k Hk. rewrite !nth_repeat_some by exact Hk. auto. Qed.

(* the entries after a resize: the old ones, copies of the first one, or default constructed *)
Lemma resize_pool {M D} dm dd (p : Pool M D) n size m0 d0 : length (po_models p) = size -> length (po_datas p) = size -> nth_error (po_models p) 0 = Some m0 -> nth_error (po_datas p) 0 = Some d0 ->
  let p' := poolResize dm dd p n in length (po_models p') = n /\ length (po_datas p') = n /\
  forall k, k < n -> (nth_error (po_models p') k, nth_error (po_datas p') k) =
    if (size <? n) && (n - size <=? k) then (Some m0, Some d0) else if k <? size then (nth_error (po_models p) k, nth_error (po_datas p) k) else (Some dm, Some dd).
Proof.
  intros L1 L2 H1 H2. cbv zeta. unfold poolResize. cbv zeta. rewrite L2. destruct (Nat.ltb_spec size n) as [H|H]; cbn [po_models po_datas andb].
  - rewrite !fill_len, !vresize_len by (rewrite vresize_len; lia). split; [reflexivity|]. split; [reflexivity|]. intros k Hk. rewrite !fill_nth, !vresize_nth by (rewrite ?vresize_len; lia).
    rewrite (nth0_vresize dm n _ m0), (nth0_vresize dd n _ d0) by (assumption || lia). rewrite L1, L2. destruct (Nat.ltb_spec k (n - size)); destruct (Nat.leb_spec (n - size) k); try lia; [|reflexivity]. destruct (k <? size); reflexivity.
  - rewrite !vresize_len. split; [reflexivity|]. split; [reflexivity|]. intros k Hk. rewrite !vresize_nth by exact Hk. rewrite L1, L2. destruct (Nat.ltb_spec k size); [reflexivity | lia].
Qed.
Lemma resize_good {M D} dm dd (p : Pool M D) n m (P : D -> Prop) : length (po_models p) = length (po_datas p) -> 0 < length (po_models p) -> n <= 2 * length (po_models p) ->
  (forall x, In x (po_models p) -> x = m) -> (forall x, In x (po_datas p) -> P x) ->
  let p' := poolResize dm dd p n in length (po_models p') = n /\ length (po_datas p') = n /\ (forall x, In x (po_models p') -> x = m) /\ (forall x, In x (po_datas p') -> P x).
Proof.
  intros L H0 Hn HM HP. cbv zeta. set (size := length (po_models p)) in *.
  destruct (nth_error (po_models p) 0) as [m0|] eqn:E1; [|apply nth_error_None in E1; lia]. destruct (nth_error (po_datas p) 0) as [d0|] eqn:E2; [|apply nth_error_None in E2; lia].
  destruct (resize_pool dm dd p n size m0 d0 eq_refl (eq_sym L) E1 E2) as (A & B & C). split; [exact A|]. split; [exact B|].
  assert (X : forall k, k < n -> (forall x, nth_error (po_models (poolResize dm dd p n)) k = Some x -> x = m) /\ forall x, nth_error (po_datas (poolResize dm dd p n)) k = Some x -> P x).
  { intros k Hk. specialize (C k Hk). destruct ((size <? n) && (n - size <=? k)) eqn:T; [injection C as C1 C2|].
    - rewrite C1, C2. split; intros x Hx; injection Hx as <-; [apply HM, (nth_error_In _ _ E1) | apply HP, (nth_error_In _ _ E2)].
    - destruct (Nat.ltb_spec k size) as [K|K]; injection C as C1 C2.
      + rewrite C1, C2. split; intros x Hx; [apply HM, (nth_error_In _ _ Hx) | apply HP, (nth_error_In _ _ Hx)].
      + exfalso. destruct (Nat.ltb_spec size n); destruct (Nat.leb_spec (n - size) k); cbn in T; try discriminate; lia. }
  clear C. split; intros x Hx; apply In_nth_error in Hx; destruct Hx as [k Hk].
  - assert (K : k < n) by (rewrite <- A; apply nth_error_Some; congruence). exact (proj1 (X k K) x Hk).
  - assert (K : k < n) by (rewrite <- B; apply nth_error_Some; congruence). exact (proj2 (X k K) x Hk).
Qed.
Lemma resize_bad {M D} dm dd (p : Pool M D) n k : length (po_models p) = length (po_datas p) -> 0 < length (po_models p) -> length (po_models p) <= k -> k < n - length (po_models p) ->
  nth_error (po_models (poolResize dm dd p n)) k = Some dm /\ nth_error (po_datas (poolResize dm dd p n)) k = Some dd.
Proof.
  intros L H0 Hk Hn. destruct (nth_error (po_models p) 0) as [m0|] eqn:E1; [|apply nth_error_None in E1; lia]. destruct (nth_error (po_datas p) 0) as [d0|] eqn:E2; [|apply nth_error_None in E2; lia].
  destruct (resize_pool dm dd p n _ m0 d0 eq_refl (eq_sym L) E1 E2) as (_ & _ & C). specialize (C k ltac:(lia)).
  destruct (Nat.leb_spec (n - length (po_models p)) k); [lia|]. rewrite andb_false_r in C. destruct (Nat.ltb_spec k (length (po_models p))); [lia|]. injection C as C1 C2. auto.
Qed.
Lemma resize_empty {M D} dm dd n : po_models (poolResize dm dd (@mkPool M D [] []) n) = repeat dm n /\ po_datas (poolResize dm dd (@mkPool M D [] []) n) = repeat dd n.
Proof.
  assert (E1 : forall A (x : A), vresize x n [] = repeat x n) by (intros A x; unfold vresize; rewrite firstn_nil, Nat.sub_0_r; reflexivity).
  assert (E2 : forall A (x y : A), fillFrom (n - 0) y (repeat x n) = repeat x n) by (intros A x y; unfold fillFrom; rewrite repeat_length, Nat.sub_0_r, Nat.sub_diag, app_nil_r; apply firstn_all2; now rewrite repeat_length).
  unfold poolResize. cbn [po_models po_datas length]. cbv zeta. rewrite !E1. destruct (0 <? n); cbn [po_models po_datas]; now rewrite ?E2.
Qed.
Lemma geom_bad {M D G H} dm dd dg dh (mkh : G -> H) (p : Pool M D) (gp : Pool G H) n k m0 d0 : length (po_models p) = length (po_datas p) -> nth_error (po_models p) 0 = Some m0 -> nth_error (po_datas p) 0 = Some d0 ->
  length (po_models gp) = length (po_datas p) -> length (po_datas gp) = length (po_datas p) -> length (po_datas p) <= k -> k < n ->
  let gp' := snd (geomPoolResize dm dd dg dh mkh p gp n) in nth_error (po_models gp') k = Some dg /\ nth_error (po_datas gp') k = Some dh.
Proof.
  intros L E1 E2 L1 L2 Hk Hn. cbv zeta. unfold geomPoolResize. cbv zeta. destruct (resize_pool dm dd p n _ m0 d0 eq_refl (eq_sym L) E1 E2) as (_ & B & _). rewrite B. destruct (Nat.ltb_spec n n); [lia|]. cbn [snd po_models po_datas].
  rewrite !vresize_nth by exact Hn. rewrite L1, L2. destruct (Nat.ltb_spec k (length (po_datas p))); [lia | auto].
Qed.
Lemma geom_good {M D G H} dm dd dg dh (mkh : G -> H) (p : Pool M D) (gp : Pool G H) n k m0 d0 : length (po_models p) = length (po_datas p) -> nth_error (po_models p) 0 = Some m0 -> nth_error (po_datas p) 0 = Some d0 ->
  length (po_models gp) = length (po_datas p) -> length (po_datas gp) = length (po_datas p) -> k < length (po_datas p) -> k < n ->
  let gp' := snd (geomPoolResize dm dd dg dh mkh p gp n) in length (po_models gp') = n /\ length (po_datas gp') = n /\ nth_error (po_models gp') k = nth_error (po_models gp) k /\ nth_error (po_datas gp') k = nth_error (po_datas gp) k.
Proof.
  intros L E1 E2 L1 L2 Hk Hn. cbv zeta. unfold geomPoolResize. cbv zeta. destruct (resize_pool dm dd p n _ m0 d0 eq_refl (eq_sym L) E1 E2) as (_ & B & _). rewrite B. destruct (Nat.ltb_spec n n); [lia|]. cbn [snd po_models po_datas].
  rewrite !vresize_len, !vresize_nth by exact Hn. rewrite L1, L2. destruct (Nat.ltb_spec k (length (po_datas p))); [auto | lia].
Qed.

(* ---- examples ---- *)
Definition exSched : list (list nat) := [[2; 0]; [1]].
Lemma exSched_ok : distributes 2 3 exSched.
Proof. split; [reflexivity|]. cbn. apply perm_trans with [0; 2; 1]; [apply perm_swap | apply perm_skip, perm_swap]. Qed.
Lemma ex_run {A} (th : list (list nat) -> list (list A)) : exists l, Merge (th exSched) l.
Proof. apply merge_exists. Qed.
Lemma one_step {D} (f : D -> D) : splits [f] f.
Proof. intros d. reflexivity. Qed.
(* two threads, two colliding pairs: the second thread stores its index last, or first *)
Definition cm0 : CMem := mkCMem false 0 (fun _ => None) (fun _ => false) (fun _ => false) (fun _ => false).
Definition exRun (a b c d : list CAct) : list CAct := a ++ b ++ c ++ d.
Lemma index_depends : exists l, Merge (cThreads [[0]; [1]]) l /\ distributes 2 2 [[0]; [1]] /\
  let s := runActs (cExec (fun _ => true) (fun _ => true) false) l cm0 in cm_hit s = true /\ cm_index s = 1 /\
  cr_index (snd (computeCollisions (fun _ => true) (fun _ => true) false (seq 0 2) false (mkCRes (fun _ => None) 0))) = 0.
Proof.
  exists (cBody 1 1 ++ cBody 0 0). split; [|split; [split; [reflexivity | apply Permutation_refl] | repeat split]].
  unfold cThreads. cbn [length seq map nth flat_map cBody app].
  do 5 (eapply (merge_step _ _ 1); [reflexivity | reflexivity | cbn [firstn skipn app]]). do 5 (eapply (merge_step _ _ 0); [reflexivity | reflexivity | cbn [firstn skipn app]]).
  constructor. intros l [<-|[<-|[]]]; reflexivity.
Qed.
Lemma rneaArgs_spec nq nv pool n q v a res : rneaParArgs nq nv pool n q v a res = true <->
  0 < pool /\ n <= pool /\ fst q = nq /\ fst v = nv /\ fst a = nv /\ fst res = nv /\ snd v = snd q /\ snd a = snd q /\ snd res = snd q.
Proof. unfold rneaParArgs. rewrite !andb_true_iff, !Nat.eqb_eq, Nat.leb_le, Nat.ltb_lt. intuition congruence. Qed.
Lemma collisions_ex (eps : R) : Built eps (exTree eps) /\ GBuilt exG2 /\ (forall o, In o (g_objs exG2) -> go_parentJoint o < m_njoints (exTree eps)) /\ distributes 2 3 exSched /\
  collides (fun _ _ _ _ => true) exG2 [false; true] (worldObj (exTree eps) (fun _ => 0%R)) /\ ~ collides (fun _ _ _ _ => true) exG2 [false; false] (worldObj (exTree eps) (fun _ => 0%R)).
Proof.
  split; [apply exTree_built|]. split; [apply exG2_met|]. split.
  { intros o [<-|[<-|[<-|[]]]]; apply Nat.ltb_lt; reflexivity. }
  split; [exact exSched_ok|]. split.
  - exists 1, (0, 2), (exObj "a" 1), (exObj "c" 3). repeat split.
  - intros (k & p & a & b & _ & _ & _ & H & _). destruct k as [|[|k]]; cbn in H; try discriminate. destruct k; discriminate.
Qed.
Lemma pairs_par act col stop pairs n sched l s r : distributes n pairs sched -> Merge (cThreads sched) l -> cm_hit s = false -> let s' := runActs (cExec act col stop) l s in
  cm_hit s' = fst (computeCollisions act col stop (seq 0 pairs) false r) /\
  (cm_hit s' = true -> cm_index s' < pairs /\ act (cm_index s') = true /\ col (cm_index s') = true) /\
  (stop = false -> forall i, i < pairs -> act i = true -> cm_found s' i = Some (col i)).
Proof.
  intros HD HM H0. cbv zeta. destruct (collisions_merge act col stop pairs n sched l s HD HM H0) as (A & B & C). destruct (seq_spec act col stop (seq 0 pairs) r) as [E _].
  split; [congruence|]. split; [|exact C]. intros H. destruct (B H) as [X Y]. apply andb_true_iff in Y. tauto.
Qed.
Lemma results_loop act col l : forall hit r i, NoDup l -> cr_found (snd (computeCollisions act col false l hit r)) i = if (existsb (Nat.eqb i) l) && act i then Some (col i) else cr_found r i.
Proof.
  induction l as [|j l IH]; intros hit r i ND; [reflexivity|]. inversion ND as [|? ? Hj ND']; subst. cbn [computeCollisions existsb].
  assert (Ex : i = j -> existsb (Nat.eqb i) l = false). { intros ->. destruct (existsb (Nat.eqb j) l) eqn:E; [|reflexivity]. apply existsb_exists in E. destruct E as (x & Hx & Ex). apply Nat.eqb_eq in Ex. subst x. contradiction. }
  destruct (act j) eqn:Ea; [destruct (negb hit && col j)|]; rewrite IH by exact ND'; cbn [cr_found]; destruct (Nat.eqb_spec i j) as [->|]; cbn [orb]; rewrite ?Ex, ?Ea by reflexivity; cbn [andb]; reflexivity.
Qed.
Lemma seq_results act col n r i : let x := computeCollisions act col false (seq 0 n) false r in cr_found (snd x) i = if (i <? n) && act i then Some (col i) else cr_found r i.
Proof.
  cbv zeta. rewrite results_loop by apply seq_NoDup. replace (existsb (Nat.eqb i) (seq 0 n)) with (i <? n); [reflexivity|]. apply eq_true_iff_eq. rewrite Nat.ltb_lt, existsb_exists. split.
  - intros H. exists i. split; [apply in_seq; lia | apply Nat.eqb_refl].
  - intros (x & Hx & E). apply Nat.eqb_eq in E. subst x. apply in_seq in Hx. lia.
Qed.
Lemma pool_copies {M D} (mk : M -> D) m n x : In x (po_models (newPool mk m n)) -> x = m.
Proof. intros H. exact (repeat_spec _ _ _ H). Qed.
