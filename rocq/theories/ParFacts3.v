(* Instances: inverse and forward dynamics, collision checks, pools. *)
Require Import Reals List Arith Bool Lia Lra Permutation.
From Verif Require Import Vec3 Spatial Inertia Joints Model Spec_Model ModelFacts ModelTree ModelFacts2 ModelFacts3 Data Kinematics Spec_Kin KinFacts3 Sums Spec_Dyn Rnea DynFacts2 Spec_Mass MassFacts Crba CrbaFacts3 CrbaFacts4 Spec_Aba Aba AbaFacts4 Prop_Aba Geometry Spec_Geom GeomFacts GeomFacts3 GeomFacts4 Parallel Spec_Par ParFacts ParFacts2.
Import ListNotations.
Local Open Scope nat_scope.

Lemma rnea_data eps m d d' q v a k : Built eps m -> validModel m -> validState m q -> k < m_nv m -> rnea m d q v a k = rnea m d' q v a k.
Proof. intros B V Q K. rewrite (rnea_affine m (Built_wf _ _ B) (Built_tree _ _ B) V d d q v a k Q K), (rnea_affine m (Built_wf _ _ B) (Built_tree _ _ B) V d' d q v a k Q K). reflexivity. Qed.
Lemma aba_data eps m inv d d' q v tau k : Built eps m -> validModel m -> noMimic m -> invertsPD inv -> validState m q -> positiveM (m_nv m) (massMatrix m q) -> k < m_nv m ->
  abaWorld inv m d q v tau k = abaWorld inv m d' q v tau k.
Proof.
  intros B V NM HI Q PM K. set (x := abaWorld inv m d q v tau). set (y := abaWorld inv m d' q v tau).
  assert (E : forall j, j < m_nv m -> dotv (m_nv m) (massMatrix m q j) (fun l => x l - y l)%R = 0%R).
  { intros j Hj. pose proof (C35_world eps m inv d d q v tau j B V NM HI Q PM Hj) as X. pose proof (C35_world eps m inv d' d q v tau j B V NM HI Q PM Hj) as Y. fold x in X. fold y in Y.
    rewrite (rnea_affine m (Built_wf _ _ B) (Built_tree _ _ B) V d d q v x j Q Hj) in X. rewrite (rnea_affine m (Built_wf _ _ B) (Built_tree _ _ B) V d d q v y j Q Hj) in Y. unfold dotv in *. rewrite (sumN_ext (m_nv m) _ (fun l => massMatrix m q j l * x l - (massMatrix m q j l * y l))%R) by (intros; ring). rewrite sumN_sub. lra. }
  destruct (Req_dec (x k) (y k)) as [|N]; [assumption|]. exfalso. assert (P := PM (fun l => x l - y l)%R). assert (H : (0 < sumN (m_nv m) (fun k => (x k - y k) * sumN (m_nv m) (fun l => massMatrix m q k l * (x l - y l))))%R) by (apply P; exists k; split; [exact K | lra]).
  rewrite sumN_zero in H; [lra|]. intros j Hj. specialize (E j Hj). unfold dotv in E. rewrite E. ring.
Qed.
Lemma nth_In {A} t (l : list A) d (P : A -> Prop) : t < length l -> (forall x, In x l -> P x) -> P (nth t l d).
Proof. intros H HP. apply HP, nth_In, H. Qed.
Section Par.
  Variable eps : R. Variable m : Model. Hypothesis B : Built eps m. Hypothesis V : validModel m.
  Variable p : Pool Model Data. Variables n batch : nat. Variable sched : list (list nat).
  Hypothesis HM : forall x, In x (po_models p) -> x = m. Hypothesis HL : n <= length (po_models p). Hypothesis HD : distributes n batch sched.
  Lemma rnea_batch q v a steps l s d i k : (forall i, i < batch -> validState m (q i)) ->
    (forall t i, splits (steps t i) (fun d => rneaData (nth t (po_models p) emptyModel) d (q i) (v i) (a i))) -> Merge (bThreads (m_nv m) steps sched) l ->
    i < batch -> k < m_nv m -> bm_res (runActs (bExec (fun d => ve (gl d) F_tau)) l s) i k = rnea m d (q i) (v i) (a i) k.
  Proof.
    intros Q S M Hi Hk. destruct HD as [HN HP].
    apply (batch_merge Data R (fun d => ve (gl d) F_tau) (m_nv m) steps sched) with (Inv := fun _ => True) (spec := fun i k => rnea m d (q i) (v i) (a i) k) (batch := batch); auto.
    - exact (dist_nodup _ _ _ HD).
    - intros t j e Ht Hj _. split; [exact I|]. intros c Hc. rewrite S. rewrite (nth_In t (po_models p) emptyModel (fun x => x = m)); [| lia | exact HM]. exact (rnea_data eps m e d _ _ _ c B V (Q j Hj) Hc).
  Qed.
  Lemma aba_batch inv q v tau steps l s d i k : noMimic m -> invertsPD inv -> (forall i, i < batch -> validState m (q i) /\ positiveM (m_nv m) (massMatrix m (q i))) ->
    (forall t i, splits (steps t i) (fun d => abaWorldData inv (nth t (po_models p) emptyModel) d (q i) (v i) (tau i))) -> Merge (bThreads (m_nv m) steps sched) l ->
    i < batch -> k < m_nv m -> bm_res (runActs (bExec (fun d => ve (gl d) F_ddq)) l s) i k = abaWorld inv m d (q i) (v i) (tau i) k.
  Proof.
    intros NM HI Q S M Hi Hk. destruct HD as [HN HP].
    apply (batch_merge Data R (fun d => ve (gl d) F_ddq) (m_nv m) steps sched) with (Inv := fun _ => True) (spec := fun i k => abaWorld inv m d (q i) (v i) (tau i) k) (batch := batch); auto.
    - exact (dist_nodup _ _ _ HD).
    - intros t j e Ht Hj _. split; [exact I|]. intros c Hc. rewrite S. rewrite (nth_In t (po_models p) emptyModel (fun x => x = m)); [| lia | exact HM]. destruct (Q j Hj) as [Q1 Q2]. exact (aba_data eps m inv e d _ _ _ c B V NM HI Q1 Q2 Hc).
  Qed.
End Par.
Lemma at_spec fcl eps m g stop q x : Built eps m -> GBuilt g -> (forall o, In o (g_objs g) -> go_parentJoint o < m_njoints m) ->
  gd_active (snd (fst (collisionsAt fcl m g stop q x))) = gd_active (snd x) /\
  (snd (collisionsAt fcl m g stop q x) = true <-> collides fcl g (gd_active (snd x)) (worldObj m q)).
Proof.
  intros B G HO. unfold collisionsAt. cbv zeta. cbn [fst snd]. set (gd := updateGeometryPlacements _ g (snd x)).
  destruct (placements_loop (forwardKinematics0 m (fst x) q) g (snd x) (gi_objs _ (built_inv g G))) as [EA _]. fold gd in EA. split; [exact EA|].
  assert (EP : forall k o, nth_error (g_objs g) k = Some o -> gd_oMg gd k = worldObj m q o) by (intros k o Hk; apply (placements_fk eps m (fst x) q g (snd x) k o B G Hk), HO, (nth_error_In _ _ Hk)).
  clearbody gd. destruct (seq_spec (pairActive g gd) (pairHit fcl g gd) stop (seq 0 (length (g_pairs g))) (mkCRes (fun _ => None) 0)) as [E _]. rewrite E, existsb_exists. unfold collides. rewrite <- EA. split.
  - intros (k & _ & Hk). unfold pairActive, pairHit in Hk. destruct (nth_error (g_pairs g) k) as [p|] eqn:Ep; [|discriminate]. destruct (nth_error (g_objs g) (fst p)) as [a|] eqn:E1; [|discriminate]. destruct (nth_error (g_objs g) (snd p)) as [b|] eqn:E2; [|discriminate].
    destruct (nth_error (gd_active gd) k) as [c|] eqn:E3; [|discriminate]. rewrite !andb_true_iff, negb_true_iff, orb_false_iff in Hk. destruct Hk as [[-> [D1 D2]] F]. rewrite (EP _ _ E1), (EP _ _ E2) in F. exists k, p, a, b. tauto.
  - intros (k & p & a & b & Ep & E1 & E2 & E3 & D1 & D2 & F). exists k. split; [apply in_seq; split; [lia|]; apply nth_error_Some; congruence|].
    unfold pairActive, pairHit. rewrite Ep, E1, E2, E3, D1, D2, (EP _ _ E1), (EP _ _ E2), F. reflexivity.
Qed.
(* one sequential configuration: the answer, and the pair reported *)
Lemma seq_collisions act col stop n r : let x := computeCollisions act col stop (seq 0 n) false r in
  (fst x = true <-> exists i, i < n /\ act i = true /\ col i = true) /\
  (fst x = true -> let i := cr_index (snd x) in i < n /\ act i = true /\ col i = true /\ forall j, j < i -> act j = true -> col j = false).
Proof.
  cbv zeta. destruct (seq_spec act col stop (seq 0 n) r) as [E1 E2]. split.
  - rewrite E1, existsb_exists. split; intros (i & X & Y); exists i; rewrite in_seq, andb_true_iff in *; intuition; lia.
  - intros H. destruct (E2 H) as (a & b & S & X & Z). apply andb_true_iff in X. set (i := cr_index _) in *.
    assert (La : length a < n) by (apply (f_equal (@length nat)) in S; rewrite seq_length, app_length in S; cbn in S; lia).
    assert (Ei : i = length a). { pose proof (f_equal (fun l => nth (length a) l 0) S) as S'. cbv beta in S'. rewrite seq_nth, app_nth2, Nat.sub_diag in S' by lia. cbn in S'. congruence. }
    split; [lia|]. split; [tauto|]. split; [tauto|]. intros j Hj Ha. assert (In j a). { assert (nth j a 0 = j). { pose proof (f_equal (fun l => nth j l 0) S) as S'. cbv beta in S'. rewrite seq_nth, app_nth1 in S' by lia. cbn in S'. congruence. } rewrite <- H0. apply List.nth_In. lia. }
    specialize (Z j H0). rewrite Ha in Z. exact Z.
Qed.
Lemma collision_batch fcl eps m g stop n batch sched q (models : list Model) (geoms : list GModel) steps l s flags i : Built eps m -> GBuilt g -> (forall o, In o (g_objs g) -> go_parentJoint o < m_njoints m) ->
  (forall x, In x models -> x = m) -> (forall x, In x geoms -> x = g) -> n <= length models -> n <= length geoms -> distributes n batch sched ->
  (forall t i, splits (steps t i) (fun x => collisionsAt fcl (nth t models emptyModel) (nth t geoms gEmpty) stop (q i) (fst x))) ->
  Merge (bThreads 1 steps sched) l -> (forall t, t < n -> gd_active (snd (fst (bm_data s t))) = flags) -> i < batch ->
  bm_res (runActs (bExec (fun x _ => snd x)) l s) i 0 = true <-> collides fcl g flags (worldObj m (q i)).
Proof.
  intros B G HO HM HG Hn Hg HD S M HF Hi. pose proof HD as [HN HP]. 
  assert (E : forall i k, i < batch -> k < 1 -> bm_res (runActs (bExec (fun x _ => snd x)) l s) i k = snd (collisionsAt fcl m g stop (q i) (fst (bm_data s 0)))); [|rewrite E by lia].
  - apply (batch_merge ((Data * GData) * bool) bool (fun x _ => snd x) 1 steps sched) with (Inv := fun x => gd_active (snd (fst x)) = flags) (spec := fun i _ => snd (collisionsAt fcl m g stop (q i) (fst (bm_data s 0)))) (batch := batch); auto.
    + exact (dist_nodup _ _ _ HD).
    + intros t j e Ht Hj He. pose proof (S t j e) as SE. cbv beta in SE |- *. rewrite (nth_In t models emptyModel (fun x => x = m)) in SE; [| lia | exact HM]. rewrite (nth_In t geoms gEmpty (fun x => x = g)) in SE; [| lia | exact HG]. set (r := fold_left _ _ e) in *. clearbody r. subst r.
      destruct (at_spec fcl eps m g stop (q j) (fst e) B G HO) as [X Y]. split; [now rewrite X|]. intros k Hk. destruct (at_spec fcl eps m g stop (q j) (fst (bm_data s 0)) B G HO) as [_ Z].
      cbv beta. apply eq_true_iff_eq. rewrite Y, Z. rewrite He, HF by lia. reflexivity.
    + intros t Ht. apply HF. lia.
  - destruct (at_spec fcl eps m g stop (q i) (fst (bm_data s 0)) B G HO) as [_ Z]. rewrite Z. rewrite HF; [reflexivity|].
    destruct sched; [|cbn in HN; lia]. cbn in HP. apply Permutation_length in HP. rewrite seq_length in HP. cbn in HP. lia.
Qed.
(* every list of threads has an execution *)
Lemma merge_exists {A} (ls : list (list A)) : exists l, Merge ls l.
Proof.
  remember (length (concat ls)) as k eqn:E. revert ls E. induction k as [|k IH]; intros ls E.
  - exists []. constructor. intros l Hl. destruct l as [|a l]; [reflexivity|]. exfalso. apply in_split in Hl. destruct Hl as (x & y & ->). rewrite concat_app, app_length in E. cbn in E. lia.
  - assert (X : exists x a p y, ls = x ++ (a :: p) :: y). { clear IH. induction ls as [|[|a p] ls IH]; cbn in E; [discriminate | | exists [], a, p, ls; reflexivity]. destruct (IH E) as (x & b & p & y & ->). exists ([] :: x), b, p, y. reflexivity. }
    destruct X as (x & a & p & y & ->). destruct (IH (x ++ p :: y)) as [r Hr]. { rewrite concat_app, app_length in *. cbn in *. rewrite app_length in *. lia. }
    exists (a :: r). apply merge_step with (rs := x ++ p :: y) (t := length x) (l := p); [rewrite nth_error_app2, Nat.sub_diag by lia; reflexivity | | exact Hr].
    rewrite firstn_app, firstn_all, Nat.sub_diag, firstn_O, app_nil_r. f_equal. rewrite skipn_app, skipn_all2 by lia. replace (S (length x) - length x) with 1 by lia. reflexivity.
Qed.
