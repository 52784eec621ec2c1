(* C45, C46, C59: parallel batches, pools of models, collision checks. *)
Require Import Reals List Arith Bool.
From Verif Require Import Vec3 Spatial Inertia Joints Model Spec_Model ModelFacts3 Data Kinematics Spec_Kin Sums Spec_Dyn Rnea Spec_Mass MassFacts CrbaFacts3 KinFacts3 Spec_Aba Aba AbaFacts4 Geometry Spec_Geom GeomFacts4 Parallel Spec_Par ParFacts ParFacts2 ParFacts3 ParFacts4.
Import ListNotations.
Local Open Scope nat_scope.

(** rneaInParallel: for every way to share the columns out between the threads, every way to cut the sequential algorithm
    into steps and every interleaving of these steps, column i is what the sequential algorithm gives, whatever the data
    contained before.  p is the pool (its models are copies of m). *)
Theorem C45_rnea (eps : R) (m : Model) (p : Pool Model Data) (n batch : nat) (sched : list (list nat)) (q v a : nat -> vec) (steps : nat -> nat -> list (Data -> Data))
    (l : list (BAct Data)) (s : BMem Data R) (d : Data) (i k : nat) :
  Built eps m -> validModel m -> (forall x, In x (po_models p) -> x = m) -> n <= length (po_models p) -> distributes n batch sched ->
  (forall i, i < batch -> validState m (q i)) -> (forall t i, splits (steps t i) (fun d => rneaData (nth t (po_models p) emptyModel) d (q i) (v i) (a i))) ->
  Merge (bThreads (m_nv m) steps sched) l -> i < batch -> k < m_nv m ->
  bm_res (runActs (bExec (fun d => ve (gl d) F_tau)) l s) i k = rnea m d (q i) (v i) (a i) k.
Proof. exact (fun B V HM HL HD Q S => rnea_batch eps m B V p n batch sched HM HL HD q v a steps l s d i k Q S). Qed.
Example C45_rnea_ex (s : R) (mk : Model -> Data) (q v a : nat -> vec) : let m := exD (1/1000) in let p := newPool mk m 4 in
  Built (1/1000) m /\ validModel m /\ (forall x, In x (po_models p) -> x = m) /\ 2 <= length (po_models p) /\ distributes 2 3 exSched /\ validState m (exQ s) /\ m_nv m = 10 /\
  (forall t i, splits [fun d => rneaData (nth t (po_models p) emptyModel) d (q i) (v i) (a i)] (fun d => rneaData (nth t (po_models p) emptyModel) d (q i) (v i) (a i))) /\
  exists l, Merge (bThreads (m_nv m) (fun t i => [fun d => rneaData (nth t (po_models p) emptyModel) d (q i) (v i) (a i)]) exSched) l.
Proof.
  exact (conj (proj1 (aba_ex s)) (conj (proj1 (proj2 (aba_ex s))) (conj (pool_copies mk _ 4)
    (conj (le_S _ _ (le_S _ _ (le_n 2))) (conj exSched_ok (conj (proj1 (proj2 (proj2 (proj2 (proj2 (aba_ex s)))))) (conj eq_refl (conj (fun t i => one_step _) (merge_exists _))))))))).
Qed.
Print Assumptions C45_rnea.
(** abaInParallel *)
Theorem C45_aba (eps : R) (m : Model) (inv : nat -> (nat -> nat -> R) -> nat -> nat -> R) (p : Pool Model Data) (n batch : nat) (sched : list (list nat)) (q v tau : nat -> vec) (steps : nat -> nat -> list (Data -> Data))
    (l : list (BAct Data)) (s : BMem Data R) (d : Data) (i k : nat) :
  Built eps m -> validModel m -> noMimic m -> invertsPD inv -> (forall x, In x (po_models p) -> x = m) -> n <= length (po_models p) -> distributes n batch sched ->
  (forall i, i < batch -> validState m (q i) /\ positiveM (m_nv m) (massMatrix m (q i))) ->
  (forall t i, splits (steps t i) (fun d => abaWorldData inv (nth t (po_models p) emptyModel) d (q i) (v i) (tau i))) ->
  Merge (bThreads (m_nv m) steps sched) l -> i < batch -> k < m_nv m ->
  bm_res (runActs (bExec (fun d => ve (gl d) F_ddq)) l s) i k = abaWorld inv m d (q i) (v i) (tau i) k.
Proof. exact (fun B V NM HI HM HL HD Q S => aba_batch eps m B V p n batch sched HM HL HD inv q v tau steps l s d i k NM HI Q S). Qed.
(* hypotheses met: C45_rnea_ex for the pool and the schedule, C35_world_ex for the model *)
Print Assumptions C45_aba.
(** the sequential algorithms do not depend on what the data contained *)
Theorem C45_data_reuse (eps : R) (m : Model) (inv : nat -> (nat -> nat -> R) -> nat -> nat -> R) (d d' : Data) (q v x : vec) (k : nat) : Built eps m -> validModel m -> validState m q -> k < m_nv m ->
  rnea m d q v x k = rnea m d' q v x k /\ (noMimic m -> invertsPD inv -> positiveM (m_nv m) (massMatrix m q) -> abaWorld inv m d q v x k = abaWorld inv m d' q v x k).
Proof. exact (fun B V Q K => conj (rnea_data eps m d d' q v x k B V Q K) (fun NM HI PM => aba_data eps m inv d d' q v x k B V NM HI Q PM K)). Qed.
(* hypotheses met: C35_world_ex *)
Print Assumptions C45_data_reuse.
(** the calls go through only if the pool has an entry per thread and the sizes fit *)
Theorem C45_rnea_sizes (nq nv pool n : nat) (q v a res : nat * nat) : rneaParArgs nq nv pool n q v a res = true <->
  0 < pool /\ n <= pool /\ fst q = nq /\ fst v = nv /\ fst a = nv /\ fst res = nv /\ snd v = snd q /\ snd a = snd q /\ snd res = snd q.
Proof. exact (rneaArgs_spec nq nv pool n q v a res). Qed.
Print Assumptions C45_rnea_sizes.
(** abaInParallel never looks at the torques: matrices of any size go through *)
Theorem C45_aba_sizes_refuted : exists nq nv pool n q v tau a, abaParArgs nq nv pool n q v tau a = true /\ fst tau <> nv /\ snd tau <> snd q.
Proof. exact (ex_intro _ 3 (ex_intro _ 2 (ex_intro _ 1 (ex_intro _ 1 (ex_intro _ (3, 5) (ex_intro _ (2, 5) (ex_intro _ (0, 0) (ex_intro _ (2, 5) (conj eq_refl (conj (O_S 1) (O_S 4))))))))))). Qed.
Print Assumptions C45_aba_sizes_refuted.
(** a batch of collision checks: entry i tells whether configuration i collides *)
Theorem C45_collisions (fcl : GObj -> SE3 -> GObj -> SE3 -> bool) (eps : R) (m : Model) (g : GModel) (stop : bool) (n batch : nat) (sched : list (list nat)) (q : nat -> vec) (models : list Model) (geoms : list GModel)
    (steps : nat -> nat -> list (Data * GData * bool -> Data * GData * bool)) (l : list (BAct (Data * GData * bool))) (s : BMem (Data * GData * bool) bool) (flags : list bool) (i : nat) :
  Built eps m -> GBuilt g -> (forall o, In o (g_objs g) -> go_parentJoint o < m_njoints m) -> (forall x, In x models -> x = m) -> (forall x, In x geoms -> x = g) -> n <= length models -> n <= length geoms -> distributes n batch sched ->
  (forall t i, splits (steps t i) (fun x => collisionsAt fcl (nth t models emptyModel) (nth t geoms gEmpty) stop (q i) (fst x))) ->
  Merge (bThreads 1 steps sched) l -> (forall t, t < n -> gd_active (snd (fst (bm_data s t))) = flags) -> i < batch ->
  bm_res (runActs (bExec (fun x _ => snd x)) l s) i 0 = true <-> collides fcl g flags (worldObj m (q i)).
Proof. exact (collision_batch fcl eps m g stop n batch sched q models geoms steps l s flags i). Qed.
Example C45_collisions_ex (eps : R) : Built eps (exTree eps) /\ GBuilt exG2 /\ (forall o, In o (g_objs exG2) -> go_parentJoint o < m_njoints (exTree eps)) /\ distributes 2 3 exSched /\
  collides (fun _ _ _ _ => true) exG2 [false; true] (worldObj (exTree eps) (fun _ => 0%R)) /\ ~ collides (fun _ _ _ _ => true) exG2 [false; false] (worldObj (exTree eps) (fun _ => 0%R)).
Proof. exact (collisions_ex eps). Qed.
Print Assumptions C45_collisions.
(** the same with stopAtFirstCollisionInBatch: an entry that is set is a collision, and some entry is set if and only if
    some configuration collides *)
Theorem C45_collisions_stop (col : nat -> bool) (batch n : nat) (sched : list (list nat)) (l : list CAct) (s : CMem) : distributes n batch sched -> Merge (cThreads sched) l ->
  cm_hit s = false -> (forall i, cm_found s i = None) -> (forall t, cm_res s t = false) ->
  (forall i, batchStop col l s i = true -> col i = true) /\ ((exists i, i < batch /\ batchStop col l s i = true) <-> exists i, i < batch /\ col i = true).
Proof. exact (batchStop_merge col batch n sched l s). Qed.
Example C45_collisions_stop_ex : distributes 2 3 exSched /\ (exists l, Merge (cThreads exSched) l) /\ cm_hit cm0 = false /\ (forall i, cm_found cm0 i = None) /\ (forall t, cm_res cm0 t = false).
Proof. exact (conj exSched_ok (conj (merge_exists _) (conj eq_refl (conj (fun _ => eq_refl) (fun _ => eq_refl))))). Qed.
Print Assumptions C45_collisions_stop.

(** computeCollisions on one configuration, the pairs being shared out between threads: the answer is that of the sequential
    loop for every schedule; the pair reported is one in collision; without early stop every active pair gets its result *)
Theorem C45_pairs (act col : nat -> bool) (stop : bool) (pairs n : nat) (sched : list (list nat)) (l : list CAct) (s : CMem) (r : CRes) : distributes n pairs sched -> Merge (cThreads sched) l -> cm_hit s = false ->
  let s' := runActs (cExec act col stop) l s in
  cm_hit s' = fst (computeCollisions act col stop (seq 0 pairs) false r) /\
  (cm_hit s' = true -> cm_index s' < pairs /\ act (cm_index s') = true /\ col (cm_index s') = true) /\
  (stop = false -> forall i, i < pairs -> act i = true -> cm_found s' i = Some (col i)).
Proof. exact (pairs_par act col stop pairs n sched l s r). Qed.
(* hypotheses met: C45_collisions_stop_ex *)
Print Assumptions C45_pairs.
(** but which pair is reported depends on the schedule *)
Theorem C45_index_refuted : exists l, Merge (cThreads [[0]; [1]]) l /\ distributes 2 2 [[0]; [1]] /\
  let s := runActs (cExec (fun _ => true) (fun _ => true) false) l cm0 in cm_hit s = true /\ cm_index s = 1 /\
  cr_index (snd (computeCollisions (fun _ => true) (fun _ => true) false (seq 0 2) false (mkCRes (fun _ => None) 0))) = 0.
Proof. exact index_depends. Qed.
Print Assumptions C45_index_refuted.

(** the sequential check: true if and only if some active pair whose objects are enabled collides at the placements given by
    the kinematics, and the pair reported is the first such pair *)
Theorem C59_collisions (fcl : GObj -> SE3 -> GObj -> SE3 -> bool) (eps : R) (m : Model) (g : GModel) (stop : bool) (q : vec) (d : Data) (gd : GData) : Built eps m -> GBuilt g -> (forall o, In o (g_objs g) -> go_parentJoint o < m_njoints m) ->
  snd (collisionsAt fcl m g stop q (d, gd)) = true <-> collides fcl g (gd_active gd) (worldObj m q).
Proof. exact (fun B G HO => proj2 (at_spec fcl eps m g stop q (d, gd) B G HO)). Qed.
(* hypotheses met: C45_collisions_ex *)
Print Assumptions C59_collisions.
Theorem C59_first (act col : nat -> bool) (stop : bool) (n : nat) (r : CRes) : let x := computeCollisions act col stop (seq 0 n) false r in
  (fst x = true <-> exists i, i < n /\ act i = true /\ col i = true) /\
  (fst x = true -> let i := cr_index (snd x) in i < n /\ act i = true /\ col i = true /\ forall j, j < i -> act j = true -> col j = false).
Proof. exact (seq_collisions act col stop n r). Qed.
Print Assumptions C59_first.
Theorem C59_results (act col : nat -> bool) (n : nat) (r : CRes) (i : nat) : let x := computeCollisions act col false (seq 0 n) false r in
  cr_found (snd x) i = if (i <? n) && act i then Some (col i) else cr_found r i.
Proof. exact (seq_results act col n r i). Qed.
Print Assumptions C59_results.

(** a pool holds copies of its model, each with its own data *)
Theorem C46_create (M D : Type) (mk : M -> D) (m : M) (n : nat) : length (po_models (newPool mk m n)) = n /\ length (po_datas (newPool mk m n)) = n /\
  forall k, k < n -> nth_error (po_models (newPool mk m n)) k = Some m /\ nth_error (po_datas (newPool mk m n)) k = Some (mk m).
Proof. exact (new_pool mk m n). Qed.
Print Assumptions C46_create.
(** resize: right when the pool is not empty and is at most doubled (dm, dd: default constructed model and data).
    Missing for the full property: larger sizes, refuted below. *)
Theorem C46_resize_partial (M D : Type) (dm : M) (dd : D) (p : Pool M D) (n : nat) (m : M) (good : D -> Prop) : length (po_models p) = length (po_datas p) -> 0 < length (po_models p) -> n <= 2 * length (po_models p) ->
  (forall x, In x (po_models p) -> x = m) -> (forall x, In x (po_datas p) -> good x) ->
  let p' := poolResize dm dd p n in length (po_models p') = n /\ length (po_datas p') = n /\ (forall x, In x (po_models p') -> x = m) /\ (forall x, In x (po_datas p') -> good x).
Proof. exact (resize_good dm dd p n m good). Qed.
Example C46_ex (m : Model) (mk : Model -> Data) : let p := newPool mk m 2 in length (po_models p) = length (po_datas p) /\ 0 < length (po_models p) /\ 4 <= 2 * length (po_models p) /\ length (po_models p) <= 2 /\ 2 < 5 - length (po_models p).
Proof. exact (conj eq_refl (conj (le_S _ _ (le_n 1)) (conj (le_n 4) (conj (le_n 2) (le_n 3))))). Qed.
Print Assumptions C46_resize_partial.
(** beyond that, entries from the old size up to new size - old size are default constructed, not copies *)
Theorem C46_resize_refuted (M D : Type) (dm : M) (dd : D) (p : Pool M D) (n k : nat) : length (po_models p) = length (po_datas p) -> 0 < length (po_models p) ->
  length (po_models p) <= k -> k < n - length (po_models p) ->
  nth_error (po_models (poolResize dm dd p n)) k = Some dm /\ nth_error (po_datas (poolResize dm dd p n)) k = Some dd.
Proof. exact (resize_bad dm dd p n k). Qed.
(* hypotheses met: C46_ex *)
Print Assumptions C46_resize_refuted.
Theorem C46_resize_empty_refuted (M D : Type) (dm : M) (dd : D) (n : nat) : po_models (poolResize dm dd (mkPool [] []) n) = repeat dm n /\ po_datas (poolResize dm dd (mkPool [] []) n) = repeat dd n.
Proof. exact (resize_empty dm dd n). Qed.
Print Assumptions C46_resize_empty_refuted.
(** a pool of geometry models keeps the geometry entries it has ... *)
Theorem C46_geometry_partial (M D G H : Type) (dm : M) (dd : D) (dg : G) (dh : H) (mkh : G -> H) (p : Pool M D) (gp : Pool G H) (n k : nat) (m0 : M) (d0 : D) : length (po_models p) = length (po_datas p) -> nth_error (po_models p) 0 = Some m0 -> nth_error (po_datas p) 0 = Some d0 ->
  length (po_models gp) = length (po_datas p) -> length (po_datas gp) = length (po_datas p) -> k < length (po_datas p) -> k < n ->
  let gp' := snd (geomPoolResize dm dd dg dh mkh p gp n) in length (po_models gp') = n /\ length (po_datas gp') = n /\ nth_error (po_models gp') k = nth_error (po_models gp) k /\ nth_error (po_datas gp') k = nth_error (po_datas gp) k.
Proof. exact (geom_good dm dd dg dh mkh p gp n k m0 d0). Qed.
(* hypotheses met: C46_ex *)
Print Assumptions C46_geometry_partial.
(** ... but none of the entries added by an enlargement gets the geometry *)
Theorem C46_geometry_refuted (M D G H : Type) (dm : M) (dd : D) (dg : G) (dh : H) (mkh : G -> H) (p : Pool M D) (gp : Pool G H) (n k : nat) (m0 : M) (d0 : D) : length (po_models p) = length (po_datas p) -> nth_error (po_models p) 0 = Some m0 -> nth_error (po_datas p) 0 = Some d0 ->
  length (po_models gp) = length (po_datas p) -> length (po_datas gp) = length (po_datas p) -> length (po_datas p) <= k -> k < n ->
  let gp' := snd (geomPoolResize dm dd dg dh mkh p gp n) in nth_error (po_models gp') k = Some dg /\ nth_error (po_datas gp') k = Some dh.
Proof. exact (geom_bad dm dd dg dh mkh p gp n k m0 d0). Qed.
(* hypotheses met: C46_ex *)
Print Assumptions C46_geometry_refuted.
