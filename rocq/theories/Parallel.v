(* algorithm/parallel/rnea.hpp, algorithm/parallel/aba.hpp, collision/parallel/geometry.hpp, multibody/pool/model.hpp,
   multibody/pool/geometry.hpp and the sequential collision loop of collision/collision.hxx.
   A thread is a list of atomic actions on the memory; an execution is an interleaving of these lists (Spec_Par.v).
   Simplification: accesses to shared variables are atomic and sequentially consistent (in C++ the unsynchronised accesses
   to is_colliding are a data race). *)
Require Import Reals List Arith Bool.
From Verif Require Import Vec3 Spatial Model Data Kinematics Rnea Aba Geometry.
Import ListNotations.
Local Open Scope nat_scope.

(* ---- batch loops: parallel/rnea.hpp 70-82, parallel/aba.hpp 71-83, collision/parallel/geometry.hpp 147-162 ---- *)
(* the private objects of each thread (datas[thread_id], ...) and the columns of the result *)
Record BMem (D V : Type) := mkBMem { bm_data : nat -> D; bm_res : nat -> nat -> V }.
Arguments mkBMem {D V}. Arguments bm_data {D V}. Arguments bm_res {D V}.
(* one step of the sequential algorithm on the objects of thread t; assignment of coefficient k of column i *)
Inductive BAct (D : Type) := BStep (t : nat) (f : D -> D) | BPut (t i k : nat).
Arguments BStep {D}. Arguments BPut {D}.
Definition bExec {D V : Type} (out : D -> nat -> V) (a : BAct D) (s : BMem D V) : BMem D V :=
  match a with
  | BStep t f => mkBMem (fun u => if u =? t then f (bm_data s t) else bm_data s u) (bm_res s)
  | BPut t i k => mkBMem (bm_data s) (fun j l => if (j =? i) && (l =? k) then out (bm_data s t) k else bm_res s j l)
  end.
(* the body of the loop: the steps of the algorithm on column i, then res.col(i) = ... *)
Definition bBody {D : Type} (nk : nat) (steps : nat -> nat -> list (D -> D)) (t i : nat) : list (BAct D) :=
  map (BStep t) (steps t i) ++ map (BPut t i) (seq 0 nk).
Definition bThreads {D : Type} (nk : nat) (steps : nat -> nat -> list (D -> D)) (sched : list (list nat)) : list (list (BAct D)) :=
  map (fun t => flat_map (bBody nk steps t) (nth t sched [])) (seq 0 (length sched)).
Definition runActs {A S : Type} (exec : A -> S -> S) (l : list A) (s : S) : S := fold_left (fun s a => exec a s) l s.

(* the checks of the arguments; sizes as (rows, cols).  parallel/rnea.hpp 53-68 *)
Definition rneaParArgs (nq nv pool n : nat) (q v a res : nat * nat) : bool :=
  (0 <? pool) && (n <=? pool) && (fst q =? nq) && (fst v =? nv) && (fst a =? nv) && (fst res =? nv) &&
  (snd q =? snd v) && (snd q =? snd a) && (snd q =? snd res).
(* parallel/aba.hpp 54-69: a and res are the same matrix, the sizes of tau are not looked at *)
Definition abaParArgs (nq nv pool n : nat) (q v tau a : nat * nat) : bool :=
  (0 <? pool) && (n <=? pool) && (fst q =? nq) && (fst v =? nv) && (fst a =? nv) && (fst a =? nv) &&
  (snd q =? snd v) && (snd q =? snd a) && (snd q =? snd a).

(* ---- collisions of one configuration ---- *)
(* the answer of the collision library for a pair of objects and their placements *)
Definition pairHit (fcl : GObj -> SE3 -> GObj -> SE3 -> bool) (g : GModel) (gd : GData) (k : nat) : bool :=
  match nth_error (g_pairs g) k with None => false
  | Some p => match nth_error (g_objs g) (fst p), nth_error (g_objs g) (snd p) with
              | Some a, Some b => fcl a (gd_oMg gd (fst p)) b (gd_oMg gd (snd p)) | _, _ => false end end.
(* collision.hxx 87-91, parallel/geometry.hpp 44-48: the test that a pair is examined at all *)
Definition pairActive (g : GModel) (gd : GData) (k : nat) : bool :=
  match nth_error (g_pairs g) k with None => false
  | Some p => match nth_error (g_objs g) (fst p), nth_error (g_objs g) (snd p), nth_error (gd_active gd) k with
              | Some a, Some b, Some c => c && negb (go_disable a || go_disable b) | _, _, _ => false end end.
(* the part of the geometry data written by the checks: whether each pair was found in collision, and collisionPairIndex *)
Record CRes := mkCRes { cr_found : nat -> option bool; cr_index : nat }.
(* collision.hxx 78-105; act and col give, for each pair, whether it is examined and the answer *)
Fixpoint computeCollisions (act col : nat -> bool) (stop : bool) (l : list nat) (hit : bool) (r : CRes) : bool * CRes :=
  match l with
  | [] => (hit, r)
  | i :: l => if act i
      then let r := mkCRes (fun k => if k =? i then Some (col i) else cr_found r k) (cr_index r) in
           if negb hit && col i
           then let r := mkCRes (cr_found r) i in if stop then (true, r) else computeCollisions act col stop l true r
           else computeCollisions act col stop l hit r
      else computeCollisions act col stop l hit r
  end.
(* collision.hxx 117-127: computeCollisions(model, data, geom_model, geom_data, q), with updateGeometryPlacements(.., q) of
   algorithm/geometry.hxx 21-32; only the answer and the placements *)
Definition collisionsAt (fcl : GObj -> SE3 -> GObj -> SE3 -> bool) (m : Model) (g : GModel) (stop : bool) (q : vec) (x : Data * GData) : (Data * GData) * bool :=
  let d := forwardKinematics0 m (fst x) q in let gd := updateGeometryPlacements d g (snd x) in
  ((d, gd), fst (computeCollisions (pairActive g gd) (pairHit fcl g gd) stop (seq 0 (length (g_pairs g))) false (mkCRes (fun _ => None) 0))).

(* collision/parallel/geometry.hpp 18-60, one configuration, the pairs shared out between threads.
   Shared: is_colliding, collisionPairIndex, collisionResults; local to each thread: the outcome of the test in 39, res,
   and the value of is_colliding read in 51. *)
Record CMem := mkCMem { cm_hit : bool; cm_index : nat; cm_found : nat -> option bool; cm_skip : nat -> bool; cm_res : nat -> bool; cm_seen : nat -> bool }.
Inductive CAct := CCheck (t i : nat) | CCompute (t i : nat) | CRead (t i : nat) | CSet (t i : nat) | CIndex (t i : nat).
Definition setAt {V} (f : nat -> V) (t : nat) (x : V) : nat -> V := fun u => if u =? t then x else f u.
Definition cExec (act col : nat -> bool) (stop : bool) (a : CAct) (s : CMem) : CMem :=
  let go t i := negb (cm_skip s t) && act i in
  let found t i := go t i && negb (cm_seen s t) && cm_res s t in
  match a with
  | CCheck t i => mkCMem (cm_hit s) (cm_index s) (cm_found s) (setAt (cm_skip s) t (stop && cm_hit s)) (cm_res s) (cm_seen s)
  | CCompute t i => if go t i then mkCMem (cm_hit s) (cm_index s) (setAt (cm_found s) i (Some (col i))) (cm_skip s) (setAt (cm_res s) t (col i)) (cm_seen s) else s
  | CRead t i => if go t i then mkCMem (cm_hit s) (cm_index s) (cm_found s) (cm_skip s) (cm_res s) (setAt (cm_seen s) t (cm_hit s)) else s
  | CSet t i => if found t i then mkCMem true (cm_index s) (cm_found s) (cm_skip s) (cm_res s) (cm_seen s) else s
  | CIndex t i => if found t i then mkCMem (cm_hit s) i (cm_found s) (cm_skip s) (cm_res s) (cm_seen s) else s
  end.
Definition cBody (t i : nat) : list CAct := [CCheck t i; CCompute t i; CRead t i; CSet t i; CIndex t i].
Definition cThreads (sched : list (list nat)) : list (list CAct) := map (fun t => flat_map (cBody t) (nth t sched [])) (seq 0 (length sched)).

(* ---- pools ---- *)
(* pool/model.hpp: the vectors of models and datas; pool/geometry.hpp: those of geometry models and geometry datas *)
Record Pool (M D : Type) := mkPool { po_models : list M; po_datas : list D }.
Arguments mkPool {M D}. Arguments po_models {M D}. Arguments po_datas {M D}.
(* 41-49, Data(model) = mk model *)
Definition newPool {M D} (mk : M -> D) (m : M) (n : nat) : Pool M D := mkPool (repeat m n) (repeat (mk m) n).
(* std::vector::resize: new entries are default constructed; std::fill from a position *)
Definition vresize {A} (def : A) (n : nat) (l : list A) : list A := firstn n l ++ repeat def (n - length l).
Definition fillFrom {A} (k : nat) (x : A) (l : list A) : list A := firstn k l ++ repeat x (length l - k).
(* 74-92 *)
Definition poolResize {M D} (dm : M) (dd : D) (p : Pool M D) (n : nat) : Pool M D :=
  let size := length (po_datas p) in
  let ms := vresize dm n (po_models p) in let ds := vresize dd n (po_datas p) in
  if size <? n then mkPool (fillFrom (n - size) (nth 0 ms dm) ms) (fillFrom (n - size) (nth 0 ds dd) ds) else mkPool ms ds.
(* pool/geometry.hpp 187-200, called by the base class after it has resized its own vectors: size() is the new size *)
Definition geomPoolResize {M D G H} (dm : M) (dd : D) (dg : G) (dh : H) (mkh : G -> H) (p : Pool M D) (gp : Pool G H) (n : nat) : Pool M D * Pool G H :=
  let p := poolResize dm dd p n in
  let current := length (po_datas p) in
  let gs := vresize dg n (po_models gp) in let hs := vresize dh n (po_datas gp) in
  (p, if current <? n then mkPool (firstn current gs ++ repeat (nth 0 gs dg) (n - current)) (firstn current hs ++ repeat (mkh (nth 0 gs dg)) (n - current))
      else mkPool gs hs).
(* collision/parallel/geometry.hpp 116-146, stopAtFirstCollisionInBatch: the loop has the shape of 39-59 above with
   configurations in place of pairs (test of the shared flag, computation, assignment of the result, flag); col i is the
   answer of computeCollisions for configuration i.  The entries not examined keep the value of 116. *)
Definition batchStop (col : nat -> bool) (l : list CAct) (s : CMem) (i : nat) : bool :=
  match cm_found (runActs (cExec (fun _ => true) col true) l s) i with Some b => b | None => false end.
