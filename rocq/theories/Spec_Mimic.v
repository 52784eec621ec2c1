(* What it means to turn a joint into a mimic joint. *)
Require Import Reals List Arith.
From Verif Require Import Vec3 Spatial Inertia Joints Spec_Joints Model Spec_Model Mimic.
Import ListNotations.
Local Open Scope nat_scope.

(* a vector without its entries p .. p+n-1 *)
Definition removeSeg (p n : nat) (l : list R) : list R := firstn p l ++ skipn (p + n) l.

(* the configuration of a joint j driven by a joint with configuration qa: q = scaling * qa + offset; the unbounded
   revolute joints store the cosine and sine of their angle *)
Definition driven (j : Joint1) (scaling offset : R) (qa qb : nat -> R) : Prop :=
  match j with
  | JRUB _ | JRUBUnaligned _ =>
      exists th : R, (- PI < th < PI)%R /\ qa 0 = cos th /\ qa 1 = sin th /\
        qb 0 = cos (scaling * th + offset)%R /\ qb 1 = sin (scaling * th + offset)%R
  | _ => qb 0 = (scaling * qa 0%nat + offset)%R
  end.

(* q and q' give the same coordinates to every ordinary joint but b *)
Definition sameConfigBut (m m' : Model) (b : nat) (q q' : nat -> R) : Prop :=
  forall i k, 0 < i < m_njoints m -> i <> b -> isMimic (joint m i) = false -> k < nqOf m i ->
    q' (idx_q m' i + k) = q (idx_q m i + k).
Definition sameVelocityBut (m m' : Model) (b : nat) (v v' : nat -> R) : Prop :=
  forall i k, 0 < i < m_njoints m -> i <> b -> isMimic (joint m i) = false -> k < nvOf m i ->
    v' (idx_v m' i + k) = v (idx_v m i + k).

(* a joint that may become a mimic of an earlier joint a: b is an ordinary joint of a type that can be mimicked, with
   as many coordinates as a, and no mimic joint follows it *)
Definition mimicPair (m : Model) (a b : nat) : Prop :=
  0 < a < b /\ b < m_njoints m /\ isMimic (joint m a) = false /\
  (exists j, jm_type (joint m b) = JSimple j /\ mimicable j /\ nq1 j = nqOf m a /\ nv1 j = nvOf m a) /\
  (forall k, 0 < k < m_njoints m -> isMimic (joint m k) = true -> jm_ref (joint m k) <> b).

(* models made by the construction functions and by turning joints into mimic joints *)
Inductive Assembled (eps : R) : Model -> Prop :=
| As_built m : Built eps m -> Assembled eps m
| As_mimic out m m' a b s o : Assembled eps m -> mimicPair m a b -> transformJointIntoMimic out m a b s o = Ok m' tt -> Assembled eps m'.

(* several pairs (mimicked joint, mimicking joint, scaling, offset): a joint is turned into a mimic at most once and
   no joint on the left is also on the right *)
Fixpoint mimicPairs (m : Model) (l : list (nat * nat * R * R)) : Prop :=
  match l with
  | [] => True
  | (a, b, _, _) :: r =>
      mimicPair m a b /\ (forall a' b' s' o', In (a', b', s', o') r -> a' <> b /\ b' <> b /\ b' <> a) /\ mimicPairs m r
  end.
Definition isTarget (l : list (nat * nat * R * R)) (i : nat) : Prop := exists a s o, In (a, i, s, o) l.
(* q and q' give the same coordinates to every ordinary joint that is not a target *)
Definition sameConfigElse (m m' : Model) (l : list (nat * nat * R * R)) (q q' : nat -> R) : Prop :=
  forall i k, 0 < i < m_njoints m -> ~ isTarget l i -> isMimic (joint m i) = false -> k < nqOf m i ->
    q' (idx_q m' i + k) = q (idx_q m i + k).
Definition sameVelocityElse (m m' : Model) (l : list (nat * nat * R * R)) (v v' : nat -> R) : Prop :=
  forall i k, 0 < i < m_njoints m -> ~ isTarget l i -> isMimic (joint m i) = false -> k < nvOf m i ->
    v' (idx_v m' i + k) = v (idx_v m i + k).
(* every target moves as its pair says *)
Definition allDriven (m : Model) (l : list (nat * nat * R * R)) (q v : nat -> R) : Prop :=
  forall a b s o, In (a, b, s, o) l -> exists j, jm_type (joint m b) = JSimple j /\
    driven j s o (shift (idx_q m a) q) (shift (idx_q m b) q) /\ v (idx_v m b) = (s * v (idx_v m a))%R.
(* no target is a helical joint *)
Definition noHelical (m : Model) (l : list (nat * nat * R * R)) : Prop :=
  forall a b s o j, In (a, b, s, o) l -> jm_type (joint m b) = JSimple j -> ~ isHelical j.

(* the joint on the right of a pair *)
Definition target (p : nat * nat * R * R) : nat := snd (fst (fst p)).
(* everything that turning joint b into a mimic joint leaves as it was *)
Record unchanged (m m' : Model) (b : nat) : Prop := {
  un_sizes : m_njoints m' = m_njoints m /\ m_nbodies m' = m_nbodies m /\ m_nframes m' = m_nframes m /\ m_nvE m' = m_nvE m;
  un_tree : m_parents m' = m_parents m /\ m_children m' = m_children m /\ m_supports m' = m_supports m /\ m_subtrees m' = m_subtrees m;
  un_data : m_placements m' = m_placements m /\ m_inertias m' = m_inertias m /\ m_names m' = m_names m /\ m_frames m' = m_frames m /\
    m_gravity m' = m_gravity m /\ m_refs m' = m_refs m /\ m_name m' = m_name m /\ m_idx_vEs m' = m_idx_vEs m /\ m_nvEs m' = m_nvEs m;
  un_joints : forall i, 0 < i < m_njoints m -> i <> b -> jm_type (joint m' i) = jm_type (joint m i) /\ nqOf m' i = nqOf m i /\ nvOf m' i = nvOf m i /\
    (isMimic (joint m i) = true -> jm_ref (joint m' i) = jm_ref (joint m i)) }.

