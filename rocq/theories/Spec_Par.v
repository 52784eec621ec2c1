(* Interleavings and distributions of iterations. *)
Require Import Reals List Arith Permutation.
From Verif Require Import Vec3 Spatial Model Spec_Kin Kinematics Geometry.
Import ListNotations.

(* l is an interleaving of the lists ls *)
Inductive Merge {A : Type} : list (list A) -> list A -> Prop :=
| merge_done ls : (forall l, In l ls -> l = []) -> Merge ls []
| merge_step ls rs t a l rest : nth_error ls t = Some (a :: l) -> rs = firstn t ls ++ l :: skipn (S t) ls -> Merge rs rest -> Merge ls (a :: rest).

(* every iteration is given to exactly one of the n threads, in any order *)
Definition distributes (n batch : nat) (sched : list (list nat)) : Prop := length sched = n /\ Permutation (concat sched) (seq 0 batch).

(* a way to cut a computation into steps *)
Definition splits {D : Type} (steps : list (D -> D)) (f : D -> D) : Prop := forall d, fold_left (fun d g => g d) steps d = f d.

(* some pair of the geometry model that is switched on, and of which neither object has its collisions disabled, is in
   collision (answer of the collision library) when the objects are placed at the given placements *)
Definition collides (fcl : GObj -> SE3 -> GObj -> SE3 -> bool) (g : GModel) (flags : list bool) (at_ : GObj -> SE3) : Prop :=
  exists k p a b, nth_error (g_pairs g) k = Some p /\ nth_error (g_objs g) (fst p) = Some a /\ nth_error (g_objs g) (snd p) = Some b /\
    nth_error flags k = Some true /\ go_disable a = false /\ go_disable b = false /\ fcl a (at_ a) b (at_ b) = true.
(* the placement in the world of an object *)
Definition worldObj (m : Model) (q : nat -> R) (o : GObj) : SE3 :=
  if 0 <? go_parentJoint o then se3_mul (worldPl m q (go_parentJoint o)) (go_placement o) else go_placement o.
