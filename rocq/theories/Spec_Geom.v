(* Vocabulary of the statements about geometry models. *)
Require Import Reals String List Arith ZArith Bool.
From Verif Require Import Vec3 Spatial Model Geometry.
Import ListNotations.
Local Open Scope nat_scope.

(* unordered pairs *)
Definition same (p q : nat * nat) : Prop := p = q \/ p = (snd q, fst q).
Definition hasPair (g : GModel) (p : nat * nat) : Prop := exists r, In r (g_pairs g) /\ same r p.
(* two existing, distinct objects *)
Definition properPair (g : GModel) (p : nat * nat) : Prop := fst p <> snd p /\ fst p < g_ngeoms g /\ snd p < g_ngeoms g.

(* one call of an editing function of the interface, removal of objects and concatenation of models left out *)
Inductive GStep (g g' : GModel) : Prop :=
| G_object o k : addGeometryObject g o = Ok g' k -> GStep g g'
| G_objectTo m o k : addGeometryObjectTo m g o = Ok g' k -> GStep g g'
| G_pair a b p : CollisionPair g a b = Ok g p -> addCollisionPair g p = Ok g' tt -> GStep g g'
| G_all : addAllCollisionPairs g = Ok g' tt -> GStep g g'
| G_set r c f u : setCollisionPairs g r c f u = Ok g' tt -> GStep g g'
| G_unpair a b p : CollisionPair g a b = Ok g p -> removeCollisionPair g p = Ok g' tt -> GStep g g'
| G_none : g' = removeAllCollisionPairs g -> GStep g g'.
Inductive GBuilt : GModel -> Prop :=
| GB_empty : GBuilt gEmpty
| GB_step g g' : GBuilt g -> GStep g g' -> GBuilt g'.
