(* Vocabulary of the statements about the joint-space inertia matrix. *)
Require Import Reals List Arith.
From Verif Require Import Vec3 Spatial Inertia Spec_Spatial Joints Deriv Model Spec_Model Spec_Kin.
Import ListNotations.
Local Open Scope nat_scope.

(* every joint owns its degrees of freedom *)
Definition noMimic (m : Model) : Prop := forall i, 0 < i < m_njoints m -> isMimic (joint m i) = false.
(* the masses are zero or at least eps, the regularisation of Inertia::operator+= *)
Definition regularMass (eps x : R) : Prop := x = 0%R \/ (eps <= x)%R.
Definition regularMasses (eps : R) (m : Model) : Prop := (0 < eps)%R /\ forall i, 0 < i < m_njoints m -> regularMass eps (mass (inertiaOf m i)).
(* the joints are numbered depth first: those of a subtree follow each other *)
Definition depthFirst (m : Model) : Prop := forall i b c, 0 < i -> c < m_njoints m -> onPath m i c -> i <= b <= c -> onPath m i b.
(* the dofs k and l move a common body: their joints are on one branch *)
Definition sameBranch (m : Model) (k l : nat) : Prop := exists i j, ownsV m k i /\ ownsV m l j /\ (onPath m i j \/ onPath m j i).
(* inertias that bodies can have *)
Definition physical (m : Model) : Prop := forall i, 0 < i < m_njoints m -> (0 <= mass (inertiaOf m i))%R /\ psd3 (sym3_matrix (inertia (inertiaOf m i))).
Definition solid (m : Model) : Prop := forall i, 0 < i < m_njoints m -> (0 < mass (inertiaOf m i))%R /\ pd3 (sym3_matrix (inertia (inertiaOf m i))).
Definition rotors (m : Model) : Prop := forall k, k < m_nv m -> (0 <= nth k (m_armature m) 0)%R.
(* no joint is at a singular configuration: its columns of S are linearly independent *)
Definition regularJoints (m : Model) (q : nat -> R) : Prop := forall i x, 0 < i < m_njoints m ->
  Smul (jS (jointAt m q noVel i)) x = v6zero -> forall k, k < nvOf m i -> x k = 0%R.
