(* forward dynamics through the inverse of the mass matrix *)
Require Import Reals List Arith Lia Lra.
From Verif Require Import Vec3 Spatial Inertia Joints Model Spec_Model ModelFacts ModelTree ModelFacts2 ModelFacts3 Sums Data Kinematics Spec_Kin Spec_Mass KinFacts3 Spec_Dyn Rnea DynFacts2 Crba Aba Spec_Aba AbaFacts3.
Local Open Scope nat_scope.

Section Solve.
Variables (n : nat) (M X : nat -> nat -> R).
Hypotheses (MS : forall k l, M k l = M l k) (XS : symmetricM n X) (I : identityM n (matMul n M X)).
Lemma inverse_left k j : k < n -> j < n -> sumN n (fun l => X k l * M l j)%R = if k =? j then 1%R else 0%R.
Proof.
  intros Hk Hj. rewrite Nat.eqb_sym, <- (I j k Hj Hk). unfold matMul. apply sumN_ext. intros l Hl. rewrite (MS l j), (XS k l Hk Hl). ring.
Qed.
Lemma solve_left (a b : vec) : (forall l, l < n -> dotv n (M l) a = b l) -> forall k, k < n -> a k = dotv n (X k) b.
Proof.
  intros H k Hk. unfold dotv. rewrite (sumN_ext _ _ (fun l => sumN n (fun j => X k l * (M l j * a j)))%R).
  2:{ intros l Hl. rewrite <- (H l Hl). unfold dotv. now rewrite <- sumN_scale. }
  rewrite sumN_swap. rewrite (sumN_ext _ _ (fun j => a j * (if k =? j then 1 else 0))%R).
  2:{ intros j Hj. rewrite <- (inverse_left k j Hk Hj), <- sumN_scale. apply sumN_ext. intros. ring. }
  fold (dotv n a (fun j => if k =? j then 1%R else 0%R)). transitivity (dotv n a (unitv k)); [symmetry; now apply dotv_unit | apply sumN_ext; intros j Hj; unfold unitv; now rewrite Nat.eqb_sym].
Qed.
End Solve.

Section Forward.
Variable m : Model.
Hypotheses (W : wellFormed m) (T : treeInv m) (Vm : validModel m) (NM : noMimic m).
Variable inv : nat -> (nat -> nat -> R) -> nat -> nat -> R.
Hypothesis HI : invertsPD inv.
Variables q v : vec.
Hypothesis Hq : validState m q.
Hypothesis PM : positiveM (m_nv m) (massMatrix m q).
Variable X : nat -> nat -> R.
Hypotheses (XS : symmetricM (m_nv m) X) (XI : identityM (m_nv m) (matMul (m_nv m) (massMatrix m q) X)).
Theorem aba_minv d d' tau k : k < m_nv m -> abaWorld inv m d q v tau k = dotv (m_nv m) (X k) (fun l => tau l - nonLinearEffects m d' q v l)%R.
Proof.
  revert k. apply (solve_left _ _ _ (massMatrix_sym m q) XS XI). intros l Hl.
  pose proof (rnea_abaWorld m W T Vm NM inv HI q v Hq PM d d tau l Hl) as E. rewrite (rnea_affine m W T Vm d d' q v _ l Hq Hl) in E. lra.
Qed.
End Forward.
