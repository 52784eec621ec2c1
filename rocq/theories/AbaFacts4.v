(* Summary lemmas for the statements about forward dynamics, and an example. *)
Require Import Reals List Arith Lia Lra.
From Verif Require Import Vec3 Spatial Inertia Joints Model Spec_Model ModelFacts ModelTree ModelFacts2 ModelFacts3 Sums Data Kinematics Spec_Kin Spec_Mass KinFacts3 Spec_Dyn Rnea DynFacts2 MassFacts Crba Aba CrbaFacts CrbaFacts3 CrbaFacts4 Spec_Aba AbaFacts3 AbaInv.
Local Open Scope nat_scope.
Section Four.
Variable m : Model.
Hypothesis W : wellFormed m.
Hypothesis T : treeInv m.
Hypothesis Vm : validModel m.
Hypothesis NM : noMimic m.
Variable inv : nat -> (nat -> nat -> R) -> nat -> nat -> R.
Hypothesis HI : invertsPD inv.
Variables q v : vec.
Hypothesis Hq : validState m q.
Lemma aba_inverse : positiveM (m_nv m) (massMatrix m q) -> forall d d' a fext k, k < m_nv m ->
  abaWorld inv m d q v (rnea m d' q v a) k = a k /\ abaLocal inv m d q v (rnea m d' q v a) k = a k /\
  abaWorldExt inv m d q v (rneaExt m d' q v a fext) fext k = a k /\ abaLocalExt inv m d q v (rneaExt m d' q v a fext) fext k = a k.
Proof.
  intros PM d d' a fext k Hk. split; [|split; [|split]].
  - now apply abaWorld_rnea.
  - now apply abaLocal_rnea.
  - now apply abaWorldExt_rnea.
  - now apply abaLocalExt_rnea.
Qed.
Lemma solid_positive : solid m -> rotors m -> regularJoints m q -> positiveM (m_nv m) (massMatrix m q).
Proof. intros S Ro RJ x Hx. exact (mass_pd m W T Vm q x Hq NM S Ro RJ Hx). Qed.
Lemma aba_solid d d' tau fext k : solid m -> rotors m -> regularJoints m q -> k < m_nv m ->
  rnea m d' q v (abaWorld inv m d q v tau) k = tau k /\ rnea m d' q v (abaLocal inv m d q v tau) k = tau k /\
  rneaExt m d' q v (abaWorldExt inv m d q v tau fext) fext k = tau k /\ rneaExt m d' q v (abaLocalExt inv m d q v tau fext) fext k = tau k.
Proof.
  intros S Ro RJ Hk. pose proof (solid_positive S Ro RJ) as PM. split; [|split; [|split]].
  - now apply rnea_abaWorld.
  - now apply rnea_abaLocal.
  - now apply rnea_abaWorldExt.
  - now apply rnea_abaLocalExt.
Qed.
End Four.
Lemma aba_ex (s : R) : Built (1/1000) (exD (1/1000)) /\ validModel (exD (1/1000)) /\ noMimic (exD (1/1000)) /\ invertsPD elimInv /\
  validState (exD (1/1000)) (exQ s) /\ positiveM (m_nv (exD (1/1000))) (massMatrix (exD (1/1000)) (exQ s)) /\ m_nv (exD (1/1000)) = 10.
Proof.
  destruct (exD_all s) as (B & V & N & _ & _ & Q & S & Ro & RJ & _ & E). split; [exact B|]. split; [exact V|]. split; [exact N|]. split; [exact elimInv_inverts|].
  split; [exact Q|]. split; [|exact E]. now apply (solid_positive _ (Built_wf _ _ B) (Built_tree _ _ B) V N).
Qed.
