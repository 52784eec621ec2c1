Require Import Reals String List Arith Bool Lia Lra.
From Verif Require Import Vec3 Spatial Joints Spec_Joints Model Spec_Model ModelFacts ModelFacts2 ModelFacts3 ModelTree Kinematics LieGroup Srdf Spec_Srdf SrdfFacts.
Import ListNotations.
Local Open Scope nat_scope.

Definition srEntries : list (string * list R) := [("a", [1%R]); ("nobody", [2%R])]%string.
Lemma sr_ex eps : Built eps (exTree eps) /\ NoDup (m_names (exTree eps)) /\ NoDup (map fst srEntries) /\ ~ In (nth 0 (m_names (exTree eps)) ""%string) (map fst srEntries).
Proof.
  split; [apply exTree_built|]. split; [repeat constructor; cbn; intuition discriminate|]. split; [repeat constructor; cbn; intuition discriminate|]. cbn. intuition discriminate.
Qed.
Definition srStates : list (string * list (string * list R)) := [("home", [("a", [1%R])]); ("home", [("a", [2%R])])]%string.
Lemma sr_twice : exists refs q, loadReferences ex1 srStates [] = Some refs /\ lookup "home"%string refs = Some q /\ q 0 = 1%R.
Proof. eexists _, _. split; [reflexivity|]. split; [reflexivity|]. cbn. reflexivity. Qed.
(* a continuous joint about an axis, unaligned or not *)
Definition srCont (j : Joint1) : Model := okModel (addJoint emptyModel 0 (freshJoint (JSimple j)) se3_Identity "a" (exLim 2 1)) emptyModel.
Lemma sr_built eps : Built eps (srCont (JRUB 0)) /\ Built eps (srCont (JRUBUnaligned (mkV3 1 0 0))).
Proof.
  split; eexists.
  - refine (H_step eps emptyModel _ [] None (H_empty eps) (S_joint eps emptyModel _ 0 (JSimple (JRUB 0)) se3_Identity "a" (exLim 2 1) 1 I _)). reflexivity.
  - refine (H_step eps emptyModel _ [] None (H_empty eps) (S_joint eps emptyModel _ 0 (JSimple (JRUBUnaligned (mkV3 1 0 0))) se3_Identity "a" (exLim 2 1) 1 I _)). reflexivity.
Qed.
Lemma sr_cont : exists q q', readState (srCont (JRUB 0)) [("a"%string, [PI])] = Some q /\ q 0 = (-1)%R /\
  readState (srCont (JRUBUnaligned (mkV3 1 0 0))) [("a"%string, [PI])] = Some q' /\ q' 0 = 1%R.
Proof. eexists _, _. split; [reflexivity|]. split; [cbn; apply cos_PI|]. split; [reflexivity|]. cbn. reflexivity. Qed.
