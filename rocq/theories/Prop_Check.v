(** Property theorems C85 (consistency checks of models and data). Statements only. *)
From Coq Require Import Reals List Arith ZArith.
From Verif Require Import Vec3 Spatial Inertia Joints Model Spec_Model ModelFacts ModelTree ModelFacts2 Data Kinematics Spec_Kin Spec_Mass Spec_Jac CrbaFacts3 CrbaFacts4 CheckData Spec_Check CheckFacts CheckFacts2 CheckFacts3.
Local Open Scope nat_scope.

(** a Data created for a model is accepted by model.check(data) exactly when the joints are numbered depth first, and the check
    always answers *)
Theorem C85_new (eps : R) (m : Model) : Built eps m -> validModel m -> noMimic m -> noRigidJoint m ->
  exists s b, newShape m = Some s /\ checkData m s = Some b /\ (b = true <-> depthFirst m).
Proof. exact (C85_new_lemma eps m). Qed.
Example C85_new_ex (eps : R) : Built eps ck2 /\ validModel ck2 /\ noMimic ck2 /\ noRigidJoint ck2 /\ depthFirst ck2 /\ m_njoints ck2 = 3.
Proof. exact (conj (ck2_built eps) (conj ck2_valid (conj ck2_noMimic (conj ck2_pos (conj ck2_depthFirst eq_refl))))). Qed.
Print Assumptions C85_new.
(** whatever the Data, when it is accepted and its table lastChild never points before its own joint, the tables that the
    algorithms follow are right: ends and dofs of the subtrees, rows of the parents; and the model is numbered depth first *)
Theorem C85_sound (eps : R) (m : Model) (s : Shape) : Built eps m -> validModel m -> noMimic m -> noRigidJoint m ->
  checkData m s = Some true -> (forall j, 0 < j < m_njoints m -> (Z.of_nat j <= nth j (s_last s) 0)%Z) -> depthFirst m /\ tablesRight m s.
Proof. exact (fun B Vm NM P => check_sound m (Built_wf eps m B) (Built_tree eps m B) NM Vm P s). Qed.
Example C85_sound_ex : newShape ck2 = Some (fresh ck2) /\ checkData ck2 (fresh ck2) = Some true /\ s_last (fresh ck2) = (2 :: 2 :: 2 :: nil)%Z.
Proof. exact (conj eq_refl (conj eq_refl eq_refl)). Qed.
Print Assumptions C85_sound.
(** without that last condition, wrong tables are accepted: lastChild before the joint, and the dofs of a subtree miscounted *)
Theorem C85_sound_refuted (eps : R) : exists m s, Built eps m /\ validModel m /\ noMimic m /\ noRigidJoint m /\ checkData m s = Some true /\
  nth 1 (s_last s) 0%Z = 0%Z /\ lastOf m 1 2 /\ nth 1 (s_nvs s) 0%Z = 1%Z /\ subtreeDofs m 1 = 2.
Proof. exact (ex_intro _ ck2 (ex_intro _ badTables (conj (ck2_built eps) (conj ck2_valid (conj ck2_noMimic (conj ck2_pos bad_accepted)))))). Qed.
Print Assumptions C85_sound_refuted.
(** the Data of another model is accepted exactly when both models have the same tree, with joints of the same dimensions and
    as many frames, numbered depth first *)
Theorem C85_other (eps : R) (m m' : Model) (s : Shape) : Built eps m -> validModel m -> noMimic m -> noRigidJoint m ->
  Built eps m' -> validModel m' -> noMimic m' -> noRigidJoint m' ->
  newShape m' = Some s -> checkData m s = Some true <-> sameTree m m' /\ depthFirst m.
Proof. exact (C85_other_iff eps m m' s). Qed.
Example C85_other_ex (eps : R) : Built eps ckR /\ validModel ckR /\ noMimic ckR /\ noRigidJoint ckR /\
  exists s, newShape ckR = Some s /\ checkData ck2 s = Some true /\ ckR <> ck2 /\ sameTree ck2 ckR.
Proof. exact (conj (ckR_built eps) (conj ckR_valid (conj ckR_noMimic (conj ckR_pos ckR_example)))). Qed.
Print Assumptions C85_other.
(** with mimic joints the check refuses the Data created for the model: the number of dofs of a subtree that ends with a mimic
    joint is wrong *)
Theorem C85_mimic_refuted (eps : R) : exists m s, Built eps m /\ depthFirst m /\ newShape m = Some s /\ checkData m s = Some false /\
  nth 1 (s_nvs s) 0%Z = 1%Z /\ subtreeDofs m 1 = 2.
Proof. exact (ex_intro _ ckM (match ckM_refused with ex_intro _ s H => ex_intro _ s (conj (ckM_built eps) (conj ckM_depthFirst H)) end)). Qed.
Print Assumptions C85_mimic_refuted.
(** the check of mimic_subtree_joint leaves its loop too early: with two mimic joints in a row it refuses right tables *)
Theorem C85_mimic_subtree_refuted (eps : R) : exists m s, Built eps m /\ depthFirst m /\ newShape m = Some s /\ checkData m s = Some false /\
  (forall j, 0 < j < 5 -> checkJoint m s j = Some true) /\ s_msub s = 4 :: 4 :: nil.
Proof. exact (ex_intro _ ckC (match ckC_refused with ex_intro _ s H => ex_intro _ s (conj (ckC_built eps) (conj ckC_depthFirst H)) end)). Qed.
Print Assumptions C85_mimic_subtree_refuted.
(** and creating a Data reads out of bounds when only mimic joints follow a mimic joint *)
Theorem C85_mimic_leaf_undefined (eps : R) : exists m, Built eps m /\ newShape m = None.
Proof. exact (ex_intro _ ckC3 (conj (ckC3_built eps) ckC3_undefined)). Qed.
Print Assumptions C85_mimic_leaf_undefined.
(** Model::check() accepts exactly the models numbered depth first whose bodies are heavy enough *)
Theorem C85_model (eps : R) (m : Model) : Built eps m -> modelCheck m = true <-> depthFirst m /\ heavyBodies m.
Proof. exact (fun B => modelCheck_iff m (Built_wf eps m B) (Built_tree eps m B)). Qed.
Example C85_model_ex (eps : R) : Built eps (ckB eps) /\ heavyBodies (ckB eps) /\ depthFirst (ckB eps).
Proof. exact (conj (ckB_built eps) (ckB_heavy eps)). Qed.
Print Assumptions C85_model.
(** an accepted Data has the right sizes *)
Theorem C85_sizes (m : Model) (s : Shape) : checkData m s = Some true -> sizesRight m s.
Proof. exact (check_sizes m s). Qed.
(* hypotheses met: C85_sound_ex *)
Print Assumptions C85_sizes.
(** the parent checker accepts exactly the parent tables that name earlier joints, whatever the model *)
Theorem C85_parents (m : Model) : parentCheck m = true <-> forall j, 0 < j < m_njoints m -> parent m j < j.
Proof. exact (parentCheck_iff m). Qed.
Print Assumptions C85_parents.
(** the parent and mimic checkers: the parents of a built model come first, and mimic joints are found *)
Theorem C85_checkers (eps : R) (m : Model) : Built eps m -> parentCheck m = true /\ (mimicCheck m = true <-> noMimic m).
Proof. exact (fun B => conj (parentCheck_true m (Built_wf eps m B)) (mimicCheck_iff m (Built_tree eps m B))). Qed.
(* hypotheses met: C85_model_ex *)
Print Assumptions C85_checkers.
