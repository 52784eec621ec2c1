(* C91: reference configurations of an SRDF file. *)
Require Import Reals String List Arith.
From Verif Require Import Vec3 Spatial Joints Spec_Joints Model Spec_Model ModelFacts3 Kinematics LieGroup Srdf Spec_Srdf SrdfFacts SrdfEx.
Import ListNotations.
Local Open Scope nat_scope.

(** in a reference configuration every joint named by a tag that fits it has the coordinates of the tag, and every other joint is neutral *)
Theorem C91_values (eps : R) (m : Model) (es : list (string * list R)) :
  Built eps m -> NoDup (m_names m) -> NoDup (map fst es) -> ~ In (nth 0 (m_names m) ""%string) (map fst es) ->
  exists q, readState m es = Some q /\
  forall i k, 0 < i < m_njoints m -> isMimic (joint m i) = false -> k < nqOf m i ->
    q (idx_q m i + k) = match lookup (nth i (m_names m) ""%string) es with
                        | Some vals => match denoted (jm_type (joint m i)) vals with Some w => nth k w 0%R | None => neutral m (fun _ => 0%R) (idx_q m i + k) end
                        | None => neutral m (fun _ => 0%R) (idx_q m i + k) end.
Proof. exact (state_values eps m es). Qed.
Print Assumptions C91_values.
Example C91_values_ex (eps : R) : Built eps (exTree eps) /\ NoDup (m_names (exTree eps)) /\ NoDup (map fst srEntries) /\ ~ In (nth 0 (m_names (exTree eps)) ""%string) (map fst srEntries).
Proof. exact (sr_ex eps). Qed.

(** references already in the model are kept; a new name gets the configuration of the first group_state tag of that name *)
Theorem C91_first (m : Model) (states : list (string * list (string * list R))) (refs refs' : list (string * vec)) :
  loadReferences m states refs = Some refs' ->
  forall n, lookup n refs' = match lookup n refs with Some x => Some x | None => match lookup n states with Some es => readState m es | None => None end end.
Proof. exact (load_first m states refs refs'). Qed.
Print Assumptions C91_first.
(* hypotheses met: C91_last_refuted *)

(** the message for repeated names says that the last instance is used: it is the first *)
Theorem C91_last_refuted : exists refs q, loadReferences ex1 srStates [] = Some refs /\ lookup "home"%string refs = Some q /\ q 0 = 1%R.
Proof. exact sr_twice. Qed.
Print Assumptions C91_last_refuted.

(** an angle given for a continuous joint is used when its axis is a coordinate axis and ignored, leaving the neutral value, when the same axis is kept as unaligned *)
Theorem C91_angle_refuted : exists q q', readState (srCont (JRUB 0)) [("a"%string, [PI])] = Some q /\ q 0 = (-1)%R /\
  readState (srCont (JRUBUnaligned (mkV3 1 0 0))) [("a"%string, [PI])] = Some q' /\ q' 0 = 1%R.
Proof. exact sr_cont. Qed.
Print Assumptions C91_angle_refuted.
Example C91_angle_ex (eps : R) : Built eps (srCont (JRUB 0)) /\ Built eps (srCont (JRUBUnaligned (mkV3 1 0 0))). Proof. exact (sr_built eps). Qed.
