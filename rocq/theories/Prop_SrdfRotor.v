(* C92: rotor parameters of an SRDF file. *)
Require Import Reals String List Arith.
From Verif Require Import Vec3 Spatial Joints Spec_Joints Model Spec_Model ModelFacts3 Kinematics Spec_Srdf Srdf SrdfFacts SrdfRotor SrdfRotorFacts.
Import ListNotations.
Local Open Scope nat_scope.

(** when the parameters are loaded, a joint named by a tag has one degree of freedom, its inertia and gear ratio are those of the tag and its
    armature grows by the reflected inertia; every coordinate of every other joint is unchanged *)
Theorem C92_values (eps : R) (m : Model) (es : list (string * (R * R))) (s s' : Rotors) :
  Built eps m -> NoDup (m_names m) -> NoDup (map fst es) ->
  length (ro_armature s) = m_nv m -> length (ro_inertia s) = m_nv m -> length (ro_ratio s) = m_nv m -> loadRotors m es s = Ok s' tt ->
  forall i k, 0 < i < m_njoints m -> isMimic (joint m i) = false -> k < nvOf m i ->
    let p := idx_v m i + k in
    match lookup (nth i (m_names m) ""%string) es with
    | Some (Ir, g) => nvOf m i = 1 /\ nth p (ro_armature s') 0%R = (nth p (ro_armature s) 0 + Ir * g * g)%R /\ nth p (ro_inertia s') 0%R = Ir /\ nth p (ro_ratio s') 0%R = g
    | None => nth p (ro_armature s') 0%R = nth p (ro_armature s) 0%R /\ nth p (ro_inertia s') 0%R = nth p (ro_inertia s) 0%R /\ nth p (ro_ratio s') 0%R = nth p (ro_ratio s) 0%R
    end.
Proof. exact (rotors_loaded eps m es s s'). Qed.
Print Assumptions C92_values.
Example C92_values_ex (eps : R) : Built eps ex1 /\ NoDup (m_names ex1) /\ NoDup (map fst roTags) /\ length (ro_armature roZero) = m_nv ex1 /\
  loadRotors ex1 roTags roZero = Ok (mkRotors [(0 + 2 * 3 * 3)%R] [2%R] [3%R]) tt.
Proof. exact (ro_ex eps). Qed.

(** loading is not idempotent: a file loaded twice counts every rotor twice in the armature *)
Theorem C92_twice (eps : R) (m : Model) (es : list (string * (R * R))) (s s1 s2 : Rotors) :
  Built eps m -> NoDup (m_names m) -> NoDup (map fst es) ->
  length (ro_armature s) = m_nv m -> length (ro_inertia s) = m_nv m -> length (ro_ratio s) = m_nv m ->
  loadRotors m es s = Ok s1 tt -> loadRotors m es s1 = Ok s2 tt ->
  forall i Ir g, 0 < i < m_njoints m -> isMimic (joint m i) = false -> nvOf m i = 1 -> lookup (nth i (m_names m) ""%string) es = Some (Ir, g) ->
    nth (idx_v m i) (ro_armature s2) 0%R = (nth (idx_v m i) (ro_armature s) 0 + 2 * (Ir * g * g))%R.
Proof. exact (rotors_twice eps m es s s1 s2). Qed.
Print Assumptions C92_twice.
Example C92_twice_ex : exists s1 s2, loadRotors ex1 roTags roZero = Ok s1 tt /\ loadRotors ex1 roTags s1 = Ok s2 tt /\
  nth 0 (ro_armature s1) 0%R = 18%R /\ nth 0 (ro_armature s2) 0%R = 36%R.
Proof. exact ro_twice. Qed.
