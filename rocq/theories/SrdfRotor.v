(* Rotor parameters of an SRDF file (parsers/srdf.hxx 141-214).  The file name and the XML reader are not modelled: the file is the list of
   the joint tags (name, rotor inertia, gear ratio) of its first rotor_params tag. *)
Require Import Reals String List Arith Bool.
From Verif Require Import Vec3 Spatial Joints Model.
Import ListNotations.
Local Open Scope nat_scope.

(* model.armature, model.rotorInertia, model.rotorGearRatio *)
Record Rotors := mkRotors { ro_armature : list R; ro_inertia : list R; ro_ratio : list R }.
(* 177-209: one joint tag.  The universe joint is default-constructed: its index is -1 and the write is undefined. *)
Definition readRotor (m : Model) (s : Rotors) (e : string * (R * R)) : Res Rotors unit :=
  let j := getJointId m (fst e) in
  let '(Ir, g) := snd e in
  if j =? length (m_joints m) then Ok s tt
  else if j =? 0 then Undef
  else
    let jm := nth j (m_joints m) (freshJoint (JSimple (JRevolute 0))) in
    if negb (jnv (jm_type jm) =? 1) then Throw s
    else Ok (mkRotors (upd (ro_armature s) (jm_idx_v jm) (fun a => (a + Ir * g * g)%R)) (upd (ro_inertia s) (jm_idx_v jm) (fun _ => Ir))
                      (upd (ro_ratio s) (jm_idx_v jm) (fun _ => g))) tt.
Definition loadRotors (m : Model) (es : list (string * (R * R))) (s : Rotors) : Res Rotors unit :=
  fold_left (fun o e => match o with Ok s _ => readRotor m s e | x => x end) es (Ok s tt).
