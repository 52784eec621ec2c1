(* Reference configurations of an SRDF file (parsers/srdf.hxx 218-272, 299-372).  The XML reader is not modelled: a file is the
   list of its group_state tags, each with a name and its joint tags (name, values).  Messages are left out. *)
Require Import Reals String List Arith Bool.
From Verif Require Import Vec3 Spatial Joints Model Kinematics LieGroup.
Import ListNotations.
Local Open Scope nat_scope.

(* 218-272 LoadReferenceConfigurationStep and 326-353: one joint tag.  A name that is not in the model is skipped.  The joint of index 0
   (the universe) is default-constructed: its index is -1 and the write is undefined (None). *)
Definition readEntry (m : Model) (q : vec) (e : string * list R) : option vec :=
  let j := getJointId m (fst e) in
  if j =? length (m_joints m) then Some q
  else if j =? 0 then None
  else
    let jm := nth j (m_joints m) (freshJoint (JSimple (JRevolute 0))) in
    match jm_type jm with
    | JSimple (JRUB _) =>
        match snd e with [x] => Some (writeSeg (jm_idx_q jm) 2 (fun k => nth k [cos x; sin x] 0%R) q) | _ => Some q end
    | t => if jnq t =? length (snd e) then Some (writeSeg (jm_idx_q jm) (jnq t) (fun k => nth k (snd e) 0%R) q) else Some q
    end.
(* 319-360: one group_state tag, from the neutral configuration *)
Definition readState (m : Model) (es : list (string * list R)) : option vec :=
  fold_left (fun o e => match o with Some q => readEntry m q e | None => None end) es (Some (neutral m (fun _ => 0%R))).
(* 362: std::map::insert keeps the element that is already there *)
Definition insertRef (name : string) (q : vec) (refs : list (string * vec)) : list (string * vec) :=
  if existsb (fun r => String.eqb (fst r) name) refs then refs else refs ++ [(name, q)].
(* 313-371 *)
Definition loadReferences (m : Model) (states : list (string * list (string * list R))) (refs : list (string * vec)) : option (list (string * vec)) :=
  fold_left (fun o s => match o with
                        | Some r => match readState m (snd s) with Some q => Some (insertRef (fst s) q r) | None => None end
                        | None => None end) states (Some refs).
