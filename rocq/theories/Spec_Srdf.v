(* What an SRDF joint tag denotes. *)
Require Import Reals String List Arith.
From Verif Require Import Joints Model Kinematics LieGroup.
Import ListNotations.
Local Open Scope nat_scope.

(* the coordinates denoted by the values of a tag, if they fit the joint: an angle for an aligned continuous joint, the coordinates for the others *)
Definition denoted (t : Joint) (vals : list R) : option (list R) :=
  match t with
  | JSimple (JRUB _) => match vals with [x] => Some [cos x; sin x] | _ => None end
  | _ => if length vals =? jnq t then Some vals else None
  end.
Fixpoint lookup {A} (name : string) (l : list (string * A)) : option A :=
  match l with [] => None | (n, a) :: r => if String.eqb n name then Some a else lookup name r end.
