(* algorithm/contact-info.hpp (the sparsity pattern of a RigidConstraintModel) and algorithm/contact-jacobian.hxx. *)
Require Import Reals List Arith Bool.
From Verif Require Import Vec3 Spatial Inertia Joints Model Spec_Model Data Kinematics Crba Jacobian Spec_Reg.
Import ListNotations.
Local Open Scope nat_scope.
Local Open Scope bool_scope.

(* contact-info.hpp 19-24 ContactType; CONTACT_UNDEFINED is not modelled *)
Inductive ContactType := CONTACT_3D | CONTACT_6D.
(* contact-info.hpp 170-210 RigidConstraintModelTpl; the desired placement, velocity and acceleration, the corrector, nv and the depths are
   not modelled *)
Record RigidConstraintModel := mkRC {
  rc_type : ContactType; rc_j1 : nat; rc_p1 : SE3; rc_j2 : nat; rc_p2 : SE3; rc_rf : RefFrame;
  rc_s1 : nat -> bool; rc_s2 : nat -> bool;     (* colwise_joint1_sparsity, colwise_joint2_sparsity *)
  rc_js1 : list nat; rc_js2 : list nat;         (* joint1_span_indexes, joint2_span_indexes *)
  rc_span : list nat; rc_sparse : nat -> bool;  (* colwise_span_indexes, colwise_sparsity *)
  rc_loop : list nat }.                         (* loop_span_indexes *)

(* contact-info.hpp 671-683 size *)
Definition rc_size (c : RigidConstraintModel) : nat := match rc_type c with CONTACT_3D => 3 | CONTACT_6D => 6 end.

(* the members written by the loops of init: the two current joints, the two patterns and the two lists of joints *)
Record Climb := mkClimb { k_1 : nat; k_2 : nat; k_s1 : nat -> bool; k_s2 : nat -> bool; k_l1 : list nat; k_l2 : list nat }.
(* 747-750, 759-762, 778-782: true on the columns of joint i *)
Definition mark (m : Model) (i : nat) (s : nat -> bool) : nat -> bool := setCols (jm_idx_v (joint m i)) (jnv (jm_type (joint m i))) (fun _ => true) s.
(* 739-765: every turn lowers one of the two joints, hence k_1 + k_2 turns are enough *)
Fixpoint climb (m : Model) (fuel : nat) (k : Climb) : Climb :=
  match fuel with
  | O => k
  | S f => if k_1 k =? k_2 k then k else
           if k_2 k <? k_1 k then climb m f (mkClimb (parent m (k_1 k)) (k_2 k) (mark m (k_1 k) (k_s1 k)) (k_s2 k) (k_l1 k ++ [k_1 k]) (k_l2 k))
           else climb m f (mkClimb (k_1 k) (parent m (k_2 k)) (k_s1 k) (mark m (k_2 k) (k_s2 k)) (k_l1 k) (k_l2 k ++ [k_2 k]))
  end.
(* 770-784: from the common joint to the root *)
Fixpoint climbBoth (m : Model) (fuel : nat) (k : Climb) : Climb :=
  match fuel with
  | O => k
  | S f => if 0 <? k_1 k then climbBoth m f (mkClimb (parent m (k_1 k)) (k_2 k) (mark m (k_1 k) (k_s1 k)) (mark m (k_1 k) (k_s2 k)) (k_l1 k ++ [k_1 k]) (k_l2 k ++ [k_1 k])) else k
  end.
(* 714-806 init without the argument check (716-718) and the rotations (787-790) *)
Definition rcFill (m : Model) (t : ContactType) (j1 : nat) (p1 : SE3) (j2 : nat) (p2 : SE3) (rf : RefFrame) : RigidConstraintModel :=
  let k := climb m (j1 + j2) (mkClimb j1 j2 (fun _ => false) (fun _ => false) [] []) in                 (* 726-765 *)
  let k := match t with CONTACT_3D => climbBoth m (k_1 k) k | CONTACT_6D => k end in                     (* 768-785 *)
  let cols := seq 0 (m_nv m) in
  let span := filter (fun c => k_s1 k c || k_s2 k c) cols in                                            (* 793-799 *)
  mkRC t j1 p1 j2 p2 rf (k_s1 k) (k_s2 k) (k_l1 k) (k_l2 k) span (fun c => existsb (Nat.eqb c) span)
       (filter (fun c => xorb (k_s1 k c) (k_s2 k c)) cols).                                             (* 801-804 *)
(* 787-790 std::rotate(rbegin, rbegin + 1, rend): the last element moves to the front; rbegin + 1 is past rend when the vector is empty *)
Definition rotateSpan (l : list nat) : option (list nat) := match l with [] => None | _ => Some (last l 0 :: removelast l) end.
(* 714-806 init, called by the constructors (227-380) *)
Definition rcInit (m : Model) (t : ContactType) (j1 : nat) (p1 : SE3) (j2 : nat) (p2 : SE3) (rf : RefFrame) : Res unit RigidConstraintModel :=
  match rf with
  | WORLD => Throw tt                                                                                    (* 716-718 *)
  | _ =>
      let c := rcFill m t j1 p1 j2 p2 rf in
      match rotateSpan (rc_js1 c), rotateSpan (rc_js2 c) with
      | Some l1, Some l2 => Ok tt (mkRC t j1 p1 j2 p2 rf (rc_s1 c) (rc_s2 c) l1 l2 (rc_span c) (rc_sparse c) (rc_loop c))
      | _, _ => Undef
      end
  end.

(* contact-jacobian.hxx 59-139: what is written for the input column x.  A contact of dimension 3 writes the linear part only *)
Definition cjCol (t : ContactType) (rf : RefFrame) (s1 s2 : bool) (c1 c2 : SE3) (x : V6) : V6 :=
  let r12 := rot (se3_actInv_se3 c1 c2) in                                                               (* 53 *)
  let sign := if xorb s1 s2 then (if s1 then 1 else -1)%R else 0%R in                                    (* 59-61 *)
  match t with
  | CONTACT_3D =>
      mkV6 (match rf with
            | WORLD => v3scale sign (lin x)                                                              (* 76 *)
            | LOCAL =>
                if xorb s1 s2 then
                  if s1 then lin (motion_actInv c1 x)                                                    (* 88-89 *)
                  else v3opp (m3vec r12 (lin (motion_actInv c2 x)))                                      (* 93-95 *)
                else v3sub (lin (motion_actInv c1 x)) (m3vec r12 (lin (motion_actInv c2 x)))             (* 82-84 *)
            | LOCAL_WORLD_ALIGNED =>
                if xorb s1 s2 then
                  if s1 then v3sub (lin x) (v3cross (trans c1) (ang x))                                  (* 108-109 *)
                  else v3add (v3opp (lin x)) (v3cross (trans c2) (ang x))                                (* 111-112 *)
                else v3cross (v3sub (trans c2) (trans c1)) (ang x)                                       (* 102-103 *)
            end) v3zero
  | CONTACT_6D =>
      match rf with
      | WORLD => x                                                                                       (* 125 *)
      | LOCAL => v6scale sign (motion_actInv c1 x)                                                       (* 129 *)
      | LOCAL_WORLD_ALIGNED => v6scale sign (mkV6 (v3sub (lin x) (v3cross (trans c1) (ang x))) (ang x))  (* 133-136 *)
      end
  end.
(* a matrix given by its coefficients, row then column *)
Definition Mat := nat -> nat -> R.
(* J.middleRows(b, n).col(c) = x *)
Definition putCol (b n c : nat) (x : V6) (J : Mat) : Mat := fun r k => if within b n r && (k =? c) then comp6 x (r - b) else J r k.
(* contact-jacobian.hxx 20-147 getConstraintJacobian writing from row b of J; the size checks 30-31 are not modelled; oMc1, oMc2 and c1Mc2 are
   kept in the constraint data and not modelled as outputs *)
Definition getConstraintJacobian (m : Model) (d : Data) (c : RigidConstraintModel) (b : nat) (J : Mat) : Mat :=
  let c1 := se3_mul (pl (rows d (rc_j1 c)) F_oMi) (rc_p1 c) in                                           (* 49 *)
  let c2 := se3_mul (pl (rows d (rc_j2 c)) F_oMi) (rc_p2 c) in                                           (* 51 *)
  fold_left (fun J k => putCol b (rc_size c) k (cjCol (rc_type c) (rc_rf c) (rc_s1 c k) (rc_s2 c k) c1 c2 (co (gl d) F_J k)) J) (rc_span c) J.
(* 149-184 getConstraintsJacobian *)
Definition getConstraintsJacobian (m : Model) (d : Data) (cs : list RigidConstraintModel) (J : Mat) : Mat :=
  fst (fold_left (fun s c => (getConstraintJacobian m d c (snd s) (fst s), snd s + rc_size c)) cs (J, 0)).
(* contact-info.hpp 809-821 getTotalConstraintSize *)
Definition getTotalConstraintSize (cs : list RigidConstraintModel) : nat := fold_left (fun n c => n + rc_size c) cs 0.
